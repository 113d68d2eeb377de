(** What a traversal of a specification does to a tree. *)

From Coq Require Import String.
From Coq Require Import List Ascii.
From Verif Require Import Palm.StrModel Front.Syntax Front.SetsSpec Copra.TravModel Copra.TravSpec Gen.TablesModel.
Import ListNotations.
Local Open Scope string_scope.
Local Open Scope list_scope.

Section Meaning.
  Variable a : ast.

  (** The numbers of traversals and node types in the generated enums. *)
  Definition traversal_number (t : itraversal) (i : nat) : Prop :=
    exists u, tv_uid t = Some u /\ value_of (traversal_enum a) (text "TRAV_" ++ ID_UPR u) = Some i.
  Definition node_number (n : inode) (j : nat) : Prop :=
    value_of (node_enum a) (text "NT_" ++ ID_UPR (nd_name n)) = Some j.

  (** A traversal is for the node types in its set expression, or for all if it
      has none. *)
  Definition is_for (t : itraversal) (n : inode) : Prop :=
    match tv_nodes t with
    | None => True
    | Some e => exists S, denotes (a_nodesets a) e S /\ S (ID_LWR (nd_name n))
    end.

  (** The set expression of a traversal denotes the empty set. *)
  Definition for_nothing (t : itraversal) : Prop :=
    exists e S, tv_nodes t = Some e /\ denotes (a_nodesets a) e S /\ forall x, ~ S x.
  Definition all_for_something : Prop := forall t, In t (a_traversals a) -> ~ for_nothing t.

  (** What happens in traversal number [i] to a node of type number [j]. *)
  Inductive meaning := Calls (f : cstring) | Walks.
  Inductive meant : nat -> nat -> meaning -> Prop :=
  | meant_handler : forall t u n i j, In t (a_traversals a) -> In n (a_nodes a) ->
      traversal_number t i -> node_number n j -> is_for t n -> tv_uid t = Some u ->
      meant i j (Calls (ID_UPR u ++ ID_LWR (nd_name n)))
  | meant_walk : forall t n i j, In t (a_traversals a) -> In n (a_nodes a) ->
      traversal_number t i -> node_number n j -> ~ is_for t n ->
      meant i j Walks
  | meant_system : forall e prefix n i j, In n (a_nodes a) ->
      In (e, prefix) [("TRAV_free", "DEL"); ("TRAV_check", "CHK"); ("TRAV_cpy", "CPY")] ->
      value_of (traversal_enum a) (text e) = Some i -> node_number n j ->
      meant i j (Calls (text prefix ++ ID_LWR (nd_name n))).

  (** A child declared with type [id] may be a node of type [n]. *)
  Definition admits (id : ident) (n : inode) : Prop :=
    In n (a_nodes a) /\
    (ID_LWR (nd_name n) = ID_LWR id \/
     exists m S, In m (a_nodesets a) /\ ID_LWR (ns_name m) = ID_LWR id /\
       denotes (a_nodesets a) (ns_expr m) S /\ S (ID_LWR (nd_name n))).

  (** A tree of the kind that the specification describes: every node has the
      declared children, each NULL or of a type that the declaration admits. *)
  Inductive fits {A} : tree A -> Prop :=
  | fits_node : forall n j x kids, In n (a_nodes a) -> node_number n j ->
      Forall2 slot_fits (nd_children n) kids -> fits (Node j x kids)
  with slot_fits {A} : child -> option (tree A) -> Prop :=
  | slot_null : forall c, slot_fits c None
  | slot_child : forall c m t, admits (ch_type c) m -> node_number m (node_type t) -> fits t ->
      slot_fits c (Some t).

  (** What TRAVdo has to do.  [s] is the stack of traversals with the record of
      what happened, [w] the state of the user's code. *)
  Context {A W : Type}.
  Variable functions : cstring -> W -> tree A -> prog A W.

  Inductive does : tstate A -> W -> tree A -> tstate A -> W -> option (tree A) -> Prop :=
  | does_call : forall s w t i f s' w' r,
      innermost s = Some i -> fits t -> meant i (node_type t) (Calls f) ->
      runs (functions f w t) (tlogged (TUser i t) s) s' w' r ->
      does s w t s' w' r
  | does_walk : forall s w j x kids i s' w' kids',
      innermost s = Some i -> fits (Node j x kids) -> meant i j Walks ->
      each_does s w kids s' w' kids' ->
      does s w (Node j x kids) s' w' (Some (Node j x kids'))
  (** the children that are not NULL one after the other *)
  with each_does : tstate A -> W -> list (option (tree A)) -> tstate A -> W -> list (option (tree A)) -> Prop :=
  | each_none : forall s w, each_does s w [] s w []
  | each_null : forall s w kids s' w' kids',
      each_does s w kids s' w' kids' -> each_does s w (None :: kids) s' w' (None :: kids')
  | each_child : forall s w t s1 w1 r kids s' w' kids',
      does s w t s1 w1 r -> each_does s1 w1 kids s' w' kids' ->
      each_does s w (Some t :: kids) s' w' (r :: kids')
  (** the user's code *)
  with runs : prog A W -> tstate A -> tstate A -> W -> option (tree A) -> Prop :=
  | runs_return : forall w t s, runs (PRet w t) s s w t
  | runs_do : forall w t k s s1 w1 r1 s' w' r,
      does s w t s1 w1 r1 -> runs (k w1 r1) s1 s' w' r -> runs (PDo w (Some t) k) s s' w' r
  | runs_opt_null : forall w k s s' w' r, runs (k w None) s s' w' r -> runs (POpt w None k) s s' w' r
  | runs_opt : forall w t k s s1 w1 r1 s' w' r,
      does s w t s1 w1 r1 -> runs (k w1 r1) s1 s' w' r -> runs (POpt w (Some t) k) s s' w' r
  | runs_children : forall w j x kids kids' k s s1 w1 s' w' r,
      each_does s w kids s1 w1 kids' -> runs (k w1 (Some (Node j x kids'))) s1 s' w' r ->
      runs (PChildren w (Some (Node j x kids)) k) s s' w' r
  | runs_start_null : forall w i k s s' w' r,
      runs (k w None) (mk_tstate (stack s) (TFree i :: TInit i :: tlog s)) s' w' r ->
      runs (PStart w i None k) s s' w' r
  | runs_start : forall w i t k s s1 w1 r1 s' w' r,
      does (mk_tstate (i :: stack s) (TInit i :: tlog s)) w t s1 w1 r1 ->
      runs (k w1 r1) (mk_tstate (stack s) (TFree i :: tlog s1)) s' w' r ->
      runs (PStart w i (Some t) k) s s' w' r
  | runs_current : forall k s s' w' r, runs (k (innermost s)) s s' w' r -> runs (PCurrent k) s s' w' r.
End Meaning.

(** A function that says which children a node type has, as
    Copra/TravSpec.v uses it, is right for [a]. *)
Definition describes (a : ast) (g : grammar) : Prop :=
  forall A (t : tree A),
    fits a t <-> well_typed g t = true /\ exists n, In n (a_nodes a) /\ node_number a n (node_type t).
