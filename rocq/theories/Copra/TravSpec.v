(** Vocabulary for the traversal properties C12 - C14. *)

From Coq Require Import List Arith Bool.
From Verif Require Import Base.Outcome Copra.TravModel.
Import ListNotations.

Section Spec.
  Context {A : Type}.

  (** [balanced cur l]: in the event sequence [l] (oldest first), started while
      [cur] is the innermost open traversal, every init is followed by exactly
      one free of the same traversal, properly nested, and every user function
      is one of the innermost open traversal. *)
  Inductive balanced : option nat -> list (tevent A) -> Prop :=
  | bal_nil : forall cur, balanced cur []
  | bal_user : forall trav t l, balanced (Some trav) l ->
                                balanced (Some trav) (TUser trav t :: l)
  | bal_start : forall cur trav inner l, balanced (Some trav) inner -> balanced cur l ->
      balanced cur (TInit trav :: inner ++ TFree trav :: l).

  Definition innermost (s : tstate A) : option nat := hd_error (stack s).
End Spec.

(** A left-to-right sequence of calls, one for each non-NULL child: [cs'] are
    the results. *)
Inductive in_order {A W S : Type} (call : S -> W -> tree A -> S -> W -> option (tree A) -> Prop) :
  S -> W -> list (option (tree A)) -> S -> W -> list (option (tree A)) -> Prop :=
| ord_nil : forall s w, in_order call s w [] s w []
| ord_null : forall s w cs s' w' cs',
    in_order call s w cs s' w' cs' -> in_order call s w (None :: cs) s' w' (None :: cs')
| ord_child : forall s w c s1 w1 r cs s' w' cs',
    call s w c s1 w1 r -> in_order call s1 w1 cs s' w' cs' ->
    in_order call s w (Some c :: cs) s' w' (r :: cs').

(** ** Specifications of trees *)

(** The declared children of a node type: for each child the admitted node
    types (one for a node type, the members for a nodeset). *)
Definition grammar : Type := nat -> list (list nat).

(** A tree respects the declared child types; NULL is always accepted here. *)
Fixpoint well_typed {A} (g : grammar) (t : tree A) : bool :=
  match t with
  | Node ty _ kids =>
      (fix all (ds : list (list nat)) (cs : list (option (tree A))) {struct cs} : bool :=
         match ds, cs with
         | [], [] => true
         | d :: ds', c :: cs' =>
             match c with
             | None => true
             | Some c => existsb (Nat.eqb (node_type c)) d && well_typed g c
             end && all ds' cs'
         | _, _ => false
         end) (g ty) kids
  end.

(** [TRAVdo] in which traversing a tree that does not respect the declared
    child types is an error: a [Val] result says that all trees the run
    traversed respect them. *)
Fixpoint TRAVdo_typed {A W} (g : grammar) (vtable : nat -> nat -> entry)
         (user : nat -> W -> tree A -> prog A W)
         (fuel : nat) (s : tstate A) (w : W) (t : tree A) : tres A W :=
  match fuel with
  | 0 => NoFuel
  | S fuel' =>
      if well_typed g t then
        match stack s with
        | [] => Undef
        | trav :: _ =>
            match vtable trav (node_type t) with
            | EUser => run_prog (TRAVdo_typed g vtable user fuel') (user trav w t)
                                (tlogged (TUser trav t) s)
            | EChildren => TRAVchildren (TRAVdo_typed g vtable user fuel') s w t
            | ENop => Val (s, w, Some t)
            | EError => Aborted
            end
        end
      else Undef
  end.

(** From node type [a] a tree can have a node of type [b] below it. *)
Inductive below (g : grammar) : nat -> nat -> Prop :=
| below_child : forall a b d, In d (g a) -> In b d -> below g a b
| below_step : forall a b c d, In d (g a) -> In b d -> below g b c -> below g a c.

(** [vtable] is [reference], except that node types whose children are walked
    may be skipped when all node types below them are walked as well. *)
Definition only_skips_walks (g : grammar) (reference vtable : nat -> nat -> entry) : Prop :=
  forall trav ty,
    vtable trav ty = reference trav ty \/
    vtable trav ty = ENop /\ reference trav ty = EChildren /\
    forall b, below g ty b -> reference trav b = EChildren.
