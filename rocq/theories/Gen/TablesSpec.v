(** What the generated tables have to say. *)

From Coq Require Import String.
From Coq Require Import List Ascii Bool.
From Verif Require Import Palm.StrModel Front.Syntax Front.SymbolTableModel Front.SymbolTableSpec
  Front.LifetimesSpec Front.ReachModel Copra.PhaseDriverModel Gen.TablesModel.
Import ListNotations.
Local Open Scope string_scope.
Local Open Scope list_scope.

(** The identifier reads [s], in any case. *)
Definition reads (id : ident) (s : string) : Prop := ID_LWR id = list_ascii_of_string s.

(** An action is referred to by name. *)
Definition action_names (a : ast) : list ident :=
  map ph_name (a_phases a) ++ map tv_name (a_traversals a) ++ map ps_name (a_passes a).
Definition names_action (a : ast) (id : ident) : Prop :=
  exists k, In k (action_names a) /\ ID_LWR k = ID_LWR id.
Definition actions_by_name (a : ast) : Prop :=
  forall p id, In p (a_phases a) -> In id (ph_actions p) -> names_action a id.

(** Names that clash with a name cocogen itself generates. *)
Record usable_names (a : ast) : Prop := {
  un_null : forall id,
    In id (map nd_name (a_nodes a) ++ map uid_of (a_traversals a) ++ action_names a ++
           map ns_name (a_nodesets a)) -> ~ reads id "null";
  un_traversals : forall t s, In t (a_traversals a) ->
    In s ["ccn_copy"; "ccn_check"; "ccn_free"; "ccn_error"; "ccn_trav"; "ccn_pass";
          "trav_data_init"; "trav_data_free"] -> ~ reads (tv_name t) s;
  un_phases : forall p, In p (a_phases a) -> ~ reads (ph_name p) "cleanup"
}.

(** The function that handles node type [n] in traversal [t] with uid [u]. *)
Definition handles (c : code) (u : ident) (n : inode) : cstring :=
  match c with
  | RUser => ID_UPR u ++ ID_LWR (nd_name n)
  | RTrav => list_ascii_of_string "TRAVchildren"
  | RZero => list_ascii_of_string "TRAVnop"
  end.

(** The tree of actions the driver finds is the tree of the specification:
    phases have their name, gate and kind, traversals and passes the number
    that stands for them. *)
Inductive runs (a : ast) : plan -> action leaf cstring -> Prop :=
| RunsPhase : forall p l acts, Forall2 (runs a) l acts ->
    runs a (Plan (DPhase p) l) (APhase (ph_name p) (ph_gate p) (ph_is_cycle p) acts)
| RunsTraversal : forall t v, value_of (traversal_enum a) (trav_enumerator t) = Some v ->
    runs a (Plan (DTraversal t) []) (ALeaf (tv_name t) (LTraversal v))
| RunsPass : forall p v, value_of (pass_enum a) (pass_enumerator p) = Some v ->
    runs a (Plan (DPass p) []) (ALeaf (ps_name p) (LPass v)).
