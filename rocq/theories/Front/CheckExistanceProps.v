(** C28: references resolve and the declaration rules hold. *)

From Coq Require Import String.
From Coq Require Import List Ascii.
From Verif Require Import Base.Outcome Front.Syntax Front.SymbolTableModel Front.SymbolTableSpec
  Front.SetsInst Front.ExampleInst Front.CheckExistanceModel Front.CheckExistanceSpec
  Front.CheckExistanceProof Front.CheckExistanceInst.
Import ListNotations.
Local Open Scope string_scope.
Local Open Scope list_scope.

(** A specification passes the symbol table and existence checks exactly when
    its names are distinct and it obeys the rules; otherwise the compiler
    stops with an error, unless two passes have the same function (see
    [C27_reported_refuted]). *)
Theorem C28_accepted_iff_rules_partial :
  forall a,
  (is_val (check_names a) = true <->
   distinct_names (all_names a) /\ distinct_names (pass_functions a) /\ obeys_rules a) /\
  (distinct_names (pass_functions a) -> is_val (check_names a) = false -> check_names a = Exited).
Proof. exact check_names_accepts. Qed.
Print Assumptions C28_accepted_iff_rules_partial.

Example C28_accepted_instance : obeys_rules calc.
Proof. exact calc_obeys. Qed.
Example C28_rejected_instance : check_names calc_unknown = Exited /\ check_names calc_two_roots = Exited.
Proof. exact (conj calc_unknown_rejected calc_two_roots_rejected). Qed.

(** The rules do not ask that an action of a phase is a phase, traversal or
    pass: a specification whose phase lists a node type is accepted. *)
Theorem C28_actions_are_actions_refuted :
  ~ forall a p id, is_val (check_names a) = true -> In p (a_phases a) -> In id (ph_actions p) ->
    exists d, names a id d /\
      match d with DPhase _ | DTraversal _ | DPass _ => True | _ => False end.
Proof.
  intros H.
  destruct (H calc_node_action _ (nm "num") eq_refl (or_introl eq_refl) (or_introl eq_refl))
    as (d & Hd & K).
  assert (N : names calc_node_action (nm "num") (DNode (hd (mk_node [] false [] [] [] []) (a_nodes calc)))).
  { split; [vm_compute; tauto|]. exists (nm "num"). split; [left; reflexivity|reflexivity]. }
  assert (E : exists t, BSTast calc_node_action = Val t) by (vm_compute; eexists; reflexivity).
  destruct E as [t E]. rewrite (names_fun _ t E _ _ _ Hd N) in K. exact K.
Qed.
Print Assumptions C28_actions_are_actions_refuted.

(** Neither is it checked that there is a start phase or a root node. *)
Theorem C28_start_and_root_exist_refuted :
  ~ forall a, is_val (check_names a) = true ->
    (exists p, In p (a_phases a) /\ ph_is_start p = true) /\
    (exists n, In n (a_nodes a) /\ nd_is_root n = true).
Proof.
  intros H. destruct (H rootless eq_refl) as [(p & [<-|[]] & E) _]. discriminate E.
Qed.
Print Assumptions C28_start_and_root_exist_refuted.
