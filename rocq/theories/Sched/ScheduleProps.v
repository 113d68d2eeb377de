(** C32: the attribute scheduler finds exactly the circular specifications. *)

From Coq Require Import String.
From Coq Require Import List Ascii Bool Arith Permutation.
From Verif Require Import Sched.GraphModel Sched.GraphSpec Sched.ScheduleModel Sched.ScheduleSpec
  Sched.ScheduleProof Sched.CycleProof.
From Verif Require Import Base.Outcome Front.Syntax Front.SetsSpec Front.SetsInst Front.PropagateModel Front.PropagateSpec
  Front.NodesetPassesProof Front.ProductRulesModel Front.ProductRulesProof Front.ProductRulesInst
  Sched.FrontendModel Sched.FrontendProof Sched.ScheduleInst.
Import ListNotations.
Local Open Scope string_scope.
Local Open Scope list_scope.
Local Open Scope outcome_scope.

(** For every specification that passed the checks before it: the scheduler
    ends, and an error is reported only if the dependencies of the
    productions, with those induced by other productions, have a cycle; if
    they have, an error is reported - unless some equation reads the very
    attribute it computes, see below. *)
Theorem C32_cycles_reported_partial :
  forall a s lits shuffle ty,
  parsed_ast a -> unmarked a -> before_scheduling a = Val (s, lits) ->
  (forall l, Permutation (shuffle l) l) -> typing (a_nodes a) (a_nodesets a) ty ->
  (exists ps, productions (a_nodes a) (a_nodesets a) (attributes_of s) (member_of a) ps) /\
  exists gs errs, dependency_graphs shuffle a = Val (gs, errs) /\
    forall ps, productions (a_nodes a) (a_nodesets a) (attributes_of s) (member_of a) ps ->
      (errs <> [] -> circular ty ps) /\
      (no_self_dependency ps -> circular ty ps -> errs <> []).
Proof. intros a s lits shuffle ty P U B Sh Ty. exact (cycles_reported a s lits shuffle ty P U B Sh Ty). Qed.
Print Assumptions C32_cycles_reported_partial.

(** When it reports nothing, the attributes of every tree can be computed:
    there is an order in which everything comes after what it is computed
    from. *)
Theorem C32_order_exists_partial :
  forall a s lits shuffle ty gs,
  parsed_ast a -> unmarked a -> before_scheduling a = Val (s, lits) ->
  (forall l, Permutation (shuffle l) l) -> typing (a_nodes a) (a_nodesets a) ty ->
  dependency_graphs shuffle a = Val (gs, []) ->
  forall ps, productions (a_nodes a) (a_nodesets a) (attributes_of s) (member_of a) ps -> no_self_dependency ps ->
  forall t, good_tree ty ps t -> deterministic t -> exists l, evaluation_order t l.
Proof.
  intros a s lits shuffle ty gs P U B Sh Ty R. exact (accepted_order a s lits shuffle ty P U B Sh Ty gs R).
Qed.
Print Assumptions C32_order_exists_partial.

(** A specification without a cycle and one whose only cycle goes through two
    productions. *)
Lemma front_ok : forall a, parsed_ast a -> unmarked a -> is_val (before_scheduling a) = true ->
  exists s lits, before_scheduling a = Val (s, lits) /\
    typing (a_nodes a) (a_nodesets a) (get_node_type (a_nodes a) (a_nodesets a)).
Proof.
  intros a P U H. destruct (before_scheduling a) as [[s lits]| | | |] eqn:B; try discriminate. exists s, lits.
  split; [reflexivity|]. destruct (before_scheduling_input a s lits P U B) as (G & _).
  exact (get_node_type_right _ _ s G).
Qed.

Lemma errors_of : forall a n, scheduler_errors a = Val n ->
  exists gs errs, dependency_graphs (fun l => l) a = Val (gs, errs) /\ List.length errs = n.
Proof.
  intros a n H. unfold scheduler_errors in H. destruct (dependency_graphs _ a) as [[gs errs]| | | |]; try discriminate H.
  injection H as H. exists gs, errs. split; [reflexivity|exact H].
Qed.
Example C32_instance :
  (exists gs, dependency_graphs (fun l => l) depth_to_value = Val (gs, [])) /\
  (exists gs, dependency_graphs (fun l => l) value_to_depth = Val (gs, [])) /\
  (exists gs errs, dependency_graphs (fun l => l) both_ways = Val (gs, errs) /\ errs <> []).
Proof.
  destruct scheduler_errors_of_examples as (T1 & T2 & T3 & _). split; [|split].
  - destruct (errors_of _ _ T1) as (gs & [|e errs] & R & L); [|discriminate L]. exists gs. exact R.
  - destruct (errors_of _ _ T2) as (gs & [|e errs] & R & L); [|discriminate L]. exists gs. exact R.
  - destruct (errors_of _ _ T3) as (gs & [|e errs] & R & L); [discriminate L|]. exists gs, (e :: errs).
    split; [exact R|discriminate].
Qed.

(** The hypotheses hold, and [both_ways] is circular because the scheduler
    says so. *)
Example C32_both_ways_circular :
  exists s lits ps, before_scheduling both_ways = Val (s, lits) /\
    productions (a_nodes both_ways) (a_nodesets both_ways) (attributes_of s) (member_of both_ways) ps /\
    circular (get_node_type (a_nodes both_ways) (a_nodesets both_ways)) ps.
Proof.
  destruct (front_ok both_ways (expressions_parsed _ _) (expressions_unmarked _ _)) as (s & lits & B & Ty); [vm_compute; reflexivity|].
  destruct (C32_cycles_reported_partial both_ways s lits (fun l => l) _ (expressions_parsed _ _) (expressions_unmarked _ _) B
              (fun l => Permutation_refl l) Ty) as ((ps & Pr) & gs & errs & R & C).
  exists s, lits, ps. split; [exact B|]. split; [exact Pr|]. apply (C ps Pr).
  destruct C32_instance as (_ & _ & gs' & errs' & R' & N). rewrite R in R'. injection R' as _ <-. exact N.
Qed.

(** A tree of [depth_to_value]: prog with a num as body.  Its num.value is
    computed from num.depth. *)
Example C32_tree_ordered :
  exists ps t l, good_tree (get_node_type (a_nodes depth_to_value) (a_nodesets depth_to_value)) ps t /\
    evaluation_order t l /\
    precedes l ([OChild 0 0; OType (TNode 2)], (TNode 2, 0)) ([OChild 0 0; OType (TNode 2)], (TNode 2, 1)).
Proof.
  destruct (front_ok depth_to_value (expressions_parsed _ _) (expressions_unmarked _ _)) as (s & lits & B & Ty); [vm_compute; reflexivity|].
  destruct (C32_cycles_reported_partial depth_to_value s lits (fun l => l) _ (expressions_parsed _ _) (expressions_unmarked _ _) B
              (fun l => Permutation_refl l) Ty) as ((ps & Pr) & _).
  assert (Es : Val s = map_outcome fst (before_scheduling depth_to_value)) by (rewrite B; reflexivity).
  vm_compute in Es. injection Es as Es.
  destruct C32_instance as ((gs & R) & _).
  assert (Ns : no_self_dependency ps).
  { apply (no_self_checked depth_to_value s lits (expressions_parsed _ _) (expressions_unmarked _ _) B); [|exact Pr].
    rewrite Es. vm_compute. reflexivity. }
  destruct (pr_nodes _ _ _ _ _ Pr 0 _ eq_refl) as (p0 & I0 & N0).
  destruct (pr_nodes _ _ _ _ _ Pr 2 _ eq_refl) as (p2 & I2 & N2).
  destruct (pr_members _ _ _ _ _ Pr 0 2) as (pm & Im & Nm).
  { eexists. eexists. exists (fun x => In x (map ID_LWR [nm "add"; nm "num"])). split; [reflexivity|]. split; [reflexivity|].
    split; [|vm_compute; auto]. cbn [ns_expr]. apply (den_literal _ [nm "add"; nm "num"]). intros x. apply iff_refl. }
  set (t := Tree p0 [(OChild 0 0, Tree pm [(OType (TNode 2), Tree p2 [])])]).
  assert (Gt : good_tree (get_node_type (a_nodes depth_to_value) (a_nodesets depth_to_value)) ps t).
  { constructor; [exact I0|]. intros c t' [H|[]]. injection H as <- <-. split; [|split].
    - apply (np_kids _ _ _ _ _ _ N0). exists 0. split; [vm_compute; auto|reflexivity].
    - cbn [production_of]. rewrite (mp_root _ _ _ _ Nm). vm_compute. reflexivity.
    - constructor; [exact Im|]. intros c t' [H|[]]. injection H as <- <-. split; [|split].
      + rewrite (mp_kids _ _ _ _ Nm). left. reflexivity.
      + cbn [production_of]. rewrite (np_root _ _ _ _ _ _ N2). reflexivity.
      + constructor; [exact I2|]. intros c t' []. }
  destruct (C32_order_exists_partial depth_to_value s lits (fun l => l) _ gs (expressions_parsed _ _) (expressions_unmarked _ _) B
              (fun l => Permutation_refl l) Ty R ps Pr Ns t Gt) as (l & L).
  { unfold deterministic, t.
    assert (X : forall q p, at_address (Tree p0 [(OChild 0 0, Tree pm [(OType (TNode 2), Tree p2 [])])]) q p ->
                p = match q with [] => p0 | [_] => pm | _ => p2 end).
    { intros q p H.
      repeat match goal with
             | K : at_address (Tree _ _) _ _ |- _ => inversion K; clear K; subst
             | K : In _ _ |- _ => destruct K as [K|K]; [injection K as ? ?; subst|contradiction]
             | K : In _ [] |- _ => contradiction
             end; reflexivity. }
    intros q p p' H1 H2. apply X in H1. apply X in H2. congruence. }
  exists ps, t, l. split; [exact Gt|]. split; [exact L|]. apply L.
  apply (reads_rule _ _ _ [OChild 0 0; OType (TNode 2)] p2 (OType (TNode 2), (TNode 2, 0)) (OType (TNode 2), (TNode 2, 1))).
  - apply at_kid with (t := Tree pm [(OType (TNode 2), Tree p2 [])]); [left; reflexivity|].
    apply at_kid with (t := Tree p2 []); [left; reflexivity|]. apply at_here.
  - apply (np_deps _ _ _ _ _ _ N2). exists (mk_equation (this_ "value") [this_ "depth"]), (this_ "depth").
    split; [left; reflexivity|]. split; [left; reflexivity|].
    rewrite Es. split; [|split].
    + split; [reflexivity|]. split; [|reflexivity]. eexists. split; [vm_compute; reflexivity|vm_compute; reflexivity].
    + split; [reflexivity|]. split; [|reflexivity]. eexists. split; [vm_compute; reflexivity|vm_compute; reflexivity].
    + left. eexists. split; [vm_compute; reflexivity|reflexivity].
  - rewrite <- (np_root _ _ _ _ _ _ N2). constructor.
  - rewrite <- (np_root _ _ _ _ _ _ N2). constructor.
Qed.

(** The full statement is false: an equation that reads the attribute it
    computes is accepted, although there is no order then. *)
Theorem C32_self_dependency_refuted :
  ~ forall a s lits shuffle ty gs,
    parsed_ast a -> unmarked a -> before_scheduling a = Val (s, lits) ->
    (forall l, Permutation (shuffle l) l) -> typing (a_nodes a) (a_nodesets a) ty ->
    dependency_graphs shuffle a = Val (gs, []) ->
    forall ps, productions (a_nodes a) (a_nodesets a) (attributes_of s) (member_of a) ps -> ~ circular ty ps.
Proof.
  intros H.
  destruct (front_ok value_to_value (expressions_parsed _ _) (expressions_unmarked _ _)) as (s & lits & B & Ty); [vm_compute; reflexivity|].
  destruct (C32_cycles_reported_partial value_to_value s lits (fun l => l) _ (expressions_parsed _ _) (expressions_unmarked _ _) B
              (fun l => Permutation_refl l) Ty) as ((ps & Pr) & gs & errs & R & _).
  destruct scheduler_errors_of_examples as (_ & _ & _ & T). destruct (errors_of _ _ T) as (gs' & errs' & R' & L).
  rewrite R in R'. injection R' as _ <-. destruct errs as [|e errs]; [|discriminate L].
  apply (H value_to_value s lits (fun l => l) _ gs (expressions_parsed _ _) (expressions_unmarked _ _) B
           (fun l => Permutation_refl l) Ty R ps Pr).
  assert (Es : Val s = map_outcome fst (before_scheduling value_to_value)) by (rewrite B; reflexivity).
  vm_compute in Es. injection Es as Es.
  destruct (pr_nodes _ _ _ _ _ Pr 2 _ eq_refl) as (p2 & I2 & N2).
  exists p2, (OType (TNode 2), (TNode 2, 1)). apply dep_direct; [exact I2|].
  apply (np_deps _ _ _ _ _ _ N2). exists (mk_equation (this_ "value") [this_ "value"]), (this_ "value").
  assert (X : ScheduleSpec.stands_for (a_nodes value_to_value) (a_nodesets value_to_value) (attributes_of s) 2
    (mk_node (nm "num") false [] [] [mk_equation (this_ "value") [this_ "value"]] []) (this_ "value") (OType (TNode 2), (TNode 2, 1))).
  { split; [reflexivity|]. split; [|reflexivity]. rewrite Es. eexists. split; [vm_compute; reflexivity|vm_compute; reflexivity]. }
  split; [left; reflexivity|]. split; [left; reflexivity|]. split; [exact X|]. split; [exact X|].
  right. rewrite Es. eexists. split; [vm_compute; reflexivity|reflexivity].
Qed.
Print Assumptions C32_self_dependency_refuted.
