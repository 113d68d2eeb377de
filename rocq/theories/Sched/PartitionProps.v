(** C33: the partition numbers of the attributes of a type, and its visits. *)

From Coq Require Import String.
From Coq Require Import List Ascii Bool Arith Lia Permutation.
From Verif Require Import Sched.GraphModel Sched.GraphSpec Sched.ScheduleModel Sched.ScheduleSpec
  Sched.ScheduleProof Sched.CycleProof Sched.PartitionModel Sched.PartitionSpec Sched.PartitionGrammar.
From Verif Require Import Base.Outcome Palm.StrModel Front.Syntax Front.SetsSpec Front.SetsInst Front.PropagateModel Front.PropagateSpec
  Front.NodesetPassesProof Front.ProductRulesModel Front.ProductRulesProof Front.ProductRulesInst
  Sched.FrontendModel Sched.FrontendProof Sched.ScheduleInst Sched.ScheduleProps.
Import ListNotations.
Local Open Scope string_scope.
Local Open Scope list_scope.
Local Open Scope outcome_scope.

(** For every specification the scheduler accepts, and every type (node or
    nodeset with members): the classes of its attributes are the smallest
    numbers such that synthesized attributes are in odd classes, other
    (inherited) ones in even classes, and none is in an earlier class than one
    it needs - where "needs" takes all productions into account in which the
    type occurs. *)
Theorem C33_partition :
  forall a s lits shuffle ty gs,
  parsed_ast a -> unmarked a -> before_scheduling a = Val (s, lits) ->
  (forall l, Permutation (shuffle l) l) -> typing (a_nodes a) (a_nodesets a) ty ->
  dependency_graphs shuffle a = Val (gs, []) ->
  forall ps, productions (a_nodes a) (a_nodesets a) (attributes_of s) (member_of a) ps ->
  exists tables, partition_all s (List.length (a_nodes a)) (List.length (a_nodesets a)) gs = Val tables /\
    (forall t, has_production ps t <-> exists tab, table_of tables t = Some tab) /\
    (forall t tab, table_of tables t = Some tab ->
       least_partitioning (attribute_of_type (attributes_of s) t) (synthesized (attributes_of s)) (needs ty ps) (class_of s tab)).
Proof.
  intros a s lits shuffle ty gs P U B Sh Ty R ps Pr.
  destruct (partitions_right a s lits shuffle ty P U B Sh Ty gs R ps Pr) as (tables & vt & E1 & _ & H1 & _ & H2 & _).
  exists tables. auto.
Qed.
Print Assumptions C33_partition.

(** The visits made of them: visit [k] has as inputs and outputs the
    attributes of the classes [2k+2] and [2k+3], so every attribute belongs to
    exactly one visit. *)
Theorem C33_visits :
  forall a s lits shuffle ty gs,
  parsed_ast a -> unmarked a -> before_scheduling a = Val (s, lits) ->
  (forall l, Permutation (shuffle l) l) -> typing (a_nodes a) (a_nodesets a) ty ->
  dependency_graphs shuffle a = Val (gs, []) ->
  forall ps, productions (a_nodes a) (a_nodesets a) (attributes_of s) (member_of a) ps ->
  exists tables vt, partition_all s (List.length (a_nodes a)) (List.length (a_nodesets a)) gs = Val tables /\
    collect_all s (List.length (a_nodes a)) (List.length (a_nodesets a)) gs tables = Val vt /\
    (forall t, has_production ps t <-> exists vs, visits_of_type vt t = Some vs) /\
    (forall t tab vs, table_of tables t = Some tab -> visits_of_type vt t = Some vs ->
       visiting (attribute_of_type (attributes_of s) t) (inherited (attributes_of s)) (class_of s tab) (map attributes_only vs)).
Proof.
  intros a s lits shuffle ty gs P U B Sh Ty R ps Pr.
  destruct (partitions_right a s lits shuffle ty P U B Sh Ty gs R ps Pr) as (tables & vt & E1 & E2 & _ & H1 & _ & H2).
  exists tables, vt. split; [exact E1|]. split; [exact E2|]. split; [exact H1|]. intros t tab vs Q1 Q2. apply (H2 t tab vs Q1 Q2).
Qed.
Print Assumptions C33_visits.

(** So what an attribute needs of its own type belongs to an earlier visit or
    to the same one; in the same one no input needs an output (no attribute
    being both inherited and synthesized). *)
Theorem C33_visit_order :
  forall a s lits shuffle ty gs,
  parsed_ast a -> unmarked a -> before_scheduling a = Val (s, lits) ->
  (forall l, Permutation (shuffle l) l) -> typing (a_nodes a) (a_nodesets a) ty ->
  dependency_graphs shuffle a = Val (gs, []) ->
  forall ps, productions (a_nodes a) (a_nodesets a) (attributes_of s) (member_of a) ps ->
  exists tables vt, partition_all s (List.length (a_nodes a)) (List.length (a_nodesets a)) gs = Val tables /\
    collect_all s (List.length (a_nodes a)) (List.length (a_nodesets a)) gs tables = Val vt /\
    forall t vs, visits_of_type vt t = Some vs ->
    forall b c, attribute_of_type (attributes_of s) t b -> attribute_of_type (attributes_of s) t c -> needs ty ps b c ->
    exists i j v w, nth_error (map attributes_only vs) i = Some v /\ nth_error (map attributes_only vs) j = Some w /\
      In b (fst v ++ snd v) /\ In c (fst w ++ snd w) /\ i <= j /\
      (i = j -> (forall d, inherited (attributes_of s) d -> ~ synthesized (attributes_of s) d) -> In b (snd v) -> ~ In c (fst v)).
Proof.
  intros a s lits shuffle ty gs P U B Sh Ty R ps Pr.
  destruct (partitions_right a s lits shuffle ty P U B Sh Ty gs R ps Pr) as (tables & vt & E1 & E2 & T1 & V1 & T2 & V2).
  exists tables, vt. split; [exact E1|]. split; [exact E2|]. intros t vs Q b c Hb Hc N.
  destruct (proj1 (T1 t)) as (tab & Qt); [apply V1; eauto|].
  destruct (T2 t tab Qt) as [[L1 L2 L3 L4] _]. destruct (V2 t tab vs Qt Q) as [_ [W1 W2 W3 W4]].
  destruct (W3 b Hb) as (i & Li & Ci). destruct (W3 c Hc) as (j & Lj & Cj).
  destruct (nth_error (map attributes_only vs) i) as [[vi vo]|] eqn:Hi; [|apply nth_error_None in Hi; lia].
  destruct (nth_error (map attributes_only vs) j) as [[wi wo]|] eqn:Hj; [|apply nth_error_None in Hj; lia].
  assert (Dec : forall d, attribute_of_type (attributes_of s) t d -> inherited (attributes_of s) d \/ ~ inherited (attributes_of s) d).
  { intros d [_ G]. assert (X : exists x, nth_error (attributes_of s (fst d)) (snd d) = Some x)
      by (destruct G as [(x & X & _)|(x & X & _)]; eauto). destruct X as (x & X).
    destruct (at_is_inherited x) eqn:I; [left; exists x; auto|right]. intros (y & Y & J). congruence. }
  exists i, j, (vi, vo), (wi, wo). split; [exact Hi|]. split; [exact Hj|]. cbn [fst snd].
  assert (Lbc := L4 b c Hb Hc N). unfold class_pair in *.
  split; [|split; [|split]].
  - apply in_app_iff. destruct (Dec b Hb) as [D|D]; [left|right]; [apply (proj2 (W1 i vi vo Hi))|apply (proj2 (W2 i vi vo Hi))]; auto.
  - apply in_app_iff. destruct (Dec c Hc) as [D|D]; [left|right]; [apply (proj2 (W1 j wi wo Hj))|apply (proj2 (W2 j wi wo Hj))]; auto.
  - lia.
  - intros <- Ex Ib Ic. rewrite Hi in Hj. injection Hj as <- <-.
    apply (proj2 (W2 i vi vo Hi)) in Ib. apply (proj2 (W1 i vi vo Hi)) in Ic. destruct Ib as (_ & Nb & _). destruct Ic as (_ & Ic & _).
    destruct Hb as [Tb Gb]. assert (Sb : synthesized (attributes_of s) b) by (destruct Gb; [contradiction|assumption]).
    destruct (L2 b (conj Tb Gb) Sb) as (k & Hk). destruct (L3 c Hc (Ex c Ic)) as (m & Hm). lia.
Qed.
Print Assumptions C33_visit_order.

(** In [depth_to_value] expr is visited once, with depth as input and value as
    output; in [value_to_depth] twice, since depth needs value. *)
Definition classes (a : ast) (t : target) : outcome (option partition_table) :=
  let! r := before_scheduling a in
  let! g := dependency_graphs (fun l => l) a in
  let! tables := partition_all (fst r) (List.length (a_nodes a)) (List.length (a_nodesets a)) (fst g) in
  Val (table_of tables t).
Definition visits_in (a : ast) (t : target) : outcome (option (list (list aptr * list aptr))) :=
  let! r := before_scheduling a in
  let! g := dependency_graphs (fun l => l) a in
  let! tables := partition_all (fst r) (List.length (a_nodes a)) (List.length (a_nodesets a)) (fst g) in
  let! vt := collect_all (fst r) (List.length (a_nodes a)) (List.length (a_nodesets a)) (fst g) tables in
  Val (option_map (map attributes_only) (visits_of_type vt t)).
Definition lower (l : partition_table) : list (cstring * nat) := l.
Example C33_one_visit :
  map_outcome (option_map lower) (classes depth_to_value (TSet 0)) =
    Val (Some [(list_ascii_of_string "value", 3); (list_ascii_of_string "depth", 2)]) /\
  visits_in depth_to_value (TSet 0) = Val (Some [([(TSet 0, 1)], [(TSet 0, 0)])]).
Proof. vm_compute. split; reflexivity. Qed.
Example C33_two_visits :
  map_outcome (option_map lower) (classes value_to_depth (TSet 0)) =
    Val (Some [(list_ascii_of_string "depth", 4); (list_ascii_of_string "value", 3)]) /\
  visits_in value_to_depth (TSet 0) = Val (Some [([], [(TSet 0, 0)]); ([(TSet 0, 1)], [])]).
Proof. vm_compute. split; reflexivity. Qed.

(** The hypotheses hold for [value_to_depth]; there depth does need value. *)
Example C33_instance :
  exists s lits gs ps tab tables, before_scheduling value_to_depth = Val (s, lits) /\
    dependency_graphs (fun l => l) value_to_depth = Val (gs, []) /\
    productions (a_nodes value_to_depth) (a_nodesets value_to_depth) (attributes_of s) (member_of value_to_depth) ps /\
    partition_all s 3 1 gs = Val tables /\ table_of tables (TSet 0) = Some tab /\
    needs (get_node_type (a_nodes value_to_depth) (a_nodesets value_to_depth)) ps (TSet 0, 0) (TSet 0, 1) /\
    class_of s tab (TSet 0, 0) < class_of s tab (TSet 0, 1).
Proof.
  destruct (front_ok value_to_depth (expressions_parsed _ _) (expressions_unmarked _ _)) as (s & lits & B & Ty); [vm_compute; reflexivity|].
  destruct (C32_cycles_reported_partial value_to_depth s lits (fun l => l) _ (expressions_parsed _ _) (expressions_unmarked _ _) B
              (fun l => Permutation_refl l) Ty) as ((ps & Pr) & _).
  destruct C32_instance as (_ & (gs & R) & _).
  destruct (C33_partition value_to_depth s lits (fun l => l) _ gs (expressions_parsed _ _) (expressions_unmarked _ _) B
              (fun l => Permutation_refl l) Ty R ps Pr) as (tables & Et & H1 & H2).
  assert (C := proj1 C33_two_visits). unfold classes in C. rewrite B, R in C. cbn [bind fst] in C. rewrite Et in C. cbn [bind map_outcome] in C.
  destruct (table_of tables (TSet 0)) as [tab|] eqn:Q; [|discriminate C]. injection C as C.
  assert (Es : Val s = map_outcome fst (before_scheduling value_to_depth)) by (rewrite B; reflexivity).
  vm_compute in Es. injection Es as Es.
  exists s, lits, gs, ps, tab, tables. split; [exact B|]. split; [exact R|]. split; [exact Pr|]. split; [exact Et|]. split; [exact Q|].
  assert (N : needs (get_node_type (a_nodes value_to_depth) (a_nodesets value_to_depth)) ps (TSet 0, 0) (TSet 0, 1)).
  { destruct (pr_nodes _ _ _ _ _ Pr 0 _ eq_refl) as (p0 & I0 & N0). exists p0, (OChild 0 0). apply dep_direct; [exact I0|].
    apply (np_deps _ _ _ _ _ _ N0). exists (mk_equation (of_ "body" "depth") [of_ "body" "value"]), (of_ "body" "value").
    split; [left; reflexivity|]. split; [left; reflexivity|]. rewrite Es.
    split; [|split].
    - split; [apply Ty; vm_compute; reflexivity|]. split; [eexists; split; vm_compute; reflexivity|].
      exists 0. eexists. split; [reflexivity|]. split; reflexivity.
    - split; [apply Ty; vm_compute; reflexivity|]. split; [eexists; split; vm_compute; reflexivity|].
      exists 0. eexists. split; [reflexivity|]. split; reflexivity.
    - right. eexists. split; vm_compute; reflexivity. }
  split; [exact N|]. unfold lower in C. rewrite C, Es. vm_compute. lia.
Qed.
