(** C34: the sequence of actions of every visit of every node. *)

From Coq Require Import String.
From Coq Require Import List Ascii Bool Arith Lia Permutation.
From Verif Require Import Sched.GraphModel Sched.GraphSpec Sched.GraphProof Sched.ScheduleModel Sched.ScheduleSpec
  Sched.ScheduleProof Sched.CycleProof Sched.PartitionModel Sched.PartitionSpec Sched.PartitionGrammar
  Sched.VisitModel Sched.VisitSpec Sched.VisitProof Sched.VisitGrammar Sched.VisitEntries.
From Verif Require Import Base.Outcome Palm.StrModel Front.Syntax Front.SetsSpec Front.SetsInst Front.PropagateModel Front.PropagateSpec
  Front.NodesetPassesProof Front.ProductRulesModel Front.ProductRulesProof Front.ProductRulesInst
  Sched.FrontendModel Sched.FrontendProof Sched.ScheduleInst Sched.ScheduleProps Sched.VisitInst.
Import ListNotations.
Local Open Scope string_scope.
Local Open Scope list_scope.
Local Open Scope outcome_scope.

(** For every specification for which the scheduler generates visits, and
    every node: its sequences, one for each of its visits, compute every
    attribute after all it needs in any context, visit a child when all that
    the visit takes is there and its earlier visits have been made, do nothing
    twice, compute what each visit has to deliver in that visit or earlier,
    and make all visits of all children ([schedule] in VisitSpec.v). *)
Theorem C34_schedule :
  forall a s lits shuffle ty gs,
  parsed_ast a -> unmarked a -> before_scheduling a = Val (s, lits) ->
  (forall l, Permutation (shuffle l) l) -> typing (a_nodes a) (a_nodesets a) ty ->
  dependency_graphs shuffle a = Val (gs, []) ->
  forall ps, productions (a_nodes a) (a_nodesets a) (attributes_of s) (member_of a) ps ->
  forall max vt all, SAVvisits (a_nodes a) (a_nodesets a) s lits max gs = Val (vt, all) ->
  forall i n p, nth_error (a_nodes a) i = Some n -> In p ps ->
  node_production (a_nodes a) (a_nodesets a) (attributes_of s) i n p ->
  exists res, nth_error all i = Some res /\ visits_of vt (TNode i) = Some (map fst res) /\
    schedule (OType (TNode i)) (children i n) (visits_by ty vt) (fun x y => x <> y /\ depends_on ty ps p x y) (actions res).
Proof.
  intros a s lits shuffle ty gs P U B Sh Ty R ps Pr max vt all V i n p Hn Ip Np.
  destruct (SAVvisits_parts a s lits gs max vt all V) as (tables & vt0 & E1 & E2 & E3 & E4).
  exact (visits_right a s lits shuffle ty P U B Sh Ty gs R ps Pr tables vt0 vt E1 E2 E3 max all E4 i n p Hn Ip Np).
Qed.
Print Assumptions C34_schedule.

(** For a visit of a child there is, for every type of node the child may be,
    exactly one alternative: visit [k] of that type if it has one, otherwise
    nothing. *)
Theorem C34_alternatives :
  forall a s lits shuffle ty gs,
  parsed_ast a -> unmarked a -> before_scheduling a = Val (s, lits) ->
  (forall l, Permutation (shuffle l) l) -> typing (a_nodes a) (a_nodesets a) ty ->
  dependency_graphs shuffle a = Val (gs, []) ->
  forall ps, productions (a_nodes a) (a_nodesets a) (attributes_of s) (member_of a) ps ->
  forall max vt all, SAVvisits (a_nodes a) (a_nodesets a) s lits max gs = Val (vt, all) ->
  forall i n res, nth_error (a_nodes a) i = Some n -> nth_error all i = Some res ->
  forall r o k alts, In r res -> In (EVisit o k alts) (snd r) ->
    NoDup (map fst alts) /\
    (forall m, In m (map fst alts) <-> ty o = Some (TNode m) \/ exists j, ty o = Some (TSet j) /\ member_of a j m) /\
    (forall m b, In (m, b) alts -> exists ws, visits_of vt (TNode m) = Some ws /\ (b = true <-> k < List.length ws)).
Proof.
  intros a s lits shuffle ty gs P U B Sh Ty R ps Pr max vt all V i n res Hn Hr r o k alts Ir Ie.
  exact (entries_right a s lits shuffle ty P U B Sh Ty gs R ps Pr vt all max V i n res Hn Hr r o k alts Ir Ie).
Qed.
Print Assumptions C34_alternatives.

(** An attribute is computed by an equation of the node for it, unless it is
    an inherited attribute of the node itself. *)
Theorem C34_equations :
  forall a s lits shuffle ty gs,
  parsed_ast a -> unmarked a -> before_scheduling a = Val (s, lits) ->
  (forall l, Permutation (shuffle l) l) -> typing (a_nodes a) (a_nodesets a) ty ->
  dependency_graphs shuffle a = Val (gs, []) ->
  forall ps, productions (a_nodes a) (a_nodesets a) (attributes_of s) (member_of a) ps ->
  forall max vt all, SAVvisits (a_nodes a) (a_nodesets a) s lits max gs = Val (vt, all) ->
  forall i n res, nth_error (a_nodes a) i = Some n -> nth_error all i = Some res ->
  forall r x, In r res -> In (EEval x) (snd r) ->
    (fst x = OType (TNode i) /\ inherited (attributes_of s) (snd x)) \/
    (exists e, In e (nd_equations n) /\ stands_for (a_nodes a) (a_nodesets a) (attributes_of s) i n (eq_rule e) x).
Proof.
  intros a s lits shuffle ty gs P U B Sh Ty R ps Pr max vt all V i n res Hn Hr r x Ir Ie.
  exact (evaluations_right a s lits shuffle ty P U B Sh Ty gs R ps Pr vt all max V i n res Hn Hr r x Ir Ie).
Qed.
Print Assumptions C34_equations.

(** Exactly the types are visited that have an inherited or synthesized
    attribute, or a child or member whose type is visited. *)
Theorem C34_visited :
  forall a s lits shuffle ty gs,
  parsed_ast a -> unmarked a -> before_scheduling a = Val (s, lits) ->
  (forall l, Permutation (shuffle l) l) -> typing (a_nodes a) (a_nodesets a) ty ->
  dependency_graphs shuffle a = Val (gs, []) ->
  forall ps, productions (a_nodes a) (a_nodesets a) (attributes_of s) (member_of a) ps ->
  forall max vt all, SAVvisits (a_nodes a) (a_nodesets a) s lits max gs = Val (vt, all) ->
    (forall t, has_production ps t <-> exists vs, visits_of vt t = Some vs) /\
    (forall t vs, visits_of vt t = Some vs -> (vs <> [] <-> leads_to_attributes a s ps t)).
Proof.
  intros a s lits shuffle ty gs P U B Sh Ty R ps Pr max vt all V.
  exact (visited_right a s lits shuffle ty P U B Sh Ty gs R ps Pr vt all max V).
Qed.
Print Assumptions C34_visited.

(** If the actions of each node can be put in order at all, the scheduler
    finds sequences, provided its limit on iterations is high enough; whatever
    the limit, it does not crash.  Children must have a type with members, no
    attribute may be both inherited and synthesized, and the first member of
    the nodeset of a child must have as many visits as the nodeset. *)
Theorem C34_finds_order :
  forall a s lits shuffle ty gs,
  parsed_ast a -> unmarked a -> before_scheduling a = Val (s, lits) ->
  (forall l, Permutation (shuffle l) l) -> typing (a_nodes a) (a_nodesets a) ty ->
  dependency_graphs shuffle a = Val (gs, []) ->
  forall ps, productions (a_nodes a) (a_nodesets a) (attributes_of s) (member_of a) ps ->
  (forall i n o t, nth_error (a_nodes a) i = Some n -> In o (children i n) -> ty o = Some t -> has_production ps t) ->
  (forall b, inherited (attributes_of s) b -> ~ synthesized (attributes_of s) b) ->
  exists vt,
    (forall max vt' all, SAVvisits (a_nodes a) (a_nodesets a) s lits max gs = Val (vt', all) -> vt' = vt) /\
    ((forall i n o, nth_error (a_nodes a) i = Some n -> In o (children i n) -> leading_member a lits ty vt o) ->
     (forall max, (exists all, SAVvisits (a_nodes a) (a_nodesets a) s lits max gs = Val (vt, all)) \/
        SAVvisits (a_nodes a) (a_nodesets a) s lits max gs = Exited) /\
     ((forall i n p, nth_error (a_nodes a) i = Some n -> In p ps ->
         node_production (a_nodes a) (a_nodesets a) (attributes_of s) i n p ->
         exists rank, order (OType (TNode i)) (children i n) (visits_by ty vt) (fun x y => x <> y /\ depends_on ty ps p x y) rank) ->
      exists m, forall max, m <= max -> exists all, SAVvisits (a_nodes a) (a_nodesets a) s lits max gs = Val (vt, all))).
Proof.
  intros a s lits shuffle ty gs P U B Sh Ty R ps Pr Types Once.
  exact (success a s lits shuffle ty P U B Sh Ty gs R ps Pr Types Once).
Qed.
Print Assumptions C34_finds_order.

(** ** Instances *)

(** In [value_to_depth] expr is visited twice: first its value is fetched,
    then its depth is computed from it and passed down. *)
Example C34_value_to_depth : sequences_in value_to_depth = Val
  [ [ [Visit (OChild 0 0) 0; Evaluate (OChild 0 0, (TSet 0, 1)); Visit (OChild 0 0) 1] ];
    [ [Visit (OChild 1 1) 0; Visit (OChild 1 0) 0; Evaluate (OType (TNode 1), (TNode 1, 1))];
      [Evaluate (OChild 1 0, (TSet 0, 1)); Visit (OChild 1 0) 1; Evaluate (OChild 1 1, (TSet 0, 1)); Visit (OChild 1 1) 1] ];
    [ [Evaluate (OType (TNode 2), (TNode 2, 1))]; [] ] ].
Proof. vm_compute. reflexivity. Qed.

Lemma sequences_val : forall a s lits gs x, before_scheduling a = Val (s, lits) -> dependency_graphs (fun l => l) a = Val (gs, []) ->
  sequences_in a = Val x -> exists vt all, SAVvisits (a_nodes a) (a_nodesets a) s lits 1000 gs = Val (vt, all) /\ map actions all = x.
Proof.
  intros a s lits gs x B R H. unfold sequences_in, visit_sequences in H. rewrite B in H. cbn [bind] in H. rewrite R in H. cbn [bind fst snd] in H.
  destruct (SAVvisits _ _ s lits 1000 gs) as [[vt all]| | | |]; try discriminate H. exists vt, all. split; [reflexivity|].
  cbn [map_outcome snd] in H. injection H as H. exact H.
Qed.

(** The hypotheses of the theorems hold for it; the sequences above satisfy
    [schedule], for a node where one attribute needs another. *)
Example C34_instance :
  exists s lits gs ps vt all p,
    before_scheduling value_to_depth = Val (s, lits) /\
    dependency_graphs (fun l => l) value_to_depth = Val (gs, []) /\
    productions (a_nodes value_to_depth) (a_nodesets value_to_depth) (attributes_of s) (member_of value_to_depth) ps /\
    SAVvisits (a_nodes value_to_depth) (a_nodesets value_to_depth) s lits 1000 gs = Val (vt, all) /\
    In p ps /\ depends_on (get_node_type (a_nodes value_to_depth) (a_nodesets value_to_depth)) ps p
                 (OChild 0 0, (TSet 0, 0)) (OChild 0 0, (TSet 0, 1)) /\
    schedule (OType (TNode 0)) [OChild 0 0] (visits_by (get_node_type (a_nodes value_to_depth) (a_nodesets value_to_depth)) vt)
      (fun x y => x <> y /\ depends_on (get_node_type (a_nodes value_to_depth) (a_nodesets value_to_depth)) ps p x y)
      [ [Visit (OChild 0 0) 0; Evaluate (OChild 0 0, (TSet 0, 1)); Visit (OChild 0 0) 1] ].
Proof.
  destruct (front_ok value_to_depth (expressions_parsed _ _) (expressions_unmarked _ _)) as (s & lits & B & Ty); [vm_compute; reflexivity|].
  destruct (C32_cycles_reported_partial value_to_depth s lits (fun l => l) _ (expressions_parsed _ _) (expressions_unmarked _ _) B
              (fun l => Permutation_refl l) Ty) as ((ps & Pr) & _).
  destruct C32_instance as (_ & (gs & R) & _).
  destruct (sequences_val _ s lits gs _ B R C34_value_to_depth) as (vt & all & V & Qa).
  destruct (pr_nodes _ _ _ _ _ Pr 0 _ eq_refl) as (p & Ip & Np).
  destruct (C34_schedule value_to_depth s lits (fun l => l) _ gs (expressions_parsed _ _) (expressions_unmarked _ _) B
              (fun l => Permutation_refl l) Ty R ps Pr 1000 vt all V 0 _ p eq_refl Ip Np) as (res & Hr & _ & Sc).
  assert (Es : Val s = map_outcome fst (before_scheduling value_to_depth)) by (rewrite B; reflexivity).
  vm_compute in Es. injection Es as Es.
  exists s, lits, gs, ps, vt, all, p. split; [exact B|]. split; [exact R|]. split; [exact Pr|]. split; [exact V|]. split; [exact Ip|]. split.
  - apply dep_direct; [exact Ip|].
    apply (np_deps _ _ _ _ _ _ Np). exists (mk_equation (of_ "body" "depth") [of_ "body" "value"]), (of_ "body" "value").
    split; [left; reflexivity|]. split; [left; reflexivity|]. rewrite Es.
    split; [|split].
    + split; [apply Ty; vm_compute; reflexivity|]. split; [eexists; split; vm_compute; reflexivity|].
      exists 0. eexists. split; [reflexivity|]. split; reflexivity.
    + split; [apply Ty; vm_compute; reflexivity|]. split; [eexists; split; vm_compute; reflexivity|].
      exists 0. eexists. split; [reflexivity|]. split; reflexivity.
    + right. eexists. split; vm_compute; reflexivity.
  - apply (map_nth_error actions) in Hr. rewrite Qa in Hr. cbn [nth_error] in Hr. injection Hr as Hr. rewrite <- Hr in Sc. exact Sc.
Qed.

(** The hypotheses of [C34_finds_order] hold for [value_to_depth]. *)
Definition value_first (x : action occurrence aptr) : nat :=
  match x with
  | Visit _ k => 1 + 4 * k
  | Evaluate (OChild _ _, (_, 0)) => 1
  | Evaluate (OChild _ _, _) => 4
  | Evaluate (OType _, (_, 1)) => 2
  | Evaluate (OType _, _) => 3
  end.
Lemma edge_listed : forall (g : ag_graph) x y, AE g x y -> exists e, In e (g_edges g) /\ first e = x /\ second e = y.
Proof.
  intros g x y H. unfold E, has_edge in H. destruct (HTlookup_edge _ _ g x y) as [e|] eqn:F; [|discriminate].
  unfold HTlookup_edge in F. apply find_some in F. destruct F as [I Q]. apply andb_true_iff in Q. destruct Q as [Q1 Q2].
  exists e. split; [exact I|]. split; [apply veq_spec in Q1|apply veq_spec in Q2]; assumption.
Qed.
Example C34_finds_order_instance :
  exists s lits gs ps vt, let ty := get_node_type (a_nodes value_to_depth) (a_nodesets value_to_depth) in
    before_scheduling value_to_depth = Val (s, lits) /\
    dependency_graphs (fun l => l) value_to_depth = Val (gs, []) /\
    productions (a_nodes value_to_depth) (a_nodesets value_to_depth) (attributes_of s) (member_of value_to_depth) ps /\
    (forall i n o t, nth_error (a_nodes value_to_depth) i = Some n -> In o (children i n) -> ty o = Some t -> has_production ps t) /\
    (forall b, inherited (attributes_of s) b -> ~ synthesized (attributes_of s) b) /\
    (exists all, SAVvisits (a_nodes value_to_depth) (a_nodesets value_to_depth) s lits 1000 gs = Val (vt, all)) /\
    (forall i n o, nth_error (a_nodes value_to_depth) i = Some n -> In o (children i n) -> leading_member value_to_depth lits ty vt o) /\
    (forall i n p, nth_error (a_nodes value_to_depth) i = Some n -> In p ps ->
       node_production (a_nodes value_to_depth) (a_nodesets value_to_depth) (attributes_of s) i n p ->
       order (OType (TNode i)) (children i n) (visits_by ty vt) (fun x y => x <> y /\ depends_on ty ps p x y) value_first).
Proof.
  destruct (front_ok value_to_depth (expressions_parsed _ _) (expressions_unmarked _ _)) as (s & lits & B & Ty); [vm_compute; reflexivity|].
  destruct (C32_cycles_reported_partial value_to_depth s lits (fun l => l) _ (expressions_parsed _ _) (expressions_unmarked _ _) B
              (fun l => Permutation_refl l) Ty) as ((ps & Pr) & _).
  destruct C32_instance as (_ & (gs & R) & _).
  destruct (sequences_val _ s lits gs _ B R C34_value_to_depth) as (vt & all & V & _).
  assert (Es : Val (s, lits) = before_scheduling value_to_depth) by (rewrite B; reflexivity).
  vm_compute in Es. injection Es as Es El.
  assert (Eg : Val (gs, []) = dependency_graphs (fun l => l) value_to_depth) by (rewrite R; reflexivity).
  vm_compute in Eg. injection Eg as Eg.
  assert (Ev : Val vt = map_outcome fst (SAVvisits (a_nodes value_to_depth) (a_nodesets value_to_depth) s lits 1000 gs)) by (rewrite V; reflexivity).
  rewrite Es, El, Eg in Ev. vm_compute in Ev. injection Ev as Ev.
  exists s, lits, gs, ps, vt. cbn zeta. split; [exact B|]. split; [exact R|]. split; [exact Pr|].
  assert (Mt : forall i n o, nth_error (a_nodes value_to_depth) i = Some n -> In o (children i n) ->
             get_node_type (a_nodes value_to_depth) (a_nodesets value_to_depth) o = Some (TSet 0)).
  { intros i n o Hn Io. destruct i as [|[|[|i]]]; try (destruct i; discriminate); injection Hn as <-; cbn in Io;
      repeat (destruct Io as [<-|Io]; [vm_compute; reflexivity|]); destruct Io. }
  split; [|split; [|split; [|split]]].
  - intros i n o t Hn Io T. rewrite (Mt i n o Hn Io) in T. injection T as <-.
    destruct (pr_members _ _ _ _ _ Pr 0 1) as (p & Ip & Np).
    + destruct (before_scheduling_input value_to_depth s lits (expressions_parsed _ _) (expressions_unmarked _ _) B) as (_ & _ & _ & Mem & _).
      apply Mem. eexists. eexists. rewrite El. split; [reflexivity|]. split; [reflexivity|]. vm_compute. auto.
    + exists p. split; [exact Ip|]. apply (mp_root _ _ _ _ Np).
  - intros [t k] (x & X & I) (y & Y & J). cbn [fst snd] in *. rewrite X in Y. injection Y as <-.
    rewrite Es in X. destruct t as [m|j]; [destruct m as [|[|[|m]]]|destruct j as [|j]]; cbn in X; 
      repeat (destruct k as [|k]; cbn in X; [try discriminate X; injection X as <-; discriminate|]);
      try (destruct k; discriminate X); try (destruct m; destruct k; discriminate X); try (destruct j; destruct k; discriminate X).
  - eauto.
  - intros i n o Hn Io j T. rewrite (Mt i n o Hn Io) in T. injection T as <-. rewrite El, Ev.
    do 3 eexists. exists 1. do 2 eexists. split; [reflexivity|]. split; [reflexivity|]. split.
    + eexists. split; reflexivity.
    + split; [vm_compute; reflexivity|]. split; [vm_compute; reflexivity|]. cbn. lia.
  - intros i n p Hn Ip Np.
    assert (Fg : exists g, first_graph gs (TNode i) = Some g).
    { rewrite Eg. destruct i as [|[|[|i]]]; [eexists; reflexivity|eexists; reflexivity|eexists; reflexivity|]. destruct i; discriminate Hn. }
    destruct Fg as (g & Fg).
    destruct (node_facts value_to_depth s lits (fun l => l) _ (expressions_parsed _ _) (expressions_unmarked _ _) B
                (fun l => Permutation_refl l) Ty gs R ps Pr i n p g Hn Ip Np Fg) as (_ & _ & _ & He).
    assert (Vs : forall o, In o (children i n) -> visits_by (get_node_type (a_nodes value_to_depth) (a_nodesets value_to_depth)) vt o = 
               [([], [(TSet 0, 0)]); ([(TSet 0, 1)], [])]).
    { intros o Io. unfold visits_by. rewrite (Mt i n o Hn Io), Ev. vm_compute. reflexivity. }
    split.
    + intros x y b [Nxy D] Sx. destruct (He x y D) as [Z|Z]; [contradiction|]. apply edge_listed in Z. destruct Z as (e & Ie & <- & <-).
      rewrite Eg in Fg. destruct i as [|[|[|i]]]; [| | |destruct i; discriminate Hn]; injection Hn as <-; cbn in Fg; injection Fg as <-; cbn in Ie;
      repeat (destruct Ie as [<-|Ie]; [cbn in Sx; destruct Sx as [(k & v & Nr & Hv & Iv & ->)|(H & ->)];
         [ first [ rewrite Vs in Hv by (cbn; tauto); destruct k as [|[|[|k]]]; cbn in Hv; try discriminate Hv; injection Hv as <-; cbn in Iv; try tauto;
                   destruct Iv as [Iv|[]]; try discriminate Iv; cbn; lia
                 | exfalso; apply Nr; reflexivity ]
         | cbn; first [ lia | exfalso; destruct H as [H|H]; [discriminate H|]; eapply H; [rewrite Vs by (cbn; tauto); left; reflexivity|left; reflexivity] ] ]|]); destruct Ie.
    + intros o k v b x Io Hv Ib Sx. rewrite (Vs o Io) in Hv. destruct k as [|[|[|k]]]; cbn in Hv; try discriminate Hv; injection Hv as <-; cbn in Ib; [destruct Ib|].
      destruct Ib as [<-|[]]. unfold source in Sx. cbn [fst snd] in Sx. destruct Sx as [(k & v & _ & Hv & Iv & ->)|(H & ->)].
      * rewrite (Vs o Io) in Hv. destruct k as [|[|[|k]]]; cbn in Hv; try discriminate Hv; injection Hv as <-; cbn in Iv; [|tauto].
        destruct Iv as [Iv|[]]. discriminate Iv.
      * assert (X : exists k, o = OChild i k) by (unfold children in Io; apply in_map_iff in Io; destruct Io as (k & <- & _); eauto).
        destruct X as (k & ->). cbn. lia.
    + intros o j k Io L _. cbn. lia.
Qed.

(** ** What does not hold *)

Definition errors_in (a : ast) : outcome nat := scheduler_errors a.

(** The scheduler rejects ("Loop detected") a specification without any
    circular dependency: that x and y each wait for what the other delivers is
    due to their being visited once only. *)
Theorem C34_order_exists_refuted :
  errors_in crossed = Val 0 /\ sequences_in crossed = Exited.
Proof. vm_compute. split; reflexivity. Qed.

(** For a specification that is accepted, the sequence of the first visit of
    mid computes a2, an inherited attribute of mid itself that is passed to
    its second visit.  mid has no equation for it, so the code generator ends
    with "Could not find eval function". *)
Theorem C34_own_inherited_refuted :
  errors_in early = Val 0 /\
  exists seqs rest, sequences_in early = Val seqs /\
    nth_error seqs 1 = Some ([Evaluate (OType (TNode 1), (TNode 1, 1)); Evaluate (OType (TNode 1), (TNode 1, 0)); Evaluate (OChild 1 0, (TNode 2, 0));
                              Visit (OChild 1 0) 0; Evaluate (OType (TNode 1), (TNode 1, 2))] :: rest) /\
    visits_for early (TNode 1) = Val (Some [([], [(TNode 1, 1); (TNode 1, 2)]); ([(TNode 1, 0)], [])]).
Proof. vm_compute. split; [reflexivity|]. do 2 eexists. repeat split; reflexivity. Qed.

(** If the first member of a nodeset is not visited but another is, the entry
    of the sequence starts with a dummy, and appending the next entry treats
    the dummy as an evaluation: undefined behaviour.  With the members in the
    other order there is none. *)
Theorem C34_dummy_first_refuted :
  errors_in dummy_first = Val 0 /\ sequences_in dummy_first = Undef /\
  sequences_in dummy_last = Val [ [ [Visit (OChild 0 0) 0; Visit (OChild 0 1) 0] ]; []; [ [Evaluate (OType (TNode 2), (TNode 2, 0))] ] ].
Proof. vm_compute. repeat split; reflexivity. Qed.

(** A visit of a nodeset is the visit with the same index of the member, but
    these need not take and deliver the same: expr takes i and delivers s in
    its only visit, num does so in its second.  So body.s never gets a
    value. *)
Theorem C34_members_agree_refuted :
  errors_in uneven = Val 0 /\
  visits_for uneven (TSet 0) = Val (Some [([(TSet 0, 0)], [(TSet 0, 1)])]) /\
  visits_for uneven (TNode 1) = Val (Some [([], [(TNode 1, 2)]); ([(TNode 1, 1)], [(TNode 1, 0)])]) /\
  exists s, map_outcome fst (before_scheduling uneven) = Val s /\
    map (map at_name) (p_sets s) = [[nm "i"; nm "s"]] /\
    map (map at_name) (p_nodes s) = [[]; [nm "s"; nm "i"; nm "t"]] /\
  exists vt res rest alts, visit_sequences uneven = Val (vt, res :: rest) /\
    (exists v l, In (v, l) res /\ In (EVisit (OChild 0 0) 0 alts) l) /\ alts = [(1, true)].
Proof.
  vm_compute. split; [reflexivity|]. split; [reflexivity|]. split; [reflexivity|]. eexists. split; [reflexivity|]. split; [reflexivity|].
  split; [reflexivity|]. do 4 eexists. split; [reflexivity|]. split; [|reflexivity]. do 2 eexists. split; [left; reflexivity|].
  cbn. right. right. left. reflexivity.
Qed.
