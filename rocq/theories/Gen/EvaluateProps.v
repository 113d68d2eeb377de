(** C44: the generated functions evaluate the attributes of every tree.

    The compiler plans visits for every node, and generates a function for
    each (C32 to C35).  CCNevaluateAttributes runs those of the root.  What
    they have to achieve is in EvaluateSpec.v: every synthesized attribute of
    a node has the value that an equation of the node defines, every inherited
    attribute of a child the value that an equation of its parent defines,
    whatever children are absent.  This is shown under conditions on the
    specification that the compiler does not check; without each of them it
    fails, see the end of the file. *)

From Coq Require Import String.
From Coq Require Import List Ascii Bool Arith Lia Permutation.
From Verif Require Import Sched.GraphModel Sched.GraphSpec Sched.ScheduleModel Sched.ScheduleSpec Sched.ScheduleProof Sched.ScheduleProps
  Sched.ScheduleInst Sched.PartitionModel Sched.PartitionSpec Sched.PartitionGrammar Sched.VisitModel Sched.VisitSpec Sched.VisitGrammar Sched.VisitEntries Sched.VisitInst Sched.VisitProps.
From Verif Require Import Base.Outcome Palm.StrModel Front.Syntax Front.SetsSpec Front.SetsInst Front.ExampleInst Front.PropagateModel Front.PropagateSpec
  Front.NodesetPassesProof Front.ProductRulesModel Front.ProductRulesInst Front.ProductRulesProof
  Sched.FrontendModel Sched.FrontendProof Sched.CycleProof Gen.EvalVariantsModel Gen.EvalVariantsInst Gen.EvaluateModel Gen.EvaluateSpec Gen.EvaluateProof
  Gen.EvaluateCode Gen.EvaluateGrammar Gen.EvaluateCheck Gen.EvaluateInst.
Import ListNotations.
Local Open Scope string_scope.
Local Open Scope list_scope.
Local Open Scope outcome_scope.

(** The conditions:
    - no attribute is both inherited and synthesized;
    - no equation reads the attribute it computes, nor an inherited attribute
      of a child;
    - no child is called "this" or has an underscore in its name;
    - the members of a nodeset agree with it on their visits;
    - the generated functions are correct C, as far as their variables go;
    - the root has no inherited attributes, and it or something below it has
      attributes at all.

    Then the run ends without error, stores each attribute at most once, and
    all attributes have the values they should have. *)
Theorem C44_evaluates_partial :
  forall a s lits shuffle ty gs,
  parsed_ast a -> unmarked a -> before_scheduling a = Val (s, lits) ->
  (forall l, Permutation (shuffle l) l) -> typing (a_nodes a) (a_nodesets a) ty ->
  dependency_graphs shuffle a = Val (gs, []) ->
  forall ps, productions (a_nodes a) (a_nodesets a) (attributes_of s) (member_of a) ps ->
  (forall b, inherited (attributes_of s) b -> ~ synthesized (attributes_of s) b) ->
  no_self_dependency ps -> no_child_input_read a s -> plain_children a ->
  forall max vt all, SAVvisits (a_nodes a) (a_nodesets a) s lits max gs = Val (vt, all) ->
  members_agree a s lits ty vt ->
  forall iteration functions, (forall l, Permutation (iteration l) l) ->
  DGVSast (a_nodes a) s all iteration = Val functions -> compiles functions = true ->
  forall (V : Type) (eval : cstring -> list V -> V) (t : tree V),
  well_typed (a_nodes a) (a_nodesets a) (member_of a) t ->
  (forall x, In x (attributes_of s (TNode (type_of t))) -> at_is_inherited x = false) ->
  leads_to_attributes a s ps (TNode (type_of t)) ->
  exists st, CCNevaluateAttributes (a_nodes a) s eval functions t = Val st /\ once st /\
    evaluated (a_nodes a) (attributes_of s) eval (fetch st) t.
Proof.
  intros a s lits shuffle ty gs P U B Sh Ty R ps Pr Once NoSelf NoRead Plain max vt all V Agree iteration functions It Gen Cmp X eval t W Root Lead.
  assert (F := plan_followed a s lits shuffle ty P U B Sh Ty gs R ps Pr vt all max V iteration It functions Gen Cmp Once NoSelf NoRead Plain Agree).
  assert (Hn : exists n, nth_error (a_nodes a) (type_of t) = Some n) by (inversion W; subst; eauto). destruct Hn as (n & Hn).
  apply (evaluate_right _ _ _ _ _ _ _ _ _ _ F t W).
  - destruct (C34_visited a s lits shuffle ty gs P U B Sh Ty R ps Pr max vt all V) as (V1 & V2).
    destruct (proj1 (V1 _) (node_production_of a s ps Pr _ n Hn)) as (vs & Q). unfold visit_count. rewrite Q.
    apply (V2 _ _ Q) in Lead. destruct vs; [congruence|cbn [List.length]; lia].
  - intros k. destruct (taken s vt (TNode (type_of t)) k) as [|b l] eqn:E; [reflexivity|exfalso].
    assert (I : In b (taken s vt (TNode (type_of t)) k)) by (rewrite E; left; reflexivity).
    apply taken_iff in I. destruct I as (x & Tk & _).
    apply (takes_facts a s lits shuffle ty P U B Sh Ty gs R ps Pr vt all max V) in Tk. destruct Tk as (_ & Fx & y & Hy & Iy).
    rewrite Fx in Hy. rewrite (Root y (nth_error_In _ _ Hy)) in Iy. discriminate.
Qed.
Print Assumptions C44_evaluates_partial.

(** Without nodesets there is nothing to agree on. *)
Theorem C44_without_nodesets_partial :
  forall a s lits shuffle ty gs,
  a_nodesets a = [] ->
  parsed_ast a -> unmarked a -> before_scheduling a = Val (s, lits) ->
  (forall l, Permutation (shuffle l) l) -> typing (a_nodes a) (a_nodesets a) ty ->
  dependency_graphs shuffle a = Val (gs, []) ->
  forall ps, productions (a_nodes a) (a_nodesets a) (attributes_of s) (member_of a) ps ->
  (forall b, inherited (attributes_of s) b -> ~ synthesized (attributes_of s) b) ->
  no_self_dependency ps -> no_child_input_read a s -> plain_children a ->
  forall max vt all, SAVvisits (a_nodes a) (a_nodesets a) s lits max gs = Val (vt, all) ->
  forall iteration functions, (forall l, Permutation (iteration l) l) ->
  DGVSast (a_nodes a) s all iteration = Val functions -> compiles functions = true ->
  forall (V : Type) (eval : cstring -> list V -> V) (t : tree V),
  well_typed (a_nodes a) (a_nodesets a) (member_of a) t ->
  (forall x, In x (attributes_of s (TNode (type_of t))) -> at_is_inherited x = false) ->
  leads_to_attributes a s ps (TNode (type_of t)) ->
  exists st, CCNevaluateAttributes (a_nodes a) s eval functions t = Val st /\ once st /\
    evaluated (a_nodes a) (attributes_of s) eval (fetch st) t.
Proof.
  intros a s lits shuffle ty gs NoSets P U B Sh Ty R ps Pr Once NoSelf NoRead Plain max vt all V.
  apply (C44_evaluates_partial a s lits shuffle ty gs P U B Sh Ty R ps Pr Once NoSelf NoRead Plain max vt all V).
  assert (None_ : forall j m, ~ member_of a j m).
  { intros j m (st & n & S & H & _). rewrite NoSets in H. destruct j; discriminate. }
  constructor.
  - intros i n o Hn Io j T. exfalso. apply Ty in T. unfold children in Io. apply in_map_iff in Io. destruct Io as (c & <- & _).
    destruct T as (n' & ch & _ & _ & st & Hs & _). rewrite NoSets in Hs. destruct j; discriminate.
  - intros j m M. exfalso. exact (None_ j m M).
  - intros j m k b M. exfalso. exact (None_ j m M).
  - intros j m m' k k' b M. exfalso. exact (None_ j m M).
Qed.
Print Assumptions C44_without_nodesets_partial.

(** ** The text of the functions *)

(** Whatever is generated: a variable that gets a result of a visit is declared
    by the statement itself, before the call, the switch or the test for
    NULL. *)
Theorem C44_results_declared : forall nodes attrs visits iteration functions,
  DGVSast nodes attrs visits iteration = Val functions ->
  forall fs f c optional declared body x r,
  In fs functions -> In f fs -> In (SVisit c optional declared body) (f_body f) -> In x (calls body) -> In r (c_results x) ->
  In (Value (fst r)) (declarations (SVisit c optional declared body)).
Proof.
  intros nodes attrs visits iteration.
  assert (D : forall l outputs r, desired l outputs = Val r -> incl r outputs).
  { induction l as [|x l IH]; intros outputs r E; cbn [desired] in E; [injection E as <-; intros y []|].
    unfold is_desired in E. destruct outputs as [|o outputs]; [discriminate|]. cbn [bind] in E.
    destruct (desired l (o :: outputs)) as [r'| | | |] eqn:E'; try discriminate. cbn [bind] in E.
    match type of E with Val ?q = Val _ => assert (q = r) as <- by congruence end.
    assert (I := IH _ _ E'). destruct (existsb (text_eqb x) (o :: outputs)) eqn:Ex; [|exact I].
    intros y [<-|Iy]; [|exact (I y Iy)]. apply existsb_exists in Ex. destruct Ex as (z & Iz & Ez). apply text_eqb_eq in Ez. now subst. }
  assert (Call : forall n c m k outputs x, print_visit_call attrs visits n c m k outputs false = Val x ->
    forall r, In r (c_results x) -> In (fst r) (map (local_name (child_name n c)) outputs)).
  { intros n c m k outputs x E r I. unfold print_visit_call in E. destruct (visit_arguments attrs visits m k) as [[i o]| | | |]; try discriminate.
    cbn [bind fst snd] in E.
    assert (Q : exists l, incl l outputs /\ c_results x = map (fun y => (local_name (child_name n c) y, this_local y)) l).
    { destruct o as [|o1 [|o2 o]]; cbn [bind] in E.
      - injection E as <-. exists []. split; [intros y []|reflexivity].
      - destruct (desired [o1] outputs) as [l| | | |] eqn:Ed; try discriminate. injection E as <-. exists l. split; [exact (D _ _ _ Ed)|reflexivity].
      - destruct (desired (o1 :: o2 :: o) outputs) as [l| | | |] eqn:Ed; try discriminate. injection E as <-. exists l. split; [exact (D _ _ _ Ed)|reflexivity]. }
    destruct Q as (l & Il & El). rewrite El in I. apply in_map_iff in I. destruct I as (y & <- & Iy). cbn [fst].
    exact (in_map (local_name (child_name n c)) _ _ (Il y Iy)). }
  assert (Alt : forall n c k outputs l r, print_alternatives attrs visits n c k outputs l = Val r ->
    forall x, In x (calls (Switch r)) -> exists m, print_visit_call attrs visits n c m k outputs false = Val x).
  { intros n c k outputs l. induction l as [|[m b] l IH]; intros r E x I; cbn [print_alternatives] in E; [injection E as <-; destruct I|].
    destruct b.
    - destruct (print_visit_call attrs visits n c m k outputs false) as [y| | | |] eqn:Ey; try discriminate. cbn [map_outcome bind] in E.
      destruct (print_alternatives attrs visits n c k outputs l) as [r'| | | |] eqn:Er; try discriminate. cbn [bind] in E. injection E as <-.
      cbn in I. destruct I as [<-|I]; [exists m; exact Ey|exact (IH _ eq_refl x I)].
    - cbn [bind] in E. destruct (print_alternatives attrs visits n c k outputs l) as [r'| | | |] eqn:Er; try discriminate. cbn [bind] in E. injection E as <-.
      exact (IH _ eq_refl x I). }
  assert (Visit : forall n c k alts l, DGVSvisit_sequence_visit attrs visits n c k alts = Val l ->
    forall c' optional declared body x r, In (SVisit c' optional declared body) l -> In x (calls body) -> In r (c_results x) ->
    In (Value (fst r)) (declarations (SVisit c' optional declared body))).
  { intros n c k alts l E c' optional declared body x r I Ix Ir. unfold DGVSvisit_sequence_visit in E.
    destruct (skip_dummies alts) as [|[m b] alt] eqn:Es; [injection E as <-; destruct I|].
    destruct (visit_arguments attrs visits m k) as [[i o]| | | |]; try discriminate. cbn [bind snd] in E. destruct alt as [|y alt].
    - destruct (print_visit_call attrs visits n c m k o (CHILD_IS_MANDATORY n c)) as [z| | | |] eqn:Ez; try discriminate. cbn [map_outcome bind] in E.
      injection E as <-. destruct I as [I|[]]. injection I as <- <- <- <-. destruct Ix as [<-|[]]. cbn [declarations].
      destruct (CHILD_IS_MANDATORY n c); cbn [negb].
      + cbn [map app]. apply in_or_app. left. apply (in_map (fun q => Value (fst q))). exact Ir.
      + rewrite app_nil_r. apply in_map. exact (Call _ _ _ _ _ _ Ez r Ir).
    - destruct (print_alternatives attrs visits n c k o ((m, b) :: y :: alt)) as [z| | | |] eqn:Ez; try discriminate. cbn [map_outcome bind] in E.
      injection E as <-. destruct I as [I|[]]. injection I as <- <- <- <-. cbn [declarations]. rewrite app_nil_r. apply in_map.
      destruct (Alt _ _ _ _ _ _ Ez x Ix) as (m' & Em). exact (Call _ _ _ _ _ _ Em r Ir). }
  assert (Seq : forall n l b, sequence nodes attrs visits iteration n l = Val b ->
    forall c optional declared body x r, In (SVisit c optional declared body) b -> In x (calls body) -> In r (c_results x) ->
    In (Value (fst r)) (declarations (SVisit c optional declared body))).
  { intros n l. induction l as [|e l IH]; intros b E c optional declared body x r I Ix Ir; cbn [sequence] in E; [injection E as <-; destruct I|].
    match type of E with (let! _ := ?q in _) = _ => destruct q as [q0| | | |] eqn:Eq; try discriminate end. cbn [bind] in E.
    destruct (sequence nodes attrs visits iteration n l) as [r'| | | |] eqn:Er; try discriminate. cbn [bind] in E. injection E as <-.
    apply in_app_or in I. destruct I as [I|I]; [|exact (IH _ eq_refl _ _ _ _ _ _ I Ix Ir)].
    destruct e as [y|[i0|i0 c0] k alts].
    - unfold map_outcome in Eq. destruct (evaluation nodes attrs iteration n y) as [t| | | |] eqn:Et; try discriminate. cbn [bind] in Eq. injection Eq as <-.
      destruct I as [->|[]]. unfold evaluation in Et.
      destruct (evaluation_reference nodes attrs y) as [q|]; [|discriminate]. destruct (attribute_at attrs (snd y)) as [d|]; [|discriminate].
      destruct (DGVSvisit_sequence_eval n iteration q) as [[w|]| | | |]; try discriminate. cbn [bind] in Et.
      destruct (ar_inode q); [discriminate|]. destruct (at_is_synthesized d); discriminate.
    - discriminate.
    - exact (Visit _ _ _ _ _ Eq _ _ _ _ _ _ I Ix Ir). }
  assert (All : forall n l fs, all (DGVSvisit nodes attrs visits iteration n) l = Val fs -> forall f, In f fs ->
    exists v, DGVSvisit nodes attrs visits iteration n v = Val f).
  { intros n l. induction l as [|v l IH]; intros fs E f I; cbn in E; [injection E as <-; destruct I|].
    destruct (DGVSvisit nodes attrs visits iteration n v) as [g| | | |] eqn:Ev; try discriminate. cbn [bind] in E.
    destruct (all (DGVSvisit nodes attrs visits iteration n) l) as [r'| | | |] eqn:Er; try discriminate. cbn [bind] in E. injection E as <-.
    destruct I as [<-|I]; [exists v; exact Ev|exact (IH _ eq_refl f I)]. }
  unfold DGVSast. generalize visits at 2 as vs. generalize nodes at 2 as ns.
  induction ns as [|n ns IH]; intros vs functions E fs f c optional declared body x r Ifs If_ Is Ix Ir; cbn [DGVSnodes] in E; [injection E as <-; destruct Ifs|].
  destruct vs as [|v vs]; [discriminate|].
  destruct (all (DGVSvisit nodes attrs visits iteration n) v) as [g| | | |] eqn:Ev; try discriminate. cbn [bind] in E.
  destruct (DGVSnodes nodes attrs visits iteration ns vs) as [r'| | | |] eqn:Er; try discriminate. cbn [bind] in E. injection E as <-.
  destruct Ifs as [<-|Ifs]; [|exact (IH _ _ Er _ _ _ _ _ _ _ _ Ifs If_ Is Ix Ir)].
  destruct (All _ _ _ Ev f If_) as (w & Ew). unfold DGVSvisit in Ew.
  destruct (attribute_names attrs (v_inputs (fst w))) as [i| | | |]; try discriminate. cbn [bind] in Ew.
  destruct (sequence nodes attrs visits iteration n (snd w)) as [b| | | |] eqn:Eb; try discriminate. cbn [bind] in Ew.
  destruct (attribute_names attrs (v_outputs (fst w))) as [o| | | |]; try discriminate. cbn [bind] in Ew. injection Ew as <-.
  exact (Seq _ _ _ Eb _ _ _ _ _ _ Is Ix Ir).
Qed.
Print Assumptions C44_results_declared.

(** ** Non-vacuity *)

(** The conditions hold for the specification [value_to_depth], with a nodeset,
    optional children and two visits. *)
Example C44_conditions : conditions value_to_depth = Val true.
Proof. vm_compute. reflexivity. Qed.
(** This is what is stored for a tree with an absent child. *)
Example C44_run : stored value_to_depth sum_of_one = Val
  [ ([0; 0], "depth", Term "EVALadd_left_depth" [Term "EVALprog_body_depth" [Term "EVALadd_this_value_right_NULL" [Term "EVALnum_this_value" []]]]);
    ([0], "depth", Term "EVALprog_body_depth" [Term "EVALadd_this_value_right_NULL" [Term "EVALnum_this_value" []]]);
    ([0], "value", Term "EVALadd_this_value_right_NULL" [Term "EVALnum_this_value" []]);
    ([0; 0], "value", Term "EVALnum_this_value" []) ].
Proof. vm_compute. reflexivity. Qed.

Lemma conditions_hold : forall a, parsed_ast a -> unmarked a -> conditions a = Val true ->
  exists s lits gs ps vt all functions, before_scheduling a = Val (s, lits) /\
    typing (a_nodes a) (a_nodesets a) (get_node_type (a_nodes a) (a_nodesets a)) /\
    dependency_graphs (fun l => l) a = Val (gs, []) /\
    productions (a_nodes a) (a_nodesets a) (attributes_of s) (member_of a) ps /\
    (forall b, inherited (attributes_of s) b -> ~ synthesized (attributes_of s) b) /\
    no_self_dependency ps /\ no_child_input_read a s /\ plain_children a /\
    SAVvisits (a_nodes a) (a_nodesets a) s lits 1000 gs = Val (vt, all) /\
    members_agree a s lits (get_node_type (a_nodes a) (a_nodesets a)) vt /\
    DGVSast (a_nodes a) s all (fun l => l) = Val functions /\ compiles functions = true.
Proof.
  intros a P U H. destruct (front_ok a P U) as (s & lits & B & Ty).
  { unfold conditions in H. destruct (before_scheduling a) as [[s lits]| | | |]; try discriminate. reflexivity. }
  unfold conditions, generated in H. rewrite B in H. cbn [bind fst snd] in H. unfold visit_sequences in H. rewrite B in H. cbn [bind fst snd] in H.
  destruct (dependency_graphs (fun l => l) a) as [[gs errs]| | | |] eqn:R; try discriminate. cbn [bind fst snd] in H.
  destruct errs; [|discriminate].
  destruct (SAVvisits (a_nodes a) (a_nodesets a) s lits 1000 gs) as [[vt all]| | | |] eqn:V; try discriminate. cbn [bind fst snd] in H.
  destruct (DGVSast (a_nodes a) s all (fun l => l)) as [functions| | | |] eqn:Gen; try discriminate. cbn [bind] in H. injection H as H.
  apply andb_true_iff in H. destruct H as (H & H6). apply andb_true_iff in H. destruct H as (H & H5). apply andb_true_iff in H. destruct H as (H & H4).
  apply andb_true_iff in H. destruct H as (H & H3). apply andb_true_iff in H. destruct H as (H1 & H2).
  destruct (C32_cycles_reported_partial a s lits (fun l => l) _ P U B (fun l => Permutation_refl l) Ty) as ((ps & Pr) & _).
  exists s, lits, gs, ps, vt, all, functions. split; [exact B|]. split; [exact Ty|]. split; [reflexivity|]. split; [exact Pr|].
  split; [exact (once_checked s H2)|]. split; [exact (no_self_checked a s lits P U B H5 ps Pr)|].
  split; [exact (no_read_checked a s lits P U B H3)|]. split; [exact (plain_checked a H4)|]. split; [exact V|].
  split; [exact (agree_checked a s lits P U B vt H1 _ Ty)|]. split; [exact Gen|exact H6].
Qed.

Lemma sum_of_one_typed : well_typed (a_nodes value_to_depth) (a_nodesets value_to_depth) (member_of value_to_depth) sum_of_one.
Proof.
  destruct (front_ok value_to_depth (expressions_parsed _ _) (expressions_unmarked _ _)) as (s & lits & B & Ty); [vm_compute; reflexivity|].
  assert (Mem : forall m, m = 1 \/ m = 2 -> member_of value_to_depth 0 m).
  { intros m Hm. destruct (before_scheduling_input value_to_depth s lits (expressions_parsed _ _) (expressions_unmarked _ _) B) as (_ & _ & _ & Mem & _).
    assert (El : Val lits = map_outcome snd (before_scheduling value_to_depth)) by (rewrite B; reflexivity).
    vm_compute in El. injection El as El.
    destruct Hm as [-> | ->]; (apply Mem; eexists; eexists; rewrite El; split; [reflexivity|]; split; [reflexivity|]; vm_compute; auto). }
  assert (Op : forall i n c, nth_error (a_nodes value_to_depth) i = Some n -> c < List.length (nd_children n) -> EvalVariantsSpec.optional n c).
  { intros i n c Hn Lc. destruct (nth_error (nd_children n) c) as [x|] eqn:Hc; [|apply nth_error_None in Hc; lia]. exists x. split; [exact Hc|].
    intros l Il. exfalso. destruct i as [|[|[|i]]]; try (destruct i; discriminate Hn); injection Hn as <-; cbn in Hc;
      (destruct c as [|[|c]]; try discriminate Hc; try (injection Hc as <-; destruct Il); destruct c; discriminate Hc). }
  assert (Kid : forall i c m, get_node_type (a_nodes value_to_depth) (a_nodesets value_to_depth) (OChild i c) = Some (TSet 0) -> m = 1 \/ m = 2 ->
    may_be (a_nodes value_to_depth) (a_nodesets value_to_depth) (member_of value_to_depth) i c m).
  { intros i c m T Hm. right. exists 0. split; [apply Ty; exact T|exact (Mem m Hm)]. }
  unfold sum_of_one, node. econstructor; [reflexivity|reflexivity| | |].
  - intros c H. destruct c as [|c]; [discriminate H|destruct c; discriminate H].
  - intros c u H. destruct c as [|c]; [|destruct c; discriminate H]. injection H as <-. apply Kid; [reflexivity|left; reflexivity].
  - intros c u H. destruct c as [|c]; [|destruct c; discriminate H]. injection H as <-. econstructor; [reflexivity|reflexivity| | |].
    + intros c H. apply (Op 1); [reflexivity|]. destruct c as [|[|c]]; [cbn; lia|cbn; lia|destruct c; discriminate H].
    + intros c u H. destruct c as [|[|c]]; [|discriminate H|destruct c; discriminate H]. injection H as <-. apply Kid; [reflexivity|right; reflexivity].
    + intros c u H. destruct c as [|[|c]]; [|discriminate H|destruct c; discriminate H]. injection H as <-. econstructor; [reflexivity|reflexivity| | |];
        intros c; destruct c; discriminate.
Qed.

(** So the theorem applies to it. *)
Example C44_instance : exists s functions st, map_outcome fst (before_scheduling value_to_depth) = Val s /\ generated value_to_depth = Val functions /\
  CCNevaluateAttributes (a_nodes value_to_depth) s apply_function functions sum_of_one = Val st /\ once st /\
  evaluated (a_nodes value_to_depth) (attributes_of s) apply_function (fetch st) sum_of_one.
Proof.
  destruct (conditions_hold value_to_depth (expressions_parsed _ _) (expressions_unmarked _ _) C44_conditions)
    as (s & lits & gs & ps & vt & all & functions & B & Ty & R & Pr & H1 & H2 & H3 & H4 & V & H5 & Gen & Cmp).
  destruct (C44_evaluates_partial value_to_depth s lits (fun l => l) _ gs (expressions_parsed _ _) (expressions_unmarked _ _) B (fun l => Permutation_refl l) Ty R
    ps Pr H1 H2 H3 H4 1000 vt all V H5 (fun l => l) functions (fun l => Permutation_refl l) Gen Cmp term apply_function sum_of_one sum_of_one_typed)
    as (st & E & O & Ev).
  - assert (Es : Val s = map_outcome fst (before_scheduling value_to_depth)) by (rewrite B; reflexivity).
    vm_compute in Es. injection Es as Es. rewrite Es. intros x [].
  - apply lta_part with (TSet 0); [exists 0; apply Ty; vm_compute; reflexivity|].
    assert (Es : Val (s, lits) = before_scheduling value_to_depth) by (rewrite B; reflexivity).
    vm_compute in Es. injection Es as Es El.
    apply lta_own with (b := (TSet 0, 0)).
    + destruct (pr_members _ _ _ _ _ Pr 0 1) as (p & Ip & Np).
      * destruct (before_scheduling_input value_to_depth s lits (expressions_parsed _ _) (expressions_unmarked _ _) B) as (_ & _ & _ & Mem & _).
        apply Mem. eexists. eexists. rewrite El. split; [reflexivity|]. split; [reflexivity|]. vm_compute. auto.
      * exists p. split; [exact Ip|]. apply (mp_root _ _ _ _ Np).
    + split; [reflexivity|]. right. rewrite Es. eexists. split; vm_compute; reflexivity.
  - exists s, functions, st. split; [rewrite B; reflexivity|]. split; [|auto].
    unfold generated, visit_sequences. rewrite B. cbn [bind fst snd]. rewrite R. cbn [bind fst snd]. rewrite V. cbn [bind fst snd]. exact Gen.
Qed.

(** ** What fails without the conditions

    All these specifications are accepted by the checks of the compiler. *)

(** Members that do not agree with their nodeset: the code compiles and runs
    without error, but the attributes i and s of the first child never get a
    value. *)
Theorem C44_members_agree_refuted :
  conditions uneven = Val false /\ map_outcome compiles (generated uneven) = Val true /\
  map_outcome (map fst) (stored uneven (node 0 [Some (node 1 []); Some (node 1 [])])) = Val [([1], "s"); ([1], "i"); ([0], "t"); ([1], "t")].
Proof. vm_compute. repeat split. Qed.
Print Assumptions C44_members_agree_refuted.

(** An equation that reads an inherited attribute of a child, or the attribute
    it computes: an attribute without value is read. *)
Theorem C44_reads_refuted :
  map_outcome compiles (generated child_input) = Val true /\ stored child_input (node 0 [Some (node 1 [])]) = Undef /\
  map_outcome compiles (generated own_input) = Val true /\ stored own_input (node 0 []) = Undef.
Proof. vm_compute. repeat split. Qed.
Print Assumptions C44_reads_refuted.

(** The generated code is not correct C: a structure declared twice, and two
    variables with one name. *)
Theorem C44_compiles_refuted :
  map_outcome compiles (generated two_mandatory) = Val false /\
  map_outcome compiles (generated same_variable) = Val false.
Proof. vm_compute. repeat split. Qed.
Print Assumptions C44_compiles_refuted.

(** The generator follows a NULL pointer, if the first member of a nodeset
    delivers nothing and another does. *)
Theorem C44_generates_refuted : is_val (visit_sequences first_silent) = true /\ generated first_silent = Undef.
Proof. vm_compute. repeat split. Qed.
Print Assumptions C44_generates_refuted.
