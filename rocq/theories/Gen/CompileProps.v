(** C48: which files the compiler accepts, and that it ends.
    C49: from a file to the values of the attributes. *)

From Coq Require Import String.
From Coq Require Import List Ascii Bool Arith Lia Permutation Relations.
From Verif Require Import Base.Outcome Palm.StrModel Front.Syntax Front.SetsModel Front.SetsSpec Front.SetsInst Front.SetsProof Front.SetsTotal
  Front.SymbolTableSpec Front.CheckExistanceModel Front.CheckExistanceSpec Front.CheckExistanceProof
  Front.NodesetTableModel Front.NodesetTableSpec Front.NodesetTableProof Front.PropagateModel Front.PropagateSpec Front.CheckAttributesSpec
  Front.ExampleInst Front.NodesetPassesModel Front.NodesetPassesProof.
From Verif Require Import Sched.GraphModel Sched.GraphSpec Sched.ScheduleModel Sched.ScheduleSpec Sched.ScheduleProof Sched.ScheduleInst Sched.ScheduleProps
  Sched.PartitionModel Sched.PartitionSpec Sched.PartitionGrammar Sched.VisitModel Sched.VisitGrammar Sched.FrontendModel Sched.FrontendProof.
From Verif Require Import Gen.EvalVariantsModel Gen.EvalVariantsInst Gen.EvaluateModel Gen.EvaluateSpec Gen.EvaluateProof Gen.EvaluateGrammar Gen.EvaluateCheck
  Gen.EvaluateInst Gen.EvaluateProps Gen.TablesProof Front.ProductRulesModel Front.ProductRulesProof Sched.CycleProof Sched.VisitEntries Sched.VisitProps.
From Verif Require Import Front.ParserModel Front.FileModel Front.FileInst Front.FileProps.
From Verif Require Import Gen.CompileModel Gen.CompilePasses Gen.CompileSpec Gen.CompileParsed Gen.CompileVerdict Gen.CompileLegal Gen.CompileEnds Gen.CompileInst.
Import ListNotations.
Local Open Scope string_scope.
Local Open Scope list_scope.
Local Open Scope outcome_scope.

(** ** C48: the verdict *)

(** The trees of files are as the theorems about the passes assume. *)
Theorem C48_trees : forall t p, reads_file t p -> parsed_ast (ast_of p) /\ unmarked (ast_of p) /\ uids_present (ast_of p).
Proof. exact tree_in_range. Qed.
Print Assumptions C48_trees.

Lemma compiled_accepted : forall shuffle mx iteration t a x fs, compile shuffle mx iteration t (Val (a, x, fs)) ->
  exists p r, reads_file t p /\ a = ast_of p /\ before_scheduling (ast_of p) = Val r.
Proof.
  intros shuffle mx iteration t a x fs C. inversion C as [p F E|]. subst. unfold translate in E.
  destruct (semantic shuffle mx (ast_of p)) as [y| | | |] eqn:S; try discriminate. cbn [bind] in E.
  destruct (DGVSast _ _ _ _) as [f| | | |]; try discriminate. cbn in E. injection E as <- _ _.
  apply semantic_val in S. destruct S as (r & g & v & B & _). exists p, r. auto.
Qed.

(** In whatever order nodesets are declared, visit functions are only generated
    for legal specifications, as long as no attribute of a nodeset is marked
    with "constructor" (the compiler looks for this only at the first
    attribute of each nodeset). *)
Theorem C48_compiled_legal_partial : forall shuffle mx iteration t a x fs,
  compile shuffle mx iteration t (Val (a, x, fs)) ->
  (forall i y, declares_attribute a i y -> at_in_constructor y = false) ->
  legal a.
Proof.
  intros shuffle mx iteration t a x fs C Con. destruct (compiled_accepted _ _ _ _ _ _ _ C) as (p & r & F & -> & B).
  destruct (tree_in_range t p F) as (P & U & _). exact (accepted_legal _ _ P U B Con).
Qed.
Print Assumptions C48_compiled_legal_partial.

(** A file that is read as a specification which declares nodesets before it
    uses them and obeys the rules for attributes: if the specification is legal
    the passes accept it, otherwise nothing is generated, and the compilation
    ends with an error if nodesets with attributes are unions and no two passes
    have the same function (see [C27_reported_refuted]).  The full
    statement has none of these conditions, and says that a specification is
    accepted if and only if it is legal and obeys the rules for attributes,
    and that otherwise the compilation ends with an error.  That is false, see
    below. *)
Theorem C48_verdict_partial : forall t p, reads_file t p ->
  declared_before_use (a_nodesets (ast_of p)) -> attribute_rules (ast_of p) ->
  (legal (ast_of p) -> exists r, before_scheduling (ast_of p) = Val r) /\
  (~ legal (ast_of p) -> forall shuffle mx iteration r, compile shuffle mx iteration t r ->
     (forall x, r <> Val x) /\
     (attributes_on_unions (ast_of p) -> distinct_names (pass_functions (ast_of p)) -> r = Exited)).
Proof.
  intros t p F D R. destruct (tree_in_range t p F) as (P & U & _). split.
  - intros L. assert (V := legal_accepted _ P U D L R). destruct (before_scheduling (ast_of p)) as [r| | | |]; try discriminate. eauto.
  - intros L shuffle mx iteration r C.
    assert (Con : forall i y, declares_attribute (ast_of p) i y -> at_in_constructor y = false)
      by (intros i y Y; exact (proj1 (ar_sets _ R i y Y))).
    split.
    + intros [[a x] fs] ->. assert (C' := C). apply compiled_accepted in C'. destruct C' as (p' & _ & F' & -> & _).
      rewrite <- (C47_one_tree t p p' F F') in *. exact (L (C48_compiled_legal_partial _ _ _ _ _ _ _ C Con)).
    + intros Un Df. destruct C as [p' F'|N]; [|reflexivity]. rewrite <- (C47_one_tree t p p' F F').
      destruct (passes_end _ P U D Df) as [(x & E)|E]; [destruct (L (accepted_legal _ _ P U E Con))|].
      assert (X : passes (ast_of p) = Exited).
      { unfold passes. unfold before_scheduling in E. destruct (nodeset_passes (ast_of p)) as [s| | | |] eqn:Ep; try discriminate; [|reflexivity].
        destruct (passes_val _ s Ep) as (t' & ts & ls & Ch & Et & En & Eu & Epr & Es). cbn [bind] in *. rewrite Et, Eu in *. cbn [bind snd] in *.
        rewrite (rules_checked _ P U t' ts ls Ch Et En Eu s Epr Es R Un) in *. cbn [existsb].
        destruct (CPRast _ _ s) as [q| | | |]; try discriminate E; [|reflexivity]. cbn [bind] in *. destruct (c_errors q); [discriminate E|reflexivity]. }
      unfold translate, semantic. rewrite X. reflexivity.
Qed.
Print Assumptions C48_verdict_partial.

(** The compiler ends on every file, ... *)
Theorem C48_ends : forall shuffle mx iteration t r, (forall l, Permutation (shuffle l) l) ->
  compile shuffle mx iteration t r -> r <> NoFuel.
Proof.
  intros shuffle mx iteration t r Sh [p F|N]; [|discriminate]. destruct (tree_in_range t p F) as (P & U & _).
  apply map_ends. exact (translate_ends shuffle mx iteration _ Sh P U).
Qed.
Print Assumptions C48_ends.

(** ... with one result. *)
Theorem C48_one_result : forall shuffle mx iteration t,
  exists r, forall r', compile shuffle mx iteration t r' <-> r' = r.
Proof.
  intros shuffle mx iteration t. destruct (read_file t) as [p|] eqn:E.
  - assert (F : reads_file t p) by (apply read_file_iff; exact E).
    eexists. intros r'. split.
    + intros [p' F'|N]; [|destruct (N p F)]. rewrite (C47_one_tree t p' p F' F). reflexivity.
    + intros ->. exact (compile_read shuffle mx iteration t p F).
  - assert (N : forall p, ~ reads_file t p) by (intros p F; apply read_file_iff in F; congruence).
    exists Exited. intros r'. split; [intros [p F|_]; [destruct (N p F)|reflexivity]|intros ->; apply compile_rejected, N].
Qed.
Print Assumptions C48_one_result.

(** *** Instances *)

Lemma tree_read : forall t a, tree t = Some a -> exists p, reads_file t p /\ ast_of p = a.
Proof.
  intros t a H. unfold tree in H. destruct (read_file t) as [p|] eqn:E; [|discriminate]. injection H as <-. exists p.
  split; [apply read_file_iff; exact E|reflexivity].
Qed.

Lemma depth_read : tree depth_text = Some depth_ast.
Proof. vm_compute. reflexivity. Qed.

Lemma depth_rules : attribute_rules depth_ast.
Proof.
  assert (G : forall i x, declares_attribute depth_ast i x -> at_in_constructor x = false /\ at_lifetimes x = []).
  { intros i x (m & Hm & Hx). destruct i as [|i]; [|destruct i; discriminate Hm]. injection Hm as <-.
    repeat destruct Hx as [<-|Hx]; try destruct Hx; split; reflexivity. }
  constructor.
  - intros n x In_n Ix. cbn in In_n. repeat destruct In_n as [<-|In_n]; try destruct In_n; destruct Ix.
  - intros n x In_n Root [Ix|(i & (m & S & Hm & Hx & D & M) & _)];
      (cbn in In_n; repeat destruct In_n as [<-|In_n]; try destruct In_n; try discriminate Root); [destruct Ix|].
    destruct i as [|i]; [|destruct i; discriminate Hm]. injection Hm as <-. cbn [ns_expr ns_attributes] in *.
    assert (D' : denotes (a_nodesets depth_ast) (ELiteral (parse_literal [nm "add"; nm "num"])) (fun x => In x (map ID_LWR [nm "add"; nm "num"]))).
    { apply den_literal. reflexivity. }
    assert (Un : names_unique (a_nodesets depth_ast)) by (unfold names_unique; vm_compute; repeat constructor; intros []).
    apply (denotes_unique _ _ _ _ Un D D') in M.
    vm_compute in M. intuition discriminate.
  - intros i x Dx. destruct (G i x Dx) as [A B]. split; [exact A|]. intros _. auto.
Qed.

(** A file that fulfils all conditions and is legal, ... *)
Example C48_example : exists p, reads_file depth_text p /\
  declared_before_use (a_nodesets (ast_of p)) /\ attribute_rules (ast_of p) /\ legal (ast_of p).
Proof.
  destruct (tree_read _ _ depth_read) as (p & F & E). exists p. split; [exact F|]. destruct (tree_in_range _ _ F) as (P & U & _).
  rewrite E in *. split; [|split; [exact depth_rules|]].
  - split; [intros id []|exact I].
  - destruct (before_scheduling depth_ast) as [r| | | |] eqn:B; try (vm_compute in B; discriminate B).
    apply (accepted_legal _ _ P U B). intros i x Dx. exact (proj1 (ar_sets _ depth_rules i x Dx)).
Qed.

(** ... and one that is not legal. *)
Example C48_illegal : exists p, reads_file missing_text p /\ declared_before_use (a_nodesets (ast_of p)) /\ ~ legal (ast_of p).
Proof.
  destruct (tree missing_text) as [a|] eqn:E; [|vm_compute in E; discriminate E]. destruct (tree_read _ _ E) as (p & F & Ea).
  exists p. split; [exact F|]. rewrite Ea. clear Ea F. vm_compute in E. injection E as <-. split; [split; [intros id []|exact I]|].
  intros L. match type of L with legal ?a => set (a0 := a) in * end.
  destruct (l_synthesized _ L (nth 1 (a_nodes a0) (mk_node [] true [] [] [] [])) (syn_attr "value" AT_int)) as (e & Ie & _); [right; left; reflexivity| |reflexivity|destruct Ie].
  right. exists 0. split; [|intros o []]. eexists. exists (fun x => In x (map ID_LWR [nm "num"])). split; [reflexivity|].
  split; [left; reflexivity|]. split; [exact (den_literal (a_nodesets a0) [nm "num"] _ (fun x => iff_refl _))|]. left. reflexivity.
Qed.

(** *** What is false *)

(** A file whose root has an inherited attribute is accepted, since the
    compiler checks only the first attribute of each node. *)
Theorem C48_rules_refuted : exists p, reads_file root_text p /\ ~ attribute_rules (ast_of p) /\
  is_val (before_scheduling (ast_of p)) = true.
Proof.
  destruct (tree root_text) as [a|] eqn:E; [|vm_compute in E; discriminate E]. destruct (tree_read _ _ E) as (p & F & Ea).
  exists p. split; [exact F|]. rewrite Ea. clear Ea F. vm_compute in E. injection E as <-. split; [|vm_compute; reflexivity].
  intros R. match type of R with attribute_rules ?a => set (a0 := a) in * end.
  assert (X := ar_root _ R (nth 0 (a_nodes a0) (mk_node [] true [] [] [] [])) (inh_attr "env" AT_int)).
  discriminate X; [left; reflexivity|reflexivity|left; right; left; reflexivity].
Qed.
Print Assumptions C48_rules_refuted.

(** An attribute that two nodesets give to a node is accepted, if it is marked
    with "constructor". *)
Theorem C48_given_twice_refuted : exists p, reads_file given_twice_text p /\ ~ legal (ast_of p) /\
  is_val (before_scheduling (ast_of p)) = true.
Proof.
  destruct (tree given_twice_text) as [a|] eqn:E; [|vm_compute in E; discriminate E]. destruct (tree_read _ _ E) as (p & F & Ea).
  exists p. split; [exact F|]. rewrite Ea. clear Ea F. vm_compute in E. injection E as <-. split; [|vm_compute; reflexivity].
  intros L. match type of L with legal ?a => set (a0 := a) in * end.
  assert (G : forall i m x, nth_error (a_nodesets a0) i = Some m -> ns_expr m = ELiteral (parse_literal [nm "n"]) -> In x (ns_attributes m) ->
    given_by a0 (nth 0 (a_nodes a0) (mk_node [] true [] [] [] [])) i x).
  { intros i m x Hm Em Hx. exists m, (fun x => In x (map ID_LWR [nm "n"])). split; [exact Hm|]. split; [exact Hx|]. rewrite Em.
    split; [exact (den_literal (a_nodesets a0) [nm "n"] _ (fun x => iff_refl _))|]. left. reflexivity. }
  assert (X : 0 = 1); [|discriminate X].
  set (x := mk_attribute (nm "x") AT_int None true false false false []).
  apply (l_once _ L (nth 0 (a_nodes a0) (mk_node [] true [] [] [] [])) 0 x 1 x); [left; reflexivity| | |reflexivity|intros o []].
  - eapply G; [reflexivity|reflexivity|right; left; reflexivity].
  - eapply G; [reflexivity|reflexivity|right; left; reflexivity].
Qed.
Print Assumptions C48_given_twice_refuted.

(** A legal specification with nodesets that are used before they are declared
    crashes the compiler (C26). *)
Theorem C48_any_order_refuted : exists p, reads_file used_first_text p /\ legal (ast_of p) /\ attribute_rules (ast_of p) /\
  before_scheduling (ast_of p) = Undef.
Proof.
  destruct (tree used_first_text) as [a|] eqn:E; [|vm_compute in E; discriminate E]. destruct (tree_read _ _ E) as (p & F & Ea).
  exists p. split; [exact F|]. rewrite Ea. clear Ea F. vm_compute in E. injection E as <-.
  match goal with |- legal ?a /\ _ => set (a0 := a) in * end.
  assert (C : is_val (check_names a0) = true) by (vm_compute; reflexivity).
  assert (D : forall i x, ~ declares_attribute a0 i x).
  { intros i x (m & Hm & Hx). do 3 (destruct i as [|i]; [injection Hm as <-; destruct Hx|]). destruct i; discriminate Hm. }
  assert (G : forall n i x, ~ given_by a0 n i x) by (intros n i x (m & S & Hm & Hx & _); apply (D i x); exists m; auto).
  assert (SG : forall k i x, ~ set_given_by a0 k i x) by (intros k i x (H & _); exact (D i x H)).
  assert (N : forall n, In n (a_nodes a0) -> nd_attributes n = [] /\ nd_children n = [] /\ nd_equations n = []).
  { intros n I. cbn in I. repeat destruct I as [<-|I]; try destruct I; auto. }
  assert (NA : forall n x, In n (a_nodes a0) -> ~ node_attribute a0 n x).
  { intros n x In_n [I|(i & H & _)]; [|exact (G n i x H)]. destruct (N n In_n) as (E & _). rewrite E in I. destruct I. }
  split; [|split; [|vm_compute; reflexivity]].
  - destruct (checked_names a0 C) as (A1 & A2 & A3). constructor; auto.
    + destruct (NCTast_right (a_nodesets a0) (unique a0 C) (resolve a0 C)) as (t & Et & _ & Q & _). intros Rec. apply Q in Rec.
      assert (X : map_outcome n_errors (NCTast (a_nodesets a0)) = Val []) by (vm_compute; reflexivity).
      rewrite Et in X. injection X as X. exact (Rec X).
    + intros k m i x _ H. elim (SG _ _ _ H).
    + intros n i x j y _ H. elim (G _ _ _ H).
    + intros n i x o _ H. elim (G _ _ _ H).
    + intros n i x c _ H. elim (G _ _ _ H).
    + intros k i x j y _ H. elim (SG _ _ _ H).
    + intros n x In_n H. elim (NA _ _ In_n H).
    + intros n c x In_n Ic. destruct (N n In_n) as (_ & E & _). rewrite E in Ic. destruct Ic.
    + intros n e In_n Ie. destruct (N n In_n) as (_ & _ & E). rewrite E in Ie. destruct Ie.
    + intros n e r In_n Ie. destruct (N n In_n) as (_ & _ & E). rewrite E in Ie. destruct Ie.
  - constructor.
    + intros n x In_n Ix. destruct (N n In_n) as (E & _). rewrite E in Ix. destruct Ix.
    + intros n x In_n _ H. elim (NA _ _ In_n H).
    + intros i x H. elim (D _ _ H).
Qed.
Print Assumptions C48_any_order_refuted.

(** The error about an attribute of a nodeset that is not a union does not end
    the compilation at once, and the scheduler crashes. *)
Theorem C48_crash_refuted : exists p, reads_file difference_text p /\ declared_before_use (a_nodesets (ast_of p)) /\
  attribute_rules (ast_of p) /\ ~ legal (ast_of p) /\
  forall shuffle mx iteration, compile shuffle mx iteration difference_text Undef.
Proof.
  destruct (tree difference_text) as [a|] eqn:E; [|vm_compute in E; discriminate E]. destruct (tree_read _ _ E) as (p & F & Ea).
  assert (Cr : forall shuffle mx iteration, translate shuffle mx iteration (ast_of p) = Undef).
  { intros shuffle mx iteration. rewrite Ea. clear Ea F. vm_compute in E. injection E as <-. vm_compute. reflexivity. }
  exists p. split; [exact F|].
  split; [|split; [|split; [|intros shuffle mx iteration; assert (C := compile_read shuffle mx iteration _ p F); rewrite Cr in C; exact C] ] ];
    rewrite Ea; clear Ea F Cr; vm_compute in E; injection E as <-; match goal with |- context [mk_ast ?p ?q ?r ?n ?s ?e] => set (a0 := mk_ast p q r n s e) end.
  - split; [|split; [intros id []|exact I] ]. intros id [<-|[]]. eexists. split; [left; reflexivity|reflexivity].
  - assert (D : forall i x, declares_attribute a0 i x -> x = syn_attr "e" AT_int).
    { intros i x (m & Hm & Hx). destruct i as [|[|i] ]; [injection Hm as <-|injection Hm as <-|destruct i; discriminate Hm]; cbn in Hx.
      - destruct Hx as [<-|[]]. reflexivity.
      - destruct Hx. }
    constructor.
    + intros n x In_n Ix. cbn in In_n. destruct In_n as [<-|[<-|[]] ]; destruct Ix.
    + intros n x In_n _ [Ix|(i & (m & S & Hm & Hx & _) & _)].
      * cbn in In_n. destruct In_n as [<-|[<-|[]] ]; destruct Ix.
      * rewrite (D i x); [reflexivity|]. exists m. auto.
    + intros i x Dx. rewrite (D i x Dx). split; [reflexivity|]. intros _. split; reflexivity.
  - intros L. refine (l_unions _ L 0 _ 0 (syn_attr "e" AT_int) eq_refl _ _).
    + split; [|left; reflexivity]. eexists. split; [reflexivity|left; reflexivity].
    + cbn. auto.
Qed.
Print Assumptions C48_crash_refuted.

(** ** C49: from a file to values *)

(** If the compiler generates visit functions for a file, they evaluate the
    attributes of all trees, under the conditions of C44. *)
Theorem C49_file_evaluated_partial : forall shuffle mx iteration t a x fs,
  (forall l, Permutation (shuffle l) l) -> (forall l, Permutation (iteration l) l) ->
  compile shuffle mx iteration t (Val (a, x, fs)) ->
  (exists ty, typing (a_nodes a) (a_nodesets a) ty) /\
  (exists ps, productions (a_nodes a) (a_nodesets a) (attributes_of (an_attributes x)) (member_of a) ps) /\
  forall ty ps, typing (a_nodes a) (a_nodesets a) ty ->
   productions (a_nodes a) (a_nodesets a) (attributes_of (an_attributes x)) (member_of a) ps ->
   (forall b, inherited (attributes_of (an_attributes x)) b -> ~ synthesized (attributes_of (an_attributes x)) b) ->
   no_self_dependency ps -> no_child_input_read a (an_attributes x) -> plain_children a ->
   members_agree a (an_attributes x) (an_members x) ty (an_visits x) -> compiles fs = true ->
   forall (V : Type) (eval : cstring -> list V -> V) (u : EvaluateModel.tree V),
   well_typed (a_nodes a) (a_nodesets a) (member_of a) u ->
   (forall y, In y (attributes_of (an_attributes x) (TNode (type_of u))) -> at_is_inherited y = false) ->
   leads_to_attributes a (an_attributes x) ps (TNode (type_of u)) ->
   exists st, CCNevaluateAttributes (a_nodes a) (an_attributes x) eval fs u = Val st /\ once st /\
     evaluated (a_nodes a) (attributes_of (an_attributes x)) eval (fetch st) u.
Proof.
  intros shuffle mx iteration t a x fs Sh It C. inversion C as [p F E|]. subst. destruct (tree_in_range t p F) as (P & U & _).
  unfold translate in E. destruct (semantic shuffle mx (ast_of p)) as [y| | | |] eqn:Sm; try discriminate.
  apply semantic_val in Sm. destruct Sm as ([s lits] & gs & [vt all] & B & R & Vi & ->). cbn [bind fst snd an_attributes an_sequences] in *.
  destruct (DGVSast _ _ _ _) as [f| | | |] eqn:Ge; try discriminate. cbn in E. injection E as <- <- <-.
  cbn [an_attributes an_members an_visits].
  destruct (front_ok _ P U) as (s' & lits' & B' & Ty); [rewrite B; reflexivity|]. rewrite B in B'. injection B' as <- <-.
  destruct (C32_cycles_reported_partial _ s lits shuffle _ P U B Sh Ty) as ((ps & Pr) & _).
  split; [eauto|]. split; [eauto|]. clear ps Pr Ty. intros ty ps Ty Pr Once NoSelf NoRead Plain Agree Cmp.
  exact (C44_evaluates_partial _ s lits shuffle ty gs P U B Sh Ty R ps Pr Once NoSelf NoRead Plain mx vt all Vi Agree iteration f It Ge Cmp).
Qed.
Print Assumptions C49_file_evaluated_partial.

(** The conditions hold for the file [depth_text], and these are the values for
    a tree with an absent child. *)
Example C49_example : exists p x fs s, reads_file depth_text p /\
  compile (fun l => l) 1000 (fun l => l) depth_text (Val (ast_of p, x, fs)) /\
  conditions (ast_of p) = Val true /\
  CCNevaluateAttributes (a_nodes (ast_of p)) (an_attributes x) apply_function fs sum_of_one = Val s /\
  map (fun y => (fst (fst y), string_of_list_ascii (snd (fst y)), snd y)) s =
  [ ([0; 0], "depth", Term "EVALadd_left_depth" [Term "EVALprog_body_depth" [Term "EVALadd_this_value_right_NULL" [Term "EVALnum_this_value" []]]]);
    ([0], "depth", Term "EVALprog_body_depth" [Term "EVALadd_this_value_right_NULL" [Term "EVALnum_this_value" []]]);
    ([0], "value", Term "EVALadd_this_value_right_NULL" [Term "EVALnum_this_value" []]);
    ([0; 0], "value", Term "EVALnum_this_value" []) ].
Proof.
  destruct (tree_read _ _ depth_read) as (p & F & E).
  assert (C := compile_read (fun l => l) 1000 (fun l => l) _ p F). rewrite E in *.
  destruct (translate (fun l => l) 1000 (fun l => l) depth_ast) as [[x fs]| | | |] eqn:T; try (vm_compute in T; discriminate T).
  destruct (CCNevaluateAttributes (a_nodes depth_ast) (an_attributes x) apply_function fs sum_of_one) as [s| | | |] eqn:Ev.
  2-5: exfalso; assert (X : (let! r := translate (fun l => l) 1000 (fun l => l) depth_ast in
    CCNevaluateAttributes (a_nodes depth_ast) (an_attributes (fst r)) apply_function (snd r) sum_of_one) =
    CCNevaluateAttributes (a_nodes depth_ast) (an_attributes x) apply_function fs sum_of_one) by (rewrite T; reflexivity);
    rewrite Ev in X; vm_compute in X; discriminate X.
  exists p, x, fs, s. rewrite E. split; [exact F|]. split; [exact C|]. split; [vm_compute; reflexivity|]. split; [exact Ev|].
  assert (X : (let! r := translate (fun l => l) 1000 (fun l => l) depth_ast in
    CCNevaluateAttributes (a_nodes depth_ast) (an_attributes (fst r)) apply_function (snd r) sum_of_one) = Val s) by (rewrite T; exact Ev).
  vm_compute in X. injection X as <-. reflexivity.
Qed.
