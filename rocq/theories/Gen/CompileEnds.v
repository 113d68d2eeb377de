(** The compiler ends on every file (C48). *)

From Coq Require Import List Ascii Bool Arith Lia Permutation.
From Verif Require Import Base.Outcome Palm.StrModel Front.Syntax Front.SetsModel Front.SetsSpec Front.SetsProof Front.SetsTotal
  Front.SymbolTableModel Front.CheckExistanceModel Front.CheckExistanceProof Front.NodesetTableModel Front.NodesetTableProof
  Front.PropagateModel Front.PropagateSpec Front.PropagateWalk
  Front.NodesetPassesModel Front.NodesetPassesProof Front.CheckAttributesModel
  Front.ProductRulesModel Front.ProductRulesProof
  Sched.GraphModel Sched.GraphSpec Sched.ScheduleModel Sched.ScheduleSpec Sched.ScheduleProof Sched.ScheduleProps Sched.PartitionModel Sched.PartitionSpec Sched.PartitionGrammar
  Sched.PartitionProps Sched.VisitModel Sched.EmptyVisitProof Sched.FrontendModel Sched.FrontendProof Gen.EvalVariantsModel Gen.EvaluateModel
  Sched.GraphsEnd Gen.CompileModel Gen.CompilePasses Gen.CompileSpec Gen.CompileVerdict.
Import ListNotations.
Local Open Scope outcome_scope.

Lemma bind_ends : forall A B (m : outcome A) (f : A -> outcome B), m <> NoFuel -> (forall x, m = Val x -> f x <> NoFuel) -> bind m f <> NoFuel.
Proof. intros A B [x| | | |] f M F; cbn [bind]; try discriminate; [apply F; reflexivity|destruct (M eq_refl)]. Qed.
Lemma map_ends : forall A B (f : A -> B) (m : outcome A), m <> NoFuel -> map_outcome f m <> NoFuel.
Proof. intros A B f m M. apply bind_ends; [exact M|discriminate]. Qed.

Ltac ends_with tac :=
  repeat first
    [ discriminate
    | progress tac
    | apply bind_ends; [|let x := fresh "x" in intros x ?]
    | apply map_ends
    | match goal with |- context [match ?x with _ => _ end] => destruct x end
    | assumption
    | match goal with H : forall _, _ |- _ => apply H end ].

Lemma all_ends : forall X Y (f : X -> outcome Y) l, (forall x, f x <> NoFuel) -> all f l <> NoFuel.
Proof. intros X Y f l F. induction l as [|x l IH]; cbn [all]; ends_with fail. Qed.

Section Visits.
  Variable nodes : list inode.
  Variable sets : list inodeset.
  Variable attrs : pra.
  Variable literals : list literal.

  Lemma child_visits_ends : forall vt o, child_visits nodes sets vt o <> NoFuel.
  Proof. intros. unfold child_visits. ends_with fail. Qed.
  Lemma sched_equation_dependency_ends : forall vt node w d, sched_equation_dependency nodes sets attrs vt node w d <> NoFuel.
  Proof. intros vt node [q u] d. unfold sched_equation_dependency. ends_with ltac:(apply child_visits_ends). Qed.
  Lemma sched_attributes_ends : forall vt node sch l w b, sched_attributes nodes sets attrs vt node sch w b l <> NoFuel.
  Proof. intros vt node sch. induction l as [|x l IH]; intros w b; cbn [sched_attributes]; ends_with ltac:(apply sched_equation_dependency_ends). Qed.
  Lemma lookup_all_ends : forall g o l, lookup_all g o l <> NoFuel.
  Proof. intros g o. induction l as [|x l IH]; cbn [lookup_all]; ends_with fail. Qed.
  Lemma sched_dependencies_ends : forall vt g node sch w x, sched_dependencies nodes sets attrs vt g node sch w x <> NoFuel.
  Proof.
    intros vt g node sch w [x|o k]; cbn [sched_dependencies]; [apply sched_attributes_ends|].
    ends_with ltac:(first [apply child_visits_ends|apply lookup_all_ends|apply sched_attributes_ends]).
  Qed.
  Lemma mark_scheduled_ends : forall vt g sch x, mark_scheduled nodes sets vt g sch x <> NoFuel.
  Proof.
    intros vt g sch [x|o k]; cbn [mark_scheduled]; [discriminate|].
    ends_with ltac:(first [apply child_visits_ends|apply lookup_all_ends]).
  Qed.
  Lemma nodeset_alternatives_ends : forall vt k l, nodeset_alternatives nodes vt k l <> NoFuel.
  Proof. intros vt k. induction l as [|r l1 IH1 l2 IH2]; cbn [nodeset_alternatives]; ends_with fail. Qed.
  Lemma add_visit_sequence_ends : forall vt node l x, add_visit_sequence nodes sets attrs literals vt node l x <> NoFuel.
  Proof.
    intros vt node l x. unfold add_visit_sequence, make_entry, append_entry. ends_with ltac:(apply nodeset_alternatives_ends).
  Qed.
  Lemma visit_loop_ends : forall vt g node it sch w l, visit_loop nodes sets attrs literals vt g node it sch w l <> NoFuel.
  Proof.
    intros vt g node. induction it as [|it IH]; intros sch [q u] l; cbn [visit_loop].
    - ends_with fail.
    - ends_with ltac:(first [apply sched_dependencies_ends|apply mark_scheduled_ends|apply add_visit_sequence_ends]).
  Qed.
  Lemma all_child_visits_ends : forall vt i l k, all_child_visits nodes sets vt i k l <> NoFuel.
  Proof. intros vt i. induction l as [|c l IH]; intros k; cbn [all_child_visits]; ends_with ltac:(apply child_visits_ends). Qed.
  Lemma generate_sequences_ends : forall vt g node mx i n vs sch, generate_sequences nodes sets attrs literals vt g node mx i n sch vs <> NoFuel.
  Proof.
    intros vt g node mx i n. induction vs as [|v vs IH]; intros sch; cbn [generate_sequences]; [discriminate|].
    apply bind_ends; [|intros x _; ends_with fail]. unfold generate_visit. ends_with ltac:(first [apply all_child_visits_ends|apply visit_loop_ends]).
  Qed.
  Lemma generate_all_ends : forall mx vt gs l i, generate_all nodes sets attrs literals mx vt gs i l <> NoFuel.
  Proof.
    intros mx vt gs. induction l as [|n l IH]; intros i; cbn [generate_all]; [discriminate|].
    unfold generate_visits. ends_with ltac:(apply generate_sequences_ends).
  Qed.
End Visits.

Section Generate.
  Variable nodes : list inode.
  Variable attrs : pra.
  Variable visits : list (list (visit * list VisitModel.entry)).
  Variable iteration : list nat -> list nat.

  Lemma attribute_names_ends : forall l, attribute_names attrs l <> NoFuel.
  Proof. induction l as [|x l IH]; cbn [attribute_names]; ends_with fail. Qed.
  Lemma visit_arguments_ends : forall m k, visit_arguments attrs visits m k <> NoFuel.
  Proof. intros m k. unfold visit_arguments. ends_with ltac:(apply attribute_names_ends). Qed.
  Lemma desired_ends : forall l outputs, desired l outputs <> NoFuel.
  Proof. intros l outputs. induction l as [|x l IH]; cbn [desired]; unfold is_desired; ends_with fail. Qed.
  Lemma print_visit_call_ends : forall n c m k o b, print_visit_call attrs visits n c m k o b <> NoFuel.
  Proof. intros. unfold print_visit_call. ends_with ltac:(first [apply visit_arguments_ends|apply desired_ends]). Qed.
  Lemma print_alternatives_ends : forall n c k o l, print_alternatives attrs visits n c k o l <> NoFuel.
  Proof.
    intros n c k o. induction l as [|[m b] l IH]; cbn [print_alternatives]; ends_with ltac:(apply print_visit_call_ends).
  Qed.
  Lemma collect_children_ends : forall n args l, collect_children n l args <> NoFuel.
  Proof. intros n. induction args as [|r args IH]; intros l; cbn [collect_children]; ends_with fail. Qed.
  Lemma print_equation_args_ends : forall n t args, print_equation_args n t args <> NoFuel.
  Proof. intros n t. induction args as [|r args IH]; cbn [print_equation_args]; ends_with fail. Qed.
  Lemma eval_statement_ends : forall n r e, eval_statement n iteration r e <> NoFuel.
  Proof.
    intros n r e. unfold eval_statement, combinations. apply bind_ends; [apply collect_children_ends|]. intros ch _.
    destruct ch as [|c ch]; [ends_with ltac:(apply print_equation_args_ends)|]. apply bind_ends; [ends_with fail|].
    intros k _. apply all_ends. intros x. ends_with ltac:(apply print_equation_args_ends).
  Qed.
  Lemma evaluation_ends : forall n x, evaluation nodes attrs iteration n x <> NoFuel.
  Proof. intros n x. unfold evaluation, DGVSvisit_sequence_eval. ends_with ltac:(apply eval_statement_ends). Qed.
  Lemma sequence_ends : forall n l, sequence nodes attrs visits iteration n l <> NoFuel.
  Proof.
    intros n. induction l as [|e l IH]; cbn [sequence]; [discriminate|]. apply bind_ends; [|intros x _; ends_with fail].
    destruct e as [x|[t|i c] k alt]; [apply map_ends, evaluation_ends|discriminate|].
    unfold DGVSvisit_sequence_visit. destruct (skip_dummies alt) as [|[m b] l']; [discriminate|].
    apply bind_ends; [apply visit_arguments_ends|]. intros a _. apply bind_ends; [|discriminate].
    destruct l'; apply map_ends; [apply print_visit_call_ends|apply print_alternatives_ends].
  Qed.
  Lemma DGVSast_ends : DGVSast nodes attrs visits iteration <> NoFuel.
  Proof.
    unfold DGVSast. generalize visits at 2 as vs. generalize nodes at 2 as ns. induction ns as [|n ns IH]; intros vs; cbn [DGVSnodes]; [discriminate|].
    destruct vs as [|v vs]; [discriminate|]. apply bind_ends; [|intros x _; ends_with fail]. apply all_ends. intros x.
    unfold DGVSvisit. ends_with ltac:(first [apply attribute_names_ends|apply sequence_ends]).
  Qed.
End Generate.

Lemma check_names_ends : forall a, check_names a <> NoFuel.
Proof. intros a. unfold check_names, BSTast, CEXast. ends_with fail. Qed.

Lemma before_scheduling_ends : forall a, parsed_ast a -> unmarked a -> before_scheduling a <> NoFuel.
Proof.
  intros a P U. unfold before_scheduling.
  assert (NP : nodeset_passes a <> NoFuel).
  { unfold nodeset_passes. assert (CE := check_names_ends a).
    destruct (is_val (check_names a)) eqn:C; [|destruct (check_names a); try discriminate; congruence].
    destruct (NCTast_right (a_nodesets a) (unique a C) (resolve a C)) as (t & Et & _).
    destruct (check_names a) as [ste| | | |] eqn:Ec; try discriminate. cbn [bind]. rewrite Et. cbn [bind].
    destruct (n_errors t) as [|e es] eqn:En; [|discriminate]. rewrite <- Ec in C.
    destruct (unwrap a) as [[ts ls]| | | |] eqn:Eu; cbn [bind snd]; try discriminate; [|destruct (unwrap_enough_fuel a Eu)].
    destruct (PRAast_right _ _ _ (input a P U t ts ls C Et En Eu)) as (s & Epr & _). rewrite Epr. cbn [bind].
    destruct (p_errors s); discriminate. }
  apply bind_ends; [exact NP|]. intros s Ep.
  destruct (passes_val a s Ep) as (t & ts & ls & C & Et & En & Eu & Epr & Es). rewrite Et. cbn [bind]. rewrite Eu. cbn [bind snd].
  destruct (CHAast _ _); [|discriminate].
  destruct (product_rules_right a s P U Ep) as (r & Er & _). rewrite Er. cbn [bind]. destruct (c_errors r); discriminate.
Qed.

Lemma passes_of_scheduling : forall a, parsed_ast a -> unmarked a -> passes a <> NoFuel /\
  forall errs r, passes a = Val (errs, r) -> nodeset_passes a = Val (fst r).
Proof.
  intros a P U. assert (NF : passes a <> NoFuel).
  { intros E. assert (C := passes_cases a). rewrite E in C. destruct C as [C|C]; [exact (before_scheduling_ends a P U C)|].
    unfold passes in E. unfold before_scheduling in C.
    destruct (nodeset_passes a) as [s| | | |] eqn:Ep; cbn [bind] in *; try congruence.
    destruct (passes_val a s Ep) as (t & ts & ls & _ & Et & _ & Eu & _). rewrite Et, Eu in E. cbn [bind snd] in E.
    destruct (existsb of_action _); [discriminate|]. destruct (product_rules_right a s P U Ep) as (r & Er & _). rewrite Er in E. cbn [bind] in E.
    destruct (c_errors r); discriminate. }
  split; [exact NF|]. intros errs r E. unfold passes in E.
  destruct (nodeset_passes a) as [s| | | |] eqn:Ep; try discriminate. cbn [bind] in E.
  destruct (passes_val a s Ep) as (t & ts & ls & _ & Et & _ & Eu & _). rewrite Et, Eu in E. cbn [bind snd] in E.
  destruct (existsb of_action _); [discriminate|]. destruct (CPRast _ _ s) as [q| | | |]; try discriminate. cbn [bind] in E.
  destruct (c_errors q); [|discriminate]. injection E as _ <-. reflexivity.
Qed.

Theorem semantic_ends : forall shuffle mx a, (forall l, Permutation (shuffle l) l) -> parsed_ast a -> unmarked a ->
  semantic shuffle mx a <> NoFuel.
Proof.
  intros shuffle mx a Sh P U. unfold semantic. destruct (passes_of_scheduling a P U) as [NF Np].
  destruct (passes a) as [[errs [s lits]]| | | |] eqn:E; cbn [bind fst snd]; try discriminate; [|destruct (NF eq_refl)].
  assert (G := passes_grammar a s P U (Np _ _ eq_refl)).
  destruct (SAVgraphs_end (a_nodes a) (a_nodesets a) s lits shuffle Sh) as [Ng Fg].
  destruct (SAVgraphs _ _ _ _ _) as [[gs [|e es]]| | | |]; cbn [bind fst snd]; try discriminate; [|destruct (Ng eq_refl)].
  specialize (Fg _ eq_refl eq_refl). cbn [fst] in Fg.
  apply bind_ends; [|intros v _; destruct errs; discriminate]. unfold SAVvisits.
  apply bind_ends; [apply partition_types_end; [exact (attributes_distinct _ _ _ G)|exact Fg]|]. intros tables _.
  apply bind_ends; [apply collect_types_end|]. intros vt _.
  apply bind_ends; [apply generate_empty_visits_ends|]. intros vt' _. apply bind_ends; [apply generate_all_ends|discriminate].
Qed.

Theorem translate_ends : forall shuffle mx iteration a, (forall l, Permutation (shuffle l) l) -> parsed_ast a -> unmarked a ->
  translate shuffle mx iteration a <> NoFuel.
Proof.
  intros shuffle mx iteration a Sh P U. unfold translate. apply bind_ends; [exact (semantic_ends shuffle mx a Sh P U)|].
  intros x _. apply bind_ends; [apply DGVSast_ends|discriminate].
Qed.
