(** Proofs for C62. *)

From Coq Require Import List Bool Ascii Arith Lia Permutation.
From Verif Require Import Base.Outcome Palm.StrModel Front.Syntax Front.SetsModel Front.SetsSpec Front.PropagateModel Front.NodesetPassesProof
  Sched.GraphModel Sched.ScheduleModel Sched.PartitionModel Sched.VisitModel Sched.ScheduleGraphs Sched.FrontendModel Sched.FrontendProof Sched.OrderProof
  Gen.EvalVariantsModel Gen.EvalVariantsSpec Gen.EvalVariantsProof Gen.EvalVariantsNames Gen.EvalVariantsProps
  Gen.EvaluateModel Gen.StubsModel Gen.CompileModel Gen.CompilePasses Gen.ReproduceSpec.
Import ListNotations.
Local Open Scope outcome_scope.

(** ** The analysis *)
Lemma semantic_any_order : forall shuffle1 shuffle2 mx a x, parsed_ast a -> unmarked a -> iterates shuffle1 -> iterates shuffle2 ->
  semantic shuffle1 mx a = Val x -> semantic shuffle2 mx a = Val x.
Proof.
  intros shuffle1 shuffle2 mx a x P U S1 S2 E. apply semantic_val in E. destruct E as ((s & lits) & g1 & v & B & G1 & V & X).
  destruct (accepted_any_order a s lits P U B shuffle1 shuffle2 S1 S2 g1 G1) as (g2 & G2).
  assert (T := tables_same a s lits P U B shuffle1 shuffle2 S1 S2 g1 g2 G1 G2).
  apply semantic_val. exists (s, lits), g2, v. split; [exact B|]. split; [exact G2|]. split; [|exact X].
  cbn [fst snd] in *. rewrite <- V. symmetry. apply visits_same. exact T.
Qed.

(** For trees that the earlier passes accept, every outcome is the same. *)
Lemma analysis_any_order : forall shuffle1 shuffle2 mx a r, parsed_ast a -> unmarked a -> iterates shuffle1 -> iterates shuffle2 ->
  before_scheduling a = Val r -> semantic shuffle1 mx a = semantic shuffle2 mx a.
Proof.
  intros shuffle1 shuffle2 mx a [s lits] P U S1 S2 B.
  destruct (before_scheduling_input a s lits P U B) as (G & GE & Lit & Mem & Cov).
  assert (X : forall shuffle, iterates shuffle -> exists gs errs, dependency_graphs shuffle a = Val (gs, errs)).
  { intros shuffle S. destruct (graphs_right (a_nodes a) (a_nodesets a) s lits G GE Lit Cov shuffle S) as (gs & errs & ps & E & _). exists gs, errs. unfold dependency_graphs. rewrite B. exact E. }
  destruct (X shuffle1 S1) as (g1 & e1 & E1). destruct (X shuffle2 S2) as (g2 & e2 & E2).
  unfold semantic. apply passes_accept in B as Pa. rewrite Pa. cbn [bind fst snd].
  assert (F1 := E1). assert (F2 := E2). unfold dependency_graphs in F1, F2. rewrite B in F1, F2. cbn [bind fst snd] in F1, F2. rewrite F1, F2. cbn [bind fst snd].
  destruct e1 as [|x1 e1], e2 as [|x2 e2].
  - assert (T := tables_same a s lits P U B shuffle1 shuffle2 S1 S2 g1 g2 E1 E2). rewrite (visits_same _ _ _ _ _ _ _ T). reflexivity.
  - destruct (accepted_any_order a s lits P U B shuffle1 shuffle2 S1 S2 g1 E1) as (g & Z). rewrite Z in E2. discriminate E2.
  - destruct (accepted_any_order a s lits P U B shuffle2 shuffle1 S2 S1 g2 E2) as (g & Z). rewrite Z in E1. discriminate E1.
  - reflexivity.
Qed.

(** ** Evaluations *)
Section Specification.
  Variable a : ast.
  Variable s : pra.
  Variable lits : list Syntax.literal.
  Hypothesis P : parsed_ast a.
  Hypothesis U : unmarked a.
  Hypothesis B : before_scheduling a = Val (s, lits).
  Variable it1 it2 : list nat -> list nat.
  Hypothesis I1 : iterates it1.
  Hypothesis I2 : iterates it2.

  Lemma few_of : forall {A} k (f : nat -> outcome A) r, (let! c := combinations k in f c) = Val r -> k < 64.
  Proof.
    intros A k f r H. unfold combinations in H. destruct (k <? 64) eqn:E; [apply Nat.ltb_lt; exact E|discriminate H].
  Qed.

  Lemma statement_any_order : forall n r e l, In n (a_nodes a) -> get_equation n r = Some e ->
    eval_statement n it1 r e = Val l -> exists m, eval_statement n it2 r e = Val m /\
    forall null, (forall c, null c = true -> optional n c) -> exists call, run null l = Val call /\ run null m = Val call.
  Proof.
    intros n r e l In_n Ge E. assert (Ie := proj1 (get_equation_some _ _ _ Ge)).
    destruct (accepted_good a s lits P U B n In_n) as (D & Rs). specialize (Rs e Ie).
    destruct (collect_children_right n D (eq_args e) Rs) as (children & C & O).
    assert (Few : length children < 64).
    { unfold eval_statement in E. rewrite C in E. cbn [bind] in E. destruct children as [|c children]; [cbn; lia|]. exact (few_of _ _ _ E). }
    destruct (statement_right n D e Rs children O C Few it1 (I1 children) r) as (l' & El & Hl). rewrite El in E. injection E as <-.
    destruct (statement_right n D e Rs children O C Few it2 (I2 children) r) as (m & Em & Hm). exists m. split; [exact Em|].
    intros null Legal. assert (Oo : only_optional n e null) by (intros r' c _ _ Hc; apply Legal; exact Hc).
    destruct (Hl null Oo) as (p & Rp & Vp). destruct (Hm null Oo) as (q & Rq & Vq). exists p. split; [exact Rp|]. rewrite Rq. f_equal.
    exact (is_variant_unique n e children r null q p Vq Vp).
  Qed.

  Section Node.
    Variable n : inode.
    Hypothesis In_n : In n (a_nodes a).
    Variable attrs : pra.
    Variable visits : list (list (visit * list VisitModel.entry)).

    Lemma evaluation_any_order : forall x st, evaluation (a_nodes a) attrs it1 n x = Val st ->
      exists st', evaluation (a_nodes a) attrs it2 n x = Val st' /\ same_statement n st st'.
    Proof.
      intros x st H. unfold evaluation in *. destruct (evaluation_reference _ _ _) as [r|]; [|discriminate].
      destruct (attribute_at _ _) as [d|]; [|discriminate]. unfold DGVSvisit_sequence_eval in *.
      destruct (get_equation n r) as [e|] eqn:Ge; [|discriminate]. destruct (eval_statement n it1 r e) as [l| | | |] eqn:E; try discriminate.
      destruct (statement_any_order n r e l In_n Ge E) as (m & Em & S). rewrite Em. cbn [map_outcome bind] in *.
      destruct (ar_inode r).
      - injection H as <-. eexists. split; [reflexivity|]. constructor. exact S.
      - destruct (at_is_synthesized d); [|discriminate]. injection H as <-. eexists. split; [reflexivity|]. constructor. exact S.
    Qed.

    Lemma visit_statements : forall c k alternatives l, DGVSvisit_sequence_visit attrs visits n c k alternatives = Val l ->
      Forall2 (same_statement n) l l.
    Proof.
      intros c k alternatives l H. unfold DGVSvisit_sequence_visit in H. destruct (skip_dummies alternatives) as [|(m & b) alt].
      - injection H as <-. constructor.
      - destruct (visit_arguments _ _ m k) as [y| | | |]; try discriminate. cbn [bind] in H.
        destruct (match alt with [] => _ | _ :: _ => _ end) as [body| | | |] in H; try discriminate. cbn [bind] in H. injection H as <-.
        constructor; [constructor|constructor].
    Qed.

    Lemma sequence_any_order : forall l st, sequence (a_nodes a) attrs visits it1 n l = Val st ->
      exists st', sequence (a_nodes a) attrs visits it2 n l = Val st' /\ Forall2 (same_statement n) st st'.
    Proof.
      induction l as [|e l IH]; intros st H; cbn [sequence] in H |- *.
      - injection H as <-. exists []. split; [reflexivity|constructor].
      - assert (X : forall x r, st = x ++ r -> sequence (a_nodes a) attrs visits it1 n l = Val r ->
          forall x', Forall2 (same_statement n) x x' ->
          exists st', (let! r := sequence (a_nodes a) attrs visits it2 n l in Val (x' ++ r)) = Val st' /\ Forall2 (same_statement n) st st').
        { intros x r -> Er x' Sx. destruct (IH r Er) as (r' & Er' & Sr). rewrite Er'. eexists. split; [reflexivity|]. apply Forall2_app; assumption. }
        destruct e as [x|[t|i c] k alternatives]; [|discriminate|].
        + destruct (evaluation (a_nodes a) attrs it1 n x) as [y| | | |] eqn:E; try discriminate. cbn [bind map_outcome] in H.
          destruct (sequence (a_nodes a) attrs visits it1 n l) as [r| | | |] eqn:Er; try discriminate. cbn [bind] in H. injection H as H.
          destruct (evaluation_any_order x y E) as (y' & E' & Sy). rewrite E'. cbn [bind map_outcome].
          apply (X [y] r); [symmetry; exact H|exact eq_refl|]. constructor; [exact Sy|constructor].
        + destruct (DGVSvisit_sequence_visit attrs visits n c k alternatives) as [y| | | |] eqn:E; try discriminate. cbn [bind] in H |- *.
          destruct (sequence (a_nodes a) attrs visits it1 n l) as [r| | | |] eqn:Er; try discriminate. cbn [bind] in H. injection H as H.
          apply (X y r); [symmetry; exact H|exact eq_refl|]. exact (visit_statements _ _ _ _ E).
    Qed.

    Lemma visit_any_order : forall v f, DGVSvisit (a_nodes a) attrs visits it1 n v = Val f ->
      exists g, DGVSvisit (a_nodes a) attrs visits it2 n v = Val g /\ same_function n f g.
    Proof.
      intros v f H. unfold DGVSvisit in *. destruct (attribute_names attrs (v_inputs (fst v))) as [i| | | |]; try discriminate. cbn [bind] in *.
      destruct (sequence (a_nodes a) attrs visits it1 n (snd v)) as [b| | | |] eqn:E; try discriminate. cbn [bind] in *.
      destruct (attribute_names attrs (v_outputs (fst v))) as [o| | | |] eqn:Eo; try discriminate. cbn [bind] in H. injection H as <-.
      destruct (sequence_any_order _ _ E) as (b' & E' & Sb). rewrite E'. cbn [bind].
      eexists. split; [reflexivity|]. split; [reflexivity|]. split; [exact Sb|reflexivity].
    Qed.

    Lemma all_any_order : forall {X Y} (R : Y -> Y -> Prop) (f g : X -> outcome Y) l,
      (forall x y, In x l -> f x = Val y -> exists z, g x = Val z /\ R y z) ->
      forall r, all f l = Val r -> exists r', all g l = Val r' /\ Forall2 R r r'.
    Proof.
      intros X Y R f g. induction l as [|x l IH]; intros H r E; cbn [all] in E |- *.
      - injection E as <-. exists []. split; [reflexivity|constructor].
      - destruct (f x) as [y| | | |] eqn:Ex; try discriminate. cbn [bind] in E. destruct (all f l) as [r0| | | |] eqn:El; try discriminate. cbn [bind] in E. injection E as <-.
        destruct (H x y (or_introl eq_refl) Ex) as (z & Ez & Rz). destruct (IH (fun x y I => H x y (or_intror I)) r0 eq_refl) as (r1 & E1 & R1).
        rewrite Ez. cbn [bind]. rewrite E1. eexists. split; [reflexivity|]. constructor; assumption.
    Qed.
  End Node.

  Lemma nodes_any_order : forall attrs visits ns vs f, (forall n, In n ns -> In n (a_nodes a)) ->
    DGVSnodes (a_nodes a) attrs visits it1 ns vs = Val f ->
    exists g, DGVSnodes (a_nodes a) attrs visits it2 ns vs = Val g /\ same_code ns f g.
  Proof.
    intros attrs visits. induction ns as [|n ns IH]; intros vs f Sub H; cbn [DGVSnodes] in H |- *.
    - injection H as <-. exists []. split; [reflexivity|constructor].
    - destruct vs as [|v vs]; [discriminate|]. destruct (all _ v) as [x| | | |] eqn:E in H; try discriminate. cbn [bind] in H.
      destruct (DGVSnodes (a_nodes a) attrs visits it1 ns vs) as [r| | | |] eqn:Er in H; try discriminate. cbn [bind] in H. injection H as <-.
      destruct (all_any_order (same_function n) _ (DGVSvisit (a_nodes a) attrs visits it2 n) v
        (fun w y _ Ew => visit_any_order n (Sub n (or_introl eq_refl)) attrs visits w y Ew) x E) as (x' & E' & Sx).
      destruct (IH vs r (fun n I => Sub n (or_intror I)) Er) as (r' & Er' & Sr). rewrite E'. cbn [bind]. rewrite Er'. cbn [bind].
      eexists. split; [reflexivity|]. constructor; assumption.
  Qed.

  Lemma code_any_order : forall attrs visits f, DGVSast (a_nodes a) attrs visits it1 = Val f ->
    exists g, DGVSast (a_nodes a) attrs visits it2 = Val g /\ same_code (a_nodes a) f g.
  Proof. intros attrs visits f H. exact (nodes_any_order attrs visits (a_nodes a) visits f (fun n I => I) H). Qed.

  (** ** Prototypes and stubs *)
  Lemma equation_any_order : forall n e d, In n (a_nodes a) -> In e (nd_equations n) -> DGEFequation n it1 e = Val d ->
    exists d', DGEFequation n it2 e = Val d' /\ Permutation d d'.
  Proof.
    intros n e d In_n Ie E. destruct (accepted_good a s lits P U B n In_n) as (D & Rs). specialize (Rs e Ie).
    destruct (collect_children_right n D (eq_args e) Rs) as (children & C & O).
    assert (Few : length children < 64).
    { unfold DGEFequation in E. rewrite C in E. cbn [bind] in E. exact (few_of _ _ _ E). }
    assert (E1 := declared_val n D e Rs children O C Few it1 (I1 children)). assert (E2 := declared_val n D e Rs children O C Few it2 (I2 children)).
    rewrite E1 in E. injection E as <-. eexists. split; [exact E2|].
    assert (Sub : forall i j, iterates i -> iterates j -> forall p, In p (map (EvalVariantsProof.declaration n e children i) (seq 0 (2 ^ length children))) ->
      In p (map (EvalVariantsProof.declaration n e children j) (seq 0 (2 ^ length children)))).
    { intros i j Ii Ij p Ip. apply in_map_iff in Ip. destruct Ip as (m & <- & Im).
      destruct (declaration_variant n D e Rs children O i (Ii children) m) as (_ & V).
      assert (Oo := absent_optional n e children O i (Ii children) m).
      destruct (declares_variant n D e Rs children O Few j (Ij children) _ Oo) as (q & Iq & Vq).
      rewrite (is_variant_unique n e children _ _ _ _ V Vq). exact Iq. }
    apply NoDup_Permutation.
    - apply (NoDup_map_inv fst). apply declared_once; auto.
    - apply (NoDup_map_inv fst). apply declared_once; auto.
    - intros p. split; apply Sub; assumption.
  Qed.

  Lemma permuted_concat : forall {A} (l m : list (list A)), Forall2 (@Permutation A) l m -> Permutation (concat l) (concat m).
  Proof. intros A l m H. induction H; cbn [concat]; [constructor|]. apply Permutation_app; assumption. Qed.

  Lemma equations_any_order : forall n d, In n (a_nodes a) -> DGEFequations n it1 = Val d ->
    exists d', DGEFequations n it2 = Val d' /\ Permutation d d'.
  Proof.
    intros n d In_n E. unfold DGEFequations in *. destruct (all (DGEFequation n it1) (nd_equations n)) as [r| | | |] eqn:Er; try discriminate. cbn [bind] in E. injection E as <-.
    destruct (all_any_order (@Permutation prototype) _ (DGEFequation n it2) (nd_equations n) (fun e y Ie Ey => equation_any_order n e y In_n Ie Ey) r Er) as (r' & Er' & Pr).
    rewrite Er'. eexists. split; [reflexivity|]. apply permuted_concat. exact Pr.
  Qed.

  Lemma node_file_any_order : forall n d, In n (a_nodes a) -> DUGEinode it1 n = Val d ->
    exists d', DUGEinode it2 n = Val d' /\ same_files d d'.
  Proof.
    intros n d In_n E. unfold DUGEinode in *. destruct (nd_equations n) eqn:En.
    - injection E as <-. eexists. split; [reflexivity|constructor].
    - destruct (DGEFequations n it1) as [r| | | |] eqn:Er; try discriminate. cbn [bind] in E. injection E as <-.
      destruct (equations_any_order n r In_n Er) as (r' & Er' & Pr). rewrite Er'. eexists. split; [reflexivity|].
      constructor; [|constructor]. split; [reflexivity|]. cbn [snd]. apply Permutation_map. exact Pr.
  Qed.

  Lemma same_refl : forall d, same_files d d.
  Proof. induction d; constructor; auto. Qed.

  Lemma opened_any_order : forall l m, same_files l m -> forall d e, same_files d e ->
    same_files (fold_left GNopenUserFile l d) (fold_left GNopenUserFile m e).
  Proof.
    intros l m H. induction H as [|f g l m [Hf Hp] H IH]; intros d e De; cbn [fold_left]; [exact De|]. apply IH. unfold GNopenUserFile.
    apply Forall2_app; [|constructor; [auto|constructor]]. rewrite Hf. clear -De. induction De as [|x y d e [E Q] De IH]; [constructor|].
    cbn [filter]. rewrite E. destruct (list_eq_dec ascii_dec (fst y) (fst g)); [exact IH|]. constructor; auto.
  Qed.

  Lemma directory_any_order : forall d, user_directory it1 a = Val d -> exists d', user_directory it2 a = Val d' /\ same_files d d'.
  Proof.
    intros d E. unfold user_directory, dynamicGenUserFiles in *. destruct (unwrap a) as [u| | | |]; try discriminate. cbn [bind] in *.
    unfold DUGEast in *. destruct (map_val (DUGEinode it1) (a_nodes a)) as [l| | | |] eqn:El; try discriminate. cbn [bind] in *. injection E as <-.
    change (all (DUGEinode it1) (a_nodes a) = Val l) in El.
    destruct (all_any_order same_files _ (DUGEinode it2) (a_nodes a) (fun n y I Ey => node_file_any_order n y I Ey) l El) as (l' & El' & Sl).
    change (map_val (DUGEinode it2) (a_nodes a) = Val l') in El'. rewrite El'. cbn [bind]. eexists. split; [reflexivity|].
    change (same_files (fold_left GNopenUserFile (DUGPast a :: DUGTast a (fst u) ++ concat l) [])
                       (fold_left GNopenUserFile (DUGPast a :: DUGTast a (fst u) ++ concat l') [])).
    apply opened_any_order; [|constructor].
    constructor; [auto|]. apply Forall2_app; [apply same_refl|]. clear -Sl. induction Sl; cbn [concat]; [constructor|]. apply Forall2_app; assumption.
  Qed.
End Specification.
