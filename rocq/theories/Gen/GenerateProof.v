(** Code is generated for every plan that does not compute an inherited
    attribute of the node itself (C58). *)

From Coq Require Import String.
From Coq Require Import List Ascii Bool Arith Lia Permutation.
From Verif Require Import Sched.GraphModel Sched.GraphSpec Sched.GraphProof Sched.ScheduleModel Sched.ScheduleSpec Sched.ScheduleProof
  Sched.PartitionModel Sched.PartitionSpec Sched.PartitionGrammar Sched.VisitModel Sched.VisitSpec Sched.VisitProof Sched.EmptyVisitProof
  Sched.VisitGrammar Sched.VisitEntries Sched.VisitDemand Sched.VisitProps.
From Verif Require Import Base.Outcome Palm.StrModel Front.Syntax Front.SetsSpec Front.SetsInst Front.NodesetTableModel Front.PropagateModel Front.PropagateSpec
  Front.NodesetPassesProof Front.ProductRulesModel Front.ProductRulesSpec Front.ProductRulesProof
  Sched.FrontendModel Sched.FrontendProof Sched.CycleProof
  Gen.EvalVariantsModel Gen.EvalVariantsSpec Gen.EvalVariantsProof Gen.EvalVariantsNames Gen.EvalVariantsProps
  Gen.EvaluateModel Gen.EvaluateSpec Gen.EvaluateProof Gen.EvaluateCode Gen.EvaluateGrammar Gen.StubsSpec Gen.GenerateSpec.
Import ListNotations.
Local Open Scope list_scope.
Local Open Scope outcome_scope.

Lemma all_defined : forall {X Y} (f : X -> outcome Y) l, (forall x, In x l -> exists y, f x = Val y) -> exists r, EvalVariantsModel.all f l = Val r.
Proof.
  intros X Y f l. induction l as [|x l IH]; intros H; cbn; [eauto|]. destruct (H x (or_introl eq_refl)) as (y & ->). cbn [bind].
  destruct IH as (r & ->); [intros z I; apply H; right; exact I|]. cbn [bind]. eauto.
Qed.
Lemma desired_defined : forall outputs l, l = [] \/ outputs <> [] -> exists r, desired l outputs = Val r.
Proof.
  intros outputs l H. destruct H as [->|H]; [exists []; reflexivity|]. induction l as [|x l (r & E)]; cbn [desired]; [eauto|].
  unfold is_desired. destruct outputs as [|o outputs]; [congruence|]. cbn [bind]. rewrite E. cbn [bind]. eauto.
Qed.
Lemma attribute_names_defined : forall attrs l, (forall x, In x l -> exists d, attribute_at attrs (snd x) = Some d) ->
  exists r, attribute_names attrs l = Val r /\ length r = length l.
Proof.
  intros attrs l. induction l as [|x l IH]; intros H; cbn [attribute_names]; [exists []; auto|].
  destruct (H x (or_introl eq_refl)) as (d & ->). destruct IH as (r & -> & L); [intros y I; apply H; right; exact I|]. cbn [bind].
  eexists. split; [reflexivity|]. cbn [length]. congruence.
Qed.

Section Specification.
  Variable a : ast.
  Variable s : pra.
  Variable lits : list literal.
  Variable shuffle : list (graph_key * ag_graph) -> list (graph_key * ag_graph).
  Variable ty : occurrence -> option target.
  Hypothesis P : parsed_ast a.
  Hypothesis U : unmarked a.
  Hypothesis B : before_scheduling a = Val (s, lits).
  Hypothesis Sh : forall l, Permutation (shuffle l) l.
  Hypothesis Ty : typing (a_nodes a) (a_nodesets a) ty.
  Variable gs : list (graph_key * ag_graph).
  Hypothesis R : dependency_graphs shuffle a = Val (gs, []).
  Variable ps : list (production occurrence aptr).
  Hypothesis Pr : productions (a_nodes a) (a_nodesets a) (attributes_of s) (member_of a) ps.
  Variable vt : visits_table.
  Variable all : list (list (visit * list VisitModel.entry)).
  Variable max : nat.
  Hypothesis V : SAVvisits (a_nodes a) (a_nodesets a) s lits max gs = Val (vt, all).
  Variable iteration : list nat -> list nat.
  Hypothesis It : forall l, Permutation (iteration l) l.
  Hypothesis Few : few_children a.
  Hypothesis This : no_child_this a.
  Hypothesis Lead : forall i n o, nth_error (a_nodes a) i = Some n -> In o (children i n) -> leading_member a lits ty vt o.
  Hypothesis Deliver : forall i n o, nth_error (a_nodes a) i = Some n -> In o (children i n) -> leading_delivers a s lits ty vt o.
  Hypothesis Own : forall i n res r x, nth_error (a_nodes a) i = Some n -> nth_error all i = Some res -> In r res -> In (EEval x) (snd r) ->
    fst x = OType (TNode i) -> synthesized (attributes_of s) (snd x) /\ ~ inherited (attributes_of s) (snd x).

  Notation nodes := (a_nodes a).
  Notation table := (table a s lits shuffle ty P U B Sh Ty gs R ps Pr vt all max V).

  Lemma sequences_of : forall m n, nth_error nodes m = Some n -> exists res, nth_error all m = Some res /\ visits_of vt (TNode m) = Some (map fst res).
  Proof.
    intros m n Hm. destruct (pr_nodes _ _ _ _ _ Pr m n Hm) as (p & Ip & Np).
    destruct (C34_schedule a s lits shuffle ty gs P U B Sh Ty R ps Pr max vt all V m n p Hm Ip Np) as (res & H1 & H2 & _). eauto.
  Qed.
  Lemma visit_attributes : forall t vs v x, visits_of vt t = Some vs -> In v vs -> In x (v_inputs v ++ v_outputs v) ->
    exists d, attribute_at s (snd x) = Some d.
  Proof.
    intros t vs v x Q Iv Ix. destruct (proj2 table t vs Q) as (T1 & _). destruct (T1 v x Iv Ix) as (_ & _ & [(d & D & _)|(d & D & _)]); exists d; exact D.
  Qed.
  Lemma arguments_defined : forall m n k, nth_error nodes m = Some n -> k < visit_count vt (TNode m) ->
    exists i o, visit_arguments s all m k = Val (i, o) /\ length o = length (delivered s vt (TNode m) k).
  Proof.
    intros m n k Hm L. destruct (sequences_of m n Hm) as (res & Hr & Q). unfold visit_arguments. rewrite Hr.
    unfold visit_count in L. unfold delivered, visit_at. rewrite Q in *. rewrite map_length in L. rewrite nth_error_map.
    destruct (nth_error res k) as [[v es]|] eqn:Hk; [|apply nth_error_None in Hk; lia]. cbn [option_map fst].
    assert (Iv : In v (map fst res)) by (apply (in_map fst) with (x := (v, es)); exact (nth_error_In _ _ Hk)).
    destruct (attribute_names_defined s (v_inputs v)) as (i & -> & _); [intros x Ix; apply (visit_attributes _ _ v x Q Iv); apply in_app_iff; auto|].
    destruct (attribute_names_defined s (v_outputs v)) as (o & -> & Lo); [intros x Ix; apply (visit_attributes _ _ v x Q Iv); apply in_app_iff; auto|].
    cbn [bind]. exists i, o. split; [reflexivity|]. rewrite map_length. exact Lo.
  Qed.
  Lemma call_defined : forall n c m n' k outputs d, nth_error nodes m = Some n' -> k < visit_count vt (TNode m) ->
    delivered s vt (TNode m) k = [] \/ outputs <> [] -> exists x, print_visit_call s all n c m k outputs d = Val x.
  Proof.
    intros n c m n' k outputs d Hm L H. destruct (arguments_defined m n' k Hm L) as (i & o & E & Lo). unfold print_visit_call. rewrite E. cbn [bind fst snd].
    assert (X : exists r, match o with [] => Val [] | [x] => if d then Val [x] else desired [x] outputs | _ => desired o outputs end = Val r).
    { destruct H as [H|H].
      - rewrite H in Lo. destruct o; [eauto|discriminate].
      - destruct o as [|x [|y o]]; [eauto| |apply desired_defined; auto]. destruct d; [eauto|apply desired_defined; auto]. }
    destruct X as (r & X). destruct o as [|x [|y o]]; rewrite X; cbn [bind]; eauto.
  Qed.

  (** The alternatives of a visit: a single one, or the members of a nodeset,
      the leading one first. *)
  Lemma entry_alternatives : forall i n res r o k alts, nth_error nodes i = Some n -> nth_error all i = Some res -> In r res ->
    In (EVisit o k alts) (snd r) ->
    (exists c, o = OChild i c) /\ exists m rest, alts = (m, true) :: rest /\
      (forall m' b, In (m', b) alts -> (exists n', nth_error nodes m' = Some n') /\ (b = true -> k < visit_count vt (TNode m'))) /\
      (rest <> [] -> forall m', In (m', true) alts -> delivered s vt (TNode m') k <> [] -> delivered s vt (TNode m) k <> []).
  Proof.
    intros i n res r o k alts Hn Hr Ir Ie.
    destruct (node_schedule_of a s lits shuffle ty P U B Sh Ty gs R ps Pr vt all max V i n Hn) as (p & res' & Ip & Np & Hr' & Sc).
    rewrite Hr in Hr'. injection Hr' as <-. destruct (action_performed res r _ Ir Ie) as (kk & done & Pf). cbn [action_of] in Pf.
    destruct (sc_visit _ _ _ _ _ Sc kk done o k Pf) as (Io & _ & v & Hv & _).
    assert (Tg := typing_gnt a s lits ty P U B Ty o).
    split; [unfold children in Io; apply in_map_iff in Io; destruct Io as (c & <- & _); eauto|].
    destruct (entries_right a s lits shuffle ty P U B Sh Ty gs R ps Pr vt all max V i n res Hn Hr r o k alts Ir Ie) as (_ & A2 & A3).
    assert (Common : forall m' b, In (m', b) alts -> (exists n', nth_error nodes m' = Some n') /\ (b = true -> k < visit_count vt (TNode m'))).
    { intros m' b I. destruct (A3 m' b I) as (ws & Q & Lb). split.
      - assert (Hp : has_production ps (TNode m')) by (apply (proj1 table); eauto). destruct Hp as (p' & Ip' & Rp').
        destruct (pr_only _ _ _ _ _ Pr p' Ip') as [(i' & n' & Hn' & N)|(j & m2 & _ & M)].
        + rewrite (np_root _ _ _ _ _ _ N) in Rp'. injection Rp' as <-. eauto.
        + rewrite (mp_root _ _ _ _ M) in Rp'. discriminate.
      - intros E. apply Lb in E. unfold visit_count. rewrite Q. exact E. }
    destruct (entries_made a s lits gs vt all max V i n res Hn Hr r _ Ir Ie) as (x & M). destruct x as [y|o' k']; cbn [make_entry] in M.
    { destruct (attribute_at s (snd y)); [|discriminate]. destruct (negb _ && _); discriminate. }
    destruct (get_node_type nodes (a_nodesets a) o') as [[m|j]|] eqn:T; [| |discriminate].
    - injection M as <- <- <-. exists m, []. split; [reflexivity|]. split; [exact Common|]. intros H. congruence.
    - destruct (nth_error lits j) as [l|] eqn:Hl; [|discriminate].
      destruct (nodeset_alternatives nodes vt k' l) as [al| | | |] eqn:Ea; try discriminate. cbn [bind] in M.
      assert (Qa : o' = o /\ k' = k /\ al = alts) by (destruct al; [discriminate|]; injection M as <- <- <-; auto).
      destruct Qa as (-> & -> & ->). rewrite T in Tg.
      destruct (Lead i n o Hn Io j Tg) as (l' & r1 & rest & m & vs & ws & Hl' & Hls & Hm & Qs & Qm & Le). rewrite Hl in Hl'. injection Hl' as <-.
      assert (Fa := nodeset_alternatives_right _ _ _ _ _ Ea). rewrite Hls in Fa. inversion Fa as [|? [m1 b1] ? rest' (ws' & F1 & F2 & F3) Ft Q1 Q2]. subst.
      destruct (before_scheduling_input a s lits P U B) as (G & _). cbn [fst snd] in *.
      assert (Em : m1 = m) by (apply (find_node_iff _ _ _ G) in Hm; congruence). subst m1. rewrite Qm in F2. injection F2 as <-.
      assert (Lk : k < length vs).
      { unfold visits_by in Hv. rewrite Tg, Qs in Hv. rewrite <- (map_length attributes_only). apply nth_error_Some. congruence. }
      assert (Eb : (k <? length ws) = true) by (apply Nat.ltb_lt; lia). rewrite Eb in *. subst b1.
      exists m, rest'. split; [reflexivity|]. split; [exact Common|]. intros _ m' I Dm'.
      assert (Mm : member_of a j m').
      { destruct (proj1 (A2 m') (in_map fst _ _ I)) as [Z|(j' & Z & Mm)]; [rewrite Tg in Z; discriminate|]. rewrite Tg in Z. injection Z as <-. exact Mm. }
      apply (Deliver i n o Hn Io j l r1 rest m Tg Hl Hls Hm m' k Mm); [unfold visit_count; rewrite Qs; exact Lk|exact Dm'].
  Qed.

  Lemma visit_code_defined : forall i n n0 res r c k alts, nth_error nodes i = Some n -> nth_error all i = Some res -> In r res ->
    In (EVisit (OChild i c) k alts) (snd r) -> exists x, DGVSvisit_sequence_visit s all n0 c k alts = Val x.
  Proof.
    intros i n n0 res r c k alts Hn Hr Ir Ie.
    destruct (entry_alternatives i n res r _ k alts Hn Hr Ir Ie) as (_ & m & rest & -> & Al & De). unfold DGVSvisit_sequence_visit. cbn [skip_dummies].
    destruct (Al m true (or_introl eq_refl)) as ((n1 & Hm) & Lm). specialize (Lm eq_refl).
    destruct (arguments_defined m n1 k Hm Lm) as (ins & outs & E & Lo). rewrite E. cbn [bind snd].
    assert (Eo : outs = [] <-> delivered s vt (TNode m) k = []).
    { split; intros Z; rewrite Z in Lo; cbn [length] in Lo; [destruct (delivered s vt (TNode m) k)|destruct outs]; try discriminate; reflexivity. }
    destruct rest as [|y rest].
    - assert (X : exists x, print_visit_call s all n0 c m k outs (CHILD_IS_MANDATORY n0 c) = Val x).
      { apply (call_defined n0 c m n1 k outs); [exact Hm|exact Lm|]. destruct outs; [left; apply Eo; reflexivity|right; discriminate]. }
      destruct X as (x & ->). cbn [map_outcome bind]. eauto.
    - assert (X : forall l, (forall z, In z l -> In z ((m, true) :: y :: rest)) -> exists x, print_alternatives s all n0 c k outs l = Val x).
      { intros l. induction l as [|[m' b] l IH]; intros Sub; cbn [print_alternatives]; [eauto|].
        destruct IH as (x & Ex); [intros z Iz; apply Sub; right; exact Iz|]. rewrite Ex.
        assert (I := Sub (m', b) (or_introl eq_refl)). destruct (Al m' b I) as ((n2 & Hm') & Lm'). destruct b; [|cbn [bind]; eauto].
        destruct (call_defined n0 c m' n2 k outs false Hm' (Lm' eq_refl)) as (q & ->).
        - destruct (delivered s vt (TNode m') k) as [|u w] eqn:D; [left; reflexivity|right]. intros Eout. apply Eo in Eout.
          apply (De ltac:(discriminate) m' I); [rewrite D; discriminate|exact Eout].
        - cbn [map_outcome bind]. eauto. }
      destruct (X ((m, true) :: y :: rest) (fun z Iz => Iz)) as (x & ->). cbn [map_outcome bind]. eauto.
  Qed.

  Lemma evaluation_defined : forall i n res r x, nth_error nodes i = Some n -> nth_error all i = Some res -> In r res ->
    In (EEval x) (snd r) -> exists y, evaluation nodes s iteration n x = Val y.
  Proof.
    intros i n res r x Hn Hr Ir Ie. assert (In_n := nth_error_In _ _ Hn).
    destruct (C35_equation_found a s lits shuffle ty gs P U B Sh Ty R max vt all V i n res Hn Hr (fun c => This n c In_n) r x Ir Ie) as [(Fx & Inh)|(q & e & Eq & Ge & Ieq & Sf)].
    { exfalso. exact (proj2 (Own i n res r x Hn Hr Ir Ie Fx) Inh). }
    unfold evaluation. rewrite Eq. assert (Eq' := Eq). unfold evaluation_reference in Eq'. destruct (attribute_at s (snd x)) as [d|] eqn:D; [|discriminate].
    destruct (accepted_good a s lits P U B n In_n) as (Di & Rs). specialize (Rs e Ieq).
    destruct (collect_children_right n Di (eq_args e) Rs) as (ch & C & O).
    destruct (statement_right n Di e Rs ch O C (Few n e ch In_n Ieq O) iteration (It ch) q) as (st & Est & _).
    unfold DGVSvisit_sequence_eval. rewrite Ge, Est. cbn [map_outcome bind].
    destruct (ar_inode q) as [cn|] eqn:Ai; [eauto|].
    assert (Fx : fst x = OType (TNode i)).
    { assert (Own' : exists t, fst x = OType t).
      { destruct (fst x) as [t|i' k']; [eauto|]. destruct (nth_error nodes i') as [n'|]; [|discriminate].
        destruct (nth_error (nd_children n') k'); [|discriminate]. injection Eq' as <-. discriminate. }
      destruct Own' as (t & Fx). destruct Sf as (_ & _ & Sf). destruct (ar_inode (eq_rule e)); [|congruence].
      destruct Sf as (k & c & F & _). congruence. }
    destruct (Own i n res r x Hn Hr Ir Ie Fx) as ((d' & D' & Sy) & _). change (attribute_at s (snd x) = Some d') in D'.
    rewrite D in D'. injection D' as <-. rewrite Sy. eauto.
  Qed.

  Lemma visit_defined : forall i n res r, nth_error nodes i = Some n -> nth_error all i = Some res -> In r res ->
    exists f, DGVSvisit nodes s all iteration n r = Val f.
  Proof.
    intros i n res r Hn Hr Ir. destruct (sequences_of i n Hn) as (res' & Hr' & Q). rewrite Hr in Hr'. injection Hr' as <-.
    assert (Iv : In (fst r) (map fst res)) by (apply in_map; exact Ir). unfold DGVSvisit.
    destruct (attribute_names_defined s (v_inputs (fst r))) as (ins & -> & _); [intros x Ix; apply (visit_attributes _ _ _ x Q Iv); apply in_app_iff; auto|].
    destruct (attribute_names_defined s (v_outputs (fst r))) as (outs & -> & _); [intros x Ix; apply (visit_attributes _ _ _ x Q Iv); apply in_app_iff; auto|].
    assert (X : forall l, (forall e, In e l -> In e (snd r)) -> exists b, sequence nodes s all iteration n l = Val b).
    { intros l. induction l as [|e l IH]; intros Sub; cbn [sequence]; [eauto|].
      destruct IH as (b & ->); [intros e' I; apply Sub; right; exact I|]. assert (Ie := Sub e (or_introl eq_refl)). destruct e as [x|o k alts].
      - destruct (evaluation_defined i n res r x Hn Hr Ir Ie) as (y & ->). cbn [map_outcome bind]. eauto.
      - destruct (entry_alternatives i n res r o k alts Hn Hr Ir Ie) as ((c & ->) & _).
        destruct (visit_code_defined i n n res r c k alts Hn Hr Ir Ie) as (y & ->). cbn [bind]. eauto. }
    destruct (X (snd r) (fun e I => I)) as (b & ->). cbn [bind]. eauto.
  Qed.

  Theorem code_defined : exists fs, DGVSast nodes s all iteration = Val fs.
  Proof.
    unfold DGVSast.
    assert (X : forall ns vs, length ns = length vs -> (forall i n res, nth_error ns i = Some n -> nth_error vs i = Some res -> forall r, In r res ->
      exists f, DGVSvisit nodes s all iteration n r = Val f) -> exists fs, DGVSnodes nodes s all iteration ns vs = Val fs).
    { intros ns. induction ns as [|n ns IH]; intros [|v vs] L H; cbn [DGVSnodes]; try discriminate; [eauto|].
      destruct (all_defined (DGVSvisit nodes s all iteration n) v (H 0 n v eq_refl eq_refl)) as (x & ->).
      destruct (IH vs) as (y & ->); [cbn in L; lia|intros i; exact (H (S i))|]. cbn [bind]. eauto. }
    apply X; [|intros i n res Hn Hr r Ir; exact (visit_defined i n res r Hn Hr Ir)].
    destruct (SAVvisits_parts a s lits gs max vt all V) as (tables & vt0 & E1 & E2 & E3 & E4).
    destruct (generate_all_right a s lits gs vt max _ 0 all E4) as [L _]. symmetry. exact L.
  Qed.
End Specification.
