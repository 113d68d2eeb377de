(** Proofs: which lifetimes are accepted, for the tree of a file. *)

From Coq Require Import List Ascii NArith Bool Lia Arith Relations.
From Verif Require Import Base.Outcome Palm.StrModel Front.Syntax Front.SetsModel Front.SetsSpec Front.SymbolTableModel Front.SymbolTableSpec
  Front.SymbolTableProof Front.CheckExistanceModel Front.CheckExistanceSpec Front.CheckExistanceProof
  Front.LifetimesModel Front.LifetimesSpec Front.LifetimesProof
  Front.PropagateModel Front.PropagateSpec Front.NodesetPassesModel Front.NodesetPassesProof Front.ParserSpec Front.ProductRulesModel Front.ProductRulesSpec Front.ProductRulesProof Sched.FrontendModel
  Gen.CompileSpec Gen.CompileVerdict Gen.CompileLegal Gen.AccessModel Gen.AccessMembers Gen.CheckWhole Gen.NodesProof Gen.PhasesSpec Gen.PhasesProof Gen.PhasesParsed.
Import ListNotations.
Local Open Scope outcome_scope.

Section Whole.
  Variable a : ast.
  Hypothesis P : parsed_ast a.
  Hypothesis U : unmarked a.
  Variable s : pra.
  Variable lits : list literal.
  Hypothesis B : before_scheduling a = Val (s, lits).
  Hypothesis nonempty : forall p, In p (a_phases a) -> ph_actions p <> [].
  Hypothesis nodes_named : forall n, In n (a_nodes a) -> node_named n.
  Hypothesis sets_named : forall m x l, In m (a_nodesets a) -> In x (ns_attributes m) -> In l (at_lifetimes x) -> ParserSpec.lifetime_ok l.
  Let fa := finished a s lits.

  Lemma names_checked : distinct_names (all_names a) /\ obeys_rules a /\ exists ste, BSTast a = Val ste.
  Proof.
    destruct (all_passes a s lits B) as (t & ts & C & _). destruct (checked_names a C) as (N1 & _ & N3).
    split; [exact N1|]. split; [exact N3|]. unfold check_names in C. destruct (BSTast a) as [ste| | | |]; try discriminate. eauto.
  Qed.
  Variable ste : list (ident * decl).
  Hypothesis table : BSTast a = Val ste.
  Lemma lookup : forall id d, STlookup ste id = Some d <-> names a id d.
  Proof. intros id d. apply (BSTast_lookup a ste id d table). Qed.
  Lemma actions_declared : forall p id, In p (a_phases a) -> In id (ph_actions p) -> is_declared a id.
  Proof. destruct names_checked as (_ & R & _). exact (r_actions _ R). Qed.

  (** *** Attributes *)
  Lemma lengths : length (p_nodes s) = length (a_nodes a) /\ length (p_sets s) = length (a_nodesets a) /\ length lits = length (a_nodesets a).
  Proof.
    assert (G := accepted_grammar a P U s lits B). destruct (accepted_literals a P U s lits B) as [L _].
    split; [apply (gi_len_nodes _ _ _ G)|]. split; [apply (gi_len_sets _ _ _ G)|exact L].
  Qed.

  Lemma node_in : forall n', In n' (a_nodes fa) <-> exists i n, nth_error (a_nodes a) i = Some n /\
    n' = with_attributes n (map (AccessModel.resolve a) (nth i (p_nodes s) [])).
  Proof.
    destruct lengths as (L & _ & _). intros n'. unfold fa, finished. cbn [a_nodes]. split.
    - intros I. apply In_nth_error in I. destruct I as (i & E). apply zip_nth in E. destruct E as (n & y & E1 & E2 & ->).
      exists i, n. split; [exact E1|]. rewrite nth_error_map in E2. destruct (nth_error (p_nodes s) i) as [z|] eqn:Ez; [|discriminate].
      injection E2 as <-. rewrite (nth_error_nth _ _ [] Ez). reflexivity.
    - intros (i & n & E & ->). apply (nth_error_In _ i). apply zip_nth. exists n. eexists. split; [exact E|]. split; [|reflexivity].
      rewrite nth_error_map. rewrite (nth_error_nth' _ []); [reflexivity|]. rewrite L. apply nth_error_Some. congruence.
  Qed.
  Lemma set_in : forall y, In y (flat_map ns_attributes (a_nodesets fa)) <-> exists k m z, nth_error (a_nodesets a) k = Some m /\
    In z (nth k (p_sets s) []) /\ y = AccessModel.resolve a z.
  Proof.
    destruct lengths as (_ & L & L'). intros y. rewrite in_flat_map. unfold fa, finished. cbn [a_nodesets]. split.
    - intros (m' & I & Iy). apply In_nth_error in I. destruct I as (i & E). apply zip_nth in E. destruct E as (m & e & E1 & E2 & ->).
      cbn [with_members ns_attributes] in Iy. destruct e as [lit l]. cbn [snd] in Iy. apply nth_error_combine in E2. cbn [fst snd] in E2. destruct E2 as [_ E2].
      rewrite nth_error_map in E2. destruct (nth_error (p_sets s) i) as [z|] eqn:Ez; [|discriminate]. injection E2 as <-.
      apply in_map_iff in Iy. destruct Iy as (z0 & <- & Iz). exists i, m, z0. split; [exact E1|]. rewrite (nth_error_nth _ _ [] Ez). auto.
    - intros (k & m & z & E & Iz & ->).
      assert (Lk : k < length (a_nodesets a)) by (apply nth_error_Some; congruence).
      destruct (nth_error lits k) as [lit|] eqn:El; [|apply nth_error_None in El; lia].
      exists (with_members m (lit, map (AccessModel.resolve a) (nth k (p_sets s) []))). split.
      + apply (nth_error_In _ k). apply zip_nth. exists m. eexists. split; [exact E|]. split; [|reflexivity].
        apply nth_error_combine_some; [exact El|]. rewrite nth_error_map, (nth_error_nth' _ []) by lia. reflexivity.
      + cbn [with_members ns_attributes snd]. apply in_map, Iz.
  Qed.

  Definition same_life (x y : attribute) : Prop :=
    at_lifetimes y = at_lifetimes x /\ at_type y = at_type x /\ at_type_reference y = at_type_reference x.
  Lemma copy_life : forall x y, x = y \/ copy_of x y -> same_life x y.
  Proof. intros x y [->|(_ & T & R & _ & _ & _ & L & _)]; repeat split; auto. Qed.

  Lemma node_own : forall i n x, nth_error (a_nodes a) i = Some n -> In x (nd_attributes n) -> In x (nth i (p_nodes s) []).
  Proof.
    intros i n x Hn. destruct (all_passes a s lits B) as (t & ts & C & Et & En & Eu & Epr & Es & _).
    destruct (node_carries a P U t ts lits C Et En Eu s Epr Es i n Hn) as [Own _ _ _]. apply Own.
  Qed.
  Lemma set_own : forall k m x, nth_error (a_nodesets a) k = Some m -> In x (ns_attributes m) -> In x (nth k (p_sets s) []).
  Proof.
    intros k m x Hn. destruct (all_passes a s lits B) as (t & ts & C & Et & En & Eu & Epr & Es & _).
    destruct (set_carries a P U t ts lits C Et En Eu s Epr Es k m Hn) as [Own _ _ _]. apply Own.
  Qed.
  Lemma node_back : forall i n y, nth_error (a_nodes a) i = Some n -> In y (nth i (p_nodes s) []) ->
    exists x, node_attribute a n x /\ same_life x y.
  Proof.
    intros i n y Hn Iy. destruct (all_passes a s lits B) as (t & ts & C & Et & En & Eu & Epr & Es & _).
    assert (X : In (n, nth i (p_nodes s) []) (combine (a_nodes a) (p_nodes s))).
    { apply (nodes_at a P U t ts lits C Et En Eu s Epr Es). eauto. }
    destruct (proj1 (node_has a P U t ts lits C Et En Eu s Epr Es n _ X) y Iy) as (x & A & H). exists x. split; [exact A|apply copy_life, H].
  Qed.
  Lemma set_back : forall k m y, nth_error (a_nodesets a) k = Some m -> In y (nth k (p_sets s) []) ->
    exists x, (exists i, declares_attribute a i x) /\ same_life x y.
  Proof.
    intros k m y Hm Iy. destruct (all_passes a s lits B) as (t & ts & C & Et & En & Eu & Epr & Es & _).
    destruct (proj1 (set_has a P U t ts lits C Et En Eu s Epr Es k m Hm) y Iy) as (i & x & [D _] & H). exists x. split; [eauto|apply copy_life, H].
  Qed.
  (** An attribute that a node is given keeps its lifetimes. *)
  Lemma node_given : (forall i x, declares_attribute a i x -> at_in_constructor x = false) ->
    forall i n x, nth_error (a_nodes a) i = Some n -> node_attribute a n x ->
    exists y, In y (nth i (p_nodes s) []) /\ same_life x y.
  Proof.
    intros Con i n x Hn [O|(k & G & No)].
    { exists x. split; [apply (node_own i n x Hn O)|apply copy_life; auto]. }
    assert (Lg := accepted_legal a (s, lits) P U B Con).
    assert (In_n := nth_error_In _ _ Hn).
    destruct (all_passes a s lits B) as (t & ts & C & Et & En & Eu & Epr & Es & _).
    destruct (node_carries a P U t ts lits C Et En Eu s Epr Es i n Hn) as [_ Reach Only _].
    destruct (Reach x) as (y & Iy & Sy & _); [apply (to_node_given a P U t ts lits C Et En Eu); eauto|].
    exists y. split; [exact Iy|]. destruct (Only y Iy) as [O|(x' & Ix' & Cy)].
    { exfalso. exact (No y O Sy). }
    apply (to_node_given a P U t ts lits C Et En Eu) in Ix'. destruct Ix' as (k' & G').
    assert (Sx : same_id (at_name x) (at_name x')).
    { unfold same_id in *. destruct Cy as (E & _). congruence. }
    assert (k = k') by exact (l_once _ Lg n k x k' x' In_n G G' Sx No). subst k'.
    destruct G as (m & S1 & Em & Ix & _). destruct G' as (m' & S2 & Em' & Ix' & _). rewrite Em in Em'. injection Em' as <-.
    assert (x = x').
    { destruct (checked_names a C) as (_ & _ & R). destruct (r_nodeset_attributes _ R m (nth_error_In _ _ Em)) as [D _].
      unfold distinct_names in D. rewrite map_map in D. exact (NoDup_key _ _ (fun z => ID_LWR (at_name z)) _ _ _ D Ix Ix' Sx). }
    subst x'. apply copy_life. right. exact Cy.
  Qed.

  (** *** Types *)
  Lemma link_iff : forall x, at_type (AccessModel.resolve a x) = AT_link <-> is_link a x.
  Proof.
    intros x. cbn [AccessModel.resolve at_type]. unfold resolved_type, is_link.
    assert (K : names_node a (at_type_reference x) = true <-> exists id, at_type_reference x = Some id /\ (is_node a id \/ is_nodeset a id)).
    { unfold names_node. destruct (at_type_reference x) as [id|].
      - rewrite existsb_exists. split.
        + intros (k & I & E). apply name_eqb_true in E. exists id. split; [reflexivity|]. apply in_app_iff in I. destruct I as [I|I];
            apply in_map_iff in I; destruct I as (n & <- & I); [left|right]; exists n; (split; [|eexists; split; [left; reflexivity|exact E]]);
            unfold declarations; rewrite !in_app_iff, !in_map_iff; eauto 10.
        + intros (id' & E & H). injection E as <-. destruct H as [H|H].
          * apply is_node_in in H. destruct H as (n & I & E). exists (nd_name n). split; [apply in_app_iff; left; apply in_map, I|]. rewrite E. apply name_eqb_refl.
          * apply is_nodeset_in in H. destruct H as (n & I & E). exists (ns_name n). split; [apply in_app_iff; right; apply in_map, I|]. rewrite E. apply name_eqb_refl.
      - split; [discriminate|]. intros (id & E & _). discriminate. }
    destruct (at_type x); (split; [try (intros E; discriminate E); auto|intros [E|[E H]]; try discriminate E; auto]).
    - destruct (names_node a (at_type_reference x)); [|discriminate]. intros _. right. split; [reflexivity|]. apply K. reflexivity.
    - apply K in H. rewrite H. reflexivity.
  Qed.
  Lemma string_iff : forall x, at_type (AccessModel.resolve a x) = AT_string <-> at_type x = AT_string.
  Proof.
    intros x. cbn [AccessModel.resolve at_type]. unfold resolved_type. destruct (at_type x); try tauto.
    destruct (names_node a (at_type_reference x)); split; discriminate.
  Qed.
  Lemma is_link_life : forall x y, same_life x y -> is_link a x -> is_link a y.
  Proof. intros x y (_ & T & R) [H|[H K]]; [left; congruence|right]. rewrite R. split; [congruence|exact K]. Qed.
  Lemma life_sym : forall x y, same_life x y -> same_life y x.
  Proof. intros x y (H1 & H2 & H3). repeat split; congruence. Qed.

  Lemma types_right : CLTast fa = Val tt <->
    forall x, written_attribute a x -> at_lifetimes x <> [] -> at_type x = AT_string \/ is_link a x.
  Proof.
    rewrite <- CLT_right. split.
    - intros H x W Ne.
      assert (I : In (AccessModel.resolve a x) (flat_map nd_attributes (a_nodes fa) ++ flat_map ns_attributes (a_nodesets fa))).
      { apply in_app_iff. destruct W as [(n & I & Ix)|(m & I & Ix)].
        - left. apply In_nth_error in I. destruct I as (i & Hn). apply in_flat_map.
          exists (with_attributes n (map (AccessModel.resolve a) (nth i (p_nodes s) []))). split; [apply node_in; eauto|].
          cbn [with_attributes nd_attributes]. apply in_map. exact (node_own i n x Hn Ix).
        - right. apply In_nth_error in I. destruct I as (i & Hm). apply set_in. exists i, m, x. split; [exact Hm|]. split; [|reflexivity].
          exact (set_own i m x Hm Ix). }
      destruct (H _ I Ne) as [E|E]; [right; apply link_iff, E|left; apply string_iff, E].
    - intros H y I Ne.
      assert (K : exists z x, y = AccessModel.resolve a z /\ written_attribute a x /\ same_life x z).
      { apply in_app_iff in I. destruct I as [I|I].
        - apply in_flat_map in I. destruct I as (n' & I & Iy). apply node_in in I. destruct I as (i & n & Hn & ->).
          cbn [with_attributes nd_attributes] in Iy. apply in_map_iff in Iy. destruct Iy as (z & <- & Iz).
          destruct (node_back i n z Hn Iz) as (x & A & L). exists z, x. split; [reflexivity|]. split; [|exact L].
          destruct A as [O|(k & (m & S & Hm & Ix & _) & _)]; [left; exists n; split; [eapply nth_error_In; exact Hn|exact O]|].
          right. exists m. split; [eapply nth_error_In; exact Hm|exact Ix].
        - apply set_in in I. destruct I as (k & m & z & Hm & Iz & ->). destruct (set_back k m z Hm Iz) as (x & (j & m' & Hm' & Ix) & L).
          exists z, x. split; [reflexivity|]. split; [|exact L]. right. exists m'. split; [eapply nth_error_In; exact Hm'|exact Ix]. }
      destruct K as (z & x & -> & W & L). cbn [AccessModel.resolve at_lifetimes] in Ne.
      destruct (H x W) as [E|E]; [destruct L as (L & _); congruence| |].
      + right. apply string_iff. destruct L as (_ & T & _). congruence.
      + left. apply link_iff. exact (is_link_life x z L E).
  Qed.

  (** *** Targets *)
  Variable st : iphase.
  Variable l : list plan.
  Hypothesis F : Forall2 (unfolds a) (ph_actions st) l.
  Variable fuel : nat.
  Hypothesis deep : depths l < fuel.
  Variable t : id_table.
  Let whole := Plan (DPhase st) l.

  Lemma one_range : forall r, range_ok r ->
    (exists x, map_range ste fuel st t r = Val x) /\ (forall y, r = Some y -> LifetimesSpec.denotes (lr_target y) (1%N, whole) <> None) \/
    map_range ste fuel st t r = Exited /\ exists y, r = Some y /\ LifetimesSpec.denotes (lr_target y) (1%N, whole) = None.
  Proof.
    intros [r|] Ok; cbn [map_range]; [|left; split; [eauto|discriminate]].
    assert (K := range_found a ste lookup nonempty fuel st l t r F deep Ok). fold whole in K.
    destruct (LifetimesSpec.denotes (lr_target r) (1%N, whole)) eqn:D.
    - destruct K as (x & ->). left. cbn [bind]. split; [eauto|]. intros y E. injection E as <-. congruence.
    - rewrite K. right. split; [reflexivity|]. eauto.
  Qed.
  Lemma one_lifetime : forall in_node lt, ParserSpec.lifetime_ok lt ->
    let ok := well_targeted whole lt /\ (in_node = true -> lt_type lt = LT_disallowed \/ lt_type lt = LT_allowed) in
    (exists x, MITLilifetime ste fuel st t in_node lt = Val x) /\ ok \/ MITLilifetime ste fuel st t in_node lt = Exited /\ ~ ok.
  Proof.
    intros in_node lt [Ob Oe] ok. unfold ok, MITLilifetime. clear ok.
    assert (G : (exists x, (let! b := map_range ste fuel st t (lt_begin lt) in
                 let! e := map_range ste fuel st t (lt_end lt) in Val (mk_mlifetime (lt_type lt) b e)) = Val x) /\ well_targeted whole lt \/
                (let! b := map_range ste fuel st t (lt_begin lt) in
                 let! e := map_range ste fuel st t (lt_end lt) in Val (mk_mlifetime (lt_type lt) b e)) = Exited /\ ~ well_targeted whole lt).
    { destruct (one_range (lt_begin lt) Ob) as [[(b & ->) Db]|[-> (y & Ey & Dy)]]; cbn [bind].
      - destruct (one_range (lt_end lt) Oe) as [[(e & ->) De]|[-> (y & Ey & Dy)]]; cbn [bind].
        + left. split; [eauto|]. intros r [E|E].
          * split; [rewrite E in Ob; exact Ob|exact (Db r E)].
          * split; [rewrite E in Oe; exact Oe|exact (De r E)].
        + right. split; [reflexivity|]. intros W. now apply (W y (or_intror Ey)).
      - right. split; [reflexivity|]. intros W. now apply (W y (or_introl Ey)). }
    destruct in_node, (lt_type lt) eqn:T;
      try (destruct G as [[G W]|[G W]]; [left; split; [exact G|split; [exact W|auto; discriminate]]|right; split; [exact G|tauto]]);
      right; (split; [reflexivity|]); intros [_ K]; destruct (K eq_refl); discriminate.
  Qed.
  Lemma one_list : forall in_node ls, (forall x, In x ls -> ParserSpec.lifetime_ok x) ->
    (exists r, map_lifetimes ste fuel st t in_node ls = Val r) /\ targets_ok whole in_node ls \/
    map_lifetimes ste fuel st t in_node ls = Exited /\ ~ targets_ok whole in_node ls.
  Proof.
    intros in_node [|x rest] Ok; cbn [map_lifetimes].
    - left. split; [eauto|]. intros y ys E. discriminate.
    - destruct (one_lifetime in_node x (Ok x (or_introl eq_refl))) as [[(y & ->) K]|[-> K]]; cbn [bind].
      + left. split; [eauto|]. intros y' ys E. injection E as <- <-. exact K.
      + right. split; [reflexivity|]. intros C. apply K. exact (C x rest eq_refl).
  Qed.

  Definition node_targets (n : inode) : Prop :=
    targets_ok whole true (nd_lifetimes n) /\
    (forall c, In c (nd_children n) -> targets_ok whole false (ch_lifetimes c)) /\
    (forall x, In x (nd_attributes n) -> targets_ok whole false (at_lifetimes x)).

  Lemma one_node : forall n, In n (a_nodes fa) ->
    (exists m, MITLinode ste fuel st t n = Val m) /\ node_targets n \/ MITLinode ste fuel st t n = Exited /\ ~ node_targets n.
  Proof.
    intros n In_n. unfold MITLinode, node_targets. apply node_in in In_n. destruct In_n as (i & n0 & Hn & ->).
    cbn [with_attributes nd_lifetimes nd_children nd_attributes].
    destruct (nodes_named n0 (nth_error_In _ _ Hn)) as [N1 N2 N3].
    destruct (one_list true (nd_lifetimes n0) N1) as [[(r & ->) K1]|[-> K1]]; cbn [bind]; [|right; split; [reflexivity|tauto]].
    destruct (map_out_cases _ _ (fun c => map_lifetimes ste fuel st t false (ch_lifetimes c))
      (fun c => targets_ok whole false (ch_lifetimes c)) (nd_children n0)) as [[(r2 & ->) K2]|[-> K2]];
      cbn [bind]; [| |right; split; [reflexivity|tauto]].
    { intros c Hc. apply one_list. intros x. apply N2, Hc. }
    destruct (map_out_cases _ _ (fun x => map_lifetimes ste fuel st t false (at_lifetimes x))
      (fun x => targets_ok whole false (at_lifetimes x)) (map (AccessModel.resolve a) (nth i (p_nodes s) []))) as [[(r3 & ->) K3]|[-> K3]];
      cbn [bind].
    { intros x Hx. apply one_list. intros y Iy. apply in_map_iff in Hx. destruct Hx as (z & <- & Iz).
      cbn [AccessModel.resolve at_lifetimes] in Iy. destruct (node_back i n0 z Hn Iz) as (w & A & (L & _)). rewrite L in Iy.
      destruct A as [O|(k & (m & S & Hm & Ix & _) & _)]; [exact (N3 w y O Iy)|].
      exact (sets_named m w y (nth_error_In _ _ Hm) Ix Iy). }
    - left. split; [eauto|tauto].
    - right. split; [reflexivity|tauto].
  Qed.

  Lemma targets_first : forall in_node ls, targets_ok whole in_node ls <->
    (forall x, first_only ls x -> well_targeted whole x) /\
    (in_node = true -> forall x, first_only ls x -> lt_type x = LT_disallowed \/ lt_type x = LT_allowed).
  Proof.
    intros in_node ls. unfold targets_ok, first_only. split.
    - intros H. split; [intros x (r & E); apply (H x r E)|]. intros Hi x (r & E). apply (H x r E). exact Hi.
    - intros [H K] x r E. split; [apply H; eauto|]. intros Hi. apply (K Hi). eauto.
  Qed.

  Hypothesis Con : forall i x, declares_attribute a i x -> at_in_constructor x = false.

  Lemma nodes_right : (forall n, In n (a_nodes fa) -> node_targets n) /\ CLTast fa = Val tt <-> lifetime_rules first_only a whole.
  Proof.
    rewrite types_right. split.
    - intros [H T].
      assert (H' : forall i n, nth_error (a_nodes a) i = Some n -> node_targets (with_attributes n (map (AccessModel.resolve a) (nth i (p_nodes s) [])))).
      { intros i n Hn. apply H. apply node_in. eauto. }
      constructor; [exact T|..].
      + intros n x In_n Fx. apply In_nth_error in In_n. destruct In_n as (i & Hn). destruct (H' i n Hn) as (K & _). apply targets_first in K.
        apply K; auto.
      + intros n x In_n Fx. apply In_nth_error in In_n. destruct In_n as (i & Hn). destruct (H' i n Hn) as (K & _). apply targets_first in K.
        apply K; auto.
      + intros n c x In_n Ic Fx. apply In_nth_error in In_n. destruct In_n as (i & Hn). destruct (H' i n Hn) as (_ & K & _).
        specialize (K c Ic). apply targets_first in K. apply K; auto.
      + intros n y x In_n Iy Fx. apply In_nth_error in In_n. destruct In_n as (i & Hn). destruct (H' i n Hn) as (_ & _ & K).
        destruct (node_given Con i n y Hn Iy) as (z & Iz & (L & _)).
        specialize (K (AccessModel.resolve a z)). cbn [with_attributes nd_attributes] in K. specialize (K (in_map _ _ _ Iz)).
        apply targets_first in K. apply K. cbn [AccessModel.resolve at_lifetimes]. rewrite L. exact Fx.
    - intros [T K1 K2 K3 K4]. split; [|exact T]. intros n' I. apply node_in in I. destruct I as (i & n & Hn & ->).
      assert (In_n := nth_error_In _ _ Hn). unfold node_targets. cbn [with_attributes nd_lifetimes nd_children nd_attributes]. split; [|split].
      + apply targets_first. split; [intros x; apply K2, In_n|intros _ x; apply K1, In_n].
      + intros c Ic. apply targets_first. split; [intros x; exact (K3 n c x In_n Ic)|discriminate].
      + intros x Ix. apply in_map_iff in Ix. destruct Ix as (z & <- & Iz). cbn [AccessModel.resolve at_lifetimes].
        destruct (node_back i n z Hn Iz) as (w & A & (L & _)). apply targets_first. rewrite L.
        split; [intros x; exact (K4 n w x In_n A)|discriminate].
  Qed.
End Whole.

Section Verdict.
  Variable a : ast.
  Hypothesis P : parsed_ast a.
  Hypothesis U : unmarked a.
  Variable s : pra.
  Variable lits : list literal.
  Hypothesis B : before_scheduling a = Val (s, lits).
  Hypothesis nonempty : forall p, In p (a_phases a) -> ph_actions p <> [].
  Hypothesis nodes_named : forall n, In n (a_nodes a) -> node_named n.
  Hypothesis sets_named : forall m x l, In m (a_nodesets a) -> In x (ns_attributes m) -> In l (at_lifetimes x) -> ParserSpec.lifetime_ok l.
  Let fa := finished a s lits.
  Variable ste : list (ident * decl).
  Hypothesis table : BSTast a = Val ste.

  Lemma start_same : AST_START_PHASE fa = AST_START_PHASE a.
  Proof. reflexivity. Qed.
  Lemma numbers_same : forall fuel, AITAast ste fuel fa = AITAast ste fuel a.
  Proof. reflexivity. Qed.

  Lemma compiler_start : forall whole, compiler a whole -> exists st l, whole = Plan (DPhase st) l /\ AST_START_PHASE a = Some st /\
    Forall2 (unfolds a) (ph_actions st) l.
  Proof.
    intros whole C. destruct C as [p l I S F]. exists p, l. split; [reflexivity|]. split; [|exact F].
    destruct (names_checked a s lits B) as (_ & R & _). assert (One := r_start _ R). clear - I S One.
    unfold AST_START_PHASE. induction (a_phases a) as [|q ps IH]; [destruct I|]. cbn [find filter] in *.
    destruct (ph_is_start q) eqn:Q.
    - destruct I as [->|I]; [reflexivity|]. exfalso. cbn [length] in One.
      assert (J : In p (filter ph_is_start ps)) by (apply filter_In; auto). destruct (filter ph_is_start ps); [destruct J|cbn in One; lia].
    - destruct I as [->|I]; [congruence|auto].
  Qed.

  Lemma unfolds_unique : forall id p q, unfolds a id p -> unfolds a id q -> p = q.
  Proof.
    assert (L := fun id d => lookup a ste table id d).
    assert (Un : forall id d e, names a id d -> names a id e -> d = e).
    { intros id d e H1 H2. apply L in H1. apply L in H2. congruence. }
    fix IH 4. intros id p q H1 H2. destruct H1 as [id p l N F|id d N No]; inversion H2 as [id' p' l' N' F'|id' d' N' No']; subst.
    - assert (E := Un _ _ _ N N'). injection E as <-. f_equal. clear N N' H2. revert l' F'.
      induction F as [|i x is ls Hx F IHF]; intros l' F'; inversion F'; subst; [reflexivity|]. f_equal; [eapply IH; eassumption|auto].
    - exfalso. exact (No' p (Un _ _ _ N' N)).
    - exfalso. exact (No p' (Un _ _ _ N N')).
    - f_equal. exact (Un _ _ _ N N').
  Qed.

  Theorem lifetimes_outcome : ~ endless a -> forall fuel, length (a_phases a) < fuel ->
    match unpack_lifetimes ste fuel fa with Undef | NoFuel => False | _ => True end.
  Proof.
    intros Ne fuel Hf. unfold unpack_lifetimes.
    assert (K : CLTast fa = Val tt \/ CLTast fa = Exited) by (unfold CLTast; destruct (forallb _ _); auto).
    destruct K as [K|K]; rewrite K; cbn [bind]; [|exact I]. rewrite numbers_same, start_same.
    destruct (AITA_ends a (actions_declared a s lits B) ste (lookup a ste table) Ne fuel Hf) as [(st & t & E1 & E2)|(E1 & E2)]; rewrite E1, E2; cbn [bind]; [|exact I].
    destruct (start_up a st E1) as [Up _].
    destruct (tree_of_phase a (actions_declared a s lits B) st (up_in a st Up)) as (l & F & D).
    { intros q R C. apply Ne. exists st, q. auto. }
    assert (Hd : depths l < fuel) by lia.
    destruct (map_out_cases _ _ (MITLinode ste fuel st t) (node_targets st l) (a_nodes fa)
      (one_node a P U s lits B nonempty nodes_named sets_named ste table st l F fuel Hd t)) as [[(r & ->) _]|[-> _]]; exact I.
  Qed.

  Hypothesis Con : forall i x, declares_attribute a i x -> at_in_constructor x = false.
  Theorem lifetimes_verdict : ~ endless a -> forall fuel, length (a_phases a) < fuel ->
    (exists ms, unpack_lifetimes ste fuel fa = Val ms) /\ (exists whole, compiler a whole /\ lifetime_rules first_only a whole) \/
    (unpack_lifetimes ste fuel fa = Exited \/ unpack_lifetimes ste fuel fa = Aborted) /\
    ~ (exists whole, compiler a whole /\ lifetime_rules first_only a whole).
  Proof.
    intros Ne fuel Hf. unfold unpack_lifetimes.
    assert (K : CLTast fa = Val tt \/ CLTast fa = Exited) by (unfold CLTast; destruct (forallb _ _); auto).
    assert (Cn := compiler_start).
    destruct K as [K|K].
    2: { right. rewrite K. split; [left; reflexivity|]. intros (whole & C & R).
         assert (CLTast fa = Val tt) by (apply (types_right a P U s lits B); apply R). congruence. }
    rewrite K. cbn [bind]. rewrite numbers_same, start_same.
    destruct (AITA_ends a (actions_declared a s lits B) ste (lookup a ste table) Ne fuel Hf) as [(st & t & E1 & E2)|(E1 & E2)]; rewrite E1, E2; cbn [bind].
    - destruct (start_up a st E1) as [Up S].
      assert (Ist := up_in a st Up).
      destruct (tree_of_phase a (actions_declared a s lits B) st Ist) as (l & F & D).
      { intros q R C. apply Ne. exists st, q. auto. }
      assert (Hd : depths l < fuel) by lia.
      destruct (map_out_cases _ _ (MITLinode ste fuel st t) (node_targets st l) (a_nodes fa)
        (one_node a P U s lits B nonempty nodes_named sets_named ste table st l F fuel Hd t)) as [[Ev H]|[Ev H]].
      + left. split; [exact Ev|]. exists (Plan (DPhase st) l). split; [constructor; assumption|].
        apply (nodes_right a P U s lits B st l Con). split; assumption.
      + right. split; [left; exact Ev|]. intros (whole & C & R). apply H.
        destruct (Cn whole C) as (st' & l' & -> & E' & F'). rewrite E1 in E'. injection E' as <-.
        assert (l' = l) as ->.
        { clear - F F' table. revert l' F'. induction F as [|i x is ls Hx F IHF]; intros l' F'; inversion F'; subst; [reflexivity|].
          f_equal; [eapply unfolds_unique; eassumption|auto]. }
        apply (nodes_right a P U s lits B st l Con) in R. apply R.
    - right. split; [right; reflexivity|]. intros (whole & C & _). destruct (Cn whole C) as (st & l & _ & E & _). congruence.
  Qed.

  Theorem lifetimes_endless : endless a -> forall fuel,
    unpack_lifetimes ste fuel fa = NoFuel /\ (forall x, written_attribute a x -> at_lifetimes x <> [] -> at_type x = AT_string \/ is_link a x) \/
    unpack_lifetimes ste fuel fa = Exited /\ ~ (forall x, written_attribute a x -> at_lifetimes x <> [] -> at_type x = AT_string \/ is_link a x).
  Proof.
    intros E fuel. rewrite <- (types_right a P U s lits B). unfold unpack_lifetimes. fold fa.
    assert (K : CLTast fa = Val tt \/ CLTast fa = Exited) by (unfold CLTast; destruct (forallb _ _); auto).
    destruct K as [K|K]; rewrite K; cbn [bind].
    - left. split; [|reflexivity]. rewrite numbers_same, (AITA_endless a (actions_declared a s lits B) ste (lookup a ste table) E fuel). reflexivity.
    - right. split; [reflexivity|discriminate].
  Qed.
End Verdict.
