(** Accessors of accepted specifications (C51). *)

From Coq Require Import String.
From Coq Require Import List Ascii NArith Bool Arith Lia.
From Verif Require Import Base.Outcome Base.Heap Palm.StrModel Front.Syntax Front.SetsModel Front.SetsSpec Front.SetsProof
  Front.SymbolTableSpec Front.SymbolTableProof Front.PropagateModel Front.PropagateSpec Front.NodesetPassesProof
  Front.ProductRulesProof Sched.FrontendModel
  Gen.NodesModel Gen.NodesProof Gen.TravChildSpec Gen.TravChildProof Gen.CompileSpec Gen.CompileVerdict Gen.CompileLegal
  Gen.AccessModel Gen.AccessSpec Gen.AccessMembers Gen.AccessProof.
Import Front.SetsSpec.
Import ListNotations.
Local Open Scope list_scope.
Local Open Scope outcome_scope.

Lemma assoc_update_all : forall A y (v : A) l w, assoc y l = Some w ->
  map fst (update y v l) = map fst l /\ assoc y (update y v l) = Some v /\ forall n, n <> y -> assoc n (update y v l) = assoc n l.
Proof.
  intros A y v. induction l as [|[x u] l IH]; intros w E; [discriminate|]. cbn [assoc update] in *. destruct (name_eqb x y) eqn:X.
  - cbn [map fst assoc]. rewrite X. split; [reflexivity|]. split; [reflexivity|]. intros n N. apply name_eqb_true in X. subst x.
    rewrite (name_eqb_neq y n) by congruence. reflexivity.
  - cbn [map fst assoc]. rewrite X. destruct (IH w E) as (H1 & H2 & H3). split; [congruence|]. split; [exact H2|].
    intros n N. destruct (name_eqb x n); [reflexivity|]. apply H3, N.
Qed.

Section Whole.
  Variable a : ast.
  Hypothesis P : parsed_ast a.
  Hypothesis U : unmarked a.
  Variable s : pra.
  Variable lits : list literal.
  Hypothesis B : before_scheduling a = Val (s, lits).
  Let fa := finished a s lits.
  Hypothesis DA : distinct_accessors fa.
  Hypothesis DF : distinct_functions fa.

  Lemma literal_at : forall k m, nth_error (a_nodesets a) k = Some m -> exists lit, nth_error lits k = Some lit /\
    (forall S x, denotes (a_nodesets a) (ns_expr m) S -> (S x <-> In x (map ID_LWR (listed lit)))) /\
    In (with_members m (lit, map (resolve a) (nth k (p_sets s) []))) (a_nodesets fa) /\ denotes (a_nodesets a) (ns_expr m) (names_in lit).
  Proof.
    intros k m Hm. destruct (accepted_literals a P U s lits B) as (Ll & R).
    destruct (nth_error lits k) as [lit|] eqn:El.
    2:{ apply nth_error_None in El. assert (k < length (a_nodesets a)) by (apply nth_error_Some; congruence). lia. }
    exists lit. split; [reflexivity|]. destruct (R k m lit Hm El) as (D & _). split; [|split; [|exact D]].
    - intros S x DS. apply (denotes_unique _ _ _ _ (accepted_unique a s lits B) DS D x).
    - apply (final_set a P U s lits B). exists k, m, lit. auto.
  Qed.
  Lemma node_at_final : forall i n, nth_error (a_nodes a) i = Some n -> In (with_attributes n (map (resolve a) (nth i (p_nodes s) []))) (a_nodes fa).
  Proof. intros i n Hn. apply (final_node a P U s lits B). eauto. Qed.

  Notation res := (resolve a).
  Lemma node_res : forall i n x, nth_error (a_nodes a) i = Some n -> node_attribute a n x ->
    exists z, In z (map res (nth i (p_nodes s) [])) /\ alike (res x) z.
  Proof.
    intros i n x Hn A. destruct (node_final a P U s lits B i n x Hn A) as (z & Iz & Az). exists (res z).
    split; [apply in_map, Iz|apply resolve_alike, Az].
  Qed.
  Lemma set_res : forall k m i x, nth_error (a_nodesets a) k = Some m -> set_given_by a k i x ->
    exists z, In z (map res (nth k (p_sets s) [])) /\ alike (res x) z.
  Proof.
    intros k m i x Hm A. destruct (set_final a P U s lits B k m i x Hm A) as (z & Iz & Az). exists (res z).
    split; [apply in_map, Iz|apply resolve_alike, Az].
  Qed.
  Lemma member_res : forall k m y n i lit, nth_error (a_nodesets a) k = Some m -> In y (map res (nth k (p_sets s) [])) ->
    nth_error lits k = Some lit -> nth_error (a_nodes a) i = Some n -> In (ID_LWR (nd_name n)) (map ID_LWR (listed lit)) ->
    exists z, In z (map res (nth i (p_nodes s) [])) /\ alike y z.
  Proof.
    intros k m y n i lit Hm Iy Hl Hn M. apply in_map_iff in Iy. destruct Iy as (y' & <- & Iy).
    destruct (member_final a P U s lits B k m y' n i lit Hm Iy Hl Hn M) as (z & Iz & Az). exists (res z).
    split; [apply in_map, Iz|apply resolve_alike, Az].
  Qed.

  (** An accessor leads to the attribute of the node. *)
  Lemma use_meant : forall debug debug_ast h id x n p e, meant_for a id x n ->
    lookup h p = Some (BNode e) -> nodetype e = Some (ID_LWR (nd_name n)) ->
    exists n' z, In n' (a_nodes fa) /\ nd_name n' = nd_name n /\ In z (nd_attributes n') /\ alike (res x) z /\
      use fa debug debug_ast (accessor id (at_name x)) p h = call_node fa debug debug_ast (DGNAFattribute n' z) p h.
  Proof.
    intros debug debug_ast h id x n p e M Lp T.
    destruct M as [In_ Sid A|k m i S Hm Sid G D In_ M]; apply In_nth_error in In_; destruct In_ as (j & Hn);
      exists (with_attributes n (map (resolve a) (nth j (p_nodes s) []))).
    - destruct (node_res j n x Hn A) as (z & Iz & Az). exists z.
      assert (In' := node_at_final j n Hn). split; [exact In'|]. split; [reflexivity|]. split; [exact Iz|]. split; [exact Az|].
      rewrite (accessor_id id (nd_name n) (at_name x) (at_name z)); [|symmetry; exact Sid|symmetry; apply Az].
      apply (use_node_attribute fa DA DF debug debug_ast h _ z p In' Iz).
    - destruct (set_res k m i x Hm G) as (y & Iy & Ay).
      destruct (literal_at k m Hm) as (lit & El & In_lit & Im' & _).
      apply (In_lit S _ D) in M.
      destruct (member_res k m y n j lit Hm Iy El Hn M) as (z & Iz & Az). exists z.
      assert (In' := node_at_final j n Hn). split; [exact In'|]. split; [reflexivity|]. split; [exact Iz|].
      split; [eapply alike_trans; eassumption|].
      rewrite (accessor_id id (ns_name m) (at_name x) (at_name y)); [|symmetry; exact Sid|symmetry; apply Ay].
      exact (use_set_member fa DA DF debug debug_ast h (with_members m (lit, map (resolve a) (nth k (p_sets s) []))) y
               (with_attributes n (map (resolve a) (nth j (p_nodes s) []))) z p e Im' Iy In' Iz Az M Lp T).
  Qed.

  Lemma classic_iff : forall x, classic x <-> is_classic x = true.
  Proof.
    intros x. unfold classic, is_classic. destruct (at_is_inherited x), (at_is_synthesized x); cbn; split; intros; try discriminate;
      try tauto; destruct H; discriminate.
  Qed.

  Theorem child_access : forall debug debug_ast n c h p d v, In n (a_nodes a) -> In c (nd_children n) ->
    child_is h n p d (ch_name c) v ->
    (v <> Raw -> get fa debug debug_ast (accessor (nd_name n) (ch_name c)) p h = Val v) /\
    forall w, exists h', set fa debug debug_ast (accessor (nd_name n) (ch_name c)) p w h = Val h' /\
      only_slot h h' d (ID_LWR (ch_name c)) w.
  Proof.
    intros debug debug_ast n c h p d v In_ Ic (ks & fs & N & A). apply In_nth_error in In_. destruct In_ as (i & Hn).
    assert (In' := node_at_final i n Hn).
    assert (Us : use fa debug debug_ast (accessor (nd_name n) (ch_name c)) p h = Val (Lvalue (Child_slot d (ID_LWR (ch_name c))))).
    { transitivity (call_node fa debug debug_ast (DGNAFchild (with_attributes n (map (resolve a) (nth i (p_nodes s) []))) c) p h).
      - exact (use_node_child fa DA DF debug debug_ast h _ c p In' Ic).
      - eapply call_child; [exact N|exact A]. }
    unfold get, set. rewrite Us. cbn [bind]. destruct N as (_ & Ld). rewrite Ld, A. split.
    - intros V. destruct v; [congruence|reflexivity|reflexivity].
    - intros w. eexists. split; [reflexivity|]. destruct (assoc_update_all _ _ w _ _ A) as (H1 & H2 & H3). split.
      + intros x X. rewrite lookup_store. destruct (N.eqb_spec x d); congruence.
      + exists ks, (update (ID_LWR (ch_name c)) w ks), fs. split; [exact Ld|]. split; [|auto].
        rewrite lookup_store. destruct (N.eqb_spec d d); congruence.
  Qed.

  Theorem classic_access : forall debug debug_ast id x n h p d v, meant_for a id x n -> classic x ->
    attribute_is h n p d (at_name x) (Classic v) ->
    (v <> Raw -> get fa debug debug_ast (accessor id (at_name x)) p h = Val v) /\
    forall w, exists h', set fa debug debug_ast (accessor id (at_name x)) p w h = Val h' /\
      only_attribute h h' d (ID_LWR (at_name x)) (Classic w).
  Proof.
    intros debug debug_ast id x n h p d v M K (ks & fs & N & A). assert (N' := N). destruct N' as ((e & Lp & T & _) & Ld).
    destruct (use_meant debug debug_ast h id x n p e M Lp T) as (n' & z & In' & Nn & Iz & Az & Us).
    assert (Sz : ID_LWR (at_name z) = ID_LWR (at_name x)) by apply Az.
    rewrite (call_classic fa debug debug_ast h n' z p d ks fs v) in Us.
    2:{ unfold node_at in *. rewrite Nn. exact N. }
    2:{ rewrite (alike_classic _ _ Az). apply classic_iff, K. }
    2:{ rewrite Sz. exact A. }
    rewrite Sz in Us. unfold get, set. rewrite Us. cbn [bind]. rewrite Ld, A. split.
    - intros V. destruct v; [congruence|reflexivity|reflexivity].
    - intros w. eexists. split; [reflexivity|]. destruct (assoc_update_all _ _ (Classic w) _ _ A) as (H1 & H2 & H3). split.
      + intros y Y. rewrite lookup_store. destruct (N.eqb_spec y d); congruence.
      + exists ks, fs, (update (ID_LWR (at_name x)) (Classic w) fs). split; [exact Ld|]. split; [|auto].
        rewrite lookup_store. destruct (N.eqb_spec d d); congruence.
  Qed.

  Theorem computed_access : forall debug debug_ast id x n h p d b v, meant_for a id x n -> ~ classic x ->
    attribute_is h n p d (at_name x) (Evaluated (Some b) v) ->
    get fa debug debug_ast (accessor id (at_name x)) p h =
      (if debug && debug_ast && negb b then Aborted else match v with Raw => Undef | _ => Val v end) /\
    forall w h', set fa debug debug_ast (accessor id (at_name x)) p w h <> Val h'.
  Proof.
    intros debug debug_ast id x n h p d b v M K (ks & fs & N & A). assert (N' := N). destruct N' as ((e & Lp & T & _) & Ld).
    destruct (use_meant debug debug_ast h id x n p e M Lp T) as (n' & z & In' & Nn & Iz & Az & Us).
    assert (Sz : ID_LWR (at_name z) = ID_LWR (at_name x)) by apply Az.
    rewrite (call_computed fa DA DF debug debug_ast h n' z p d ks fs b v In' Iz) in Us.
    2:{ unfold node_at in *. rewrite Nn. exact N. }
    2:{ rewrite (alike_classic _ _ Az). change (is_classic (res x)) with (is_classic x). destruct (is_classic x) eqn:E; [|reflexivity]. destruct K. apply classic_iff, E. }
    2:{ rewrite Sz. exact A. }
    unfold get, set. rewrite Us. destruct (debug && debug_ast && negb b).
    - split; [reflexivity|]. intros w h'. discriminate.
    - destruct v; cbn [written bind]; split; try reflexivity; intros w h'; discriminate.
  Qed.

  (** *** Other nodes *)
  Theorem child_other : forall debug debug_ast n c h p e, In n (a_nodes a) -> In c (nd_children n) ->
    lookup h p = Some (BNode e) -> nodetype e <> Some (ID_LWR (nd_name n)) ->
    use fa debug debug_ast (accessor (nd_name n) (ch_name c)) p h = if debug && debug_ast then Aborted else Undef.
  Proof.
    intros debug debug_ast n c h p e In_ Ic Lp T. apply In_nth_error in In_. destruct In_ as (i & Hn). assert (In' := node_at_final i n Hn).
    transitivity (call_node fa debug debug_ast (DGNAFchild (with_attributes n (map (resolve a) (nth i (p_nodes s) []))) c) p h).
    - exact (use_node_child fa DA DF debug debug_ast h _ c p In' Ic).
    - eapply (call_child_other fa DA DF); eassumption.
  Qed.
  Theorem attribute_other : forall debug debug_ast n x h p e, In n (a_nodes a) -> node_attribute a n x ->
    lookup h p = Some (BNode e) -> nodetype e <> Some (ID_LWR (nd_name n)) ->
    use fa debug debug_ast (accessor (nd_name n) (at_name x)) p h = if debug && debug_ast then Aborted else Undef.
  Proof.
    intros debug debug_ast n x h p e In_ A Lp T. apply In_nth_error in In_. destruct In_ as (i & Hn). assert (In' := node_at_final i n Hn).
    destruct (node_res i n x Hn A) as (z & Iz & Az).
    rewrite (accessor_id (nd_name n) (nd_name n) (at_name x) (at_name z)); [|reflexivity|symmetry; apply Az].
    transitivity (call_node fa debug debug_ast (DGNAFattribute (with_attributes n (map (resolve a) (nth i (p_nodes s) []))) z) p h).
    - exact (proj1 (use_node_attribute fa DA DF debug debug_ast h _ z p In' Iz)).
    - eapply (call_attribute_other fa DA DF); eassumption.
  Qed.
  Theorem set_other : forall debug debug_ast k m i x h p e S, nth_error (a_nodesets a) k = Some m -> set_given_by a k i x ->
    denotes (a_nodesets a) (ns_expr m) S -> lookup h p = Some (BNode e) -> (forall t, nodetype e = Some t -> ~ S t) ->
    use fa debug debug_ast (accessor (ns_name m) (at_name x)) p h =
      if debug && debug_ast then Aborted
      else Val (if is_classic x then Lvalue At_null else Rvalue (zero (print_type (res x)))).
  Proof.
    intros debug debug_ast k m i x h p e S Hm G D Lp T.
    destruct (set_res k m i x Hm G) as (y & Iy & Ay).
    destruct (literal_at k m Hm) as (lit & El & In_lit & Im' & _).
    rewrite (accessor_id (ns_name m) (ns_name m) (at_name x) (at_name y)); [|reflexivity|symmetry; apply Ay].
    change (is_classic x) with (is_classic (res x)). rewrite <- (alike_classic _ _ Ay), <- (alike_type _ _ Ay).
    apply (use_set_other fa DA DF debug debug_ast h (with_members m (lit, map (resolve a) (nth k (p_sets s) []))) y p e Im' Iy Lp).
    intros t Et Bad. apply (T t Et). apply (In_lit S t D). exact Bad.
  Qed.

  (** *** The generated C *)
  Theorem accessors_compile : compiles fa.
  Proof.
    split; [exact (functions_distinct fa DF)|]. split; [exact (macros_distinct fa DA)|]. split; [exact (errors_distinct fa DF)|].
    assert (Sw : forall f cases, In f (functions fa) -> f_body f = Switch cases ->
      exists k m lit y, nth_error (a_nodesets a) k = Some m /\ nth_error lits k = Some lit /\ In y (map res (nth k (p_sets s) [])) /\
        f = DGNSAFattribute (with_members m (lit, map (resolve a) (nth k (p_sets s) []))) y /\ cases = DGNSAFsetliteral y lit).
    { intros f cases I E. apply in_app_iff in I. destruct I as [I|I]; apply in_flat_map in I; destruct I as (q & Iq & I).
      - exfalso. apply in_app_iff in I. destruct I as [I|I]; apply in_map_iff in I; destruct I as (z & <- & _).
        + discriminate.
        + rewrite attribute_body in E. destruct (is_classic z); discriminate.
      - apply in_map_iff in I. destruct I as (y & <- & Iy). apply (final_set a P U s lits B) in Iq.
        destruct Iq as (k & m & lit & Hm & Hl & ->). exists k, m, lit, y. cbn in E. injection E as <-. split; [exact Hm|]. split; [exact Hl|]. split; [exact Iy|]. split; reflexivity. }
    split.
    - intros f cases c I E Ic. destruct (Sw f cases I E) as (k & m & lit & y & Hm & Hl & Iy & -> & ->).
      rewrite cases_are in Ic. apply in_map_iff in Ic. destruct Ic as (r & <- & Ir). cbn [snd].
      destruct (members_exist a P U s lits B k lit r Hl Ir) as (i & n & Hn & Sn).
      destruct (member_res k m y n i lit Hm Iy Hl Hn) as (z & Iz & Az).
      { unfold same_id in Sn. rewrite Sn. apply in_map, Ir. }
      assert (In' := node_at_final i n Hn). destruct (attribute_parts fa DA DF _ z In' Iz) as (M & F & _).
      exists (DGNMattribute (nd_name n) z), (DGNAFattribute (with_attributes n (map (resolve a) (nth i (p_nodes s) []))) z).
      split; [|split; [exact F|]].
      + change (upper_name r (at_name y)) with (accessor r (at_name y)).
        rewrite (accessor_id r (nd_name n) (at_name y) (at_name z)); [exact M|symmetry; exact Sn|symmetry; apply Az].
      + destruct (macro_attribute (nd_name n) z) as (_ & -> & _). cbn [f_pointer f_type DGNAFattribute DGNSAFattribute].
        rewrite (alike_classic _ _ Az), (alike_type _ _ Az). auto.
    - intros f cases I E. destruct (Sw f cases I E) as (k & m & lit & y & Hm & Hl & Iy & -> & ->).
      rewrite cases_are, map_map. cbn [fst]. apply (proj2 (accepted_literals a P U s lits B) k m lit Hm Hl).
  Qed.
End Whole.

(** ** Distinct names *)

Lemma before_underscore : forall (x x' y y' : cstring), ~ In "_"%char x -> ~ In "_"%char x' ->
  x ++ "_"%char :: y = x' ++ "_"%char :: y' -> x = x' /\ y = y'.
Proof.
  induction x as [|c x IH]; intros [|c' x'] y y' N N' E; cbn in *.
  - injection E as <-. auto.
  - injection E as <- _. tauto.
  - injection E as -> _. tauto.
  - injection E as <- E. destruct (IH x' y y') as [-> ->]; auto.
Qed.
Lemma lwr_underscore : forall x, ~ In "_"%char x -> ~ In "_"%char (ID_LWR x).
Proof.
  intros x N I. apply N. unfold ID_LWR in I. apply in_map_iff in I. destruct I as (c & E & I).
  assert (c = "_"%char); [|congruence]. revert E. clear. destruct c as [[] [] [] [] [] [] [] []]; vm_compute; congruence.
Qed.

Theorem names_suffice : forall a, distinct_accessors a ->
  (forall n, In n (a_nodes a) -> ~ In "_"%char (nd_name n) /\ ID_LWR (nd_name n) <> str "readonly") ->
  (forall m, In m (a_nodesets a) -> ~ In "_"%char (ns_name m) /\ ID_LWR (ns_name m) <> str "readonly") ->
  distinct_functions a.
Proof.
  intros a DA Nn Ns. unfold distinct_accessors in DA. rewrite accessors_names in DA. eapply NoDup_transfer; [exact DA|].
  assert (H : forall x y c, In (x, y, c) (accessible a) -> ~ In "_"%char x /\ ID_LWR x <> str "readonly").
  { intros x y c I. apply in_app_iff in I. destruct I as [I|I]; apply in_flat_map in I; destruct I as (q & Iq & I).
    - apply in_app_iff in I. destruct I as [I|I]; apply in_map_iff in I; destruct I as (z & E & _); injection E as <- _ _; auto.
    - apply in_map_iff in I. destruct I as (z & E & _). injection E as <- _ _. auto. }
  assert (Ro : ~ In "_"%char (str "readonly")) by (vm_compute; intuition discriminate).
  intros [[x y] c] [[x' y'] c'] I I' E. destruct (H _ _ _ I) as [U1 R1]. destruct (H _ _ _ I') as [U2 R2]. cbn [fst snd].
  apply lwr_underscore in U1, U2. unfold function_name in E.
  change (list_ascii_of_string "readonly_") with (str "readonly" ++ ["_"%char]) in E. cbn [app] in E.
  destruct c, c'; rewrite <- ?app_assoc in E; cbn [app] in E.
  - apply before_underscore in E; auto. destruct E as [_ E]. apply before_underscore in E; auto. apply accessor_id; unfold same_id; tauto.
  - apply before_underscore in E; auto. destruct E as [E _]. congruence.
  - apply before_underscore in E; auto. destruct E as [E _]. congruence.
  - apply before_underscore in E; auto. apply accessor_id; unfold same_id; tauto.
Qed.

Theorem plain_names : forall a s lits, parsed_ast a -> unmarked a -> before_scheduling a = Val (s, lits) ->
  (forall n, In n (a_nodes a) -> ~ In "_"%char (nd_name n) /\ ID_LWR (nd_name n) <> str "readonly") ->
  (forall m, In m (a_nodesets a) -> ~ In "_"%char (ns_name m) /\ ID_LWR (ns_name m) <> str "readonly") ->
  distinct_accessors (finished a s lits) /\ distinct_functions (finished a s lits).
Proof.
  intros a s lits P U B Nn Ns.
  assert (Nn' : forall n, In n (a_nodes (finished a s lits)) -> ~ In "_"%char (nd_name n) /\ ID_LWR (nd_name n) <> str "readonly").
  { intros n I. apply (final_node a P U s lits B) in I. destruct I as (i & n0 & Hn & ->). apply (Nn n0). eapply nth_error_In, Hn. }
  assert (Ns' : forall m, In m (a_nodesets (finished a s lits)) -> ~ In "_"%char (ns_name m) /\ ID_LWR (ns_name m) <> str "readonly").
  { intros m I. apply (final_set a P U s lits B) in I. destruct I as (i & n0 & l & Hn & Hl & ->). apply (Ns n0). eapply nth_error_In, Hn. }
  assert (DA : distinct_accessors (finished a s lits)).
  { apply accessors_distinct.
    - rewrite (final_names a P U s lits B). exact (accepted_names a s lits B).
    - exact (final_members a P U s lits B).
    - exact (final_sets a P U s lits B).
    - intros n I. apply Nn', I.
    - intros m I. apply Ns', I. }
  split; [exact DA|]. apply names_suffice; assumption.
Qed.
