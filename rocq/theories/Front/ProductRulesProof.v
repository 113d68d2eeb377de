(** Proofs about checkProductRules (C38). *)

From Coq Require Import List Ascii Bool Arith Lia.
From Verif Require Import Base.Outcome Palm.StrModel Palm.StrProof Front.Syntax
  Front.SetsSpec Front.SymbolTableModel Front.SymbolTableSpec Front.SymbolTableProof
  Front.CheckExistanceModel Front.CheckExistanceSpec Front.CheckExistanceProof
  Front.NodesetTableModel Front.NodesetTableSpec Front.NodesetTableProof
  Front.PropagateModel Front.PropagateSpec Front.PropagateProof Front.PropagateWalk
  Front.NodesetPassesModel Front.NodesetPassesProof
  Front.ProductRulesModel Front.ProductRulesSpec.
Import ListNotations.
Local Open Scope outcome_scope.

(** ** Searching by name *)

Lemma find_by_name : forall A (name : A -> ident) l id x,
  NoDup (map (fun y => ID_LWR (name y)) l) ->
  (find (fun y => same_name (name y) id) l = Some x <-> In x l /\ same_id (name x) id).
Proof.
  intros A name l id x. induction l as [|y l IH]; cbn [find map]; intros N.
  - split; [discriminate|intros [[] _]].
  - inversion N as [|? ? N1 N2]; subst. destruct (same_name (name y) id) eqn:E.
    + apply same_name_iff in E. split.
      * intros H. injection H as <-. split; [left; reflexivity|assumption].
      * intros [[->|H] Hx]; [reflexivity|]. exfalso. apply N1. unfold same_id in *. rewrite E, <- Hx.
        now apply (in_map (fun y => ID_LWR (name y))).
    + apply same_name_false in E. rewrite IH by assumption. split.
      * intros [H Hx]. split; [right; assumption|assumption].
      * intros [[->|H] Hx]; [contradiction|auto].
Qed.

Lemma find_by_name_none : forall A (name : A -> ident) l id,
  find (fun y => same_name (name y) id) l = None <-> forall x, In x l -> ~ same_id (name x) id.
Proof.
  intros A name l id. split.
  - intros H x Hx. apply same_name_false. exact (find_none _ _ H x Hx).
  - intros H. destruct (find _ l) as [x|] eqn:E; [|reflexivity].
    apply find_some in E. destruct E as [E1 E2]. apply same_name_iff in E2. now apply H in E1.
Qed.

(** What the passes before guarantee. *)
Record grammar_input (nodes : list inode) (sets : list inodeset) (attrs : pra) : Prop := {
  gi_len_nodes : length (p_nodes attrs) = length nodes;
  gi_len_sets : length (p_sets attrs) = length sets;
  gi_names : NoDup (map (fun n => ID_LWR (nd_name n)) nodes ++ map (fun m => ID_LWR (ns_name m)) sets);
  gi_node_attrs : forall l, In l (p_nodes attrs) -> NoDup (map (fun x => ID_LWR (at_name x)) l);
  gi_set_attrs : forall l, In l (p_sets attrs) -> NoDup (map (fun x => ID_LWR (at_name x)) l);
  gi_children : forall n, In n nodes -> NoDup (map (fun c => ID_LWR (ch_name c)) (nd_children n));
  gi_types : forall n c, In n nodes -> In c (nd_children n) ->
    (exists m, In m nodes /\ same_id (nd_name m) (ch_type c)) \/
    (exists m, In m sets /\ same_id (ns_name m) (ch_type c)) }.

Section Proof.
  Variable nodes : list inode.
  Variable sets : list inodeset.
  Variable attrs : pra.
  Hypothesis G : grammar_input nodes sets attrs.

  Notation attributes_of := (attributes_of attrs).
  Notation find_type := (find_type nodes sets).
  Definition with_attributes : list (inode * list attribute) := combine nodes (p_nodes attrs).
  Definition sets_with_attributes : list (inodeset * list attribute) := combine sets (p_sets attrs).
  Notation has := (has_attributes with_attributes sets_with_attributes).
  Notation refers := (refers_to with_attributes sets_with_attributes).

  Lemma attributes_distinct : forall t, NoDup (map (fun x => ID_LWR (at_name x)) (attributes_of t)).
  Proof.
    intros [i|i]; cbn [ProductRulesModel.attributes_of].
    - destruct (Nat.lt_ge_cases i (length (p_nodes attrs))) as [L|L].
      + apply (gi_node_attrs _ _ _ G). now apply nth_In.
      + rewrite nth_overflow by lia. constructor.
    - destruct (Nat.lt_ge_cases i (length (p_sets attrs))) as [L|L].
      + apply (gi_set_attrs _ _ _ G). now apply nth_In.
      + rewrite nth_overflow by lia. constructor.
  Qed.

  Lemma nodes_distinct : NoDup (map (fun n => ID_LWR (nd_name n)) nodes).
  Proof. exact (proj1 (NoDup_app_parts _ _ _ (gi_names _ _ _ G))). Qed.
  Lemma sets_distinct : NoDup (map (fun m => ID_LWR (ns_name m)) sets).
  Proof. exact (proj2 (NoDup_app_parts _ _ _ (gi_names _ _ _ G))). Qed.

  Lemma find_nodeset_sound : forall l id i, find_nodeset l id = Some i ->
    exists m, nth_error l i = Some m /\ same_id (ns_name m) id.
  Proof.
    induction l as [|m l IH]; intros id i H; [discriminate|]. cbn [find_nodeset] in H.
    destruct (STReq _ _) eqn:E.
    - injection H as <-. exists m. split; [reflexivity|]. now apply STReq_lwr in E.
    - destruct (find_nodeset l id) as [j|] eqn:Ej; [|discriminate]. injection H as <-.
      exact (IH id j Ej).
  Qed.
  Lemma find_nodeset_none : forall l id, find_nodeset l id = None ->
    forall m, In m l -> ~ same_id (ns_name m) id.
  Proof.
    induction l as [|x l IH]; intros id H m [].
    - subst x. cbn [find_nodeset] in H. destruct (STReq _ _) eqn:E; [discriminate|].
      intros C. assert (X : STReq (Some (ID_LWR (ns_name m))) (Some (ID_LWR id)) = true)
        by (now apply STReq_lwr). congruence.
    - cbn [find_nodeset] in H. destruct (STReq _ _) eqn:E; [discriminate|].
      destruct (find_nodeset l id) eqn:Ej; [discriminate|]. now apply IH.
  Qed.
  Lemma find_node_sound : forall l id i, find_node l id = Some i ->
    exists n, nth_error l i = Some n /\ same_id (nd_name n) id.
  Proof.
    induction l as [|m l IH]; intros id i H; [discriminate|]. cbn [find_node] in H.
    destruct (same_name _ _) eqn:E.
    - injection H as <-. exists m. split; [reflexivity|]. now apply same_name_iff in E.
    - destruct (find_node l id) as [j|] eqn:Ej; [|discriminate]. injection H as <-.
      exact (IH id j Ej).
  Qed.
  Lemma find_node_none : forall l id, find_node l id = None ->
    forall m, In m l -> ~ same_id (nd_name m) id.
  Proof.
    induction l as [|x l IH]; intros id H m [].
    - subst x. cbn [find_node] in H. destruct (same_name _ _) eqn:E; [discriminate|].
      now apply same_name_false in E.
    - cbn [find_node] in H. destruct (same_name _ _) eqn:E; [discriminate|].
      destruct (find_node l id) eqn:Ej; [discriminate|]. now apply IH.
  Qed.

  Lemma name_pos_unique : forall A (f : A -> cstring) l i j x y, NoDup (map f l) ->
    nth_error l i = Some x -> nth_error l j = Some y -> f x = f y -> i = j.
  Proof.
    intros A f l i j x y N Hi Hj E.
    assert (Hi' := map_nth_error f i l Hi). assert (Hj' := map_nth_error f j l Hj).
    rewrite NoDup_nth_error in N. apply N; [apply nth_error_Some; congruence|congruence].
  Qed.

  Lemma in_combine_pos : forall A B (l : list A) (m : list B) x y, In (x, y) (combine l m) ->
    exists i, nth_error l i = Some x /\ nth_error m i = Some y.
  Proof.
    intros A B l m x y H. apply In_nth_error in H. destruct H as [i H].
    apply nth_error_combine in H. eauto.
  Qed.

  (** The attribute list found for a type name is the one of that type. *)
  Lemma find_type_has : forall id t, find_type id = Some t -> forall l, has id l <-> l = attributes_of t.
  Proof.
    intros id t H l. unfold ProductRulesModel.find_type in H.
    assert (Nd := nodes_distinct). assert (Ns := sets_distinct). assert (Nx := gi_names _ _ _ G).
    assert (X : forall n m, In n nodes -> In m sets -> ID_LWR (nd_name n) = ID_LWR (ns_name m) -> False).
    { intros n m Hn Hm E. clear - Nx Hn Hm E.
      induction nodes as [|y ys IH]; [easy|]. cbn [map app] in Nx. inversion Nx as [|? ? N1 N2]; subst.
      destruct Hn as [->|Hn]; [|auto]. apply N1. apply in_app_iff. right. rewrite E.
      now apply (in_map (fun m => ID_LWR (ns_name m))). }
    destruct (find_node nodes id) as [i|] eqn:En.
    - injection H as <-. destruct (find_node_sound _ _ _ En) as (n & Hn & Sn). cbn [ProductRulesModel.attributes_of].
      assert (Li : i < length nodes) by (apply nth_error_Some; congruence).
      split.
      + intros [(n' & H & S')|(m & H & S')]; apply in_combine_pos in H; destruct H as (j & H1 & H2).
        * assert (j = i) as ->.
          { apply (name_pos_unique _ (fun n => ID_LWR (nd_name n)) nodes j i n' n Nd H1 Hn). unfold same_id in *. congruence. }
          symmetry. now apply nth_error_nth.
        * exfalso. apply (X n m); [eapply nth_error_In; eassumption|eapply nth_error_In; eassumption|].
          unfold same_id in *; congruence.
      + intros ->. left. exists n. split; [|assumption]. apply (nth_error_In _ i).
        apply nth_error_combine_some; [assumption|]. apply nth_error_nth'. rewrite (gi_len_nodes _ _ _ G). assumption.
    - destruct (find_nodeset sets id) as [i|] eqn:Es; [|discriminate]. injection H as <-.
      destruct (find_nodeset_sound _ _ _ Es) as (n & Hn & Sn). cbn [ProductRulesModel.attributes_of].
      assert (Li : i < length sets) by (apply nth_error_Some; congruence).
      split.
      + intros [(n' & H & S')|(m & H & S')]; apply in_combine_pos in H; destruct H as (j & H1 & H2).
        * exfalso. apply (find_node_none _ _ En n'); [eapply nth_error_In; eassumption|assumption].
        * assert (j = i) as ->.
          { apply (name_pos_unique _ (fun n => ID_LWR (ns_name n)) sets j i m n Ns H1 Hn). unfold same_id in *. congruence. }
          symmetry. now apply nth_error_nth.
      + intros ->. right. exists n. split; [|assumption]. apply (nth_error_In _ i).
        apply nth_error_combine_some; [assumption|]. apply nth_error_nth'. rewrite (gi_len_sets _ _ _ G). assumption.
  Qed.

  Lemma find_type_defined : forall n c, In n nodes -> In c (nd_children n) -> find_type (ch_type c) <> None.
  Proof.
    intros n c Hn Hc. unfold ProductRulesModel.find_type.
    destruct (gi_types _ _ _ G n c Hn Hc) as [(m & Hm & E)|(m & Hm & E)].
    - destruct (find_node nodes (ch_type c)) eqn:F; [discriminate|]. now apply (find_node_none _ _ F m) in Hm.
    - destruct (find_node nodes (ch_type c)) eqn:F; [discriminate|].
      destruct (find_nodeset sets (ch_type c)) eqn:F'; [discriminate|]. now apply (find_nodeset_none _ _ F' m) in Hm.
  Qed.

  (** ** The caches *)

  Definition cached (s : cpr) : Prop :=
    (forall i key c, In ((i, key), c) (found_children s) -> exists n, nth_error nodes i = Some n /\
       In c (nd_children n) /\ ID_LWR (ch_name c) = key) /\
    (forall t key x, In ((t, key), x) (found_attributes s) -> In x (attributes_of t) /\ ID_LWR (at_name x) = key).

  Lemma HTfind_in : forall K V (eqb : K -> K -> bool) t k key (v : V), HTfind_nested eqb t k key = Some v ->
    exists k', eqb k k' = true /\ In ((k', key), v) t.
  Proof.
    intros K V eqb t k key v. induction t as [|[[k' key'] v'] t IH]; cbn [HTfind_nested]; [discriminate|].
    destruct (eqb k k' && STReq (Some key) (Some key')) eqn:E.
    - intros H. injection H as ->. apply andb_true_iff in E. destruct E as [E1 E2]. apply STReq_lwr in E2. subst key'.
      exists k'. split; [assumption|left; reflexivity].
    - intros H. destruct (IH H) as (k2 & H1 & H2). exists k2. split; [assumption|right; assumption].
  Qed.

  Lemma HTinsert_in : forall K V (eqb : K -> K -> bool) t k key (v : V) p,
    In p (HTinsert_nested eqb t k key v) -> In p t \/ p = ((k, key), v).
  Proof.
    intros K V eqb t k key v p. unfold HTinsert_nested. destruct (HTfind_nested _ _ _ _); cbn [In]; intuition.
  Qed.

  Lemma target_eqb_eq : forall a b, target_eqb a b = true -> a = b.
  Proof. intros [i|i] [j|j] H; cbn in H; try discriminate; apply Nat.eqb_eq in H; congruence. Qed.

  Lemma find_child_spec : forall s i n id, cached s -> nth_error nodes i = Some n ->
    exists s', find_child s i n id = (s', find (fun c => same_name (ch_name c) id) (nd_children n)) /\
      cached s' /\ c_errors s' = c_errors s /\ c_links s' = c_links s.
  Proof.
    intros s i n id [C1 C2] Hn.
    assert (Nc : NoDup (map (fun c => ID_LWR (ch_name c)) (nd_children n)))
      by (apply (gi_children _ _ _ G); eapply nth_error_In; exact Hn).
    unfold find_child. destruct (HTfind_nested Nat.eqb _ _ _) as [c|] eqn:E.
    - apply HTfind_in in E. destruct E as (k & Ek & Hin). apply Nat.eqb_eq in Ek. subst k.
      destruct (C1 _ _ _ Hin) as (n' & Hn' & Hc & Ec). rewrite Hn in Hn'. injection Hn' as <-.
      exists s. split; [|split; [exact (conj C1 C2)|auto]]. f_equal. symmetry.
      apply (find_by_name _ ch_name); auto.
    - destruct (find _ (nd_children n)) as [c|] eqn:F.
      + eexists. split; [reflexivity|]. cbn [c_errors c_links]. split; [|auto]. split; [|exact C2].
        cbn [found_children]. intros j key c' H. apply HTinsert_in in H. destruct H as [H|H]; [eauto|].
        injection H as -> -> ->.
        apply (find_by_name _ ch_name) in F; [|assumption]. destruct F as [F1 F2]. exists n. auto.
      + exists s. split; [reflexivity|]. split; [exact (conj C1 C2)|auto].
  Qed.

  Lemma find_attribute_spec : forall s t id, cached s ->
    exists s', find_attribute attrs s t id = (s', find (fun x => same_name (at_name x) id) (attributes_of t)) /\
      cached s' /\ c_errors s' = c_errors s /\ c_links s' = c_links s.
  Proof.
    intros s t id [C1 C2]. assert (N := attributes_distinct t).
    unfold find_attribute. destruct (HTfind_nested target_eqb _ _ _) as [x|] eqn:E.
    - apply HTfind_in in E. destruct E as (k & Ek & Hin). apply target_eqb_eq in Ek. subst k.
      destruct (C2 _ _ _ Hin) as [Hx Ex].
      exists s. split; [|split; [exact (conj C1 C2)|auto]]. f_equal. symmetry.
      apply (find_by_name _ at_name); auto.
    - destruct (find _ (attributes_of t)) as [x|] eqn:F.
      + eexists. split; [reflexivity|]. cbn [c_errors c_links]. split; [|auto]. split; [exact C1|].
        cbn [found_attributes]. intros u key y H. apply HTinsert_in in H. destruct H as [H|H]; [eauto|].
        injection H as -> -> ->.
        apply (find_by_name _ at_name) in F; [|assumption]. destruct F as [F1 F2]. auto.
      + exists s. split; [reflexivity|]. split; [exact (conj C1 C2)|auto].
  Qed.

  (** ** One reference *)

  Definition right_kind (r : attribute_reference) (in_rule : bool) (x : attribute) : Prop :=
    in_rule = true -> if ar_inode r then at_is_inherited x = true else at_is_synthesized x = true.

  (** the link set for a reference *)
  Definition good_link (l : link) : Prop :=
    exists n, nth_error nodes (l_node l) = Some n /\
      In (l_attribute l) (attributes_of (l_target l)) /\
      same_id (at_name (l_attribute l)) (ar_attribute (l_reference l)) /\
      match ar_inode (l_reference l) with
      | None => l_child l = None /\ l_target l = TNode (l_node l)
      | Some cn => exists c, l_child l = Some c /\ In c (nd_children n) /\ same_id (ch_name c) cn /\
                             find_type (ch_type c) = Some (l_target l)
      end.

  (** [s'] comes from [s] by a step that reports no error iff [P] holds, and
      then sets links for the references [rs] of node [i]. *)
  Definition step_ok (P : Prop) (i : nat) (rs : list attribute_reference) (s s' : cpr) : Prop :=
    cached s' /\ (exists es, c_errors s' = c_errors s ++ es /\ (es = [] <-> P)) /\
    (exists ls, c_links s' = c_links s ++ ls /\ Forall good_link ls /\
       (P -> map (fun l => (l_node l, l_reference l)) ls = map (fun r => (i, r)) rs)).

  Lemma step_ok_trans : forall P Q i rs1 rs2 s1 s2 s3,
    step_ok P i rs1 s1 s2 -> step_ok Q i rs2 s2 s3 -> step_ok (P /\ Q) i (rs1 ++ rs2) s1 s3.
  Proof.
    intros P Q i rs1 rs2 s1 s2 s3 (_ & (es & E1 & I1) & ls & L1 & F1 & M1)
      (C & (es' & E2 & I2) & ls' & L2 & F2 & M2).
    split; [assumption|]. split.
    - exists (es ++ es'). split; [rewrite E2, E1; now rewrite app_assoc|]. rewrite app_nil_iff. tauto.
    - exists (ls ++ ls'). split; [rewrite L2, L1; now rewrite app_assoc|]. split.
      + apply Forall_app; auto.
      + intros [p q]. rewrite !map_app, M1, M2; auto.
  Qed.

  Lemma step_ok_iff : forall P Q i rs s s', (P <-> Q) -> step_ok P i rs s s' -> step_ok Q i rs s s'.
  Proof.
    intros P Q i rs s s' H (C & (es & E & I) & ls & L & F & M). split; [assumption|]. split.
    - exists es. tauto.
    - exists ls. tauto.
  Qed.

  Lemma step_ok_refl : forall i s, cached s -> step_ok True i [] s s.
  Proof.
    intros i s C. split; [assumption|]. split; exists []; rewrite app_nil_r; repeat split; auto.
  Qed.

  Lemma refers_this_iff : forall i n r x, nth_error nodes i = Some n -> ar_inode r = None ->
    (refers n (attributes_of (TNode i)) r x <->
     find (fun y => same_name (at_name y) (ar_attribute r)) (attributes_of (TNode i)) = Some x).
  Proof.
    intros i n r x Hn Hr. rewrite (find_by_name _ at_name _ _ _ (attributes_distinct (TNode i))). split.
    - intros [H1 H2 H3|cn c lc H1]; [auto|congruence].
    - intros [H1 H2]. now apply refers_this.
  Qed.

  Lemma refers_child_iff : forall n l r x cn c t, In n nodes -> ar_inode r = Some cn ->
    In c (nd_children n) -> same_id (ch_name c) cn -> find_type (ch_type c) = Some t ->
    (refers n l r x <->
     find (fun y => same_name (at_name y) (ar_attribute r)) (attributes_of t) = Some x).
  Proof.
    intros n l r x cn c t Hn Hr Hc Ec Ht. rewrite (find_by_name _ at_name _ _ _ (attributes_distinct t)). split.
    - intros [H1 H2 H3|cn' c' lc H1 H2 H3 H4 H5 H6]; [congruence|].
      assert (cn' = cn) as -> by congruence.
      assert (c' = c) as ->.
      { assert (Nc := gi_children _ _ _ G n Hn).
        assert (F1 := proj2 (find_by_name _ ch_name _ cn c' Nc) (conj H2 H3)).
        assert (F2 := proj2 (find_by_name _ ch_name _ cn c Nc) (conj Hc Ec)). congruence. }
      rewrite (find_type_has _ _ Ht) in H4. subst lc. auto.
    - intros [H1 H2]. apply (refers_child _ _ n l r x cn c (attributes_of t)); auto.
      now apply (find_type_has _ _ Ht).
  Qed.

  Lemma in_target_ok : forall s i n r c t in_rule (R : attribute -> Prop),
    cached s -> nth_error nodes i = Some n ->
    (forall x, R x <-> find (fun y => same_name (at_name y) (ar_attribute r)) (attributes_of t) = Some x) ->
    match ar_inode r with
    | None => c = None /\ t = TNode i
    | Some cn => exists c', c = Some c' /\ In c' (nd_children n) /\ same_id (ch_name c') cn /\
                   find_type (ch_type c') = Some t
    end ->
    step_ok (exists x, R x /\ right_kind r in_rule x) i [r] s (check_in_target attrs s i r c t in_rule).
  Proof.
    intros s i n r c t in_rule R C Hn HR HL. unfold check_in_target.
    destruct (find_attribute_spec s t (ar_attribute r) C) as (s' & -> & C' & E' & L').
    destruct (find _ (attributes_of t)) as [x|] eqn:F.
    - assert (Rx : R x) by now apply HR.
      apply find_by_name in F; [|apply attributes_distinct]. destruct F as [Fx Ex].
      assert (GL : good_link (mk_link i r c t x)).
      { exists n. cbn [l_node l_attribute l_target l_reference l_child]. repeat split; auto. }
      assert (U : forall y, R y -> y = x).
      { intros y Hy. apply HR in Hy. apply HR in Rx. congruence. }
      assert (Good : (right_kind r in_rule x) ->
        step_ok (exists x, R x /\ right_kind r in_rule x) i [r] s (add_link s' (mk_link i r c t x))).
      { intros K. split; [exact C'|]. split.
        - exists []. rewrite app_nil_r. cbn [add_link c_errors]. split; [assumption|]. split; [|reflexivity]. eauto.
        - exists [mk_link i r c t x]. cbn [add_link c_links]. rewrite L'. repeat split; auto. }
      assert (Bad : forall e, ~ (right_kind r in_rule x) ->
        step_ok (exists x, R x /\ right_kind r in_rule x) i [r] s (add_error (add_link s' (mk_link i r c t x)) e)).
      { intros e K. split; [exact C'|]. split.
        - exists [e]. cbn [add_link add_error c_errors]. rewrite E'. split; [reflexivity|]. split; [discriminate|].
          intros (y & Hy & Ky). apply U in Hy. subst y. contradiction.
        - exists [mk_link i r c t x]. cbn [add_link add_error c_links]. rewrite L'. repeat split; auto. }
      unfold right_kind in *. destruct in_rule.
      + destruct (ar_inode r) as [cn|] eqn:Er.
        * destruct (at_is_inherited x) eqn:Ei; cbn [negb]; [apply Good; auto|apply Bad].
          intros K. specialize (K eq_refl). discriminate.
        * destruct (at_is_synthesized x) eqn:Ei; cbn [negb]; [apply Good; auto|apply Bad].
          intros K. specialize (K eq_refl). discriminate.
      + apply Good. discriminate.
    - assert (X : ~ exists x, R x /\ right_kind r in_rule x).
      { intros (x & Hx & _). apply HR in Hx. discriminate. }
      split; [exact C'|]. split.
      + exists [NoSuchAttribute (ar_attribute r)]. cbn [add_error c_errors]. rewrite E'. split; [reflexivity|].
        split; [discriminate|tauto].
      + exists []. cbn [add_error c_links]. rewrite L', app_nil_r. repeat split; auto. tauto.
  Qed.

  Lemma reference_ok : forall s i n r in_rule, cached s -> nth_error nodes i = Some n ->
    exists s', check_attribute_reference nodes sets attrs s i n r in_rule = Val s' /\
      step_ok (exists x, refers n (attributes_of (TNode i)) r x /\ right_kind r in_rule x) i [r] s s'.
  Proof.
    intros s i n r in_rule C Hn. unfold check_attribute_reference.
    destruct (ar_inode r) as [cn|] eqn:Er.
    - destruct (find_child_spec s i n cn C Hn) as (s' & -> & C' & E' & L').
      assert (Nc : NoDup (map (fun c => ID_LWR (ch_name c)) (nd_children n)))
        by (apply (gi_children _ _ _ G); eapply nth_error_In; exact Hn).
      destruct (find _ (nd_children n)) as [c|] eqn:F.
      + apply find_by_name in F; [|assumption]. destruct F as [Fc Ec].
        assert (D := find_type_defined n c (nth_error_In _ _ Hn) Fc).
        destruct (find_type (ch_type c)) as [t|] eqn:Et; [|contradiction].
        eexists. split; [reflexivity|].
        assert (S := in_target_ok s' i n r (Some c) t in_rule
                       (fun x => refers n (attributes_of (TNode i)) r x) C' Hn).
        rewrite Er in S.
        destruct S as (S1 & S2 & S3).
        * intros x. apply (refers_child_iff n _ r x cn c t); auto. eapply nth_error_In; exact Hn.
        * exists c. auto.
        * split; [assumption|]. rewrite E' in S2. rewrite L' in S3. auto.
      + eexists. split; [reflexivity|].
        assert (X : ~ exists x, refers n (attributes_of (TNode i)) r x /\ right_kind r in_rule x).
        { intros (x & [H1 _ _|cn' c lc H1 H2 H3 _ _ _] & _); [congruence|].
          assert (cn' = cn) as -> by congruence.
          now apply (proj1 (find_by_name_none _ ch_name _ cn) F c). }
        split; [exact C'|]. split.
        * exists [NoSuchChild cn]. cbn [add_error c_errors]. rewrite E'. split; [reflexivity|]. split; [discriminate|tauto].
        * exists []. cbn [add_error c_links]. rewrite L', app_nil_r. repeat split; auto. tauto.
    - eexists. split; [reflexivity|].
      apply in_target_ok with (n := n); auto.
      + intros x. now apply refers_this_iff.
      + rewrite Er. auto.
  Qed.

  Lemma args_ok : forall l s i n, cached s -> nth_error nodes i = Some n ->
    exists s', CPRargs nodes sets attrs s i n l = Val s' /\
      step_ok (forall r, In r l -> exists x, refers n (attributes_of (TNode i)) r x) i l s s'.
  Proof.
    induction l as [|r l IH]; intros s i n C Hn; cbn [CPRargs].
    - exists s. split; [reflexivity|]. eapply step_ok_iff; [|apply step_ok_refl; assumption]. split; [easy|auto].
    - destruct (reference_ok s i n r false C Hn) as (s1 & -> & S1). cbn [bind].
      destruct (IH s1 i n (proj1 S1) Hn) as (s2 & -> & S2). exists s2. split; [reflexivity|].
      eapply step_ok_iff; [|exact (step_ok_trans _ _ _ _ _ _ _ _ S1 S2)]. split.
      + intros [(x & Hx & _) H] r' [<-|Hr]; eauto.
      + intros H. split.
        * destruct (H r (or_introl eq_refl)) as [x Hx]. exists x. split; [assumption|]. intros E; discriminate E.
        * intros r' Hr. apply H. right; assumption.
  Qed.

  Definition equation_references (e : equation) : list attribute_reference := eq_rule e :: eq_args e.

  Lemma equations_ok : forall l s i n, cached s -> nth_error nodes i = Some n ->
    exists s', CPRequations nodes sets attrs s i n l = Val s' /\
      step_ok (forall e, In e l ->
                 (exists x, refers n (attributes_of (TNode i)) (eq_rule e) x /\
                    (if ar_inode (eq_rule e) then at_is_inherited x = true else at_is_synthesized x = true)) /\
                 (forall r, In r (eq_args e) -> exists x, refers n (attributes_of (TNode i)) r x))
        i (flat_map equation_references l) s s'.
  Proof.
    induction l as [|e l IH]; intros s i n C Hn; cbn [CPRequations flat_map].
    - exists s. split; [reflexivity|]. eapply step_ok_iff; [|apply step_ok_refl; assumption]. split; [easy|auto].
    - destruct (reference_ok s i n (eq_rule e) true C Hn) as (s1 & -> & S1). cbn [bind].
      destruct (args_ok (eq_args e) s1 i n (proj1 S1) Hn) as (s2 & -> & S2). cbn [bind].
      destruct (IH s2 i n (proj1 S2) Hn) as (s3 & -> & S3). exists s3. split; [reflexivity|].
      assert (S12 := step_ok_trans _ _ _ _ _ _ _ _ S1 S2).
      eapply step_ok_iff; [|exact (step_ok_trans _ _ _ _ _ _ _ _ S12 S3)]. split.
      + intros [[(x & Hx & K) H] H'] e' [<-|He]; [|auto]. split; [|assumption]. exists x. split; [assumption|].
        apply K. reflexivity.
      + intros H. destruct (H e (or_introl eq_refl)) as [(x & Hx & K) H2]. split; [split; [|assumption]|].
        * exists x. split; [assumption|]. intros _. exact K.
        * intros e' He. apply H. right; assumption.
  Qed.

  (** ** Missing equations *)

  Lemma rule_found : forall eqs c id, find_product_rule eqs c id = true <->
    exists e, In e eqs /\ same_id (ar_attribute (eq_rule e)) id /\
      match c, ar_inode (eq_rule e) with
      | None, None => True
      | Some c, Some c' => same_id c c'
      | _, _ => False
      end.
  Proof.
    intros eqs c id. unfold find_product_rule. rewrite existsb_exists. split.
    - intros (e & He & H). apply andb_true_iff in H. destruct H as [H1 H2]. apply same_name_iff in H2.
      exists e. split; [assumption|]. split; [assumption|].
      destruct c, (ar_inode (eq_rule e)); try discriminate; try exact I. now apply same_name_iff.
    - intros (e & He & H2 & H1). exists e. split; [assumption|]. apply andb_true_iff. split; [|now apply same_name_iff].
      destruct c, (ar_inode (eq_rule e)); try contradiction; try reflexivity. now apply same_name_iff.
  Qed.

  Lemma rule_this : forall n id, find_product_rule (nd_equations n) None id = true <-> defines_this n id.
  Proof.
    intros n id. rewrite rule_found. split; intros (e & H).
    - destruct H as (H1 & H2 & H3). exists e. destruct (ar_inode (eq_rule e)); [contradiction|auto].
    - destruct H as (H1 & H2 & H3). exists e. rewrite H2. auto.
  Qed.
  Lemma rule_child : forall n c id, find_product_rule (nd_equations n) (Some c) id = true <-> defines_child n c id.
  Proof.
    intros n c id. rewrite rule_found. split.
    - intros (e & H1 & H2 & H3). destruct (ar_inode (eq_rule e)) as [cn|] eqn:E; [|contradiction].
      exists e, cn. unfold same_id in *. auto.
    - intros (e & cn & H1 & H2 & H3 & H4). exists e. rewrite H2. unfold same_id in *. auto.
  Qed.

  Lemma check_rule_ok : forall s i n c id, cached s ->
    step_ok (find_product_rule (nd_equations n) c id = true) i [] s (check_product_rule s n c id).
  Proof.
    intros s i n c id C. unfold check_product_rule. destruct (find_product_rule _ _ _).
    - eapply step_ok_iff; [|apply step_ok_refl; assumption]. tauto.
    - split; [exact C|]. split.
      + eexists [_]. cbn [add_error c_errors]. split; [reflexivity|]. split; discriminate.
      + exists []. cbn [add_error c_links]. rewrite app_nil_r. repeat split; auto.
  Qed.

  Lemma rules_fold : forall (p : attribute -> bool) c l s i n, cached s ->
    step_ok (forall x, In x l -> p x = true -> find_product_rule (nd_equations n) c (at_name x) = true) i [] s
      (fold_left (fun s x => if p x then check_product_rule s n c (at_name x) else s) l s).
  Proof.
    intros p c l. induction l as [|x l IH]; intros s i n C; cbn [fold_left].
    - eapply step_ok_iff; [|apply step_ok_refl; assumption]. split; [easy|auto].
    - destruct (p x) eqn:Ex.
      + assert (S1 := check_rule_ok s i n c (at_name x) C).
        assert (S2 := IH _ i n (proj1 S1)).
        eapply step_ok_iff; [|exact (step_ok_trans _ _ _ _ _ _ _ _ S1 S2)]. split.
        * intros [H1 H2] y [<-|Hy]; auto.
        * intros H. split; [apply H; [left; reflexivity|assumption]|]. intros y Hy. apply H. right; assumption.
      + eapply step_ok_iff; [|apply (IH s i n C)]. split.
        * intros H y [<-|Hy]; [congruence|auto].
        * intros H y Hy. apply H. right; assumption.
  Qed.

  Lemma children_ok : forall l s i n, cached s -> In n nodes -> incl l (nd_children n) ->
    exists s', CPRchildren nodes sets attrs s n l = Val s' /\
      step_ok (forall c lc x, In c l -> has (ch_type c) lc -> In x lc -> at_is_inherited x = true ->
                 defines_child n (ch_name c) (at_name x)) i [] s s'.
  Proof.
    induction l as [|c l IH]; intros s i n C Hn Hl; cbn [CPRchildren].
    - exists s. split; [reflexivity|]. eapply step_ok_iff; [|apply step_ok_refl; assumption]. split; [easy|auto].
    - assert (D := find_type_defined n c Hn (Hl c (or_introl eq_refl))).
      destruct (find_type (ch_type c)) as [t|] eqn:Et; [|contradiction].
      assert (S1 := rules_fold at_is_inherited (Some (ch_name c)) (attributes_of t) s i n C).
      destruct (IH _ i n (proj1 S1) Hn) as (s2 & E2 & S2).
      { intros y Hy. apply Hl. right; assumption. }
      exists s2. split; [exact E2|].
      eapply step_ok_iff; [|exact (step_ok_trans _ _ _ _ _ _ _ _ S1 S2)]. split.
      + intros [H1 H2] c' lc x [<-|Hc] Hlc Hx Hi; [|eauto].
        apply (find_type_has _ _ Et) in Hlc. subst lc. apply rule_child. auto.
      + intros H. split.
        * intros x Hx Hi. apply rule_child. apply (H c (attributes_of t)); auto; [left; reflexivity|].
          now apply (find_type_has _ _ Et).
        * intros c' lc x Hc. apply H. right; assumption.
  Qed.

  (** ** The walk *)

  Definition node_ok (i : nat) (n : inode) : Prop :=
    good_equations with_attributes sets_with_attributes n (attributes_of (TNode i)).

  Definition all_references (n : inode) : list attribute_reference := flat_map equation_references (nd_equations n).

  Lemma inodes_ok : forall l s i, cached s -> (forall k n, nth_error l k = Some n -> nth_error nodes (i + k) = Some n) ->
    exists s', CPRinodes nodes sets attrs s i l = Val s' /\ cached s' /\
      (exists es, c_errors s' = c_errors s ++ es /\
         (es = [] <-> forall k n, nth_error l k = Some n -> node_ok (i + k) n)) /\
      (exists ls, c_links s' = c_links s ++ ls /\ Forall good_link ls /\
         ((forall k n, nth_error l k = Some n -> node_ok (i + k) n) ->
          forall k n r, nth_error l k = Some n -> In r (all_references n) ->
            exists x, In x ls /\ l_node x = i + k /\ l_reference x = r)).
  Proof.
    induction l as [|n l IH]; intros s i C Hl; cbn [CPRinodes].
    - exists s. split; [reflexivity|]. split; [assumption|]. split; exists []; rewrite app_nil_r.
      + split; [reflexivity|]. split; [|reflexivity]. intros _ [|k] m E; discriminate.
      + split; [reflexivity|]. split; [constructor|]. intros _ [|k] m r E; discriminate.
    - assert (Hn : nth_error nodes i = Some n) by (rewrite <- (Nat.add_0_r i); now apply Hl).
      assert (Hin := nth_error_In _ _ Hn).
      destruct (equations_ok (nd_equations n) s i n C Hn) as (s1 & -> & S1). cbn [bind].
      destruct (children_ok (nd_children n) s1 i n (proj1 S1) Hin (incl_refl _)) as (s2 & -> & S2). cbn [bind].
      assert (S3 := rules_fold at_is_synthesized None (attributes_of (TNode i)) s2 i n (proj1 S2)).
      fold (CPRattributes s2 n (attributes_of (TNode i))) in S3.
      assert (S := step_ok_trans _ _ _ _ _ _ _ _ (step_ok_trans _ _ _ _ _ _ _ _ S1 S2) S3).
      clear S1 S2 S3. rewrite !app_nil_r in S.
      eapply step_ok_iff with (Q := node_ok i n) in S.
      2:{ split.
          - intros [[H1 H2] H3]. constructor.
            + intros x Hx Hs. apply rule_this. auto.
            + exact H2.
            + intros e He. apply H1. assumption.
            + intros e r He Hr. now apply (proj2 (H1 e He)).
          - intros [H1 H2 H3 H4]. split; [split|].
            + intros e He. split; [auto|]. intros r Hr. now apply (H4 e).
            + exact H2.
            + intros x Hx Hs. apply rule_this. auto. }
      destruct S as (C3 & (es & E3 & I3) & ls & L3 & F3 & M3).
      destruct (IH _ (S i) C3) as (s' & E & C' & (es' & E' & I') & ls' & L' & F' & M').
      { intros k m Hk. replace (S i + k) with (i + S k) by lia. now apply Hl. }
      exists s'. split; [exact E|]. split; [assumption|]. split.
      + exists (es ++ es'). split; [rewrite E', E3; now rewrite app_assoc|].
        rewrite app_nil_iff, I3, I'. split.
        * intros [H1 H2] [|k] m Hk; cbn in Hk.
          -- injection Hk as <-. now rewrite Nat.add_0_r.
          -- replace (i + S k) with (S i + k) by lia. auto.
        * intros H. split; [rewrite <- (Nat.add_0_r i); now apply H|].
          intros k m Hk. replace (S i + k) with (i + S k) by lia. now apply H.
      + exists (ls ++ ls'). split; [rewrite L', L3; now rewrite app_assoc|]. split; [apply Forall_app; auto|].
        intros H [|k] m r Hk Hr; cbn in Hk.
        * injection Hk as <-. assert (K : node_ok i n) by (rewrite <- (Nat.add_0_r i); now apply H).
          apply M3 in K. assert (X : In (i, r) (map (fun r => (i, r)) (all_references n))) by now apply in_map.
          unfold all_references in X. rewrite <- K in X. apply in_map_iff in X. destruct X as (x & Ex & Hx).
          injection Ex as Ex1 Ex2. exists x. rewrite in_app_iff, Nat.add_0_r. auto.
        * destruct (fun H => M' H k m r Hk Hr) as (x & Hx & X1 & X2).
          { intros k' m' Hk'. replace (S i + k') with (i + S k') by lia. now apply H. }
          exists x. rewrite in_app_iff. split; [auto|]. split; [lia|assumption].
  Qed.

  Theorem CPRast_right : exists s, CPRast nodes sets attrs = Val s /\
    (c_errors s = [] <-> forall i n, nth_error nodes i = Some n -> node_ok i n) /\
    Forall good_link (c_links s) /\
    (c_errors s = [] -> forall i n r, nth_error nodes i = Some n -> In r (all_references n) ->
       exists x, In x (c_links s) /\ l_node x = i /\ l_reference x = r).
  Proof.
    destruct (inodes_ok nodes (mk_cpr [] [] [] []) 0) as (s & E & _ & (es & E1 & I1) & ls & L1 & F1 & M1).
    - split; cbn; easy.
    - auto.
    - cbn [c_errors c_links app] in *. exists s. subst es ls. split; [exact E|]. split; [exact I1|]. split; [assumption|].
      intros H i n r Hn Hr. exact (M1 (proj1 I1 H) i n r Hn Hr).
  Qed.
End Proof.

(** ** What the passes before guarantee *)

Definition same_lengths (s s' : pra) : Prop :=
  length (p_nodes s') = length (p_nodes s) /\ length (p_sets s') = length (p_sets s).

Lemma same_lengths_trans : forall a b c, same_lengths a b -> same_lengths b c -> same_lengths a c.
Proof. intros a b c [H1 H2] [H3 H4]. split; congruence. Qed.

Lemma propagate_length : forall nodes cur t s, same_lengths s (propagate_attributes nodes cur s t).
Proof.
  intros nodes cur t s. unfold propagate_attributes. generalize (nth cur (p_sets s) []) as l. intros l. revert s.
  induction l as [|x l IH]; intros s; cbn [fold_left]; [split; reflexivity|].
  eapply same_lengths_trans; [|apply IH]. destruct (at_is_propagated x); [split; reflexivity|].
  unfold apply_to. destruct t; split; cbn [p_nodes p_sets]; now rewrite ?length_upd.
Qed.

Lemma setliteral_length : forall nodes cur l s s', PRAsetliteral nodes cur s l = Val s' -> same_lengths s s'.
Proof.
  intros nodes cur l. induction l as [|r a IHa b IHb]; intros s s'; cbn [PRAsetliteral].
  - intros H. injection H as <-. split; reflexivity.
  - destruct (find_node nodes r) as [i|]; [|discriminate].
    destruct (PRAsetliteral nodes cur (propagate_attributes nodes cur s (TNode i)) a) as [s1| | | |] eqn:E; try discriminate.
    cbn [bind]. intros H. eapply same_lengths_trans; [apply propagate_length|].
    eapply same_lengths_trans; [exact (IHa _ _ E)|exact (IHb _ _ H)].
Qed.

Lemma inodesets_length : forall nodes l cur s s', PRAinodesets nodes cur s l = Val s' -> same_lengths s s'.
Proof.
  intros nodes l. induction l as [|[tb lit] l IH]; intros cur s s'; cbn [PRAinodesets].
  - intros H. injection H as <-. split; reflexivity.
  - assert (F : same_lengths s (fold_left (fun s k => propagate_attributes nodes cur s (TSet k)) tb s)).
    { clear. revert s. induction tb as [|k tb IH]; intros s; cbn [fold_left]; [split; reflexivity|].
      eapply same_lengths_trans; [apply propagate_length|apply IH]. }
    destruct (PRAsetliteral _ _ _ _) as [s1| | | |] eqn:E; try discriminate. cbn [bind]. intros H.
    eapply same_lengths_trans; [exact F|]. eapply same_lengths_trans; [exact (setliteral_length _ _ _ _ _ E)|].
    exact (IH _ _ _ H).
Qed.

Lemma names_split : forall a, distinct_names (all_names a) ->
  NoDup (map (fun n => ID_LWR (nd_name n)) (a_nodes a) ++ map (fun m => ID_LWR (ns_name m)) (a_nodesets a)).
Proof.
  intros a H. unfold distinct_names, all_names, declarations in H.
  rewrite !flat_map_app, !map_app in H.
  apply NoDup_app_parts in H. destruct H as [_ H].
  apply NoDup_app_parts in H. destruct H as [_ H].
  apply NoDup_app_parts in H. destruct H as [_ H].
  rewrite app_assoc in H. apply NoDup_app_parts in H. destruct H as [H _].
  assert (E : forall A (f : A -> decl) (name : A -> ident) l, (forall x, names_of (f x) = [name x]) ->
     map ID_LWR (flat_map names_of (map f l)) = map (fun x => ID_LWR (name x)) l).
  { intros A f name l Hf. induction l as [|x l IH]; [reflexivity|]. cbn [map flat_map]. rewrite Hf. cbn [app map].
    now rewrite IH. }
  rewrite (E _ DNode nd_name), (E _ DNodeset ns_name) in H by reflexivity. exact H.
Qed.

Lemma passes_grammar : forall a s, parsed_ast a -> unmarked a -> nodeset_passes a = Val s ->
  grammar_input (a_nodes a) (a_nodesets a) s.
Proof.
  intros a s P U E.
  destruct (passes_val a s E) as (t & ts & ls & C & Et & En & Eu & Ep & Es).
  destruct (passes_input a t ts ls P U C Et En Eu) as (I & F & LT).
  destruct (PRAast_right _ _ _ I) as (s' & Ep' & _ & Q). rewrite Ep in Ep'. injection Ep' as <-.
  destruct (Q Es) as [Qn Qs].
  assert (L := inodesets_length _ _ _ _ _ Ep). destruct L as [L1 L2]. cbn [p_nodes p_sets] in L1, L2.
  rewrite map_length in L1, L2.
  destruct (check_names_accepts a) as [CA _]. apply CA in C. destruct C as (C1 & C2 & R).
  constructor.
  - assumption.
  - assumption.
  - now apply names_split.
  - intros l Hl. apply In_nth_error in Hl. destruct Hl as [i Hi].
    destruct (nth_error (a_nodes a) i) as [n|] eqn:Ei.
    + rewrite <- (nth_error_nth _ _ [] Hi). apply (ca_distinct _ _ _ (Qn i n Ei)).
    + apply nth_error_None in Ei. assert (i < length (p_nodes s)) by (apply nth_error_Some; congruence). lia.
  - intros l Hl. apply In_nth_error in Hl. destruct Hl as [i Hi].
    destruct (nth_error (a_nodesets a) i) as [n|] eqn:Ei.
    + rewrite <- (nth_error_nth _ _ [] Hi). apply (ca_distinct _ _ _ (Qs i n Ei)).
    + apply nth_error_None in Ei. assert (i < length (p_sets s)) by (apply nth_error_Some; congruence). lia.
  - intros n Hn. assert (X := r_node_members _ R n Hn). unfold distinct_names in X. rewrite map_app in X.
    apply NoDup_app_parts in X. destruct X as [_ X]. now rewrite map_map in X.
  - intros n c Hn Hc. destruct (r_children _ R n c Hn Hc) as [H|H].
    + left. apply is_node_in in H. exact H.
    + right. apply is_nodeset_in in H. exact H.
Qed.

(** The check on the output of the passes before it. *)
Theorem product_rules_right : forall a s, parsed_ast a -> unmarked a -> nodeset_passes a = Val s ->
  exists r, CPRast (a_nodes a) (a_nodesets a) s = Val r /\
    (c_errors r = [] <->
     forall n l, In (n, l) (combine (a_nodes a) (p_nodes s)) ->
       good_equations (combine (a_nodes a) (p_nodes s)) (combine (a_nodesets a) (p_sets s)) n l) /\
    (c_errors r = [] -> forall i n l e x, nth_error (a_nodes a) i = Some n -> nth_error (p_nodes s) i = Some l ->
       In e (nd_equations n) -> In x (eq_rule e :: eq_args e) ->
       exists k, In k (c_links r) /\ l_node k = i /\ l_reference k = x) /\
    (forall k, In k (c_links r) -> exists n l,
       nth_error (a_nodes a) (l_node k) = Some n /\ nth_error (p_nodes s) (l_node k) = Some l /\
       refers_to (combine (a_nodes a) (p_nodes s)) (combine (a_nodesets a) (p_sets s)) n l
         (l_reference k) (l_attribute k)).
Proof.
  intros a s P U E. assert (G := passes_grammar a s P U E).
  destruct (CPRast_right _ _ _ G) as (r & Er & I & F & M). exists r. split; [exact Er|].
  assert (LN := gi_len_nodes _ _ _ G).
  split; [|split].
  - rewrite I. split.
    + intros H n l Hnl. apply in_combine_pos in Hnl. destruct Hnl as (i & Hn & Hl).
      specialize (H i n Hn). unfold node_ok, attributes_of in H. now rewrite (nth_error_nth _ _ [] Hl) in H.
    + intros H i n Hn. unfold node_ok, attributes_of. apply H. apply (nth_error_In _ i).
      apply nth_error_combine_some; [assumption|]. apply nth_error_nth'. rewrite LN. apply nth_error_Some. congruence.
  - intros H i n l e x Hn Hl He Hx. apply (M H i n x Hn). unfold all_references.
    apply in_flat_map. exists e. auto.
  - intros k Hk. rewrite Forall_forall in F. destruct (F k Hk) as (n & Hn & Hx & Sx & HL).
    assert (Ll : l_node k < length (p_nodes s)) by (rewrite LN; apply nth_error_Some; congruence).
    destruct (nth_error (p_nodes s) (l_node k)) as [l|] eqn:El; [|apply nth_error_None in El; lia].
    exists n, l. split; [assumption|]. split; [reflexivity|].
    destruct (ar_inode (l_reference k)) as [cn|] eqn:Ec.
    + destruct HL as (c & Hc1 & Hc2 & Hc3 & Hc4). apply (refers_child _ _ _ _ _ _ cn c (attributes_of s (l_target k))); auto.
      now apply (find_type_has _ _ _ G _ _ Hc4).
    + destruct HL as [_ HT]. rewrite HT in Hx. cbn [attributes_of] in Hx. rewrite (nth_error_nth _ _ [] El) in Hx.
      now apply refers_this.
Qed.
