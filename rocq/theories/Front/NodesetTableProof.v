(** Proofs about the nodeset tables (C30). *)

From Coq Require Import List Ascii Bool Arith Lia Relations.
From Verif Require Import Base.Outcome Palm.StrModel Palm.StrProof Front.Syntax
  Front.SymbolTableProof Front.SetsSpec Front.NodesetTableModel Front.NodesetTableSpec.
Import ListNotations.

(** * Lists *)

Lemma length_upd : forall A (l : list A) i x, length (upd l i x) = length l.
Proof. induction l as [|y l IH]; intros [|i] x; cbn; auto. Qed.

Lemma nth_upd : forall A (l : list A) i j x d, i < length l ->
  nth j (upd l i x) d = if Nat.eqb j i then x else nth j l d.
Proof.
  induction l as [|y l IH]; intros [|i] [|j] x d H; cbn in *; try lia; auto.
  apply IH. lia.
Qed.

Definition is_null (h : ht_state) : bool := match h with ht_null => true | _ => false end.
Definition nulls (l : list ht_state) : nat := length (filter is_null l).

Lemma nulls_upd : forall l i h, i < length l -> nth i l ht_null = ht_null -> is_null h = false ->
  S (nulls (upd l i h)) = nulls l.
Proof.
  unfold nulls. induction l as [|x l IH]; intros [|i] h H E Hh; cbn in *; try lia.
  - subst x. cbn. now rewrite Hh.
  - specialize (IH i h). destruct (is_null x); cbn; rewrite <- IH; auto; lia.
Qed.

Lemma nulls_mono : forall l m, length l = length m ->
  (forall i, nth i m ht_finished = ht_null -> nth i l ht_finished = ht_null) -> nulls m <= nulls l.
Proof.
  unfold nulls. induction l as [|x l IH]; intros [|y m] E H; cbn in *; try lia.
  assert (M := IH m ltac:(lia) (fun i => H (S i))).
  specialize (H 0). cbn in H. destruct x, y; cbn; try lia; now specialize (H eq_refl).
Qed.

Lemma nulls_pos : forall l i, i < length l -> nth i l ht_null = ht_null -> 1 <= nulls l.
Proof.
  unfold nulls. induction l as [|x l IH]; intros [|i] H E; cbn in *; try lia.
  - subst x. cbn. lia.
  - specialize (IH i ltac:(lia) E). destruct (is_null x); cbn; lia.
Qed.

(** * Adding entries *)

Lemma existsb_eqb : forall r l, existsb (Nat.eqb r) l = true <-> In r l.
Proof.
  intros r l. rewrite existsb_exists. split.
  - intros (x & H & E). apply Nat.eqb_eq in E. now subst.
  - intros H. exists r. split; [assumption|apply Nat.eqb_refl].
Qed.

Lemma add_entry_in : forall l r k, In k (add_inheritance_entry l r) <-> In k l \/ k = r.
Proof.
  intros l r k. unfold add_inheritance_entry. destruct (existsb _ _) eqn:E.
  - apply existsb_eqb in E. split; [auto|]. intros [H| ->]; auto.
  - rewrite in_app_iff. cbn. intuition.
Qed.

Lemma NoDup_snoc : forall A (l : list A) x, NoDup l -> ~ In x l -> NoDup (l ++ [x]).
Proof.
  intros A l x H N. induction H as [|y l Hy H IH]; cbn.
  - constructor; [easy|constructor].
  - constructor.
    + rewrite in_app_iff. cbn. intros [C|[C|[]]]; auto. subst. apply N. cbn; auto.
    + apply IH. intros C. apply N. cbn; auto.
Qed.

Lemma add_entry_nodup : forall l r, NoDup l -> NoDup (add_inheritance_entry l r).
Proof.
  intros l r H. unfold add_inheritance_entry. destruct (existsb _ _) eqn:E; [assumption|].
  apply NoDup_snoc; [assumption|]. intros C. apply existsb_eqb in C. congruence.
Qed.

Lemma add_list_in : forall t l k, In k (add_inheritance_entry_list l t) <-> In k l \/ In k t.
Proof.
  unfold add_inheritance_entry_list. induction t as [|x t IH]; intros l k; cbn [fold_left In].
  - tauto.
  - rewrite IH, add_entry_in. intuition.
Qed.

Lemma add_list_nodup : forall t l, NoDup l -> NoDup (add_inheritance_entry_list l t).
Proof.
  unfold add_inheritance_entry_list. induction t as [|x t IH]; intros l H; cbn [fold_left]; auto.
  apply IH. now apply add_entry_nodup.
Qed.

Section Sets.
  Variable sets : list inodeset.
  Hypothesis Hnames : names_unique sets.
  Hypothesis Hres : sets_resolve sets.
  Let N := length sets.

  Lemma find_nodeset_some : forall id j,
    find_nodeset sets id = Some j <->
    exists m, nth_error sets j = Some m /\ ID_LWR (ns_name m) = ID_LWR id.
  Proof.
    clear Hres. revert Hnames. unfold names_unique. clear N. intros Hn id.
    induction sets as [|n l IH]; intros j; cbn [find_nodeset].
    - split; [easy|]. intros (m & E & _). now destruct j.
    - cbn [map] in Hn. inversion Hn as [|? ? N1 N2]; subst.
      destruct (STReq _ _) eqn:E.
      + apply STReq_lwr in E. split.
        * intros H; injection H as <-. exists n. auto.
        * intros (m & H & Em). destruct j as [|j]; [reflexivity|]. exfalso. apply N1.
          cbn in H. apply nth_error_In in H. rewrite E, <- Em.
          now apply (in_map (fun n => ID_LWR (ns_name n))).
      + assert (NE : ID_LWR (ns_name n) <> ID_LWR id).
        { intros C. apply STReq_lwr in C. congruence. }
        destruct j as [|j].
        * split; [now destruct (find_nodeset l id)|]. intros (m & H & Em). cbn in H. congruence.
        * rewrite <- (IH N2 j : _ <-> _). cbn.
          destruct (find_nodeset l id); cbn; split; congruence.
  Qed.

  Lemma refers_find : forall i n id,
    nth_error sets i = Some n -> In id (references (ns_expr n)) ->
    exists j, find_nodeset sets id = Some j /\ j < N /\ refers sets i j.
  Proof.
    intros i n id E H. destruct (Hres n id (nth_error_In _ _ E) H) as (m & Hm & Em).
    apply In_nth_error in Hm. destruct Hm as [j Hj]. exists j.
    split; [apply find_nodeset_some; eauto|]. split.
    - apply nth_error_Some. congruence.
    - exists n, m, id. auto.
  Qed.

  Lemma refers_inv : forall i j n, nth_error sets i = Some n -> refers sets i j ->
    exists id, In id (references (ns_expr n)) /\ find_nodeset sets id = Some j.
  Proof.
    intros i j n E (n' & m & id & E' & Em & H & Eid). rewrite E in E'. injection E' as <-.
    exists id. split; [assumption|]. apply find_nodeset_some. eauto.
  Qed.

  Lemma refers_lt : forall i j, refers sets i j -> i < N /\ j < N.
  Proof.
    intros i j (n & m & id & E1 & E2 & _). split; apply nth_error_Some; congruence.
  Qed.

  (** * Orders without recursion *)

  Fixpoint ordered (l : list nat) : Prop :=
    match l with
    | [] => True
    | j :: l => ~ In j l /\ (forall k, refers sets j k -> In k l) /\ ordered l
    end.

  Lemma ordered_closed : forall l, ordered l -> forall j k, In j l -> refers sets j k -> In k l.
  Proof.
    induction l as [|x l IH]; [easy|]. intros (H1 & H2 & H3) j k [<-|H] R; cbn; [auto|].
    right. eapply IH; eauto.
  Qed.

  Lemma ordered_closed_trans : forall l, ordered l -> forall j k,
    built_from sets j k -> In j l -> In k l.
  Proof.
    intros l H j k T. induction T as [j k R|j m k T1 IH1 T2 IH2]; intros Hj; auto.
    eapply ordered_closed; eauto.
  Qed.

  Lemma built_first : forall j k, built_from sets j k ->
    exists m, refers sets j m /\ (k = m \/ built_from sets m k).
  Proof.
    intros j k T. apply clos_trans_t1n in T. destruct T as [m R|m k R T].
    - exists m. auto.
    - exists m. split; [assumption|]. right. now apply clos_t1n_trans.
  Qed.

  Lemma ordered_irrefl : forall l, ordered l -> forall j, In j l -> ~ built_from sets j j.
  Proof.
    induction l as [|x l IH]; [easy|]. intros H j [<-|Hj] T.
    - destruct H as (H1 & H2 & H3). apply built_first in T. destruct T as (m & R & T).
      apply H1. assert (M := H2 m R). destruct T as [->|T]; [assumption|].
      eapply ordered_closed_trans; eassumption.
    - destruct H as (_ & _ & H3). eapply IH; eassumption.
  Qed.

  (** * The invariant *)

  Definition built_at (s : nct) (i : nat) : ht_state := nth i (n_built s) ht_null.

  Definition right_table (j : nat) (t : list nat) : Prop :=
    NoDup t /\ forall k, In k t <-> built_from sets j k.

  Record inv (s : nct) (stk : list nat) : Prop := {
    v_built : length (n_built s) = N;
    v_tables : length (n_tables s) = N;
    v_illegal : length (n_illegal s) = N;
    v_work : forall i, built_at s i = ht_working <-> In i stk;
    v_bad : n_errors s <> [] -> recursive sets;
    v_good : n_errors s = [] -> exists fin, ordered fin /\
       (forall j, built_at s j = ht_finished <-> In j fin) /\
       forall j, In j fin -> right_table j (table_of s j);
    v_ill : forall j n, built_at s j = ht_finished -> nth_error sets j = Some n ->
       (nth j (n_illegal s) false = true <-> not_only_unions (ns_expr n)) }.

  Record ext (s s' : nct) : Prop := {
    x_len : length (n_built s) = length (n_built s');
    x_fin : forall j, built_at s j = ht_finished -> built_at s' j = ht_finished;
    x_null : forall j, built_at s' j = ht_null -> built_at s j = ht_null;
    x_err : n_errors s' = [] -> n_errors s = [] }.

  Lemma ext_refl : forall s, ext s s.
  Proof. intros s. constructor; auto. Qed.
  Lemma ext_trans : forall s1 s2 s3, ext s1 s2 -> ext s2 s3 -> ext s1 s3.
  Proof. intros s1 s2 s3 [A1 A2 A3 A4] [B1 B2 B3 B4]. constructor; auto. congruence. Qed.

  Lemma ext_nulls : forall s s', ext s s' -> nulls (n_built s') <= nulls (n_built s).
  Proof.
    intros s s' [L F U E]. apply nulls_mono; [exact L|]. intros i H.
    assert (I : i < length (n_built s)).
    { rewrite L. destruct (Nat.lt_ge_cases i (length (n_built s'))); [assumption|].
      rewrite nth_overflow in H by assumption. discriminate. }
    rewrite (nth_indep _ ht_finished ht_null I). apply U. unfold built_at.
    rewrite <- H. apply nth_indep. now rewrite <- L.
  Qed.

  (** What walking an expression of nodeset [i] does. *)
  Definition expr_ok (e : setexpr) (s : nct) (c : cur) (stk : list nat) (r : outcome (nct * cur)) : Prop :=
    exists s' c', r = Val (s', c') /\ inv s' stk /\ ext s s' /\
      (c_illegal c' = true <-> c_illegal c = true \/ not_only_unions e) /\
      (NoDup (c_added c) -> NoDup (c_added c')) /\
      (n_errors s' = [] ->
       (forall id j, In id (references e) -> find_nodeset sets id = Some j -> built_at s' j = ht_finished) /\
       (forall k, In k (c_added c') <-> In k (c_added c) \/
          exists id j, In id (references e) /\ find_nodeset sets id = Some j /\
                       (k = j \/ built_from sets j k))).

  Definition build_ok (bld : nct -> nat -> outcome nct) (fuel : nat) : Prop :=
    forall s stk j, inv s stk -> j < N -> built_at s j = ht_null ->
      (forall x, In x stk -> built_from sets x j) ->
      nulls (n_built s) <= fuel ->
      exists s', bld s j = Val s' /\ inv s' stk /\ ext s s' /\ built_at s' j = ht_finished.

  Lemma finished_table : forall s stk j, inv s stk -> n_errors s = [] -> built_at s j = ht_finished ->
    right_table j (table_of s j).
  Proof.
    intros s stk j V E F. destruct (v_good _ _ V E) as (fin & O & M & T). apply T, M, F.
  Qed.

  Lemma reference_ok : forall s c j id stk,
    inv s stk -> built_at s j = ht_finished -> find_nodeset sets id = Some j ->
    expr_ok (EReference id) s c stk
      (Val (s, mk_cur (add_inheritance_entry (add_inheritance_entry_list (c_added c) (table_of s j)) j)
                      (c_illegal c))).
  Proof.
    intros s c j id stk V F E. exists s. eexists. split; [reflexivity|].
    split; [assumption|]. split; [apply ext_refl|]. cbn [c_illegal c_added not_only_unions references].
    split; [tauto|]. split.
    - intros H. now apply add_entry_nodup, add_list_nodup.
    - intros Er. split.
      + intros id' j' [<-|[]] E'. congruence.
      + intros k. rewrite add_entry_in, add_list_in.
        destruct (finished_table _ _ _ V Er F) as [_ T]. rewrite T. split.
        * intros [[H|H]|H]; [auto|right..]; exists id, j; cbn; auto.
        * intros [H|(id' & j' & [<-|[]] & E' & H)]; [auto|]. rewrite E in E'. injection E' as <-. tauto.
  Qed.

  Lemma NCTsetexpr_ok : forall bld fuel, build_ok bld fuel ->
    forall e s c stk i n, inv s stk -> In i stk ->
    nth_error sets i = Some n ->
    (forall id, In id (references e) -> In id (references (ns_expr n))) ->
    (forall x, In x stk -> x = i \/ built_from sets x i) ->
    nulls (n_built s) <= fuel ->
    expr_ok e s c stk (NCTsetexpr sets bld s c e).
  Proof.
    intros bld fuel B e. induction e as [l|id|o a IHa b IHb];
      intros s c stk i n V Hi En Hr Hp Hn; cbn [NCTsetexpr].
    - exists s, c. split; [reflexivity|]. split; [assumption|]. split; [apply ext_refl|].
      cbn [not_only_unions references]. split; [tauto|]. split; [auto|]. intros _. split; [easy|].
      intros k. split; [auto|]. intros [H|(id & j & [] & _)]. assumption.
    - destruct (refers_find i n id En (Hr id (or_introl eq_refl))) as (j & Ej & Lj & R).
      rewrite Ej. fold (built_at s j).
      assert (Hp' : forall x, In x stk -> built_from sets x j).
      { intros x Hx. destruct (Hp x Hx) as [->|T]; [now apply t_step|].
        eapply t_trans; [exact T|now apply t_step]. }
      destruct (built_at s j) eqn:Eb.
      + destruct (B s stk j V Lj Eb Hp' Hn) as (s' & E & V' & X & F). rewrite E. cbn [bind].
        destruct (reference_ok s' c j id stk V' F Ej) as (s'' & c' & E' & V'' & X' & H1 & H2 & H3).
        exists s'', c'. split; [exact E'|]. split; [assumption|].
        split; [eapply ext_trans; eassumption|]. auto.
      + eexists. eexists. split; [reflexivity|].
        assert (Rec : recursive sets). { exists j. apply Hp'. now apply (v_work _ _ V). }
        destruct V as [V1 V2 V3 V4 V5 V6 V7]. split.
        { constructor; auto; cbn [n_errors n_built n_tables n_illegal].
          intros C. now destruct (n_errors s). }
        split. { constructor; auto. cbn. intros C. now destruct (n_errors s). }
        cbn [c_illegal c_added not_only_unions n_errors]. split; [tauto|].
        split; [apply add_entry_nodup|]. intros C. now destruct (n_errors s).
      + apply reference_ok; assumption.
    - set (ill := match o with SO_iunion => c_illegal c | _ => true end).
      assert (Ra : forall id, In id (references a) -> In id (references (ns_expr n))).
      { intros id H. apply Hr. cbn. apply in_app_iff. auto. }
      assert (Rb : forall id, In id (references b) -> In id (references (ns_expr n))).
      { intros id H. apply Hr. cbn. apply in_app_iff. auto. }
      destruct (IHa s (mk_cur (c_added c) ill) stk i n V Hi En Ra Hp Hn)
        as (s1 & c1 & E1 & V1 & X1 & I1 & D1 & A1).
      cbv zeta. fold ill. rewrite E1. cbn [bind fst snd].
      destruct (IHb s1 c1 stk i n V1 Hi En Rb Hp) as (s2 & c2 & E2 & V2 & X2 & I2 & D2 & A2).
      { assert (M := ext_nulls _ _ X1). lia. }
      exists s2, c2. split; [exact E2|]. split; [assumption|]. split; [eapply ext_trans; eassumption|].
      split; [|split].
      + rewrite I2, I1. subst ill. cbn [c_illegal].
        destruct o; cbn [not_only_unions]; tauto.
      + intros H. apply D2, D1, H.
      + intros Er. destruct (A2 Er) as [F2 K2]. destruct (A1 (x_err _ _ X2 Er)) as [F1 K1]. split.
        * intros id j H E. cbn in H. apply in_app_iff in H. destruct H as [H|H]; [|eauto].
          apply (x_fin _ _ X2). eauto.
        * intros k. rewrite K2, K1. cbn [c_added references]. split.
          -- intros [[H|(id & j & H & G)]|(id & j & H & G)]; [auto|right..];
               exists id, j; rewrite in_app_iff; auto.
          -- intros [H|(id & j & H & G)]; [auto|]. apply in_app_iff in H. destruct H as [H|H].
             ++ left. right. eauto.
             ++ right. eauto.
  Qed.

  Lemma build_ok_fuel : forall fuel, build_ok (build sets fuel) fuel.
  Proof.
    induction fuel as [|fuel IH]; intros s stk j V Lj Eb Hp Hn.
    - exfalso. assert (P := nulls_pos (n_built s) j). rewrite (v_built _ _ V) in P.
      specialize (P Lj Eb). lia.
    - cbn [build]. destruct (nth_error sets j) as [n|] eqn:En.
      2:{ apply nth_error_None in En. fold N in En. lia. }
      set (s1 := mk_nct (upd (n_built s) j ht_working) (n_tables s) (n_illegal s) (n_errors s)).
      assert (LB : j < length (n_built s)) by (rewrite (v_built _ _ V); exact Lj).
      assert (B1 : forall i, built_at s1 i = if Nat.eqb i j then ht_working else built_at s i).
      { intros i. unfold built_at, s1. cbn [n_built]. now rewrite nth_upd. }
      assert (V1 : inv s1 (j :: stk)).
      { destruct V as [A1 A2 A3 A4 A5 A6 A7]. constructor; auto.
        - unfold s1. cbn. now rewrite length_upd.
        - intros i. rewrite B1. cbn [In]. destruct (Nat.eqb_spec i j) as [->|Ne].
          + split; auto.
          + rewrite A4. split; [auto|]. intros [C|C]; [congruence|assumption].
        - intros Er. destruct (A6 Er) as (fin & O & M & T). exists fin.
          split; [assumption|]. split; [|exact T]. intros i. rewrite B1, <- M.
          destruct (Nat.eqb_spec i j) as [->|Ne]; [|tauto]. rewrite Eb. split; discriminate.
        - intros i m. rewrite B1. destruct (Nat.eqb_spec i j); [discriminate|]. apply A7. }
      assert (X1 : ext s s1).
      { constructor; auto.
        - unfold s1. cbn. now rewrite length_upd.
        - intros i F. rewrite B1. destruct (Nat.eqb_spec i j) as [->|Ne]; [congruence|assumption].
        - intros i F. rewrite B1 in F. destruct (Nat.eqb_spec i j); [discriminate|assumption]. }
      destruct (NCTsetexpr_ok (build sets fuel) fuel IH (ns_expr n) s1 (mk_cur [] false) (j :: stk) j n V1)
        as (s2 & c2 & E2 & V2 & X2 & I2 & D2 & A2); auto.
      { cbn; auto. }
      { intros x [<-|Hx]; auto. }
      { unfold s1. cbn [n_built].
        assert (P := nulls_upd (n_built s) j ht_working LB Eb eq_refl). lia. }
      rewrite E2. cbn [bind fst snd].
      eexists. split; [reflexivity|].
      set (s3 := mk_nct _ _ _ _).
      assert (LB2 : j < length (n_built s2)) by (rewrite (v_built _ _ V2); exact Lj).
      assert (B3 : forall i, built_at s3 i = if Nat.eqb i j then ht_finished else built_at s2 i).
      { intros i. unfold built_at, s3. cbn [n_built]. now rewrite nth_upd. }
      assert (W2 : built_at s2 j = ht_working) by (apply (v_work _ _ V2); cbn; auto).
      assert (J : ~ In j stk).
      { intros C. apply (v_work _ _ V) in C. congruence. }
      destruct V2 as [C1 C2 C3 C4 C5 C6 C7].
      assert (TB : forall i, table_of s3 i = if Nat.eqb i j then c_added c2 else table_of s2 i).
      { intros i. unfold table_of, s3. cbn [n_tables]. rewrite nth_upd; [reflexivity|lia]. }
      split; [|split].
      + constructor; unfold s3; cbn [n_built n_tables n_illegal n_errors]; rewrite ?length_upd; auto;
          fold s3.
        * intros i. rewrite B3. destruct (Nat.eqb_spec i j) as [->|Ne].
          -- split; [discriminate|]. intros C. contradiction.
          -- rewrite C4. cbn [In]. split; [|auto]. intros [C|C]; [congruence|assumption].
        * intros Er. destruct (C6 Er) as (fin & O & M & T). exists (j :: fin).
          destruct (A2 Er) as [F2 K2].
          assert (NJ : ~ In j fin). { intros C. apply M in C. congruence. }
          split; [|split].
          -- cbn [ordered]. split; [assumption|]. split; [|assumption]. intros k R.
             destruct (refers_inv j k n En R) as (id & Hid & Eid). apply M. eauto.
          -- intros i. rewrite B3. cbn [In]. destruct (Nat.eqb_spec i j) as [->|Ne]; [tauto|].
             rewrite M. split; [auto|]. intros [C|C]; [congruence|assumption].
          -- intros i Hi. rewrite TB. destruct (Nat.eqb_spec i j) as [->|Ne].
             ++ split; [apply D2; constructor|]. intros k. rewrite K2. cbn [c_added In]. split.
                ** intros [[]|(id & m & Hid & Em & G)].
                   destruct (refers_find j n id En Hid) as (m' & Em' & _ & R).
                   rewrite Em in Em'. injection Em' as <-.
                   destruct G as [->|G]; [now apply t_step|]. apply (t_trans _ _ _ m); [apply t_step; exact R|exact G].
                ** intros G. right. apply built_first in G. destruct G as (m & R & G).
                   destruct (refers_inv j m n En R) as (id & Hid & Eid). exists id, m. auto.
             ++ destruct Hi as [C|Hi]; [congruence|]. auto.
        * intros i m. rewrite B3. rewrite nth_upd by lia.
          destruct (Nat.eqb_spec i j) as [->|Ne].
          -- intros _ Em. rewrite En in Em. injection Em as <-. rewrite I2. cbn. split; [|auto].
             intros [C|C]; [discriminate|assumption].
          -- apply C7.
      + eapply ext_trans; [exact X1|]. eapply ext_trans; [exact X2|].
        constructor; auto.
        * unfold s3. cbn. now rewrite length_upd.
        * intros i F. rewrite B3. now destruct (Nat.eqb i j).
        * intros i F. rewrite B3 in F. destruct (Nat.eqb_spec i j); [discriminate|assumption].
      + rewrite B3, Nat.eqb_refl. reflexivity.
  Qed.

  Lemma NCTinodesets_ok : forall l s, inv s [] -> (forall i, In i l -> i < N) ->
    exists s', NCTinodesets sets (S N) s l = Val s' /\ inv s' [] /\ ext s s' /\
      forall i, In i l -> built_at s' i = ht_finished.
  Proof.
    induction l as [|i l IH]; intros s V H; cbn [NCTinodesets].
    - exists s. split; [reflexivity|]. split; [assumption|]. split; [apply ext_refl|easy].
    - fold (built_at s i).
      assert (Hi : i < N) by (apply H; cbn; auto).
      assert (Hl : forall k, In k l -> k < N) by (intros k Hk; apply H; cbn; auto).
      destruct (built_at s i) eqn:E.
      + assert (Hf : nulls (n_built s) <= S N).
        { unfold nulls. assert (G : length (filter is_null (n_built s)) <= length (n_built s)).
          { clear. induction (n_built s) as [|x l IH]; cbn; [lia|]. destruct (is_null x); cbn; lia. }
          rewrite (v_built _ _ V) in G. lia. }
        destruct (build_ok_fuel (S N) s [] i V Hi E) as (s1 & E1 & V1 & X1 & F1); auto.
        { easy. }
        unfold bind. rewrite E1. destruct (IH s1 V1 Hl) as (s2 & E2 & V2 & X2 & F2).
        exists s2. split; [exact E2|]. split; [assumption|]. split; [eapply ext_trans; eassumption|].
        intros k [<-|Hk]; auto. apply (x_fin _ _ X2). exact F1.
      + exfalso. apply (v_work _ _ V) in E. exact E.
      + destruct (IH s V Hl) as (s2 & E2 & V2 & X2 & F2).
        exists s2. split; [exact E2|]. split; [assumption|]. split; [assumption|].
        intros k [<-|Hk]; auto. apply (x_fin _ _ X2). exact E.
  Qed.

  Lemma nth_const : forall A B (l : list A) (x : B) i, nth i (map (fun _ => x) l) x = x.
  Proof. induction l as [|y l IH]; intros x [|i]; cbn; auto. Qed.

  Lemma inv_init : inv (NCTinit sets) [].
  Proof.
    assert (B : forall i, built_at (NCTinit sets) i = ht_null).
    { intros i. unfold built_at, NCTinit. cbn [n_built]. apply nth_const. }
    constructor; unfold NCTinit; cbn [n_built n_tables n_illegal n_errors]; rewrite ?map_length; auto.
    - intros i. fold (NCTinit sets). rewrite B. cbn. easy.
    - easy.
    - intros _. exists []. split; [exact I|]. split; [|easy]. intros j. fold (NCTinit sets).
      rewrite B. cbn. easy.
    - intros j n. fold (NCTinit sets). rewrite B. discriminate.
  Qed.

  Theorem NCTast_right : exists s, NCTast sets = Val s /\ length (n_tables s) = length sets /\
    (n_errors s <> [] <-> recursive sets) /\
    (n_errors s = [] -> forall i, i < N -> right_table i (table_of s i)) /\
    (forall i n, nth_error sets i = Some n ->
       (nth i (n_illegal s) false = true <-> not_only_unions (ns_expr n))).
  Proof.
    destruct (NCTinodesets_ok (seq 0 N) (NCTinit sets) inv_init) as (s & E & V & X & F).
    { intros i H. apply in_seq in H. lia. }
    assert (F' : forall i, i < N -> built_at s i = ht_finished).
    { intros i Hi. apply F. apply in_seq. lia. }
    exists s. split; [exact E|]. split; [exact (v_tables _ _ V)|]. split; [|split].
    - split; [apply (v_bad _ _ V)|]. intros (i & T) Er.
      destruct (v_good _ _ V Er) as (fin & O & M & _).
      assert (Li : i < N). { apply built_first in T. destruct T as (m & R & _). now apply refers_lt in R. }
      apply (ordered_irrefl fin O i); [|assumption]. apply M. auto.
    - intros Er i Hi. apply (finished_table s []); auto.
    - intros i n En. apply (v_ill _ _ V); auto. apply F'. apply nth_error_Some. congruence.
  Qed.
End Sets.
