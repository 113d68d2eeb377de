(** Proofs about sets (C26). *)

From Coq Require Import List Ascii NArith Bool Lia Arith.
From Verif Require Import Base.Outcome Palm.StrModel Palm.StrProof Front.Syntax Front.SetsModel Front.SetsSpec.
Import ListNotations.
Local Open Scope outcome_scope.

(** * strcmp is a strict total order *)

Lemma N_of_ascii_inj : forall x y, N_of_ascii x = N_of_ascii y -> x = y.
Proof.
  intros x y H. rewrite <- (ascii_N_embedding x), <- (ascii_N_embedding y), H.
  reflexivity.
Qed.

Lemma strcmp_refl : forall a, strcmp a a = Eq.
Proof. induction a as [|x a IH]; cbn; [easy|]. now rewrite N.compare_refl. Qed.

Lemma strcmp_Eq : forall a b, strcmp a b = Eq <-> a = b.
Proof.
  intros a b; split; [|intros ->; apply strcmp_refl].
  revert b; induction a as [|x a IH]; intros [|y b]; cbn; try easy.
  destruct (N.compare_spec (N_of_ascii x) (N_of_ascii y)) as [E|E|E]; try easy.
  intros H. apply N_of_ascii_inj in E. subst y. f_equal. now apply IH.
Qed.

Lemma strcmp_antisym : forall a b, strcmp b a = CompOpp (strcmp a b).
Proof.
  induction a as [|x a IH]; intros [|y b]; cbn; try easy.
  rewrite (N.compare_antisym (N_of_ascii x) (N_of_ascii y)).
  destruct (N.compare (N_of_ascii x) (N_of_ascii y)); cbn; auto.
Qed.

Lemma strcmp_trans : forall a b c,
  strcmp a b = Lt -> strcmp b c = Lt -> strcmp a c = Lt.
Proof.
  induction a as [|x a IH]; intros [|y b] [|z c]; cbn; try easy.
  destruct (N.compare_spec (N_of_ascii x) (N_of_ascii y)) as [E|E|E];
    destruct (N.compare_spec (N_of_ascii y) (N_of_ascii z)) as [E'|E'|E'];
    try easy; intros H H';
    destruct (N.compare_spec (N_of_ascii x) (N_of_ascii z)) as [E2|E2|E2];
    try easy; try lia.
  now apply (IH b).
Qed.

Lemma strcmp_Gt : forall a b, strcmp a b = Gt <-> strcmp b a = Lt.
Proof.
  intros a b. rewrite (strcmp_antisym a b). destruct (strcmp a b); cbn; easy.
Qed.

(** * Search trees *)

Definition lt_all (x : cstring) (l : literal) : Prop :=
  forall y, names_in l y -> strcmp y x = Lt.
Definition gt_all (x : cstring) (l : literal) : Prop :=
  forall y, names_in l y -> strcmp x y = Lt.

Fixpoint bst (l : literal) : Prop :=
  match l with
  | LNull => True
  | SetLiteral r a b => lt_all (ID_LWR r) a /\ gt_all (ID_LWR r) b /\ bst a /\ bst b
  end.

Lemma names_in_node : forall r a b x,
  names_in (SetLiteral r a b) x <-> ID_LWR r = x \/ names_in a x \/ names_in b x.
Proof.
  intros r a b x. unfold names_in. cbn. rewrite map_app, in_app_iff. tauto.
Qed.

Lemma names_in_null : forall x, ~ names_in LNull x.
Proof. intros x []. Qed.

Lemma bst_no_member_twice : forall l, bst l -> no_member_twice l.
Proof.
  induction l as [|r a IHa b IHb]; intros H; [constructor|].
  destruct H as (Ha & Hb & Sa & Sb). unfold no_member_twice; cbn.
  rewrite map_app. constructor.
  - rewrite in_app_iff. intros [H|H].
    + apply Ha in H. rewrite strcmp_refl in H. easy.
    + apply Hb in H. rewrite strcmp_refl in H. easy.
  - specialize (IHa Sa). specialize (IHb Sb). unfold no_member_twice in *.
    assert (D : forall x, In x (map ID_LWR (listed a)) -> ~ In x (map ID_LWR (listed b))).
    { intros x Hx Hy. apply Ha in Hx. apply Hb in Hy.
      assert (strcmp x x = Lt) as C by (eapply strcmp_trans; eassumption).
      rewrite strcmp_refl in C. easy. }
    clear - IHa IHb D.
    induction (map ID_LWR (listed a)) as [|y ys IH]; cbn; [assumption|].
    inversion IHa as [|? ? Hy Hys]; subst. constructor.
    + rewrite in_app_iff. intros [H|H]; [tauto|]. apply (D y); cbn; auto.
    + apply IH; auto. intros z Hz. apply D; cbn; auto.
Qed.

Lemma insert_names : forall l id x,
  names_in (SETIDinsert l id) x <-> names_in l x \/ x = ID_LWR id.
Proof.
  induction l as [|r a IHa b IHb]; intros id x.
  - cbn [SETIDinsert]. rewrite names_in_node. pose proof (names_in_null x). intuition.
  - cbn [SETIDinsert]. destruct (strcmp (ID_LWR id) (ID_LWR r)) eqn:E.
    + apply strcmp_Eq in E. rewrite names_in_node. intuition congruence.
    + rewrite !names_in_node, IHa. tauto.
    + rewrite !names_in_node, IHb. tauto.
Qed.

Lemma insert_bst : forall l id, bst l -> bst (SETIDinsert l id).
Proof.
  induction l as [|r a IHa b IHb]; intros id H.
  - cbn. repeat split; intros y Hy; now apply names_in_null in Hy.
  - destruct H as (Ha & Hb & Sa & Sb). cbn [SETIDinsert].
    destruct (strcmp (ID_LWR id) (ID_LWR r)) eqn:E; cbn [bst]; repeat split; auto.
    + intros y Hy. apply insert_names in Hy. destruct Hy as [Hy| ->]; auto.
    + intros y Hy. apply insert_names in Hy. destruct Hy as [Hy| ->]; auto.
      now apply strcmp_Gt.
Qed.

Lemma contains_names : forall l id, bst l ->
  SETIDcontains l id = true <-> names_in l (ID_LWR id).
Proof.
  induction l as [|r a IHa b IHb]; intros id H.
  - cbn. unfold names_in. cbn. easy.
  - destruct H as (Ha & Hb & Sa & Sb). cbn [SETIDcontains]. rewrite names_in_node.
    destruct (strcmp (ID_LWR id) (ID_LWR r)) eqn:E.
    + apply strcmp_Eq in E. intuition.
    + rewrite IHa by assumption. split; [tauto|]. intros [F|[F|F]]; auto.
      * rewrite F, strcmp_refl in E. easy.
      * apply Hb in F. apply strcmp_Gt in F. congruence.
    + rewrite IHb by assumption. split; [tauto|]. intros [F|[F|F]]; auto.
      * rewrite F, strcmp_refl in E. easy.
      * apply Ha in F. congruence.
Qed.

Lemma walk_filter : forall (p : ident -> bool) l acc,
  bst acc ->
  bst (SLwalk (fun acc r => if p r then SETIDinsert acc r else acc) l acc) /\
  forall x,
    names_in (SLwalk (fun acc r => if p r then SETIDinsert acc r else acc) l acc) x
    <-> names_in acc x \/ (exists r, In r (listed l) /\ ID_LWR r = x /\ p r = true).
Proof.
  intros p. induction l as [|r a IHa b IHb]; intros acc B; cbn [SLwalk].
  - split; [assumption|]. intros x. split; [auto|]. intros [H|(r & [] & _)]; auto.
  - set (acc1 := if p r then SETIDinsert acc r else acc).
    assert (B1 : bst acc1) by (unfold acc1; destruct (p r); auto using insert_bst).
    destruct (IHa acc1 B1) as [B2 N2]. destruct (IHb _ B2) as [B3 N3].
    split; [assumption|]. intros x. rewrite N3, N2. unfold acc1. cbn [listed].
    split.
    + intros [[H|(q & Hq & E)]|(q & Hq & E)].
      * destruct (p r) eqn:P.
        { apply insert_names in H. destruct H as [H| ->]; [auto|].
          right. exists r. cbn. auto. }
        { auto. }
      * right. exists q. cbn. rewrite in_app_iff. tauto.
      * right. exists q. cbn. rewrite in_app_iff. tauto.
    + intros [H|(q & Hq & E & P)].
      * left. left. destruct (p r); [apply insert_names|]; auto.
      * cbn in Hq. rewrite in_app_iff in Hq. destruct Hq as [->|[Hq|Hq]].
        { left. left. rewrite P. apply insert_names. auto. }
        { left. right. eauto. }
        { right. eauto. }
Qed.

Lemma listed_names : forall l x, names_in l x <-> exists r, In r (listed l) /\ ID_LWR r = x.
Proof. intros l x. unfold names_in. rewrite in_map_iff. firstorder. Qed.

Lemma union_spec : forall a b, bst a -> bst b ->
  bst (SETIDunion a b) /\ forall x, names_in (SETIDunion a b) x <-> names_in a x \/ names_in b x.
Proof.
  intros a b _ _. unfold SETIDunion.
  destruct (walk_filter (fun _ => true) a LNull I) as [B1 N1]. cbn in B1, N1.
  change (SLwalk (fun acc r => SETIDinsert acc r)) with (SLwalk SETIDinsert) in *.
  destruct (walk_filter (fun _ => true) b _ B1) as [B2 N2].
  split; [exact B2|]. intros x.
  change (SLwalk (fun acc r => if true then SETIDinsert acc r else acc)) with (SLwalk SETIDinsert) in *.
  rewrite N2, N1, (listed_names a), (listed_names b). clear.
  pose proof (names_in_null x) as Z. split.
  - intros [[H|(r & H1 & H2 & _)]|(r & H1 & H2 & _)]; [easy| |]; eauto.
  - intros [(r & H1 & H2)|(r & H1 & H2)]; [left; right|right]; exists r; auto.
Qed.

Lemma intersect_spec : forall a b, bst a -> bst b ->
  bst (SETIDintersect a b) /\
  forall x, names_in (SETIDintersect a b) x <-> names_in a x /\ names_in b x.
Proof.
  intros a b _ Hb. unfold SETIDintersect.
  destruct (walk_filter (SETIDcontains b) a LNull I) as [B1 N1].
  split; [exact B1|]. intros x. rewrite N1, (listed_names a).
  split.
  - intros [H|(r & H & E & P)]; [now apply names_in_null in H|].
    apply contains_names in P; auto. subst x. eauto.
  - intros [(r & H & E) H']. right. exists r. subst x. repeat split; auto.
    now apply contains_names.
Qed.

Lemma difference_spec : forall a b, bst a -> bst b ->
  bst (SETIDdifference a b) /\
  forall x, names_in (SETIDdifference a b) x <-> names_in a x /\ ~ names_in b x.
Proof.
  intros a b _ Hb. unfold SETIDdifference.
  destruct (walk_filter (fun r => negb (SETIDcontains b r)) a LNull I) as [B1 N1].
  split; [exact B1|]. intros x. rewrite N1, (listed_names a).
  split.
  - intros [H|(r & H & E & P)]; [now apply names_in_null in H|].
    apply negb_true_iff in P. subst x. split; [eauto|].
    intros C. apply contains_names in C; auto. congruence.
  - intros [(r & H & E) H']. right. exists r. subst x. repeat split; auto.
    apply negb_true_iff. destruct (SETIDcontains b r) eqn:C; auto.
    apply contains_names in C; auto. contradiction.
Qed.

Lemma parse_literal_spec : forall ids,
  bst (parse_literal ids) /\
  forall x, names_in (parse_literal ids) x <-> In x (map ID_LWR ids).
Proof.
  intros ids. unfold parse_literal.
  assert (G : forall acc, bst acc ->
    bst (fold_left SETIDinsert ids acc) /\
    forall x, names_in (fold_left SETIDinsert ids acc) x
              <-> names_in acc x \/ In x (map ID_LWR ids)).
  { induction ids as [|i ids IH]; intros acc B; cbn [fold_left map In].
    - split; [assumption|tauto].
    - destruct (IH (SETIDinsert acc i) (insert_bst _ _ B)) as [B' N].
      split; [assumption|]. intros x. rewrite N, insert_names. intuition congruence. }
  destruct (G LNull I) as [B N]. split; [assumption|].
  intros x. rewrite N. pose proof (names_in_null x). tauto.
Qed.

(** * The meaning of expressions *)

Lemma denotes_ext : forall sets e S T,
  denotes sets e S -> (forall x, S x <-> T x) -> denotes sets e T.
Proof.
  intros sets e S T H. revert T.
  induction H as [ids S H|n id S Hn Hi H IH|a b A B S HA IHA HB IHB H
                 |a b A B S HA IHA HB IHB H|a b A B S HA IHA HB IHB H]; intros T E.
  - apply den_literal. intros x. rewrite <- E. apply H.
  - eapply den_reference; eauto.
  - eapply den_union; eauto. intros x. rewrite <- E. apply H.
  - eapply den_intersect; eauto. intros x. rewrite <- E. apply H.
  - eapply den_difference; eauto. intros x. rewrite <- E. apply H.
Qed.

Lemma unique_in : forall sets n m,
  names_unique sets -> In n sets -> In m sets ->
  ID_LWR (ns_name n) = ID_LWR (ns_name m) -> n = m.
Proof.
  intros sets n m U. unfold names_unique in U.
  induction sets as [|k sets IH]; [easy|]. cbn in U. inversion U as [|? ? Hk Hs]; subst.
  intros [->|Hn] [->|Hm] E; auto.
  - exfalso. apply Hk. rewrite E. apply in_map_iff. eauto.
  - exfalso. apply Hk. rewrite <- E. apply in_map_iff. eauto.
Qed.

(** An expression denotes at most one set. *)
Lemma denotes_unique : forall sets e S T,
  names_unique sets -> denotes sets e S -> denotes sets e T -> forall x, S x <-> T x.
Proof.
  intros sets e S T U H. revert T.
  induction H as [ids S H|n id S Hn Hi H IH|a b A B S HA IHA HB IHB H
                 |a b A B S HA IHA HB IHB H|a b A B S HA IHA HB IHB H];
    intros T D x; inversion D as [ids' ? H' P|n' ? ? Hn' Hi' H'|? ? A' B' ? HA' HB' H'
      |? ? A' B' ? HA' HB' H'|? ? A' B' ? HA' HB' H']; subst.
  - rewrite H, H'. rewrite <- !(proj2 (parse_literal_spec _)). now rewrite P.
  - apply IH. replace n with n'; auto. apply (unique_in sets); auto. congruence.
  - rewrite H, H'. rewrite (IHA _ HA'), (IHB _ HB'). tauto.
  - rewrite H, H'. rewrite (IHA _ HA'), (IHB _ HB'). tauto.
  - rewrite H, H'. rewrite (IHA _ HA'), (IHB _ HB'). tauto.
Qed.

Definition right_literal (sets : list inodeset) (e : setexpr) (l : literal) : Prop :=
  denotes sets e (names_in l) /\ bst l.

Lemma apply_op_right : forall sets o a b la lb,
  right_literal sets a la -> right_literal sets b lb ->
  right_literal sets (EOperation o a b) (apply_op o la lb).
Proof.
  intros sets o a b la lb [Da Ba] [Db Bb]. destruct o; cbn.
  - destruct (union_spec la lb Ba Bb) as [B N]. split; auto. eapply den_union; eauto.
  - destruct (intersect_spec la lb Ba Bb) as [B N]. split; auto. eapply den_intersect; eauto.
  - destruct (difference_spec la lb Ba Bb) as [B N]. split; auto. eapply den_difference; eauto.
Qed.

(** * The traversal: results are right *)

Section Right.
  Variable sets : list inodeset.
  Hypothesis P : forall n, In n sets -> parsed (ns_expr n).

  (** The table describes the nodesets; evaluated ones are right. *)
  Definition good_entry (n : inodeset) (e : entry) : Prop :=
    e_name e = ns_name n /\
    match e_slot e with
    | Todo x => x = ns_expr n
    | Working => True
    | Done l => right_literal sets (ns_expr n) l
    end.
  Definition good (tbl : list entry) : Prop := Forall2 good_entry sets tbl.

  Lemma Forall2_nth : forall A B (R : A -> B -> Prop) l m i y,
    Forall2 R l m -> nth_error m i = Some y -> exists x, nth_error l i = Some x /\ R x y.
  Proof.
    intros A B R l m i y H. revert i. induction H as [|a b l m r H IH]; intros [|i]; cbn; try easy.
    - intros E. injection E as ->. eauto.
    - apply IH.
  Qed.

  Lemma Forall2_nth_l : forall A B (R : A -> B -> Prop) l m i x,
    Forall2 R l m -> nth_error l i = Some x -> exists y, nth_error m i = Some y /\ R x y.
  Proof.
    intros A B R l m i x H. revert i. induction H as [|a b l m r H IH]; intros [|i]; cbn; try easy.
    - intros E. injection E as ->. eauto.
    - apply IH.
  Qed.

  Lemma good_get : forall tbl i s, good tbl -> get_slot tbl i = Some s ->
    exists n e, nth_error sets i = Some n /\ nth_error tbl i = Some e /\ e_slot e = s /\ good_entry n e.
  Proof.
    intros tbl i s G E. unfold get_slot in E.
    destruct (nth_error tbl i) as [e|] eqn:N; [|easy]. cbn in E. injection E as E.
    destruct (Forall2_nth _ _ _ _ _ _ _ G N) as (n & Hn & R). exists n, e. auto.
  Qed.

  Lemma Forall2_set : forall (l : list inodeset) tbl i s n,
    Forall2 good_entry l tbl -> nth_error l i = Some n ->
    match s with
    | Todo x => x = ns_expr n
    | Working => True
    | Done l => right_literal sets (ns_expr n) l
    end -> Forall2 good_entry l (set_slot tbl i s).
  Proof.
    intros l tbl i s n H. revert i. induction H as [|a b l tbl r H IH]; intros [|i]; cbn; try easy.
    - intros E S. injection E as ->. constructor; auto. split; cbn; auto. apply r.
    - intros E S. constructor; auto.
  Qed.

  Lemma find_set_spec : forall tbl id i, find_set tbl id = Some i ->
    exists e, nth_error tbl i = Some e /\ ID_LWR (e_name e) = ID_LWR id.
  Proof.
    induction tbl as [|e tbl IH]; cbn; intros id i; [easy|].
    destruct (strcmp_eq (ID_LWR (e_name e)) (ID_LWR id)) eqn:E.
    - intros H; injection H as <-. apply strcmp_eq_iff in E. cbn. eauto.
    - destruct (find_set tbl id) as [j|] eqn:F; [|easy]. cbn. intros H; injection H as <-.
      cbn. now apply IH.
  Qed.

  Section Expr.
    Variable children : list entry -> nat -> outcome (list entry).
    Hypothesis children_good : forall tbl i tbl',
      good tbl -> children tbl i = Val tbl' -> good tbl'.

    Lemma USEsetexpr_right : forall e tbl tbl' l,
      parsed e -> good tbl -> USEsetexpr children tbl e = Val (tbl', l) ->
      good tbl' /\ right_literal sets e l.
    Proof.
      induction e as [l0|id|o a IHa b IHb]; intros tbl tbl' l Pe G; cbn [USEsetexpr].
      - intros E; injection E as <- <-. split; auto. destruct Pe as [ids ->].
        destruct (parse_literal_spec ids) as [B N]. split; auto. now apply den_literal.
      - unfold USEsetreference.
        destruct (find_set tbl id) as [i|] eqn:F; [|easy].
        destruct (find_set_spec _ _ _ F) as (en & En & Enm).
        assert (R : forall tb l, good tb -> get_slot tb i = Some (Done l) ->
                    right_literal sets (EReference id) l).
        { intros tb l' Gt H. destruct (good_get _ _ _ Gt H) as (n & e' & Hn & He' & Hs & Hg).
          destruct Hg as [Hnm Hg]. rewrite Hs in Hg. destruct Hg as [D B]. split; auto.
          destruct (Forall2_nth _ _ _ _ _ _ _ G En) as (n2 & Hn2 & [Hnm2 _]).
          rewrite Hn in Hn2. injection Hn2 as <-.
          eapply den_reference; eauto. { eapply nth_error_In; eauto. } now rewrite <- Hnm2. }
        destruct (get_slot tbl i) as [[e| |l']|] eqn:S; try easy.
        + destruct (children tbl i) as [tbl1| | | |] eqn:C; try easy. cbn.
          destruct (get_slot tbl1 i) as [[| |l']|] eqn:S1; try easy.
          intros E; injection E as <- <-. assert (good tbl1) by eauto. eauto.
        + intros E; injection E as <- <-. eauto.
      - destruct Pe as [Pa Pb].
        destruct (USEsetexpr children tbl a) as [[t1 l1]| | | |] eqn:Ea; try easy. cbn.
        destruct (USEsetexpr children t1 b) as [[t2 l2]| | | |] eqn:Eb; try easy. cbn.
        intros E; injection E as <- <-.
        destruct (IHa _ _ _ Pa G Ea) as [G1 R1]. destruct (IHb _ _ _ Pb G1 Eb) as [G2 R2].
        split; auto. now apply apply_op_right.
    Qed.
  End Expr.

  Lemma USEinodeset_good : forall fuel tbl i tbl',
    good tbl -> USEinodeset fuel tbl i = Val tbl' -> good tbl'.
  Proof.
    induction fuel as [|fuel IH]; intros tbl i tbl' G; cbn [USEinodeset]; [easy|].
    destruct (get_slot tbl i) as [[e| |l]|] eqn:S; try easy.
    - destruct (good_get _ _ _ G S) as (n & en & Hn & Hen & Hs & Hg).
      destruct Hg as [_ Hg]. rewrite Hs in Hg. subst e.
      destruct (USEsetexpr (USEinodeset fuel) (set_slot tbl i Working) (ns_expr n))
        as [[t1 l]| | | |] eqn:E; try easy. cbn.
      intros H. destruct (USEsetexpr_right _ IH _ _ _ _ (P n (nth_error_In _ _ Hn))
        (Forall2_set _ _ _ Working _ G Hn I) E) as [G1 R1].
      eapply IH; [|exact H]. eapply Forall2_set; eauto.
    - eapply IH; eauto.
    - intros E; injection E as <-. assumption.
  Qed.

  Lemma USEitraversals_right : forall children ts tbl tbl' ls,
    (forall tbl i tbl', good tbl -> children tbl i = Val tbl' -> good tbl') ->
    (forall e, In (Some e) ts -> parsed e) ->
    good tbl -> USEitraversals children tbl ts = Val (tbl', ls) ->
    good tbl' /\
    Forall2 (fun t l => match t, l with
                        | None, None => True
                        | Some e, Some l => right_literal sets e l
                        | _, _ => False
                        end) ts ls.
  Proof.
    intros children. induction ts as [|[e|] ts IH]; intros tbl tbl' ls C Pt G; cbn.
    - intros E; injection E as <- <-. auto.
    - destruct (USEsetexpr children tbl e) as [[t1 l]| | | |] eqn:E1; try easy. cbn.
      destruct (USEitraversals children t1 ts) as [[t2 ls2]| | | |] eqn:E2; try easy. cbn.
      intros E; injection E as <- <-.
      destruct (USEsetexpr_right _ C _ _ _ _ (Pt e (or_introl eq_refl)) G E1) as [G1 R1].
      destruct (IH _ _ _ C (fun e' H => Pt e' (or_intror H)) G1 E2) as [G2 R2].
      split; auto.
    - destruct (USEitraversals children tbl ts) as [[t2 ls2]| | | |] eqn:E2; try easy. cbn.
      intros E; injection E as <- <-.
      destruct (IH _ _ _ C (fun e' H => Pt e' (or_intror H)) G E2) as [G2 R2].
      split; auto.
  Qed.
End Right.

Lemma start_good : forall sets, (forall n, In n sets -> parsed (ns_expr n)) ->
  good sets (start_table sets).
Proof.
  intros sets P. unfold good, start_table.
  assert (G : forall l, incl l sets -> Forall2 (good_entry sets) l
     (map (fun n => mk_entry (ns_name n) (slot_of (ns_expr n))) l)).
  { induction l as [|n l IH]; intros H; cbn; constructor.
    - split; cbn; auto. destruct (ns_expr n) as [l0|id|o a b] eqn:E; cbn; auto.
      assert (parsed (ns_expr n)) as Q by (apply P, H; cbn; auto).
      rewrite E in Q. destruct Q as [ids ->]. destruct (parse_literal_spec ids) as [B N].
      split; auto. now apply den_literal.
    - apply IH. intros x Hx. apply H. cbn; auto. }
  apply G, incl_refl.
Qed.

Lemma Forall2_impl' : forall A B (R Q : A -> B -> Prop) l m,
  (forall x y, R x y -> Q x y) -> Forall2 R l m -> Forall2 Q l m.
Proof. intros A B R Q l m H F. induction F; constructor; auto. Qed.

Lemma map_val_final : forall sets l tbl ls,
  Forall2 (good_entry sets) l tbl -> map_val final_literal tbl = Val ls ->
  Forall2 (fun n l => right_literal sets (ns_expr n) l) l ls.
Proof.
  intros sets l tbl ls H. revert ls. induction H as [|n e l tbl r H IH]; cbn; intros ls.
  - intros E; injection E as <-. constructor.
  - unfold final_literal at 1. destruct r as [_ r]. destruct (e_slot e) as [| |l0]; try easy. cbn.
    destruct (map_val final_literal tbl) as [ls'| | | |] eqn:E; try easy. cbn.
    intros F; injection F as <-. constructor; auto.
Qed.

Lemma right_literal_set : forall sets e l, right_literal sets e l -> right_set sets e l.
Proof. intros sets e l [D B]. split; auto. now apply bst_no_member_twice. Qed.

Theorem unwrap_right : forall a ts ls,
  parsed_ast a -> unwrap a = Val (ts, ls) ->
  Forall2 (fun n l => right_set (a_nodesets a) (ns_expr n) l) (a_nodesets a) ls /\
  Forall2 (fun t l => match tv_nodes t, l with
                      | None, None => True
                      | Some e, Some l => right_set (a_nodesets a) e l
                      | _, _ => False
                      end) (a_traversals a) ts.
Proof.
  intros a ts ls [Pn Pt]. unfold unwrap.
  set (children := USEinodeset _).
  destruct (USEitraversals children (start_table (a_nodesets a)) (map tv_nodes (a_traversals a)))
    as [[t1 ls1]| | | |] eqn:E1; try easy. cbn [bind fst snd].
  destruct (children t1 0) as [t2| | | |] eqn:E2; try easy. cbn [bind fst snd].
  destruct (map_val final_literal t2) as [ls2| | | |] eqn:E3; try easy. cbn [bind fst snd].
  intros E; injection E as <- <-.
  assert (C : forall tbl i tbl', good (a_nodesets a) tbl -> children tbl i = Val tbl' ->
              good (a_nodesets a) tbl') by (apply USEinodeset_good; assumption).
  assert (PT : forall e, In (Some e) (map tv_nodes (a_traversals a)) -> parsed e).
  { intros e He. apply in_map_iff in He. destruct He as (t & Ht & Hi). eapply Pt; eauto. }
  destruct (USEitraversals_right (a_nodesets a) children _ _ _ _ C PT (start_good _ Pn) E1)
    as [G1 R1].
  split.
  - eapply Forall2_impl'; [|eapply map_val_final; [exact (C _ _ _ G1 E2)|exact E3]].
    intros n l H. now apply right_literal_set.
  - clear - R1. revert R1. generalize ls1. induction (a_traversals a) as [|t l IH]; cbn; intros ls R.
    + inversion R; constructor.
    + inversion R as [|? x ? l' r R' E1 E2]; subst. constructor; auto.
      destruct (tv_nodes t); destruct x; auto. now apply right_literal_set.
Qed.
