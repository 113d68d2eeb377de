(** Evaluation of set expressions ends, and is defined when nodesets are
    declared before they are used (C26). *)

From Coq Require Import List Ascii NArith Bool Lia Arith.
From Verif Require Import Base.Outcome Palm.StrModel Palm.StrProof Front.Syntax Front.SetsModel
  Front.SetsSpec Front.SetsProof.
Import ListNotations.
Local Open Scope outcome_scope.

(** * The fuel suffices *)

Definition is_todo (e : entry) : bool := match e_slot e with Todo _ => true | _ => false end.
Definition todo (tbl : list entry) : nat := length (filter is_todo tbl).

Lemma set_slot_length : forall tbl i s, length (set_slot tbl i s) = length tbl.
Proof. induction tbl as [|e tbl IH]; intros [|i] s; cbn; auto. Qed.

Lemma get_set_same : forall tbl i s x, get_slot tbl i = Some x -> get_slot (set_slot tbl i s) i = Some s.
Proof.
  unfold get_slot. induction tbl as [|e tbl IH]; intros [|i] s x; cbn; try easy. apply IH.
Qed.

Lemma get_set_other : forall tbl i j s, i <> j -> get_slot (set_slot tbl i s) j = get_slot tbl j.
Proof.
  unfold get_slot. induction tbl as [|e tbl IH]; intros [|i] [|j] s H; cbn; try easy.
  apply IH. congruence.
Qed.

Lemma todo_set_working : forall tbl i e, get_slot tbl i = Some (Todo e) ->
  S (todo (set_slot tbl i Working)) = todo tbl.
Proof.
  unfold todo, get_slot. induction tbl as [|x tbl IH]; intros [|i] e; cbn; try easy.
  - intros H. injection H as H. unfold is_todo at 2. rewrite H. reflexivity.
  - intros H. destruct (is_todo x); cbn [length]; rewrite <- (IH _ _ H); reflexivity.
Qed.

Lemma todo_set_done : forall tbl i l, todo (set_slot tbl i (Done l)) <= todo tbl.
Proof.
  unfold todo. induction tbl as [|x tbl IH]; intros [|i] l; cbn; auto.
  - destruct (is_todo x); cbn [length]; lia.
  - specialize (IH i l). destruct (is_todo x); cbn [length]; lia.
Qed.

Lemma todo_le : forall tbl, todo tbl <= length tbl.
Proof.
  unfold todo. induction tbl as [|x tbl IH]; cbn; auto. destruct (is_todo x); cbn [length]; lia.
Qed.

Lemma get_slot_lt : forall tbl i s, get_slot tbl i = Some s -> i < length tbl.
Proof.
  unfold get_slot. intros tbl i s H. apply nth_error_Some.
  destruct (nth_error tbl i); easy.
Qed.

Arguments todo : simpl never.

(** The result is not NoFuel; a resulting table is as long and has no more
    work left. *)
Definition no_worse (tbl : list entry) (r : outcome (list entry)) : Prop :=
  match r with
  | NoFuel => False
  | Val tbl' => length tbl' = length tbl /\ todo tbl' <= todo tbl
  | _ => True
  end.

Section Expr.
  Variable children : list entry -> nat -> outcome (list entry).
  Variable t len : nat.
  Hypothesis C : forall tbl i, length tbl = len -> todo tbl <= t -> no_worse tbl (children tbl i).

  Lemma USEsetexpr_no_worse : forall e tbl, length tbl = len -> todo tbl <= t ->
    no_worse tbl (map_outcome fst (USEsetexpr children tbl e)).
  Proof.
    induction e as [l0|id|o a IHa b IHb]; intros tbl L T; cbn [USEsetexpr].
    - cbn. auto.
    - unfold USEsetreference. destruct (find_set tbl id) as [i|]; [|exact I].
      destruct (get_slot tbl i) as [[x| |l]|]; cbn; auto.
      specialize (C tbl i L T). destruct (children tbl i) as [t1| | | |]; cbn in *; auto.
      destruct (get_slot t1 i) as [[| |]|]; cbn; auto.
    - specialize (IHa tbl L T).
      destruct (USEsetexpr children tbl a) as [[t1 l1]| | | |]; cbn in *; auto.
      destruct IHa as [L1 T1].
      assert (IH : no_worse t1 (map_outcome fst (USEsetexpr children t1 b))) by (apply IHb; lia).
      destruct (USEsetexpr children t1 b) as [[t2 l2]| | | |]; cbn in *; auto. lia.
  Qed.
End Expr.

Lemma USEinodeset_no_worse : forall fuel tbl i,
  todo tbl * S (length tbl) + (length tbl - i) < fuel ->
  no_worse tbl (USEinodeset fuel tbl i).
Proof.
  induction fuel as [|fuel IH]; intros tbl i F; [lia|]. cbn [USEinodeset].
  destruct (get_slot tbl i) as [[e| |l]|] eqn:G; cbn; auto.
  - pose proof (get_slot_lt _ _ _ G) as Hi. pose proof (todo_set_working _ _ _ G) as Ht.
    pose proof (set_slot_length tbl i Working) as HL.
    set (t0 := set_slot tbl i Working) in *.
    assert (E : no_worse t0 (map_outcome fst (USEsetexpr (USEinodeset fuel) t0 e))).
    { apply (USEsetexpr_no_worse _ (todo t0) (length t0)); auto.
      intros tb j Lb Tb. apply IH. rewrite Lb, HL. nia. }
    destruct (USEsetexpr (USEinodeset fuel) t0 e) as [[t1 l]| | | |]; cbn [map_outcome fst no_worse bind] in *; auto.
    destruct E as [L1 T1]. cbn [fst snd].
    pose proof (todo_set_done t1 i l). pose proof (set_slot_length t1 i (Done l)).
    specialize (IH (set_slot t1 i (Done l)) (S i)).
    destruct (USEinodeset fuel (set_slot t1 i (Done l)) (S i)); cbn in *; auto.
    + assert (todo (set_slot t1 i (Done l)) * S (length (set_slot t1 i (Done l)))
              + (length (set_slot t1 i (Done l)) - S i) < fuel) as Q by nia.
      specialize (IH Q). lia.
    + apply IH. nia.
  - pose proof (get_slot_lt _ _ _ G) as Hi. specialize (IH tbl (S i)).
    apply IH. lia.
Qed.

Lemma USEitraversals_no_worse : forall children t len,
  (forall tbl i, length tbl = len -> todo tbl <= t -> no_worse tbl (children tbl i)) ->
  forall ts tbl, length tbl = len -> todo tbl <= t ->
  no_worse tbl (map_outcome fst (USEitraversals children tbl ts)).
Proof.
  intros children t len C. induction ts as [|[e|] ts IH]; intros tbl L T; cbn.
  - auto.
  - pose proof (USEsetexpr_no_worse children t len C e tbl L T) as E.
    destruct (USEsetexpr children tbl e) as [[t1 l]| | | |]; cbn in *; auto.
    destruct E as [L1 T1]. assert (IH' := IH t1 ltac:(lia) ltac:(lia)).
    destruct (USEitraversals children t1 ts) as [[t2 ls]| | | |]; cbn in *; auto. lia.
  - specialize (IH tbl L T).
    destruct (USEitraversals children tbl ts) as [[t2 ls]| | | |]; cbn in *; auto.
Qed.

Lemma start_length : forall sets, length (start_table sets) = length sets.
Proof. intros sets. apply map_length. Qed.

Theorem unwrap_enough_fuel : forall a, unwrap a <> NoFuel.
Proof.
  intros a. unfold unwrap. set (n := length (a_nodesets a)).
  set (children := USEinodeset (S (S n * S n))).
  assert (C : forall tbl i, length tbl = n -> todo tbl <= n -> no_worse tbl (children tbl i)).
  { intros tbl i L T. apply USEinodeset_no_worse. rewrite L. nia. }
  pose proof (todo_le (start_table (a_nodesets a))) as T0. rewrite start_length in T0. fold n in T0.
  pose proof (USEitraversals_no_worse children n n C (map tv_nodes (a_traversals a))
    (start_table (a_nodesets a)) (start_length _) T0) as E.
  destruct (USEitraversals children (start_table (a_nodesets a)) (map tv_nodes (a_traversals a)))
    as [[t1 ls1]| | | |]; cbn [map_outcome fst no_worse bind] in *; try easy.
  destruct E as [L1 T1]. rewrite start_length in L1. fold n in L1.
  specialize (C t1 0 L1 ltac:(lia)).
  destruct (children t1 0) as [t2| | | |]; cbn [no_worse bind] in *; try easy.
  assert (M : forall t, map_val final_literal t <> NoFuel).
  { induction t as [|e t IH]; cbn; [easy|]. unfold final_literal at 1.
    destruct (e_slot e); cbn; try easy. destruct (map_val final_literal t); cbn; congruence. }
  specialize (M t2). destruct (map_val final_literal t2); cbn; congruence.
Qed.

(** * Declared before use: the evaluation is defined *)

(** The references of the sets from position [k] on point further down. *)
Definition later (tbl : list entry) (i : nat) (id : ident) : Prop :=
  exists j, find_set tbl id = Some j /\ i < j.

Definition refs_later (tbl : list entry) : Prop :=
  forall i e id, get_slot tbl i = Some (Todo e) -> In id (references e) -> later tbl i id.

Definition none_working (tbl : list entry) (i : nat) : Prop :=
  forall j s, i <= j -> get_slot tbl j = Some s -> s <> Working.
Definition all_done (tbl : list entry) (i : nat) : Prop :=
  forall j s, i <= j -> get_slot tbl j = Some s -> exists l, s = Done l.

(** [tbl'] comes from [tbl] by evaluating entries from [i] on. *)
Definition grown (i : nat) (tbl tbl' : list entry) : Prop :=
  map e_name tbl' = map e_name tbl /\
  (forall j, j < i -> get_slot tbl' j = get_slot tbl j) /\
  (forall j, get_slot tbl' j = get_slot tbl j \/ exists l, get_slot tbl' j = Some (Done l)).

Lemma grown_refl : forall i tbl, grown i tbl tbl.
Proof. intros i tbl. repeat split; auto. Qed.

Lemma grown_trans : forall i t1 t2 t3, grown i t1 t2 -> grown i t2 t3 -> grown i t1 t3.
Proof.
  intros i t1 t2 t3 (N1 & L1 & D1) (N2 & L2 & D2). repeat split.
  - congruence.
  - intros j H. rewrite L2, L1; auto.
  - intros j. destruct (D2 j) as [E|E]; auto. rewrite E. apply D1.
Qed.

Lemma grown_weaken : forall i j t1 t2, i <= j -> grown j t1 t2 -> grown i t1 t2.
Proof. intros i j t1 t2 H (N & L & D). repeat split; auto. intros k Hk. apply L. lia. Qed.

Lemma find_set_names : forall t1 t2 id, map e_name t1 = map e_name t2 -> find_set t1 id = find_set t2 id.
Proof.
  induction t1 as [|e t1 IH]; intros [|e2 t2] id; cbn; try easy.
  intros H. injection H as H1 H2. rewrite H1. rewrite (IH t2 id H2). reflexivity.
Qed.

Lemma find_set_some : forall tbl id j, find_set tbl id = Some j -> exists s, get_slot tbl j = Some s.
Proof.
  intros tbl id j H. destruct (find_set_spec _ _ _ H) as (e & E & _).
  unfold get_slot. rewrite E. cbn. eauto.
Qed.

Lemma set_names : forall tbl i s, map e_name (set_slot tbl i s) = map e_name tbl.
Proof. induction tbl as [|e tbl IH]; intros [|i] s; cbn; auto. now rewrite IH. Qed.

Lemma later_names : forall t1 t2 i id, map e_name t1 = map e_name t2 -> later t1 i id -> later t2 i id.
Proof. intros t1 t2 i id H (j & F & L). exists j. split; auto. rewrite <- F. now apply find_set_names. Qed.

Lemma grown_none_working : forall i k t1 t2, grown k t1 t2 -> none_working t1 i -> none_working t2 i.
Proof.
  intros i k t1 t2 (_ & _ & D) H j s L G E. subst s.
  destruct (D j) as [E|(l & E)]; [|congruence]. rewrite E in G. exact (H j Working L G eq_refl).
Qed.

Lemma grown_refs_later : forall k t1 t2, grown k t1 t2 -> refs_later t1 -> refs_later t2.
Proof.
  intros k t1 t2 (N & _ & D) H i e id G I. destruct (D i) as [E|(l & E)]; [|congruence].
  rewrite E in G. eapply later_names; [symmetry; exact N|]. eauto.
Qed.

Definition fine (tbl : list entry) (i : nat) (r : outcome (list entry)) : Prop :=
  match r with
  | NoFuel => True
  | Val tbl' => grown i tbl tbl' /\ all_done tbl' i
  | _ => False
  end.

Lemma none_working_weaken : forall tbl i j, i <= j -> none_working tbl i -> none_working tbl j.
Proof. intros tbl i j L H k s Lk. apply H. lia. Qed.

Section Expr2.
  Variable children : list entry -> nat -> outcome (list entry).
  Hypothesis C : forall tbl i, none_working tbl i -> refs_later tbl -> fine tbl i (children tbl i).

  (** [k]: all references of [e] are at position [k] or later. *)
  Lemma USEsetexpr_fine : forall e tbl k,
    none_working tbl k -> refs_later tbl ->
    (forall id, In id (references e) -> exists j, find_set tbl id = Some j /\ k <= j) ->
    match USEsetexpr children tbl e with
    | NoFuel => True
    | Val (tbl', _) => grown k tbl tbl'
    | _ => False
    end.
  Proof.
    induction e as [l0|id|o a IHa b IHb]; intros tbl k W R F; cbn [USEsetexpr].
    - apply grown_refl.
    - unfold USEsetreference. destruct (F id (or_introl eq_refl)) as (j & Fj & Lj). rewrite Fj.
      destruct (find_set_some _ _ _ Fj) as (s & Gs). rewrite Gs.
      destruct s as [x| |l].
      + assert (Q := C tbl j (none_working_weaken _ _ _ Lj W) R).
        destruct (children tbl j) as [t1| | | |]; cbn in *; auto.
        destruct Q as [Q1 Q2]. destruct (find_set_some t1 id j) as (s1 & G1).
        { rewrite <- Fj. apply find_set_names, Q1. }
        destruct (Q2 j s1 (le_n _) G1) as (l & ->). rewrite G1.
        eapply grown_weaken; eauto.
      + exfalso. exact (W j Working Lj Gs eq_refl).
      + apply grown_refl.
    - assert (A := IHa tbl k W R (fun id H => F id (in_or_app _ _ _ (or_introl H)))).
      destruct (USEsetexpr children tbl a) as [[t1 l1]| | | |]; cbn; auto.
      assert (B : match USEsetexpr children t1 b with
                  | NoFuel => True | Val (t', _) => grown k t1 t' | _ => False end).
      { apply IHb.
        - eapply grown_none_working; eauto.
        - eapply grown_refs_later; eauto.
        - intros id H. destruct (F id (in_or_app _ _ _ (or_intror H))) as (j & Fj & Lj).
          exists j. split; auto. rewrite <- Fj. apply find_set_names, A. }
      destruct (USEsetexpr children t1 b) as [[t2 l2]| | | |]; cbn; auto.
      eapply grown_trans; eauto.
  Qed.
End Expr2.

Lemma USEinodeset_fine : forall fuel tbl i,
  none_working tbl i -> refs_later tbl -> fine tbl i (USEinodeset fuel tbl i).
Proof.
  induction fuel as [|fuel IH]; intros tbl i W R; cbn [USEinodeset]; [exact I|].
  destruct (get_slot tbl i) as [[e| |l]|] eqn:G.
  - set (t0 := set_slot tbl i Working).
    assert (N0 : map e_name t0 = map e_name tbl) by apply set_names.
    assert (W0 : none_working t0 (S i)).
    { intros j s L Gj. unfold t0 in Gj. rewrite get_set_other in Gj by lia. apply (W j); auto. lia. }
    assert (R0 : refs_later t0).
    { intros j x id Gj I. destruct (Nat.eq_dec j i) as [->|Nj].
      - unfold t0 in Gj. rewrite (get_set_same _ _ _ _ G) in Gj. easy.
      - unfold t0 in Gj. rewrite get_set_other in Gj by auto.
        eapply later_names; [symmetry; exact N0|]. eauto. }
    assert (E := USEsetexpr_fine (USEinodeset fuel) IH e t0 (S i) W0 R0).
    assert (E' : match USEsetexpr (USEinodeset fuel) t0 e with
                 | NoFuel => True | Val (t', _) => grown (S i) t0 t' | _ => False end).
    { apply E. intros id I. destruct (R i e id G I) as (j & Fj & Lj). exists j. split; [|lia].
      rewrite <- Fj. now apply find_set_names. }
    destruct (USEsetexpr (USEinodeset fuel) t0 e) as [[t1 l]| | | |]; cbn; auto.
    set (t2 := set_slot t1 i (Done l)).
    assert (G1 : get_slot t1 i = Some Working).
    { destruct E' as (_ & L & _). rewrite L by lia. apply (get_set_same _ _ _ _ G). }
    assert (W2 : none_working t2 (S i)).
    { intros j s L Gj. unfold t2 in Gj. rewrite get_set_other in Gj by lia.
      exact (grown_none_working _ _ _ _ E' W0 j s L Gj). }
    assert (R1 : refs_later t1) by (eapply grown_refs_later; eauto).
    assert (N2 : map e_name t2 = map e_name t1) by apply set_names.
    assert (R2 : refs_later t2).
    { intros j x id Gj I. destruct (Nat.eq_dec j i) as [->|Nj].
      - unfold t2 in Gj. rewrite (get_set_same _ _ _ _ G1) in Gj. easy.
      - unfold t2 in Gj. rewrite get_set_other in Gj by auto.
        eapply later_names; [symmetry; exact N2|]. eauto. }
    assert (G02 : grown i tbl t2).
    { destruct E' as (N1 & L1 & D1). repeat split.
      - congruence.
      - intros j Hj. unfold t2. rewrite get_set_other by lia. rewrite L1 by lia.
        unfold t0. rewrite get_set_other by lia. reflexivity.
      - intros j. destruct (Nat.eq_dec j i) as [->|Nj].
        + right. exists l. unfold t2. apply (get_set_same _ _ _ _ G1).
        + unfold t2. rewrite get_set_other by auto.
          destruct (D1 j) as [Ej|Ej]; auto. left. rewrite Ej. unfold t0.
          now rewrite get_set_other by auto. }
    specialize (IH t2 (S i) W2 R2).
    destruct (USEinodeset fuel t2 (S i)) as [t3| | | |]; cbn in *; auto.
    destruct IH as [G3 D3]. split.
    + eapply grown_trans; [exact G02|]. eapply grown_weaken; [|exact G3]. lia.
    + intros j s L Gj. destruct (Nat.eq_dec j i) as [->|Nj].
      * exists l. destruct G3 as (_ & L3 & _). rewrite L3 in Gj by lia.
        unfold t2 in Gj. rewrite (get_set_same _ _ _ _ G1) in Gj. congruence.
      * apply (D3 j); auto. lia.
  - exact (W i Working (le_n _) G eq_refl).
  - specialize (IH tbl (S i) (none_working_weaken _ _ _ (le_S _ _ (le_n _)) W) R).
    destruct (USEinodeset fuel tbl (S i)) as [t3| | | |]; cbn in *; auto.
    destruct IH as [G3 D3]. split.
    + eapply grown_weaken; [|exact G3]. lia.
    + intros j s L Gj. destruct (Nat.eq_dec j i) as [->|Nj].
      * destruct G3 as (_ & L3 & _). rewrite L3 in Gj by lia. exists l. congruence.
      * apply (D3 j); auto. lia.
  - cbn. split; [apply grown_refl|]. intros j s L Gj. exfalso.
    apply get_slot_lt in Gj. unfold get_slot in G.
    destruct (nth_error tbl i) eqn:N; [easy|]. apply nth_error_None in N. lia.
Qed.

Lemma USEitraversals_fine : forall children,
  (forall tbl i, none_working tbl i -> refs_later tbl -> fine tbl i (children tbl i)) ->
  forall ts tbl, none_working tbl 0 -> refs_later tbl ->
  (forall e id, In (Some e) ts -> In id (references e) -> exists j, find_set tbl id = Some j) ->
  match USEitraversals children tbl ts with
  | NoFuel => True
  | Val (tbl', _) => grown 0 tbl tbl'
  | _ => False
  end.
Proof.
  intros children C. induction ts as [|[e|] ts IH]; intros tbl W R F; cbn.
  - apply grown_refl.
  - assert (E := USEsetexpr_fine children C e tbl 0 W R).
    assert (E' : match USEsetexpr children tbl e with
                 | NoFuel => True | Val (t', _) => grown 0 tbl t' | _ => False end).
    { apply E. intros id I. destruct (F e id (or_introl eq_refl) I) as (j & Fj). exists j. split; auto. lia. }
    clear E. destruct (USEsetexpr children tbl e) as [[t1 l]| | | |]; cbn; auto.
    assert (IH' : match USEitraversals children t1 ts with
                 | NoFuel => True | Val (t', _) => grown 0 t1 t' | _ => False end).
    { apply IH.
      - eapply grown_none_working; eauto.
      - eapply grown_refs_later; eauto.
      - intros e' id He Hi. destruct (F e' id (or_intror He) Hi) as (j & Fj). exists j.
        rewrite <- Fj. apply find_set_names, E'. }
    destruct (USEitraversals children t1 ts) as [[t2 ls]| | | |]; cbn; auto.
    eapply grown_trans; eauto.
  - assert (IH' : match USEitraversals children tbl ts with
                 | NoFuel => True | Val (t', _) => grown 0 tbl t' | _ => False end).
    { apply IH; auto. intros e' id He Hi. apply (F e' id (or_intror He) Hi). }
    destruct (USEitraversals children tbl ts) as [[t2 ls]| | | |]; cbn; auto.
Qed.

Lemma find_set_start : forall sets id, declares sets id ->
  exists j, find_set (start_table sets) id = Some j.
Proof.
  intros sets id (n & In_ & E). induction sets as [|m sets IH]; [easy|]. change (start_table (m :: sets)) with (mk_entry (ns_name m) (slot_of (ns_expr m)) :: start_table sets). cbn [find_set e_name].
  destruct (strcmp_eq (ID_LWR (ns_name m)) (ID_LWR id)) eqn:Q; [exists 0; reflexivity|].
  destruct In_ as [->|In_].
  - exfalso. apply strcmp_eq_iff in E. congruence.
  - destruct (IH In_) as (j & ->). cbn. eauto.
Qed.

Lemma find_set_not_first : forall e tbl id,
  ID_LWR (e_name e) <> ID_LWR id -> find_set (e :: tbl) id = option_map S (find_set tbl id).
Proof.
  intros e tbl id H. cbn. destruct (strcmp_eq (ID_LWR (e_name e)) (ID_LWR id)) eqn:Q; auto.
  apply strcmp_eq_iff in Q. contradiction.
Qed.

Lemma start_refs_later : forall sets, names_unique sets -> declared_before_use sets ->
  refs_later (start_table sets).
Proof.
  induction sets as [|n sets IH]; intros U D i e id G I.
  - destruct i; easy.
  - destruct D as [D1 D2]. unfold names_unique in U. cbn in U. inversion U as [|? ? U1 U2]; subst.
    assert (Q : forall id, declares sets id -> exists j,
       find_set (start_table (n :: sets)) id = Some (S j) /\ find_set (start_table sets) id = Some j).
    { intros id' H. destruct (find_set_start _ _ H) as (j & Fj).
      exists j. split; auto. change (start_table (n :: sets)) with
        (mk_entry (ns_name n) (slot_of (ns_expr n)) :: start_table sets).
      rewrite find_set_not_first; [now rewrite Fj|]. cbn. intros C. apply U1. rewrite C.
      destruct H as (m & Hm & <-). apply (in_map (fun n => ID_LWR (ns_name n))); auto. }
    destruct i as [|i].
    + assert (Ee : e = ns_expr n) by (cbn in G; destruct (ns_expr n); cbn in G; congruence).
      subst e. destruct (Q id (D1 id I)) as (j & Fj & _). exists (S j). split; auto. lia.
    + destruct (IH U2 D2 i e id G I) as (j & Fj & Lj).
      assert (H : declares sets id).
      { destruct (find_set_spec _ _ _ Fj) as (en & En & Enm). apply nth_error_In in En.
        apply in_map_iff in En. destruct En as (m & <- & Hm). exists m. auto. }
      destruct (Q id H) as (j' & F1 & F2). rewrite Fj in F2. injection F2 as <-.
      exists (S j). split; auto. lia.
Qed.

Lemma start_none_working : forall sets, none_working (start_table sets) 0.
Proof.
  intros sets j s _ G. unfold get_slot in G.
  destruct (nth_error (start_table sets) j) as [e|] eqn:E; [|easy]. cbn in G. injection G as G.
  apply nth_error_In, in_map_iff in E. destruct E as (n & <- & _). cbn in G. subst s.
  destruct (ns_expr n); easy.
Qed.

Lemma all_done_final : forall tbl, all_done tbl 0 -> exists ls, map_val final_literal tbl = Val ls.
Proof.
  induction tbl as [|e tbl IH]; intros D; cbn; [eauto|].
  destruct (D 0 (e_slot e) (le_n _) eq_refl) as (l & E). unfold final_literal at 1. rewrite E. cbn.
  destruct IH as (ls & ->); cbn; [|eauto].
  intros j s _ G. apply (D (S j)); [lia|exact G].
Qed.

Theorem unwrap_defined : forall a,
  names_unique (a_nodesets a) -> declared_before_use (a_nodesets a) -> traversals_resolve a ->
  exists ts ls, unwrap a = Val (ts, ls).
Proof.
  intros a U D T. pose proof (unwrap_enough_fuel a) as NF. unfold unwrap in *.
  set (children := USEinodeset _) in *.
  assert (C : forall tbl i, none_working tbl i -> refs_later tbl -> fine tbl i (children tbl i)).
  { intros tbl i. apply USEinodeset_fine. }
  assert (W := start_none_working (a_nodesets a)). assert (R := start_refs_later _ U D).
  assert (E := USEitraversals_fine children C (map tv_nodes (a_traversals a)) _ W R).
  assert (E' : match USEitraversals children (start_table (a_nodesets a)) (map tv_nodes (a_traversals a)) with
     | NoFuel => True | Val (t', _) => grown 0 (start_table (a_nodesets a)) t' | _ => False end).
  { apply E. intros e id He Hi. apply in_map_iff in He. destruct He as (t & Ht & HI).
    apply find_set_start. eapply T; eauto. }
  clear E.
  destruct (USEitraversals children (start_table (a_nodesets a)) (map tv_nodes (a_traversals a)))
    as [[t1 ls1]| | | |]; try easy. cbn [bind fst snd] in *.
  specialize (C t1 0 (grown_none_working _ _ _ _ E' W) (grown_refs_later _ _ _ E' R)).
  destruct (children t1 0) as [t2| | | |]; try easy. cbn [bind fst snd fine] in *.
  destruct (all_done_final t2 (proj2 C)) as (ls & ->). cbn. eauto.
Qed.
