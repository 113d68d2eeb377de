(** The members of an evaluated nodeset are written as in some expression
    (C63). *)

From Coq Require Import List Ascii Bool.
From Verif Require Import Base.Outcome Palm.StrModel Front.Syntax Front.SetsModel Front.SetsSpec Gen.DiagramSpec.
Import ListNotations.
Local Open Scope outcome_scope.

Definition within (Q : ident -> Prop) (l : literal) : Prop := forall id, In id (listed l) -> Q id.
Lemma within_insert : forall Q l id, within Q l -> Q id -> within Q (SETIDinsert l id).
Proof.
  intros Q l id W H. induction l as [|r x IHx y IHy]; cbn [SETIDinsert].
  - intros z [<-|[]]. exact H.
  - assert (Wr : Q r) by (apply W; left; reflexivity).
    assert (Wx : within Q x) by (intros z I; apply W; right; apply in_app_iff; auto).
    assert (Wy : within Q y) by (intros z I; apply W; right; apply in_app_iff; auto).
    destruct (strcmp (ID_LWR id) (ID_LWR r)).
    + exact W.
    + intros z [<-|I]; [exact Wr|]. apply in_app_iff in I. destruct I as [I|I]; [apply IHx|apply Wy]; assumption.
    + intros z [<-|I]; [exact Wr|]. apply in_app_iff in I. destruct I as [I|I]; [apply Wx|apply IHy]; assumption.
Qed.
Lemma within_walk : forall Q f, (forall acc r, within Q acc -> Q r -> within Q (f acc r)) ->
  forall l acc, within Q l -> within Q acc -> within Q (SLwalk f l acc).
Proof.
  intros Q f F. induction l as [|r x IHx y IHy]; intros acc W A; cbn [SLwalk]; [exact A|].
  apply IHy; [intros z I; apply W; right; apply in_app_iff; auto|].
  apply IHx; [intros z I; apply W; right; apply in_app_iff; auto|].
  apply F; [exact A|]. apply W. left. reflexivity.
Qed.
Lemma within_op : forall Q o x y, within Q x -> within Q y -> within Q (apply_op o x y).
Proof.
  intros Q o x y X Y. assert (Z : within Q LNull) by intros z [].
  assert (F : forall acc r, within Q acc -> Q r -> within Q (SETIDinsert acc r)) by (intros; apply within_insert; assumption).
  destruct o; cbn [apply_op].
  - apply within_walk; [exact F|exact Y|]. apply within_walk; assumption.
  - apply within_walk; [|exact X|exact Z]. intros acc r A R. destruct (SETIDcontains y r); auto.
  - apply within_walk; [|exact X|exact Z]. intros acc r A R. destruct (negb (SETIDcontains y r)); auto.
Qed.

Section Table.
  Variable Q : ident -> Prop.
  Definition slot_within (s : slot) : Prop :=
    match s with
    | Todo e => forall id, In id (written_in e) -> Q id
    | Working => True
    | Done l => within Q l
    end.
  Definition table_within (tbl : list entry) : Prop := forall e, In e tbl -> slot_within (e_slot e).

  Lemma set_slot_within : forall tbl i s, table_within tbl -> slot_within s -> table_within (set_slot tbl i s).
  Proof.
    induction tbl as [|e tbl IH]; intros i s T H; [exact T|]. destruct i as [|i]; cbn [set_slot].
    - intros z [<-|I]; [exact H|]. apply T. right. exact I.
    - intros z [<-|I]; [apply T; left; reflexivity|]. apply (IH i s); auto. intros w Iw. apply T. right. exact Iw.
  Qed.
  Lemma get_slot_within : forall tbl i s, table_within tbl -> get_slot tbl i = Some s -> slot_within s.
  Proof.
    intros tbl i s T E. unfold get_slot in E. destruct (nth_error tbl i) as [e|] eqn:Ee; [|discriminate].
    injection E as <-. apply T. exact (nth_error_In _ _ Ee).
  Qed.

  Lemma setexpr_within : forall children, (forall tbl i tbl', table_within tbl -> children tbl i = Val tbl' -> table_within tbl') ->
    forall (R : ident -> Prop), (forall id, Q id -> R id) -> forall e tbl tbl' l, table_within tbl -> (forall id, In id (written_in e) -> R id) ->
      USEsetexpr children tbl e = Val (tbl', l) -> table_within tbl' /\ within R l.
  Proof.
    intros children C R QR. induction e as [l0|id|o e1 IH1 e2 IH2]; intros tbl tbl' l T W E; cbn [USEsetexpr] in E.
    - assert (tbl' = tbl) by congruence. assert (l = l0) by congruence. subst. split; [exact T|exact W].
    - unfold USEsetreference in E. destruct (find_set tbl id) as [i|]; [|discriminate].
      destruct (get_slot tbl i) as [[e| |l1]|] eqn:G; try discriminate.
      + destruct (children tbl i) as [t1| | | |] eqn:K; try discriminate. cbn [bind] in E.
        assert (T1 := C _ _ _ T K). destruct (get_slot t1 i) as [[e'| |l1]|] eqn:G1; try discriminate.
        assert (tbl' = t1) by congruence. assert (l = l1) by congruence. subst. split; [exact T1|].
        intros z I. apply QR. exact (get_slot_within _ _ _ T1 G1 z I).
      + assert (tbl' = tbl) by congruence. assert (l = l1) by congruence. subst. split; [exact T|].
        intros z I. apply QR. exact (get_slot_within _ _ _ T G z I).
    - destruct (USEsetexpr children tbl e1) as [[t1 l1]| | | |] eqn:E1; try discriminate. cbn [bind fst snd] in E.
      destruct (USEsetexpr children t1 e2) as [[t2 l2]| | | |] eqn:E2; try discriminate. cbn [bind fst snd] in E.
      destruct (IH1 tbl t1 l1 T) as [T1 W1]; [intros z I; apply W; cbn [written_in]; apply in_app_iff; auto|exact E1|].
      destruct (IH2 t1 t2 l2 T1) as [T2 W2]; [intros z I; apply W; cbn [written_in]; apply in_app_iff; auto|exact E2|].
      assert (tbl' = t2) by congruence. assert (l = apply_op o l1 l2) by congruence. subst. split; [exact T2|]. now apply within_op.
  Qed.

  Lemma inodeset_within : forall fuel tbl i tbl', table_within tbl -> USEinodeset fuel tbl i = Val tbl' -> table_within tbl'.
  Proof.
    induction fuel as [|fuel IH]; intros tbl i tbl' T E; cbn [USEinodeset] in E; [discriminate|].
    destruct (get_slot tbl i) as [[e| |l]|] eqn:G; try discriminate.
    - destruct (USEsetexpr (USEinodeset fuel) (set_slot tbl i Working) e) as [[t1 l1]| | | |] eqn:E1; try discriminate. cbn [bind fst snd] in E.
      destruct (setexpr_within (USEinodeset fuel) IH Q (fun _ H => H) e (set_slot tbl i Working) t1 l1) as [T1 W1].
      + apply set_slot_within; [exact T|exact I].
      + exact (get_slot_within _ _ _ T G).
      + exact E1.
      + refine (IH _ _ _ _ E). apply set_slot_within; assumption.
    - exact (IH _ _ _ T E).
    - assert (tbl' = tbl) by congruence. subst. exact T.
  Qed.

  Lemma itraversals_within : forall children, (forall tbl i tbl', table_within tbl -> children tbl i = Val tbl' -> table_within tbl') ->
    forall ts tbl r, table_within tbl -> USEitraversals children tbl ts = Val r -> table_within (fst r).
  Proof.
    intros children C. induction ts as [|[e|] ts IH]; intros tbl r T E; cbn [USEitraversals] in E.
    - assert (r = (tbl, [])) by congruence. subst. exact T.
    - destruct (USEsetexpr children tbl e) as [[t1 l1]| | | |] eqn:E1; try discriminate. cbn [bind fst snd] in E.
      destruct (setexpr_within children C (fun _ => True) (fun _ _ => I) e tbl t1 l1 T (fun _ _ => I) E1) as [T1 _].
      destruct (USEitraversals children t1 ts) as [r'| | | |] eqn:E2; try discriminate. cbn [bind fst snd] in E.
      assert (X := IH _ _ T1 E2). assert (r = (fst r', Some l1 :: snd r')) by congruence. subst. exact X.
    - destruct (USEitraversals children tbl ts) as [r'| | | |] eqn:E2; try discriminate. cbn [bind fst snd] in E.
      assert (X := IH _ _ T E2). assert (r = (fst r', None :: snd r')) by congruence. subst. exact X.
  Qed.

  Lemma finals_within : forall tbl ls, table_within tbl -> map_val final_literal tbl = Val ls -> forall l, In l ls -> within Q l.
  Proof.
    induction tbl as [|e tbl IH]; intros ls T E; cbn [map_val] in E.
    - assert (ls = []) by congruence. subst. intros l [].
    - unfold final_literal in E at 1. destruct (e_slot e) as [e0| |l0] eqn:Es; try discriminate. cbn [bind] in E.
      destruct (map_val final_literal tbl) as [r| | | |] eqn:Er; try discriminate. cbn [bind] in E.
      assert (ls = l0 :: r) by congruence. subst. intros l [<-|I].
      + assert (X := T e (or_introl eq_refl)). rewrite Es in X. exact X.
      + refine (IH r _ eq_refl l I). intros w Iw. apply T. right. exact Iw.
  Qed.
End Table.

Theorem unwrap_written : forall a ts lits, unwrap a = Val (ts, lits) -> forall lit id, In lit lits -> In id (listed lit) ->
  exists m, In m (a_nodesets a) /\ In id (written_in (ns_expr m)).
Proof.
  intros a ts lits E lit id Il Ii. unfold unwrap in E.
  set (Q := fun id => exists m, In m (a_nodesets a) /\ In id (written_in (ns_expr m))).
  remember (S (S (length (a_nodesets a)) * S (length (a_nodesets a)))) as fuel.
  destruct (USEitraversals (USEinodeset fuel) (start_table (a_nodesets a)) (map tv_nodes (a_traversals a))) as [r| | | |] eqn:E1; try discriminate.
  cbn [bind] in E. destruct (USEinodeset fuel (fst r) 0) as [tbl| | | |] eqn:E2; try discriminate. cbn [bind] in E.
  destruct (map_val final_literal tbl) as [ls| | | |] eqn:E3; try discriminate. cbn [bind] in E.
  assert (ls = lits) by congruence. subst ls.
  refine (finals_within Q tbl lits _ E3 lit Il id Ii).
  refine (inodeset_within Q fuel _ _ _ _ E2). refine (itraversals_within Q _ (inodeset_within Q fuel) _ _ _ _ E1).
  intros e Ie. unfold start_table in Ie. apply in_map_iff in Ie. destruct Ie as (m & <- & Im). cbn [e_slot].
  unfold slot_of. destruct (ns_expr m) as [l|i|o e1 e2] eqn:En; cbn [slot_within].
  - intros z Iz. exists m. rewrite En. auto.
  - intros z [].
  - intros z Iz. exists m. rewrite En. auto.
Qed.
