(** Proofs: how deep phases are nested, and that the phase on lifetimes ends. *)

From Coq Require Import List Ascii NArith Bool Lia Arith Relations.
From Verif Require Import Base.Outcome Palm.StrModel Front.Syntax Front.SymbolTableModel Front.SymbolTableSpec
  Front.CheckExistanceSpec Front.LifetimesModel Front.LifetimesSpec Front.LifetimesProof Gen.PhasesSpec.
Import ListNotations.
Local Open Scope outcome_scope.

Section Nesting.
  Variable a : ast.
  Hypothesis declared : forall p id, In p (a_phases a) -> In id (ph_actions p) -> is_declared a id.

  Lemma phase_declared : forall id p, names a id (DPhase p) -> In p (a_phases a).
  Proof.
    intros id p [K _]. unfold declarations in K. rewrite !in_app_iff, !in_map_iff in K.
    destruct K as [K|K]; [destruct K as (p0 & K1 & K2); injection K1 as <-; exact K2|].
    repeat (destruct K as [K|K]; [destruct K as (p0 & K1 & K2); discriminate|]).
    destruct K as (p0 & K1 & K2); discriminate.
  Qed.
  Lemma has_action_phase : forall p q, has_action a p q -> In q (a_phases a).
  Proof. intros p q (id & _ & N). exact (phase_declared id q N). Qed.

  Definition sound (p : iphase) : Prop :=
    forall q, clos_refl_trans_1n _ (has_action a) p q -> ~ recursive_phase a q.

  Lemma trans_step : forall p q r, clos_trans_1n _ (has_action a) p q -> has_action a q r -> clos_trans_1n _ (has_action a) p r.
  Proof. intros p q r H K. induction H; [eapply Relation_Operators.t1n_trans; [eassumption|apply t1n_step, K]|eapply Relation_Operators.t1n_trans; eauto]. Qed.

  (** The tree of a phase that leads to no recursive one. *)
  Lemma tree_exists : forall n seen p, NoDup seen -> incl seen (a_phases a) ->
    (forall q, In q seen -> clos_trans_1n _ (has_action a) q p) -> In p (a_phases a) -> sound p ->
    length (a_phases a) <= length seen + n ->
    exists l, Forall2 (unfolds a) (ph_actions p) l /\ depths l <= n.
  Proof.
    induction n as [|n IH]; intros seen p Nd Inc Seen Ip Sp Len.
    - exfalso. assert (Np : ~ In p seen).
      { intros I. apply (Sp p (rt1n_refl _ _ p)). exact (Seen p I). }
      assert (L : length (p :: seen) <= length (a_phases a)).
      { apply NoDup_incl_length; [constructor; assumption|]. intros q [<-|I]; auto. }
      cbn [length] in L. lia.
    - assert (Np : ~ In p seen).
      { intros I. apply (Sp p (rt1n_refl _ _ p)). exact (Seen p I). }
      assert (Each : forall id, In id (ph_actions p) -> exists q, unfolds a id q /\ depth q <= S n).
      { intros id I. destruct (declared p id Ip I) as (d & Nm).
        destruct (decl_phase d) as [(q & ->)|No].
        - assert (H : has_action a p q) by (exists id; auto).
          destruct (IH (p :: seen) q) as (l & F & D).
          + constructor; assumption.
          + intros r [<-|J]; auto.
          + intros r [<-|J]; [apply t1n_step, H|]. eapply trans_step; [apply Seen, J|exact H].
          + exact (has_action_phase p q H).
          + intros r R. apply Sp. eapply Relation_Operators.rt1n_trans; eassumption.
          + cbn [length]. lia.
          + exists (Plan (DPhase q) l). split; [apply UPhase; assumption|]. rewrite depth_eq. lia.
        - exists (Plan d []). split; [apply UOther; assumption|]. rewrite depth_eq. cbn. lia. }
      clear - Each. revert Each. induction (ph_actions p) as [|id ids IHi]; intros Each.
      + exists []. split; [constructor|]. cbn. lia.
      + destruct (Each id (or_introl eq_refl)) as (q & U & D).
        destruct IHi as (l & F & Dl); [intros i I; apply Each; now right|].
        exists (q :: l). split; [constructor; assumption|]. cbn [depths]. lia.
  Qed.

  Lemma tree_of_phase : forall p, In p (a_phases a) -> sound p ->
    exists l, Forall2 (unfolds a) (ph_actions p) l /\ depths l <= length (a_phases a).
  Proof.
    intros p Ip Sp. apply (tree_exists (length (a_phases a)) [] p); auto; try easy; try constructor.
  Qed.

  Variable ste : list (ident * decl).
  Hypothesis lookup : forall id d, STlookup ste id = Some d <-> names a id d.

  (** *** Phases that end *)
  Lemma AITA_phases_val : forall fuel l s, length (a_phases a) < fuel -> (forall p, In p l -> In p (a_phases a) /\ sound p) ->
    exists s', AITAphases ste fuel l s = Val s'.
  Proof.
    intros fuel l s Hf. revert s. induction l as [|p l IH]; intros [t n] H; cbn [AITAphases]; [eauto|].
    destruct (H p (or_introl eq_refl)) as [Ip Sp]. destruct (tree_of_phase p Ip Sp) as (q & F & D).
    assert (E := AITA_phase a ste lookup fuel p q t n F ltac:(lia)). unfold id_table in *. rewrite E. cbn [bind].
    apply IH. intros r R. apply H. now right.
  Qed.

  (** *** Phases that do not *)
  Definition stuck (p : iphase) : Prop := exists q, clos_refl_trans_1n _ (has_action a) p q /\ recursive_phase a q.

  Lemma stuck_next : forall p, stuck p -> exists q, has_action a p q /\ stuck q.
  Proof.
    intros p (q & R & C). destruct R as [|p' q H R].
    - inversion C as [y H|y z H K]; subst.
      + exists p. split; [exact H|]. exists p. split; [apply rt1n_refl|exact C].
      + exists y. split; [exact H|]. exists p. split; [apply clos_rt_rt1n, clos_rt1n_rt|exact C].
        clear - K. induction K; [eapply Relation_Operators.rt1n_trans; [eassumption|apply rt1n_refl]|eapply Relation_Operators.rt1n_trans; eassumption].
    - exists p'. split; [exact H|]. exists q. auto.
  Qed.

  Lemma AITA_list_two : forall walk p ids k s, (forall id, In id ids -> is_declared a id) ->
    (forall q s, In q (a_phases a) -> (exists s', walk q s = Val s') \/ walk q s = NoFuel) ->
    (exists s', AITAiactions ste walk p k ids s = Val s') \/ AITAiactions ste walk p k ids s = NoFuel.
  Proof.
    intros walk p ids. induction ids as [|id ids IH]; intros k s Hd W; cbn [AITAiactions]; [eauto|].
    destruct (Hd id (or_introl eq_refl)) as (d & Nm). assert (L := proj2 (lookup id d) Nm). rewrite L.
    assert (Hd' : forall i, In i ids -> is_declared a i) by (intros i I; apply Hd; now right).
    destruct d as [q| | | | |]; try (apply IH; assumption).
    destruct (W q ((key_of p k, snd s) :: fst s, (snd s + 1)%N) (phase_declared id q Nm)) as [(s' & E)|E]; rewrite E; cbn [bind];
      [apply IH; assumption|now right].
  Qed.
  Lemma AITA_two : forall fuel p s, In p (a_phases a) ->
    (exists s', AITAphase ste fuel p s = Val s') \/ AITAphase ste fuel p s = NoFuel.
  Proof.
    induction fuel as [|fuel IH]; intros p s Ip; cbn [AITAphase]; [now right|].
    apply AITA_list_two; [intros id I; exact (declared p id Ip I)|exact IH].
  Qed.

  Lemma AITA_list_stuck : forall walk p q id, names a id (DPhase q) -> (forall s, walk q s = NoFuel) ->
    (forall q s, In q (a_phases a) -> (exists s', walk q s = Val s') \/ walk q s = NoFuel) ->
    forall ids k s, (forall id, In id ids -> is_declared a id) -> In id ids -> AITAiactions ste walk p k ids s = NoFuel.
  Proof.
    intros walk p q id Nm St W ids. induction ids as [|i ids IH]; intros k s Hd I; [destruct I|].
    cbn [AITAiactions]. destruct (Hd i (or_introl eq_refl)) as (d & Ni). rewrite (proj2 (lookup i d) Ni).
    assert (Hd' : forall i, In i ids -> is_declared a i) by (intros j J; apply Hd; now right).
    destruct I as [->|I].
    - assert (d = DPhase q) as ->.
      { apply lookup in Ni. apply lookup in Nm. congruence. }
      rewrite St. reflexivity.
    - destruct d as [r| | | | |]; try (apply IH; assumption).
      destruct (W r ((key_of p k, snd s) :: fst s, (snd s + 1)%N) (phase_declared i r Ni)) as [(s' & E)|E]; rewrite E; cbn [bind];
        [apply IH; assumption|reflexivity].
  Qed.
  Lemma AITA_stuck : forall fuel p s, In p (a_phases a) -> stuck p -> AITAphase ste fuel p s = NoFuel.
  Proof.
    induction fuel as [|fuel IH]; intros p s Ip Sp; cbn [AITAphase]; [reflexivity|].
    destruct (stuck_next p Sp) as (q & H & Sq). assert (Iq := has_action_phase p q H). destruct H as (id & I & Nm).
    apply (AITA_list_stuck (AITAphase ste fuel) p q id Nm); auto.
    - apply AITA_two.
    - intros i J. exact (declared p i Ip J).
  Qed.
  Lemma AITA_phases_stuck : forall fuel l s, (forall p, In p l -> In p (a_phases a)) -> (exists p, In p l /\ stuck p) ->
    AITAphases ste fuel l s = NoFuel.
  Proof.
    intros fuel l. induction l as [|p l IH]; intros s H (q & I & St); [destruct I|]. cbn [AITAphases].
    destruct I as [<-|I].
    - rewrite AITA_stuck; auto. apply H. now left.
    - destruct (AITA_two fuel p s (H p (or_introl eq_refl))) as [(s' & E)|E]; rewrite E; cbn [bind]; [|reflexivity].
      apply IH; [intros r R; apply H; now right|eauto].
  Qed.

  (** *** The start phase *)
  Lemma from_start_split : forall l p, In p (from_start l) <->
    exists pre st post, l = pre ++ st :: post /\ ph_is_start st = true /\ (forall q, In q pre -> ph_is_start q = false) /\
      In p (st :: post).
  Proof.
    induction l as [|q l IH]; intros p; cbn [from_start].
    - split; [contradiction|]. intros ([|] & st & post & E & _); discriminate.
    - destruct (ph_is_start q) eqn:S.
      + split.
        * intros I. exists [], q, l. cbn. repeat split; auto. contradiction.
        * intros ([|q' pre] & st & post & E & S' & N & I); injection E as -> ->; [exact I|].
          rewrite (N q' (or_introl eq_refl)) in S. discriminate.
      + rewrite IH. split.
        * intros (pre & st & post & -> & S' & N & I). exists (q :: pre), st, post. cbn [app].
          split; [reflexivity|]. split; [exact S'|]. split; [|exact I]. intros r [<-|R]; auto.
        * intros ([|q' pre] & st & post & E & S' & N & I); injection E as -> ->; [congruence|].
          exists pre, st, post. split; [reflexivity|]. split; [exact S'|]. split; [|exact I]. intros r R. apply N. now right.
  Qed.
  Lemma from_start_up : forall p, In p (from_start (a_phases a)) <-> up_to_start a p.
  Proof. intros p. apply from_start_split. Qed.
  Lemma up_in : forall p, up_to_start a p -> In p (a_phases a).
  Proof. intros p (pre & st & post & -> & _ & _ & I). apply in_or_app. now right. Qed.

  Lemma start_up : forall st, AST_START_PHASE a = Some st -> up_to_start a st /\ ph_is_start st = true.
  Proof.
    unfold AST_START_PHASE. intros st E. split; [|apply find_some in E; apply E].
    apply from_start_up. revert E. clear. induction (a_phases a) as [|q l IH]; cbn [find from_start]; [discriminate|].
    destruct (ph_is_start q); [intros E; injection E as <-; now left|exact IH].
  Qed.

  Lemma AITA_ends : ~ endless a -> forall fuel, length (a_phases a) < fuel ->
    (exists st t, AST_START_PHASE a = Some st /\ AITAast ste fuel a = Val t) \/
    AST_START_PHASE a = None /\ AITAast ste fuel a = Aborted.
  Proof.
    intros Ne fuel Hf. unfold AITAast. destruct (AST_START_PHASE a) as [st|] eqn:E; [left|right; auto].
    destruct (AITA_phases_val fuel (from_start (a_phases a)) ([], 2%N) Hf) as (s' & Es).
    - intros p I. apply from_start_up in I. split; [apply up_in, I|]. intros q R C. apply Ne. exists p, q. auto.
    - exists st, (fst s'). split; [reflexivity|]. rewrite Es. reflexivity.
  Qed.
  Lemma AITA_endless : endless a -> forall fuel, AITAast ste fuel a = NoFuel.
  Proof.
    intros (p & q & Up & R & C) fuel. unfold AITAast.
    assert (I : In p (from_start (a_phases a))) by (apply from_start_up; exact Up).
    assert (S : exists st, AST_START_PHASE a = Some st).
    { unfold AST_START_PHASE. clear - I. revert I. induction (a_phases a) as [|r l IH]; cbn [from_start find]; [contradiction|].
      destruct (ph_is_start r); eauto. }
    destruct S as (st & ->). rewrite AITA_phases_stuck; [reflexivity| |].
    - intros r J. apply from_start_up in J. apply up_in, J.
    - exists p. split; [exact I|]. exists q. auto.
  Qed.

  (** *** Ranges *)
  Hypothesis nonempty : forall p, In p (a_phases a) -> ph_actions p <> [].

  Lemma range_found : forall fuel st l t r, Forall2 (unfolds a) (ph_actions st) l -> depths l < fuel -> lr_target r <> [] ->
    match denotes (lr_target r) (1%N, Plan (DPhase st) l) with
    | None => MITLlifetime_range ste fuel st t r = Exited
    | Some _ => exists x, MITLlifetime_range ste fuel st t r = Val x
    end.
  Proof.
    intros fuel st l t r F D Ne. unfold MITLlifetime_range, MITLid.
    destruct (lr_target r) as [|x path]; [easy|]. clear Ne.
    assert (P := MITL_path a ste lookup path fuel st l 1%N (entl st O (1 + 1) l) F D (incl_refl _) x).
    unfold agrees_out in P. destruct (denotes (x :: path) (1%N, Plan (DPhase st) l)) as [[m q]|].
    - destruct P as ([key d] & E & A). rewrite E. cbn [bind]. destruct A as (_ & _ & _ & _ & _ & id0 & Nm).
      destruct d as [p'| | | | |]; try (eexists; reflexivity).
      assert (Nn := nonempty p' (phase_declared id0 p' Nm)). destruct (ph_actions p'); [easy|eexists; reflexivity].
    - destruct P as [P|P]; rewrite P; reflexivity.
  Qed.
End Nesting.
