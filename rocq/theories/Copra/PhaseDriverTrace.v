(** Properties of the sequence of user calls of a run, for every tree. *)

From Coq Require Import List NArith Bool Ascii Lia.
From Verif Require Import Base.Outcome Palm.StrModel
  Copra.PhaseDriverModel Copra.PhaseDriverSpec Copra.PhaseDriverProof.
Import ListNotations.
Local Open Scope N_scope.

Lemma split_app {A} (new2 new1 n : list A) e o : new2 ++ new1 = n ++ e :: o ->
  (exists o', new2 = n ++ e :: o') \/ (exists n', new1 = n' ++ e :: o /\ n = new2 ++ n').
Proof.
  revert n. induction new2 as [|x l IH]; intros n H.
  - right. exists n. split; [exact H|reflexivity].
  - destruct n as [|y n].
    + cbn in H. injection H as -> _. left. exists l. reflexivity.
    + cbn in H. injection H as -> H. destruct (IH n H) as [(o' & ->)|(n' & -> & ->)].
      * left. exists o'. reflexivity.
      * right. exists n'. split; reflexivity.
Qed.

Section Trace.
  Context {L G W T : Type}.
  Variable leaf_fun : L -> N -> W -> T -> option (W * T * list signal).
  Variable gate_fun : G -> N -> W -> option (bool * W * list signal).
  Variable check_fun : N -> T -> N.

  Notation state := (state L G W T).
  Notation result := (result L G W T).
  Notation event := (event L G W T).
  Notation action := (action L G).
  Notation dispatch := (dispatch leaf_fun gate_fun check_fun).
  Notation run_seq := (run_seq leaf_fun gate_fun check_fun).
  Implicit Types s : state.

  (** The user function called in event [e] made the call [x]. *)
  Definition made (x : signal) (e : event) : Prop :=
    match e with
    | EvRun i l w t => exists w' t' xs, leaf_fun l i w t = Some (w', t', xs) /\ In x xs
    | EvGate _ _ _ => False
    end.

  Definition not_cont (r : result) : Prop := match r with Cont _ => False | Halt _ _ => True end.

  (** *** Phase errors *)

  (** [e] is a call of a pass or traversal that stands directly in [acts];
      the first action of [acts] is number [k] + 1. *)
  Definition direct (acts : list action) (k : N) (e : event) : Prop :=
    exists pre n l post, acts = pre ++ ALeaf n l :: post /\
      ev_id e = k + 1 + N.of_nat (length (flat_map preorder pre)).

  (** [e] is a call of a pass or traversal directly in the phase number [j]
      somewhere in [acts], and everything in [newer] happened in that phase. *)
  Definition nested (acts : list action) (k : N) (newer : list event) (e : event) : Prop :=
    exists j n g c acts', k < j /\
      nth_error (flat_map preorder acts) (N.to_nat (j - k - 1)) = Some (APhase n g c acts') /\
      direct acts' j e /\
      Forall (fun e' => j < ev_id e' < j + size (APhase n g c acts')) newer.

  Definition perr_ok (acts : list action) (k : N) s (r : result) : Prop :=
    exists new, log (end_state r) = new ++ log s /\
      forall newer e older, new = newer ++ e :: older -> made SErrorPhase e ->
        (direct acts k e /\ forall s', r = Cont s' -> phase_error (drv s') = true) \/
        (nested acts k newer e /\ not_cont r).

  Definition keeps_perror (f : state -> result) : Prop :=
    forall s s', f s = Cont s' -> phase_error (drv s) = true -> phase_error (drv s') = true.

  Lemma apply_signals_perror xs : forall s,
    phase_error (drv (apply_signals s xs)) = true <->
    phase_error (drv s) = true \/ In SErrorPhase xs.
  Proof.
    induction xs as [|x xs IH]; intros s; [cbn; tauto|].
    cbn [apply_signals fold_left In]. change (fold_left apply_signal xs (apply_signal s x))
      with (apply_signals (apply_signal s x) xs).
    rewrite IH. destruct x; cbn; intuition congruence.
  Qed.

  Lemma apply_signals_aerror xs : forall s,
    action_error (drv (apply_signals s xs)) = true <->
    action_error (drv s) = true \/ In SErrorAction xs.
  Proof.
    induction xs as [|x xs IH]; intros s; [cbn; tauto|].
    cbn [apply_signals fold_left In]. change (fold_left apply_signal xs (apply_signal s x))
      with (apply_signals (apply_signal s x) xs).
    rewrite IH. destruct x; cbn; intuition congruence.
  Qed.

  Lemma run_check_drv s s' : run_check check_fun s = Cont s' -> drv s' = drv s /\ log s' = log s.
  Proof.
    intros H. destruct (run_check_cases check_fun s) as [(x & E & D & Lg & _)|(x & E & D & Lg & _)];
      rewrite E in H; [injection H as <-; auto|discriminate].
  Qed.

  Lemma after_action_cont n i s s' : after_action n i s = Cont s' -> s' = s.
  Proof.
    destruct (after_action_cases n i s) as [->|[h ->]]; [intros [= <-]; reflexivity|discriminate].
  Qed.

  Lemma dispatch_keeps_perror fuel a : keeps_perror (dispatch fuel a).
  Proof.
    intros s s' H Hp. destruct a as [n l|n g c acts].
    - rewrite dispatch_leaf in H. cbn zeta in H.
      set (s1 := with_drv _ s) in H. destruct (run_check check_fun s1) as [s2|] eqn:E1; [|discriminate].
      apply run_check_drv in E1. destruct E1 as [D _]. cbn [andthen] in H.
      unfold run_leaf in H.
      destruct (leaf_fun l (action_id (drv s2)) (world s2) (node s2)) as [[[w t] xs]|]; [|discriminate].
      cbn [andthen] in H. apply after_action_cont in H. subst s'.
      apply apply_signals_perror. left. cbn [drv]. rewrite D. exact Hp.
    - rewrite dispatch_phase in H. cbn zeta in H.
      set (s1 := with_drv _ s) in H. destruct (run_check check_fun s1) as [s2|] eqn:E1; [|discriminate].
      apply run_check_drv in E1. destruct E1 as [D _]. cbn [andthen] in H.
      destruct (ask_gate _ _ _ _ _) as [s3|]; [|discriminate]. cbn [andthen] in H.
      apply after_action_cont in H. subst s'. cbn. rewrite D. cbn. rewrite Hp. reflexivity.
  Qed.

  Lemma run_seq_keeps_perror fuel acts : keeps_perror (run_seq fuel acts).
  Proof.
    induction acts as [|a l IH]; intros s s' H Hp; [injection H as <-; exact Hp|].
    change (andthen (dispatch fuel a s) (run_seq fuel l) = Cont s') in H.
    destruct (dispatch fuel a s) as [s1|] eqn:E; [|discriminate].
    cbn [andthen] in H. eapply IH; [exact H|]. eapply dispatch_keeps_perror; eassumption.
  Qed.

  Lemma do_while_keeps_perror c curr body : keeps_perror body -> forall fuel,
    keeps_perror (do_while fuel c curr body).
  Proof.
    intros Hb fuel. induction fuel as [|fuel IH]; intros s s' H Hp; [discriminate|].
    cbn [do_while] in H. set (s1 := with_drv _ s) in H.
    destruct (body s1) as [s2|] eqn:E; [|discriminate]. cbn [andthen] in H. cbn zeta in H.
    assert (Hp2 : phase_error (drv s2) = true) by (eapply Hb; [exact E|exact Hp]).
    destruct (c && _ && _).
    - eapply IH; [exact H|exact Hp2].
    - injection H as <-. exact Hp2.
  Qed.

  Lemma perr_refl acts k s : perr_ok acts k s (Cont s).
  Proof. exists []. split; [reflexivity|]. intros newer e older H. destruct newer; discriminate. Qed.

  Lemma perr_none acts k s r new : log (end_state r) = new ++ log s ->
    (forall e, In e new -> ~ made SErrorPhase e) -> perr_ok acts k s r.
  Proof.
    intros H1 H2. exists new. split; [exact H1|]. intros newer e older -> Hm.
    exfalso. apply (H2 e); [|exact Hm]. apply in_or_app. right. left. reflexivity.
  Qed.

  Lemma perr_trans acts k s r f : keeps_perror f ->
    perr_ok acts k s r -> (forall s', r = Cont s' -> perr_ok acts k s' (f s')) ->
    perr_ok acts k s (andthen r f).
  Proof.
    intros Hk (n1 & H1 & F1) H2. destruct r as [s'|h s']; cbn [andthen].
    2:{ exists n1. split; assumption. }
    destruct (H2 s' eq_refl) as (n2 & E2 & F2). cbn [end_state] in H1.
    exists (n2 ++ n1). split; [rewrite E2, H1; apply app_assoc|].
    intros newer e older E Hm. apply split_app in E. destruct E as [(o' & E)|(n' & E & ->)].
    - eapply F2; eassumption.
    - destruct (F1 n' e older E Hm) as [[D P]|[_ []]].
      left. split; [exact D|]. intros s'' Hs. eapply Hk; [exact Hs|]. apply P. reflexivity.
  Qed.

  Lemma perr_weaken acts k acts' k' s r :
    (forall e, direct acts k e -> direct acts' k' e) ->
    (forall newer e, nested acts k newer e -> nested acts' k' newer e) ->
    perr_ok acts k s r -> perr_ok acts' k' s r.
  Proof.
    intros Hd Hn (n & H & F). exists n. split; [exact H|].
    intros newer e older E Hm. destruct (F newer e older E Hm) as [[D P]|[N P]]; auto.
  Qed.

  Lemma perr_log acts k s s' r : log s = log s' -> perr_ok acts k s r -> perr_ok acts k s' r.
  Proof. intros E (n & H & F). exists n. rewrite <- E. split; assumption. Qed.

  Lemma direct_head a l k e : direct [a] k e -> direct (a :: l) k e.
  Proof.
    intros (pre & n & x & post & H & E). destruct pre as [|b pre].
    - injection H as -> _. exists [], n, x, l. auto.
    - destruct pre; discriminate.
  Qed.

  Lemma direct_tail a l k e : direct l (k + size a) e -> direct (a :: l) k e.
  Proof.
    intros (pre & n & x & post & -> & E). exists (a :: pre), n, x, post.
    split; [reflexivity|]. rewrite size_cons. rewrite E. lia.
  Qed.

  Lemma nested_head a l k newer e : nested [a] k newer e -> nested (a :: l) k newer e.
  Proof.
    intros (j & n & g & c & acts' & H1 & H2 & H3). exists j, n, g, c, acts'.
    split; [exact H1|]. split; [|exact H3]. cbn [flat_map] in *. rewrite app_nil_r in H2.
    rewrite nth_error_app1; [exact H2|]. apply nth_error_Some. congruence.
  Qed.

  Lemma nested_tail a l k newer e : nested l (k + size a) newer e -> nested (a :: l) k newer e.
  Proof.
    intros (j & n & g & c & acts' & H1 & H2 & H3). exists j, n, g, c, acts'.
    split; [lia|]. split; [|exact H3]. cbn [flat_map]. unfold size in *.
    rewrite nth_error_app2 by lia. rewrite <- H2. f_equal. lia.
  Qed.

  Lemma perr_seq fuel acts :
    Forall (fun a => forall s, perr_ok [a] (action_id (drv s)) s (dispatch fuel a s)) acts ->
    forall s, perr_ok acts (action_id (drv s)) s (run_seq fuel acts s).
  Proof.
    induction 1 as [|a l Ha Hl IH]; intros s; [apply perr_refl|].
    change (run_seq fuel (a :: l) s) with (andthen (dispatch fuel a s) (run_seq fuel l)).
    apply perr_trans; [apply run_seq_keeps_perror| |].
    - eapply perr_weaken; [intros e; apply direct_head|intros newer e; apply nested_head|apply Ha].
    - intros s' E. specialize (IH s').
      destruct (counts_dispatch leaf_fun gate_fun check_fun fuel a s) as [_ C].
      rewrite (C s' E) in IH.
      eapply perr_weaken; [intros e; apply direct_tail|intros newer e; apply nested_tail|exact IH].
  Qed.

  Lemma perr_do_while body acts c curr : keeps_perror body ->
    (forall s, perr_ok acts (action_id (drv s)) s (body s)) ->
    forall fuel s, perr_ok acts curr s (do_while fuel c curr body s).
  Proof.
    intros Hk Hb fuel. induction fuel as [|fuel IH]; intros s.
    - apply (perr_none _ _ _ _ []); [reflexivity|intros e []].
    - cbn [do_while]. set (s1 := with_drv _ s).
      apply perr_trans.
      + intros s2 s' H Hp. cbn zeta in H. destruct (c && _ && _).
        * eapply do_while_keeps_perror; [exact Hk|exact H|exact Hp].
        * injection H as <-. exact Hp.
      + apply (perr_log _ _ s1); [reflexivity|]. apply (Hb s1).
      + intros s2 E. cbn zeta. destruct (c && _ && _).
        * apply (perr_log _ _ (with_drv (fun d => set_cycle_iter (cycle_iter d + 1) d) s2));
            [reflexivity|]. apply IH.
        * apply (perr_none _ _ _ _ []); [reflexivity|intros e []].
  Qed.

  (** All events of entering a phase happen inside it. *)
  Definition inside (j : N) (ph : action) (e : event) : Prop := j < ev_id e < j + size ph.

  Lemma ev_at_inside k n g c acts e :
    ev_at k (flat_map preorder acts) e -> inside k (APhase n g c acts) e.
  Proof.
    intros [H1 H2]. unfold inside. rewrite size_phase. split; [exact H1|].
    destruct e as [i l w t|i g' b]; cbn [ev_id] in *.
    - destruct H2 as [m H2].
      assert (Hlt : (N.to_nat (i - k - 1) < length (flat_map preorder acts))%nat)
        by (apply nth_error_Some; congruence). lia.
    - destruct H2 as (m & c' & a' & H2).
      assert (Hlt : (N.to_nat (i - k - 1) < length (flat_map preorder acts))%nat)
        by (apply nth_error_Some; congruence). lia.
  Qed.

  Lemma perr_enter fuel n g c acts s :
    Forall (fun a => forall s, perr_ok [a] (action_id (drv s)) s (dispatch fuel a s)) acts ->
    exists new, log (end_state (enter_phase fuel n c (run_seq fuel acts) s)) = new ++ log s /\
      forall newer e older, new = newer ++ e :: older -> made SErrorPhase e ->
        not_cont (enter_phase fuel n c (run_seq fuel acts) s) /\
        (direct acts (action_id (drv s)) e /\
           Forall (inside (action_id (drv s)) (APhase n g c acts)) newer \/
         nested acts (action_id (drv s)) newer e).
  Proof.
    intros Hacts.
    destruct (counts_enter_phase fuel n c _ _
                (counts_seq leaf_fun gate_fun check_fun fuel acts
                   (proj2 (Forall_forall _ _)
                      (fun a _ => counts_dispatch leaf_fun gate_fun check_fun fuel a))) s)
      as [(new0 & N1 & N2) _].
    exists new0. split; [exact N1|]. revert N1.
    unfold enter_phase.
    destruct (match breakpoint (drv s) with None => Val None
              | Some bp => Checkbreakpoint n bp end) as [nb| | | |];
      try (intros N1; cbn in N1; intros newer e older E Hm; exfalso;
           assert (new0 = []) by (apply (app_inv_tail (log s)); symmetry; exact N1);
           subst new0; destruct newer; discriminate).
    set (s1 := match nb with None => s | Some b => with_drv (set_breakpoint (Some b)) s end).
    assert (E1 : action_id (drv s1) = action_id (drv s)) by (destruct nb; reflexivity).
    assert (E2 : log s1 = log s) by (destruct nb; reflexivity).
    destruct (perr_do_while (run_seq fuel acts) acts c (action_id (drv s1))
                (run_seq_keeps_perror fuel acts) (perr_seq fuel acts Hacts) fuel s1)
      as (new & M1 & M2).
    rewrite E1, E2 in *.
    intros N1 newer e older E Hm.
    assert (Hnew : new = new0).
    { apply (app_inv_tail (log s)). rewrite <- M1, <- N1.
      destruct (do_while fuel c (action_id (drv s)) (run_seq fuel acts) s1) as [s2|];
        [|reflexivity]. cbn [andthen end_state]. destruct (phase_error (drv s2)); [reflexivity|].
      destruct nb; reflexivity. }
    rewrite Hnew in M2.
    destruct (M2 newer e older E Hm) as [[D P]|[Nst P]].
    - split.
      + destruct (do_while fuel c (action_id (drv s)) (run_seq fuel acts) s1) as [s2|]; [|exact I].
        cbn [andthen]. rewrite (P s2 eq_refl). exact I.
      + left. split; [exact D|]. rewrite E in N2. apply Forall_app in N2. destruct N2 as [N2 _].
        eapply Forall_impl; [|exact N2]. intros e'. apply ev_at_inside.
    - split; [|right; exact Nst].
      destruct (do_while fuel c (action_id (drv s)) (run_seq fuel acts) s1) as [s2|]; [contradiction|exact I].
  Qed.

  Lemma perr_dispatch fuel a : forall s, perr_ok [a] (action_id (drv s)) s (dispatch fuel a s).
  Proof.
    induction a as [n l|n g c acts IH] using action_ind'; intros s.
    - rewrite dispatch_leaf. cbn zeta.
      set (s1 := with_drv _ s). set (k := action_id (drv s)).
      destruct (run_check_cases check_fun s1) as [(s2 & -> & D & Lg & _)|(s2 & -> & D & Lg & _)].
      2:{ apply (perr_none _ _ _ _ []); [exact Lg|intros e []]. }
      cbn [andthen].
      exists [EvRun (k + 1) l (world s2) (node s2)]. split.
      { destruct (run_leaf_spec leaf_fun l s2) as (r & -> & E1 & _).
        rewrite D, Lg in E1. change (action_id (drv s1)) with (k + 1) in *.
        destruct r as [s3|]; cbn [andthen]; [|exact E1].
        destruct (after_action_cases n (k + 1) s3) as [->|[h ->]]; exact E1. }
      intros newer e older E Hm. destruct newer as [|? newer]; [|destruct newer; discriminate].
      injection E as <- <-. left. split.
      + exists [], n, l, []. split; [reflexivity|]. cbn. lia.
      + intros s' Hs. cbn [made] in Hm. destruct Hm as (w' & t' & xs & Hl & Hin).
        unfold run_leaf in Hs. rewrite D in Hs. change (action_id (drv s1)) with (k + 1) in Hs.
        rewrite Hl in Hs. cbn [andthen] in Hs. apply after_action_cont in Hs. subst s'.
        apply apply_signals_perror. right. exact Hin.
    - rewrite dispatch_phase. cbn zeta.
      set (s1 := with_drv (fun d => set_action_id (action_id d + 1) d) s).
      set (k := action_id (drv s)).
      destruct (run_check_cases check_fun s1) as [(s2 & -> & D & Lg & _)|(s2 & -> & D & Lg & _)].
      2:{ apply (perr_none _ _ _ _ []); [exact Lg|intros e []]. }
      cbn [andthen].
      set (s2' := with_drv (set_phase_error false) s2).
      assert (K2 : action_id (drv s2') = k + 1) by (cbn; rewrite D; reflexivity).
      assert (L2 : log s2' = log s) by exact Lg.
      match goal with |- context [ask_gate _ _ _ _ ?f] => set (skip := f) end.
      match goal with |- context [andthen (ask_gate _ _ _ _ _) ?f] => set (restore := f) end.
      assert (Hend : forall r : result,
                log (end_state (andthen (andthen r restore) (after_action n (action_id (drv s1))))) =
                log (end_state r)).
      { intros [s3|]; cbn [andthen restore end_state]; [|reflexivity].
        destruct (after_action_cases n (action_id (drv s1)) (with_drv (fun d =>
                   set_phase_error (phase_error (drv s2) || phase_error d) d) s3)) as [->|[h ->]]; reflexivity. }
      assert (Henter : forall s3, action_id (drv s3) = k + 1 ->
        (exists new0, log s3 = new0 ++ log s /\ forall e, In e new0 -> ~ made SErrorPhase e) ->
        perr_ok [APhase n g c acts] k s
          (andthen (andthen (enter_phase fuel n c (run_seq fuel acts) s3) restore)
                   (after_action n (action_id (drv s1))))).
      { intros s3 K3 (new0 & L3 & G3).
        destruct (perr_enter fuel n g c acts s3 IH) as (new & N1 & N2).
        rewrite K3 in N2.
        exists (new ++ new0). split; [rewrite Hend, N1, L3; apply app_assoc|].
        intros newer e older E Hm. apply split_app in E.
        destruct E as [(o' & E)|(n' & E & ->)].
        2:{ exfalso. apply (G3 e); [|exact Hm]. rewrite E. apply in_or_app. right. left. reflexivity. }
        destruct (N2 newer e o' E Hm) as [Hnc Hcase]. right. split.
        2:{ destruct (enter_phase fuel n c (run_seq fuel acts) s3); [contradiction|exact I]. }
        destruct Hcase as [[Hd Hin]|Hn].
        - exists (k + 1), n, g, c, acts. split; [lia|].
          replace (k + 1 - k - 1) with 0 by lia. split; [reflexivity|]. split; [exact Hd|exact Hin].
        - destruct Hn as (j & n' & g' & c' & acts' & H1 & H2 & H3).
          exists j, n', g', c', acts'. split; [lia|]. split; [|exact H3].
          cbn [flat_map preorder]. rewrite app_nil_r.
          replace (N.to_nat (j - k - 1)) with (S (N.to_nat (j - (k + 1) - 1))) by lia.
          exact H2. }
      unfold ask_gate. destruct g as [g|].
      + destruct (gate_fun g _ _) as [[[b w] xs]|] eqn:Eg.
        2:{ apply (perr_none _ _ _ _ []); [exact L2|intros e []]. }
        match goal with |- context [apply_signals ?x xs] => set (s3 := x) end.
        destruct (apply_signals_inert xs s3) as [E1 E2].
        assert (L4 : log (apply_signals s3 xs) = [EvGate (k + 1) g b] ++ log s).
        { rewrite E1. unfold s3. cbn [log]. rewrite K2, L2. reflexivity. }
        assert (K4 : action_id (drv (apply_signals s3 xs)) = k + 1) by (rewrite E2; exact K2).
        assert (G4 : forall e, In e [@EvGate L G W T (k + 1) g b] -> ~ made SErrorPhase e).
        { intros e [<-|[]] []. }
        destruct b.
        * apply Henter; [exact K4|]. exists [EvGate (k + 1) g true]. split; assumption.
        * apply (perr_none _ _ _ _ [EvGate (k + 1) g false]); [|exact G4].
          rewrite Hend. exact L4.
      + apply Henter; [exact K2|]. exists []. split; [exact L2|intros e []].
  Qed.

  (** *** Action errors *)
  Definition aerr_ok s (r : result) : Prop :=
    exists new, log (end_state r) = new ++ log s /\
      forall newer e older, new = newer ++ e :: older -> made SErrorAction e ->
        newer = [] /\ exists s', r = Halt HActionError s'.

  Lemma aerr_none s r new : log (end_state r) = new ++ log s ->
    (forall e, In e new -> ~ made SErrorAction e) -> aerr_ok s r.
  Proof.
    intros H1 H2. exists new. split; [exact H1|]. intros newer e older -> Hm.
    exfalso. apply (H2 e); [|exact Hm]. apply in_or_app. right. left. reflexivity.
  Qed.

  Lemma aerr_refl s : aerr_ok s (Cont s).
  Proof. apply (aerr_none _ _ []); [reflexivity|intros e []]. Qed.

  Lemma aerr_log s s' r : log s = log s' -> aerr_ok s r -> aerr_ok s' r.
  Proof. intros E (n & H & F). exists n. rewrite <- E. split; assumption. Qed.

  Lemma aerr_trans s r f : aerr_ok s r -> (forall s', r = Cont s' -> aerr_ok s' (f s')) ->
    aerr_ok s (andthen r f).
  Proof.
    intros (n1 & H1 & F1) H2. destruct r as [s'|h s']; cbn [andthen].
    2:{ exists n1. split; assumption. }
    destruct (H2 s' eq_refl) as (n2 & E2 & F2). cbn [end_state] in H1.
    exists (n2 ++ n1). split; [rewrite E2, H1; apply app_assoc|].
    intros newer e older E Hm. apply split_app in E. destruct E as [(o' & E)|(n' & E & ->)].
    - eapply F2; eassumption.
    - destruct (F1 n' e older E Hm) as (_ & s'' & [=]).
  Qed.

  Lemma aerr_after n i s : aerr_ok s (after_action n i s).
  Proof.
    destruct (after_action_cases n i s) as [->|[h ->]].
    - apply aerr_refl.
    - apply (aerr_none _ _ []); [reflexivity|intros e []].
  Qed.

  Lemma aerr_dispatch fuel a : forall s, aerr_ok s (dispatch fuel a s).
  Proof.
    induction a as [n l|n g c acts IH] using action_ind'; intros s.
    - rewrite dispatch_leaf. cbn zeta. set (s1 := with_drv _ s).
      destruct (run_check_cases check_fun s1) as [(s2 & -> & D & Lg & _)|(s2 & -> & D & Lg & _)].
      2:{ apply (aerr_none _ _ []); [exact Lg|intros e []]. }
      cbn [andthen].
      exists [EvRun (action_id (drv s1)) l (world s2) (node s2)]. split.
      { destruct (run_leaf_spec leaf_fun l s2) as (r & -> & E1 & _).
        rewrite D, Lg in E1. destruct r as [s3|]; cbn [andthen]; [|exact E1].
        destruct (after_action_cases n (action_id (drv s1)) s3) as [->|[h ->]]; exact E1. }
      intros newer e older E Hm. destruct newer as [|? newer]; [|destruct newer; discriminate].
      injection E as <- <-. split; [reflexivity|].
      cbn [made] in Hm. destruct Hm as (w' & t' & xs & Hl & Hin).
      unfold run_leaf. rewrite D. change (action_id (drv s1)) with (action_id (drv s) + 1).
      rewrite Hl. cbn [andthen]. unfold after_action.
      match goal with |- context [apply_signals ?x xs] =>
        assert (Ha : action_error (drv (apply_signals x xs)) = true)
          by (apply apply_signals_aerror; right; exact Hin) end.
      rewrite Ha. eexists. reflexivity.
    - rewrite dispatch_phase. cbn zeta. set (s1 := with_drv _ s).
      destruct (run_check_cases check_fun s1) as [(s2 & -> & D & Lg & _)|(s2 & -> & D & Lg & _)].
      2:{ apply (aerr_none _ _ []); [exact Lg|intros e []]. }
      cbn [andthen].
      assert (Hseq : forall s, aerr_ok s (run_seq fuel acts s)).
      { clear -IH. induction IH as [|a l Ha Hl IHl]; intros s; [apply aerr_refl|].
        change (run_seq fuel (a :: l) s) with (andthen (dispatch fuel a s) (run_seq fuel l)).
        apply aerr_trans; auto. }
      assert (Hdw : forall m curr s, aerr_ok s (do_while m c curr (run_seq fuel acts) s)).
      { clear -Hseq. induction m as [|m IHm]; intros curr s.
        - apply (aerr_none _ _ []); [reflexivity|intros e []].
        - cbn [do_while]. apply aerr_trans.
          + eapply aerr_log; [|apply Hseq]. reflexivity.
          + intros s' _. cbn zeta. destruct (c && _ && _).
            * eapply aerr_log; [|apply IHm]. reflexivity.
            * apply (aerr_none _ _ []); [reflexivity|intros e []]. }
      assert (Hen : forall s, aerr_ok s (enter_phase fuel n c (run_seq fuel acts) s)).
      { clear -Hdw. intros s. unfold enter_phase.
        destruct (match breakpoint (drv s) with None => Val None
              | Some bp => Checkbreakpoint n bp end) as [nb| | | |];
          try (apply (aerr_none _ _ []); [reflexivity|intros e []]).
        apply aerr_trans.
        - eapply aerr_log; [|apply Hdw]. destruct nb; reflexivity.
        - intros s2 _. destruct (phase_error (drv s2));
            (apply (aerr_none _ _ []); [destruct nb; reflexivity|intros e []]). }
      apply aerr_trans; [|intros s' _; apply aerr_after].
      apply aerr_trans; [|intros s' _; apply (aerr_none _ _ []); [reflexivity|intros e []]].
      apply (aerr_log s2); [exact Lg|].
      unfold ask_gate. destruct g as [g|]; [|apply (aerr_log (with_drv (set_phase_error false) s2)); [reflexivity|apply Hen]].
      destruct (gate_fun g _ _) as [[[b w] xs]|] eqn:Eg.
      2:{ apply (aerr_none _ _ []); [reflexivity|intros e []]. }
      match goal with |- context [apply_signals ?x xs] => set (s3 := x) end.
      destruct (apply_signals_inert xs s3) as [E1 E2].
      assert (Hg : aerr_ok s2 (Cont (apply_signals s3 xs))).
      { apply (aerr_none _ _ [EvGate (action_id (drv s2)) g b]).
        - cbn [end_state]. rewrite E1. reflexivity.
        - intros e [<-|[]] []. }
      destruct b.
      + exact (aerr_trans _ _ _ Hg (fun s' _ => Hen s')).
      + destruct Hg as (new & H1 & H2). exists new. split; [exact H1|].
        intros newer e older E Hm. destruct (H2 newer e older E Hm) as (_ & s' & [=]).
  Qed.

  (** *** Gates *)
  Lemma gate_false fuel n g c acts s w xs :
    gate_fun g (action_id (drv s) + 1) (world s) = Some (false, w, xs) ->
    match dispatch fuel (APhase n (Some g) c acts) s with
    | Halt HCheckFailed s' => log s' = log s /\ node s' = node s
    | Cont s' | Halt _ s' =>
        log s' = EvGate (action_id (drv s) + 1) g false :: log s /\
        node s' = node s /\ world s' = w
    end.
  Proof.
    intros Hg. rewrite dispatch_phase. cbn zeta. set (s1 := with_drv _ s).
    destruct (run_check_cases check_fun s1)
      as [(s2 & -> & D & Lg & Wd & Nd)|(s2 & -> & D & Lg & Wd & Nd)].
    2:{ cbn. split; assumption. }
    cbn [andthen]. unfold ask_gate.
    change (action_id (drv (with_drv (set_phase_error false) s2))) with (action_id (drv s2)).
    change (world (with_drv (set_phase_error false) s2)) with (world s2).
    assert (Hi : action_id (drv s2) = action_id (drv s) + 1) by (rewrite D; reflexivity).
    rewrite Hi, Wd. change (world s1) with (world s). rewrite Hg.
    match goal with |- context [apply_signals ?x xs] => set (s3 := x) end.
    cbn [andthen].
    match goal with |- context [after_action n _ ?x] => set (s6 := x) end.
    assert (X : log s6 = EvGate (action_id (drv s) + 1) g false :: log s /\
                node s6 = node s /\ world s6 = w).
    { unfold s6. cbn [with_drv log node world].
      destruct (apply_signals_inert xs s3) as [E1 _].
      assert (E3 : node (apply_signals s3 xs) = node s3 /\ world (apply_signals s3 xs) = world s3).
      { generalize s3. clear. induction xs as [|x xs IH]; intros z; [split; reflexivity|].
        cbn [apply_signals fold_left]. change (fold_left apply_signal xs (apply_signal z x))
          with (apply_signals (apply_signal z x) xs).
        destruct (IH (apply_signal z x)) as [-> ->]. destruct x; split; reflexivity. }
      destruct E3 as [E3 E4]. rewrite E1, E3, E4. unfold s3. cbn.
      rewrite Lg, Nd. repeat split. }
    destruct (after_action_cases n (action_id (drv s1)) s6) as [->|[h Eh]]; [exact X|].
    rewrite Eh.
    assert (h <> HCheckFailed).
    { unfold after_action in Eh. intros ->. destruct (action_error (drv s6)); [discriminate|].
      destruct (match breakpoint (drv s6) with None => Val false
                | Some bp => STReqci (Some bp) (Some n) end) as [[]| | | |]; try discriminate.
      destruct (_ && _); discriminate. }
    destruct h; try exact X. congruence.
  Qed.

  (** *** Static numbering *)
  Definition show_list : list action -> N -> list (N * cstring) * N :=
    fix go (l : list action) (id : N) : list (N * cstring) * N :=
      match l with
      | [] => ([], id)
      | b :: l' => let (x, i1) := ShowTree b id in
                   let (y, i2) := go l' i1 in (x ++ y, i2)
      end.

  Fixpoint number (id : N) (l : list action) : list (N * cstring) :=
    match l with
    | [] => []
    | a :: l' => (id, action_name a) :: number (id + 1) l'
    end.

  Lemma number_app l : forall id m, number id (l ++ m) = number id l ++ number (id + N.of_nat (length l)) m.
  Proof.
    induction l as [|a l IH]; intros id m.
    - cbn. rewrite N.add_0_r. reflexivity.
    - cbn [number app length]. rewrite IH.
      replace (id + N.of_nat (S (length l))) with (id + 1 + N.of_nat (length l)) by lia. reflexivity.
  Qed.

  Lemma number_nth l : forall id i, nth_error (number id l) i =
    option_map (fun a => (id + N.of_nat i, action_name a)) (nth_error l i).
  Proof.
    induction l as [|a l IH]; intros id [|i]; try reflexivity.
    - cbn. rewrite N.add_0_r. reflexivity.
    - cbn [number nth_error]. rewrite IH. destruct (nth_error l i); [|reflexivity].
      cbn [option_map].
      replace (id + N.of_nat (S i)) with (id + 1 + N.of_nat i) by lia. reflexivity.
  Qed.

  Lemma ShowTree_number (a : action) : forall id, 1 < id ->
    ShowTree a id = (number id (preorder a), id + size a).
  Proof.
    induction a as [n l|n g c acts IH] using action_ind'; intros id Hid.
    - cbn. assert (H : (1 <? id) = true) by (apply N.ltb_lt; exact Hid). rewrite H. reflexivity.
    - rewrite size_phase. cbn [ShowTree preorder number action_name].
      assert (H : (1 <? id) = true) by (apply N.ltb_lt; exact Hid). rewrite H.
      assert (Hl : forall id', 1 < id' -> show_list acts id' =
        (number id' (flat_map preorder acts), id' + N.of_nat (length (flat_map preorder acts)))).
      { induction IH as [|a l Ha Hl IHl]; intros id' H'.
        - cbn. rewrite N.add_0_r. reflexivity.
        - cbn [show_list]. fold show_list. rewrite (Ha id' H').
          rewrite IHl by (pose proof (size_pos a); lia). rewrite size_cons.
          cbn [flat_map]. rewrite number_app. unfold size. f_equal. lia. }
      fold show_list. rewrite Hl by lia. cbn [app]. f_equal. lia.
  Qed.

  Lemma CCNshowTree_number (root : action) : CCNshowTree root = number 2 (tl (preorder root)).
  Proof.
    unfold CCNshowTree. destruct root as [n l|n g c acts]; [reflexivity|].
    cbn [ShowTree]. change (1 <? 1) with false. cbv iota. fold show_list.
    cbn [preorder tl].
    assert (Hl : forall id', 1 < id' -> show_list acts id' =
        (number id' (flat_map preorder acts), id' + N.of_nat (length (flat_map preorder acts)))).
    { induction acts as [|a l IHl]; intros id' H'.
      - cbn. rewrite N.add_0_r. reflexivity.
      - cbn [show_list]. fold show_list. rewrite (ShowTree_number a id' H').
        rewrite IHl by (pose proof (size_pos a); lia). rewrite size_cons.
        cbn [flat_map]. rewrite number_app. unfold size. f_equal. lia. }
    rewrite Hl by lia. reflexivity.
  Qed.
End Trace.
