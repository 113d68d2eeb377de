(** Proofs about the phase driver. *)

From Coq Require Import List NArith Bool Ascii Lia.
From Verif Require Import Base.Outcome Palm.StrModel Palm.StrSpec Palm.StrProof
  Copra.PhaseDriverModel Copra.PhaseDriverSpec.
Import ListNotations.
Local Open Scope N_scope.

Section Ind.
  Context {L G : Type}.
  Variable P : action L G -> Prop.
  Hypothesis Hl : forall n l, P (ALeaf n l).
  Hypothesis Hp : forall n g c acts, Forall P acts -> P (APhase n g c acts).
  Fixpoint action_ind' (a : action L G) : P a :=
    match a with
    | ALeaf n l => Hl n l
    | APhase n g c acts =>
        Hp n g c acts ((fix go l : Forall P l :=
          match l with
          | [] => Forall_nil P
          | b :: l' => Forall_cons b (action_ind' b) (go l')
          end) acts)
    end.
End Ind.

Lemma size_phase {L G} n g c (acts : list (action L G)) :
  size (APhase n g c acts) = 1 + N.of_nat (length (flat_map preorder acts)).
Proof. unfold size. cbn [preorder length]. lia. Qed.

Lemma size_leaf {L G} n (l : L) : size (@ALeaf L G n l) = 1.
Proof. reflexivity. Qed.

Lemma size_cons {L G} (a : action L G) l :
  N.of_nat (length (flat_map preorder (a :: l))) =
  size a + N.of_nat (length (flat_map preorder l)).
Proof. cbn [flat_map]. rewrite app_length. unfold size. lia. Qed.

Lemma size_pos {L G} (a : action L G) : 1 <= size a.
Proof. unfold size. destruct a; cbn [preorder length]; lia. Qed.

Lemma skip_count_size {L G} (a : action L G) : skip_count a + 1 = size a.
Proof.
  induction a as [n l|n g c acts IH] using action_ind'; [reflexivity|].
  rewrite size_phase. cbn [skip_count].
  assert (H : fold_right (fun b n => 1 + skip_count b + n) 0 acts =
              N.of_nat (length (flat_map preorder acts))).
  { induction IH as [|b l Hb Hl IHl]; [reflexivity|].
    rewrite size_cons. cbn [fold_right]. rewrite IHl. lia. }
  rewrite H. lia.
Qed.

Section Proofs.
  Context {L G W T : Type}.
  Variable leaf_fun : L -> N -> W -> T -> option (W * T * list signal).
  Variable gate_fun : G -> N -> W -> option (bool * W * list signal).
  Variable check_fun : N -> T -> N.

  Notation state := (state L G W T).
  Notation result := (result L G W T).
  Notation sstate := (sstate L G W T).
  Notation sresult := (sresult L G W T).
  Notation dispatch := (dispatch leaf_fun gate_fun check_fun).
  Notation action := (action L G).
  Implicit Types s : state.

  Definition run_seq (fuel : nat) : list action -> state -> result :=
    fix body (l : list action) (s : state) : result :=
      match l with
      | [] => Cont s
      | b :: l' => andthen (dispatch fuel b s) (body l')
      end.

  Lemma dispatch_leaf fuel n l s :
    dispatch fuel (ALeaf n l) s =
    let s1 := with_drv (fun d => set_action_id (action_id d + 1) d) s in
    andthen (run_check check_fun s1) (fun s2 =>
      andthen (run_leaf leaf_fun l s2) (after_action n (action_id (drv s1)))).
  Proof. reflexivity. Qed.

  Lemma dispatch_phase fuel n g c acts s :
    dispatch fuel (APhase n g c acts) s =
    let s1 := with_drv (fun d => set_action_id (action_id d + 1) d) s in
    andthen (run_check check_fun s1) (fun s2 =>
      andthen
        (andthen
          (ask_gate gate_fun g (with_drv (set_phase_error false) s2)
            (enter_phase fuel n c (run_seq fuel acts))
            (fun s3 => Cont (with_drv (fun d =>
               set_action_id (action_id d + skip_count (APhase n g c acts)) d) s3)))
          (fun s4 => Cont (with_drv (fun d =>
             set_phase_error (phase_error (drv s2) || phase_error d) d) s4)))
        (after_action n (action_id (drv s1)))).
  Proof. reflexivity. Qed.

  (** *** Numbers seen by user code *)

  Definition ev_id (e : event L G W T) : N :=
    match e with EvRun i _ _ _ => i | EvGate i _ _ => i end.

  (** [e] happened at an action of the list [ps], whose first is number [k]+1. *)
  Definition ev_at (k : N) (ps : list action) (e : event L G W T) : Prop :=
    k < ev_id e /\
    match e with
    | EvRun i l _ _ => exists n, nth_error ps (N.to_nat (i - k - 1)) = Some (ALeaf n l)
    | EvGate i g _ => exists n c acts,
        nth_error ps (N.to_nat (i - k - 1)) = Some (APhase n (Some g) c acts)
    end.

  Lemma ev_at_app_l k ps qs e : ev_at k ps e -> ev_at k (ps ++ qs) e.
  Proof.
    intros [H1 H2]. split; [exact H1|].
    destruct e as [i l w t|i g b].
    - destruct H2 as [n H2]. exists n. rewrite nth_error_app1; [exact H2|].
      apply nth_error_Some. congruence.
    - destruct H2 as (n & c & acts & H2). exists n, c, acts. rewrite nth_error_app1; [exact H2|].
      apply nth_error_Some. congruence.
  Qed.

  Lemma ev_at_app_r k ps qs e :
    ev_at (k + N.of_nat (length ps)) qs e -> ev_at k (ps ++ qs) e.
  Proof.
    intros [H1 H2]. split; [lia|].
    destruct e as [i l w t|i g b]; cbn [ev_id] in H1.
    - destruct H2 as [n H2]. exists n. rewrite nth_error_app2 by lia.
      rewrite <- H2. f_equal. lia.
    - destruct H2 as (n & c & acts & H2). exists n, c, acts. rewrite nth_error_app2 by lia.
      rewrite <- H2. f_equal. lia.
  Qed.

  Lemma ev_at_cons k p qs e : ev_at (k + 1) qs e -> ev_at k (p :: qs) e.
  Proof. intros H. apply (ev_at_app_r k [p] qs). exact H. Qed.

  (** What a computation may do to the log and to the action id. *)
  Definition end_state (r : result) : state := match r with Cont s => s | Halt _ s => s end.

  Definition good (k : N) (ps : list action) (s : state) (r : result) : Prop :=
    exists new, log (end_state r) = new ++ log s /\ Forall (ev_at k ps) new.

  Lemma good_refl k ps s : good k ps s (Cont s).
  Proof. exists []. split; [reflexivity|constructor]. Qed.

  Lemma good_halt k ps s h : good k ps s (Halt h s).
  Proof. exists []. split; [reflexivity|constructor]. Qed.

  Lemma good_trans k ps s r f :
    good k ps s r -> (forall s', r = Cont s' -> good k ps s' (f s')) ->
    good k ps s (andthen r f).
  Proof.
    intros (n1 & H1 & F1) H2. destruct r as [s'|h s']; cbn [andthen end_state] in *.
    - destruct (H2 s' eq_refl) as (n2 & H3 & F2). exists (n2 ++ n1). split.
      + rewrite H3, H1. apply app_assoc.
      + apply Forall_app; split; assumption.
    - exists n1. split; assumption.
  Qed.

  Lemma good_log k ps s s' r : log s = log s' -> good k ps s r -> good k ps s' r.
  Proof. intros E (n & H & F). exists n. rewrite <- E. split; assumption. Qed.

  Lemma good_weaken k ps k' ps' s r :
    (forall e, ev_at k ps e -> ev_at k' ps' e) -> good k ps s r -> good k' ps' s r.
  Proof.
    intros I (n & H & F). exists n. split; [exact H|].
    eapply Forall_impl; [|exact F]. exact I.
  Qed.

  Lemma apply_signal_inert s x :
    log (apply_signal s x) = log s /\
    action_id (drv (apply_signal s x)) = action_id (drv s).
  Proof. destruct x; split; reflexivity. Qed.

  Lemma apply_signals_inert xs : forall s,
    log (apply_signals s xs) = log s /\
    action_id (drv (apply_signals s xs)) = action_id (drv s).
  Proof.
    induction xs as [|x xs IH]; intros s; [split; reflexivity|].
    cbn [apply_signals fold_left].
    destruct (IH (apply_signal s x)) as [E1 E2]. unfold apply_signals in E1, E2.
    rewrite E1, E2. apply apply_signal_inert.
  Qed.

  Lemma run_check_cases s :
    (exists s', run_check check_fun s = Cont s' /\ drv s' = drv s /\ log s' = log s /\
                world s' = world s /\ node s' = node s) \/
    (exists s', run_check check_fun s = Halt HCheckFailed s' /\ drv s' = drv s /\ log s' = log s /\
                world s' = world s /\ node s' = node s).
  Proof.
    unfold run_check. destruct (tree_check (drv s)).
    - destruct (check_fun (action_id (drv s)) (node s) =? 0).
      + left. eexists. repeat split.
      + right. eexists. repeat split.
    - left. eexists. repeat split.
  Qed.

  Lemma after_action_cases n i s :
    after_action n i s = Cont s \/ exists h, after_action n i s = Halt h s.
  Proof.
    unfold after_action. destruct (action_error (drv s)); [eauto|].
    destruct (match breakpoint (drv s) with None => Val false
              | Some bp => STReqci (Some bp) (Some n) end); eauto.
    destruct a; eauto. destruct (_ && _); eauto.
  Qed.

  Lemma run_leaf_spec l s :
    exists r, run_leaf leaf_fun l s = r /\
      log (end_state r) = EvRun (action_id (drv s)) l (world s) (node s) :: log s /\
      (forall s', r = Cont s' -> action_id (drv s') = action_id (drv s)).
  Proof.
    eexists. split; [reflexivity|]. unfold run_leaf.
    destruct (leaf_fun l _ _ _) as [[[w t] xs]|]; cbn [end_state].
    - destruct (apply_signals_inert xs
        (mk_state (drv s) w t (errors s) (EvRun (action_id (drv s)) l (world s) (node s) :: log s)))
        as [E1 E2]. split; [exact E1|]. intros s' [= <-]. exact E2.
    - split; [reflexivity|discriminate].
  Qed.

  (** The invariant, for one action and for a list of actions. *)
  Definition counts (f : state -> result) (ps : list action) : Prop :=
    forall s, good (action_id (drv s)) ps s (f s) /\
      forall s', f s = Cont s' ->
        action_id (drv s') = action_id (drv s) + N.of_nat (length ps).

  Lemma counts_seq fuel acts :
    Forall (fun a => counts (dispatch fuel a) (preorder a)) acts ->
    counts (run_seq fuel acts) (flat_map preorder acts).
  Proof.
    induction 1 as [|a l Ha Hl IH]; intros s.
    - split; [apply good_refl|]. intros s' [= <-]. cbn [flat_map length]. lia.
    - cbn [flat_map]. change (run_seq fuel (a :: l) s) with
        (andthen (dispatch fuel a s) (run_seq fuel l)).
      destruct (Ha s) as [Ga Ca]. split.
      + apply good_trans.
        * eapply good_weaken; [|exact Ga]. intros e. apply ev_at_app_l.
        * intros s' E. destruct (IH s') as [Gl _]. rewrite (Ca s' E) in Gl.
          eapply good_weaken; [|exact Gl]. intros e. apply ev_at_app_r.
      + intros s' E. destruct (dispatch fuel a s) as [s1|h s1] eqn:E1; [|discriminate].
        cbn [andthen] in E. destruct (IH s1) as [_ Cl].
        rewrite (Cl s' E), (Ca s1 eq_refl), app_length. lia.
  Qed.

  Lemma counts_do_while body ps c curr : counts body ps -> forall fuel s,
    good curr ps s (do_while fuel c curr body s) /\
    forall s', do_while fuel c curr body s = Cont s' ->
      action_id (drv s') = curr + N.of_nat (length ps).
  Proof.
    intros Hb fuel. induction fuel as [|fuel IH]; intros s.
    - split; [apply good_halt|discriminate].
    - cbn [do_while].
      set (s1 := with_drv (fun d => set_action_id curr (set_fixed_point true d)) s).
      destruct (Hb s1) as [Gb Cb]. change (action_id (drv s1)) with curr in Gb, Cb. split.
      + apply good_trans; [apply (good_log _ _ s1); [reflexivity|exact Gb]|].
        intros s2 E. cbn zeta.
        destruct (c && _ && _).
        * destruct (IH (with_drv (fun d => set_cycle_iter (cycle_iter d + 1) d) s2)) as [GI _].
          exact GI.
        * exists []. split; [reflexivity|constructor].
      + intros s' E. destruct (body s1) as [s2|h s2]; [|discriminate].
        cbn [andthen] in E. cbn zeta in E.
        destruct (c && _ && _).
        * eapply IH, E.
        * injection E as <-. apply (Cb s2 eq_refl).
  Qed.

  Lemma counts_enter_phase fuel n c body ps : counts body ps ->
    counts (enter_phase fuel n c body) ps.
  Proof.
    intros Hb s. unfold enter_phase.
    destruct (match breakpoint (drv s) with None => Val None
              | Some bp => Checkbreakpoint n bp end) as [nb| | | |];
      try (split; [apply good_halt|discriminate]).
    set (s1 := match nb with None => s | Some b => with_drv (set_breakpoint (Some b)) s end).
    assert (E1 : action_id (drv s1) = action_id (drv s)) by (destruct nb; reflexivity).
    assert (E2 : log s1 = log s) by (destruct nb; reflexivity).
    destruct (counts_do_while body ps c (action_id (drv s1)) Hb fuel s1) as [Gd Cd].
    rewrite E1 in *. split.
    - apply good_trans; [apply (good_log _ _ s1); [exact E2|exact Gd]|].
      intros s2 E. destruct (phase_error (drv s2)); [apply good_halt|].
      exists []. split; [destruct nb; reflexivity|constructor].
    - intros s' E. destruct (do_while fuel c _ body s1) as [s2|h s2]; [|discriminate].
      cbn [andthen] in E. destruct (phase_error (drv s2)); [discriminate|].
      injection E as <-. rewrite <- (Cd s2 eq_refl). destruct nb; reflexivity.
  Qed.

  Lemma counts_dispatch fuel a : counts (dispatch fuel a) (preorder a).
  Proof.
    induction a as [n l|n g c acts IH] using action_ind'; intros s.
    - rewrite dispatch_leaf. cbn zeta.
      set (s1 := with_drv (fun d => set_action_id (action_id d + 1) d) s).
      set (k := action_id (drv s)).
      assert (K : action_id (drv s1) = k + 1) by reflexivity.
      destruct (run_check_cases s1) as [(s2 & -> & D & Lg & _)|(s2 & -> & D & Lg & _)].
      2:{ split; [|discriminate]. exists []. split; [exact Lg|constructor]. }
      cbn [andthen].
      destruct (run_leaf_spec l s2) as (r & -> & E1 & E2).
      assert (Gr : good k [ALeaf n l] s r).
      { exists [EvRun (k + 1) l (world s2) (node s2)]. rewrite E1, D, K, Lg. split; [reflexivity|].
        constructor; [|constructor]. split; [cbn; lia|]. exists n.
        replace (k + 1 - k - 1) with 0 by lia. reflexivity. }
      cbn [preorder]. split.
      + apply good_trans; [exact Gr|]. intros s' E.
        destruct (after_action_cases n (action_id (drv s1)) s') as [->|[h ->]].
        * apply good_refl.
        * apply good_halt.
      + intros s' E. destruct r as [s3|]; [|discriminate]. cbn [andthen] in E.
        destruct (after_action_cases n (action_id (drv s1)) s3) as [H|[h H]];
          rewrite H in E; [|discriminate]. injection E as <-.
        rewrite (E2 s3 eq_refl), D, K. cbn [length]. lia.
    - rewrite dispatch_phase. cbn zeta.
      pose proof (counts_enter_phase fuel n c _ _ (counts_seq fuel acts IH)) as Hen.
      set (s1 := with_drv (fun d => set_action_id (action_id d + 1) d) s).
      set (k := action_id (drv s)).
      assert (K : action_id (drv s1) = k + 1) by reflexivity.
      destruct (run_check_cases s1) as [(s2 & -> & D & Lg & _)|(s2 & -> & D & Lg & _)].
      2:{ split; [|discriminate]. exists []. split; [exact Lg|constructor]. }
      cbn [andthen].
      set (a := APhase n g c acts).
      set (s2' := with_drv (set_phase_error false) s2).
      assert (K2 : action_id (drv s2') = k + 1) by (change (action_id (drv s2) = k + 1); rewrite D; exact K).
      assert (L2 : log s2' = log s) by exact Lg.
      match goal with |- context [ask_gate _ _ _ _ ?f] => set (skip := f) end.
      assert (Hsub : forall e, ev_at (k + 1) (flat_map preorder acts) e -> ev_at k (preorder a) e).
      { intros e He. apply (ev_at_cons k a). exact He. }
      assert (Hgate : good k (preorder a) s (ask_gate gate_fun g s2'
                         (enter_phase fuel n c (run_seq fuel acts)) skip) /\
               forall s', ask_gate gate_fun g s2' (enter_phase fuel n c (run_seq fuel acts)) skip
                          = Cont s' ->
                 action_id (drv s') = k + N.of_nat (length (preorder a))).
      { assert (Hlen : N.of_nat (length (preorder a)) = 1 + N.of_nat (length (flat_map preorder acts)))
          by (cbn [preorder a length]; lia).
        unfold ask_gate. destruct g as [g|].
        - destruct (gate_fun g _ _) as [[[b w] xs]|] eqn:Eg.
          2:{ split; [|discriminate]. apply (good_log _ _ s2'); [exact L2|apply good_halt]. }
          match goal with |- context [apply_signals ?x xs] => set (s3 := x) end.
          destruct (apply_signals_inert xs s3) as [E1 E2].
          set (s4 := apply_signals s3 xs) in *.
          assert (K4 : action_id (drv s4) = k + 1) by (rewrite E2; exact K2).
          assert (G4 : forall r, good k (preorder a) s4 r -> good k (preorder a) s r).
          { intros r (new & Hn & Fn).
            exists (new ++ [EvGate (k + 1) g b]). split.
            - rewrite Hn, E1. unfold s3. cbn [log]. rewrite K2, L2, <- app_assoc. reflexivity.
            - apply Forall_app. split; [exact Fn|]. constructor; [|constructor].
              split; [cbn; lia|]. exists n, c, acts.
              replace (k + 1 - k - 1) with 0 by lia. reflexivity. }
          destruct b.
          + destruct (Hen s4) as [G1 C1]. rewrite K4 in *. split.
            * apply G4. eapply good_weaken; [exact Hsub|exact G1].
            * intros s' E. rewrite (C1 s' E). lia.
          + split.
            * apply G4. unfold skip. exists []. split; [reflexivity|constructor].
            * intros s' [= <-].
              change (action_id (drv s4) + skip_count a = k + N.of_nat (length (preorder a))).
              pose proof (skip_count_size a) as Hs. unfold size in Hs. rewrite K4. lia.
        - destruct (Hen s2') as [G1 C1]. rewrite K2 in *. split.
          + apply (good_log _ _ s2'); [exact L2|]. eapply good_weaken; [exact Hsub|exact G1].
          + intros s' E. rewrite (C1 s' E). lia. }
      destruct Hgate as [Gg Cg].
      destruct (ask_gate gate_fun g s2' (enter_phase fuel n c (run_seq fuel acts)) skip)
        as [s5|h s5]; cbn [andthen].
      2:{ split; [exact Gg|discriminate]. }
      set (s6 := with_drv _ s5). specialize (Cg s5 eq_refl).
      destruct (after_action_cases n (action_id (drv s1)) s6) as [->|[h ->]].
      + split; [exact Gg|]. intros s' [= <-]. exact Cg.
      + split; [exact Gg|discriminate].
  Qed.
End Proofs.
