(** Termination, straight-line compilers, and counterexamples. *)

From Coq Require Import List NArith Bool Ascii String Lia.
From Verif Require Import Base.Outcome Palm.StrModel
  Copra.PhaseDriverModel Copra.PhaseDriverSpec Copra.PhaseDriverProof Copra.PhaseDriverRefine
  Copra.PhaseDriverTrace.
Import ListNotations.
Local Open Scope N_scope.
Local Open Scope list_scope.

Section More.
  Context {L G W T : Type}.
  Variable leaf_fun : L -> N -> W -> T -> option (W * T * list signal).
  Variable gate_fun : G -> N -> W -> option (bool * W * list signal).
  Variable check_fun : N -> T -> N.

  Notation state := (state L G W T).
  Notation result := (result L G W T).
  Notation action := (action L G).
  Notation dispatch := (dispatch leaf_fun gate_fun check_fun).
  Notation run_seq := (run_seq leaf_fun gate_fun check_fun).
  Implicit Types s : state.

  (** ** Termination *)
  Definition never_sets_cycles : Prop :=
    (forall l i w t w' t' xs n, leaf_fun l i w t = Some (w', t', xs) -> ~ In (SSetCycles n) xs) /\
    (forall g i w b w' xs n, gate_fun g i w = Some (b, w', xs) -> ~ In (SSetCycles n) xs).
  Hypothesis Hset : never_sets_cycles.

  Lemma signals_max xs : forall s, (forall n, ~ In (SSetCycles n) xs) ->
    max_cycles (drv (apply_signals s xs)) = max_cycles (drv s) /\
    cycle_iter (drv (apply_signals s xs)) = cycle_iter (drv s).
  Proof.
    induction xs as [|x xs IH]; intros s Hn; [split; reflexivity|].
    change (apply_signals s (x :: xs)) with (apply_signals (apply_signal s x) xs).
    destruct (IH (apply_signal s x)) as [-> ->]; [intros n Hin; apply (Hn n); right; exact Hin|].
    destruct x; split; try reflexivity. exfalso. apply (Hn n). left. reflexivity.
  Qed.

  Definition ends (m : N) (leaf : bool) s (r : result) : Prop :=
    match r with
    | Halt h _ => h <> HNoFuel
    | Cont s' => max_cycles (drv s') = m /\ (leaf = true -> cycle_iter (drv s') = cycle_iter (drv s))
    end.

  Lemma after_action_ends m b n i s0 s : ends m b s0 (Cont s) -> ends m b s0 (after_action n i s).
  Proof.
    intros H. unfold after_action. destruct (action_error (drv s)); [discriminate|].
    destruct (match breakpoint (drv s) with None => Val false
              | Some bp => STReqci (Some bp) (Some n) end) as [[]| | | |]; try discriminate.
    destruct (_ && _); [discriminate|exact H].
  Qed.

  Lemma dispatch_ends fuel m : (N.to_nat m < fuel)%nat -> forall a, flat_cycles a = true ->
    forall s, max_cycles (drv s) = m -> ends m (is_leaf a) s (dispatch fuel a s).
  Proof.
    intros Hfuel a. induction a as [n l|n g c acts IH] using action_ind'; intros Hf s Hm.
    - rewrite dispatch_leaf. cbn zeta. set (s1 := with_drv _ s).
      destruct (run_check_cases check_fun s1) as [(s2 & -> & D & _)|(s2 & -> & D & _)];
        [|discriminate]. cbn [andthen]. unfold run_leaf.
      destruct (leaf_fun l _ _ _) as [[[w t] xs]|] eqn:El; [|discriminate].
      cbn [andthen]. apply after_action_ends.
      match goal with |- context [apply_signals ?x xs] =>
        destruct (signals_max xs x) as [E1 E2] end.
      { intros k. eapply (proj1 Hset). exact El. }
      unfold ends. rewrite E1, E2. cbn [drv]. rewrite D. split; [exact Hm|reflexivity].
    - cbn [flat_cycles] in Hf. apply andb_true_iff in Hf. destruct Hf as [Hf1 Hf2].
      assert (Hseq : forall s, max_cycles (drv s) = m ->
                ends m (forallb is_leaf acts) s (run_seq fuel acts s)).
      { clear - IH Hf2. induction IH as [|a l Ha Hl IHl]; intros s Hs.
        - split; [exact Hs|reflexivity].
        - cbn [forallb] in Hf2. apply andb_true_iff in Hf2. destruct Hf2 as [F1 F2].
          change (run_seq fuel (a :: l) s) with (andthen (dispatch fuel a s) (run_seq fuel l)).
          specialize (Ha F1 s Hs). destruct (dispatch fuel a s) as [s1|]; [|exact Ha].
          cbn [andthen]. destruct Ha as [A1 A2]. specialize (IHl F2 s1 A1).
          destruct (run_seq fuel l s1) as [s2|]; [|exact IHl].
          destruct IHl as [B1 B2]. split; [exact B1|]. cbn [forallb]. intros H.
          apply andb_true_iff in H. destruct H as [H1 H2].
          rewrite (B2 H2), (A2 H1). reflexivity. }
      assert (Hdw : forall k curr s, max_cycles (drv s) = m ->
                (N.to_nat (m - cycle_iter (drv s)) < k)%nat ->
                ends m false s (do_while k c curr (run_seq fuel acts) s)).
      { induction k as [|k IHk]; intros curr s0 Hs Hk; [lia|].
        cbn [do_while]. set (s1 := with_drv _ s0).
        specialize (Hseq s1 Hs).
        destruct (run_seq fuel acts s1) as [s2|] eqn:E2; [|exact Hseq].
        cbn [andthen]. cbn zeta. destruct Hseq as [B1 B2].
        destruct c; cbn [andb]; [|split; [exact B1|discriminate]].
        specialize (B2 Hf1). change (cycle_iter (drv s1)) with (cycle_iter (drv s0)) in B2.
        cbn [drv with_drv cycle_iter max_cycles set_cycle_iter fixed_point].
        rewrite B1, B2.
        destruct (cycle_iter (drv s0) + 1 <? m) eqn:El; cbn [andb];
          [|split; [exact B1|discriminate]].
        destruct (negb (fixed_point (drv s2))); [|split; [exact B1|discriminate]].
        apply N.ltb_lt in El.
        match goal with |- context [do_while k true curr _ ?x] => specialize (IHk curr x) end.
        cbn [drv with_drv cycle_iter max_cycles set_cycle_iter] in IHk. rewrite B2 in IHk.
        specialize (IHk B1 ltac:(lia)).
        match goal with |- ends _ _ _ ?r => destruct r end; [|exact IHk].
        split; [apply IHk|discriminate]. }
      assert (Hen : forall s, max_cycles (drv s) = m ->
                ends m false s (enter_phase fuel n c (run_seq fuel acts) s)).
      { intros s0 Hs. unfold enter_phase.
        destruct (match breakpoint (drv s0) with None => Val None
              | Some bp => Checkbreakpoint n bp end) as [nb| | | |]; try discriminate.
        set (s1 := match nb with None => s0 | Some b => _ end).
        assert (Hs1 : max_cycles (drv s1) = m) by (destruct nb; exact Hs).
        assert (Hk : (N.to_nat (m - cycle_iter (drv s1)) < fuel)%nat) by lia.
        specialize (Hdw fuel (action_id (drv s1)) s1 Hs1 Hk).
        destruct (do_while fuel c _ (run_seq fuel acts) s1) as [s2|]; [|exact Hdw].
        cbn [andthen]. destruct (phase_error (drv s2)); [discriminate|].
        destruct Hdw as [X _]. split; [|discriminate]. destruct nb; exact X. }
      rewrite dispatch_phase. cbn zeta. set (s1 := with_drv _ s).
      destruct (run_check_cases check_fun s1) as [(s2 & -> & D & _)|(s2 & -> & D & _)];
        [|discriminate]. cbn [andthen].
      match goal with |- context [andthen (ask_gate gate_fun g ?x ?e ?k) ?r] =>
        set (s2' := x); set (skip := k); set (restore := r);
        assert (Hask : ends m false s (ask_gate gate_fun g s2' e skip)) end.
      { unfold ask_gate. assert (Hm2 : max_cycles (drv s2') = m) by (cbn; rewrite D; exact Hm).
        destruct g as [g|].
        - destruct (gate_fun g _ _) as [[[b w] xs]|] eqn:Eg; [|discriminate].
          match goal with |- context [apply_signals ?x xs] =>
            destruct (signals_max xs x) as [E1 E2]; [|set (s4 := apply_signals x xs) in *] end.
          { intros k. eapply (proj2 Hset). exact Eg. }
          destruct b.
          + specialize (Hen s4). rewrite E1 in Hen. specialize (Hen Hm2).
            destruct (enter_phase fuel n c (run_seq fuel acts) s4); [|exact Hen].
            split; [apply Hen|discriminate].
          + split; [|discriminate]. cbn. rewrite E1. exact Hm2.
        - specialize (Hen s2' Hm2). destruct (enter_phase fuel n c (run_seq fuel acts) s2'); [|exact Hen].
          split; [apply Hen|discriminate]. }
      destruct (ask_gate gate_fun g s2' _ skip) as [s5|]; [|exact Hask].
      cbn [andthen]. apply after_action_ends. split; [apply Hask|discriminate].
  Qed.
End More.

(** ** Compilers whose passes only transform the tree *)
Section Straight.
  Context {L G W T : Type}.
  Variable f : L -> T -> T.

  (** The passes and traversals of a compiler in the order of the specification. *)
  Fixpoint leaves (a : action L G) : list L :=
    match a with
    | ALeaf _ l => [l]
    | APhase _ _ _ acts => flat_map leaves acts
    end.

  Definition plain_leaf (l : L) (_ : N) (w : W) (t : T) : option (W * T * list signal) :=
    Some (w, f l t, []).
  Definition open_gate (_ : G) (_ : N) (w : W) : option (bool * W * list signal) :=
    Some (true, w, []).
  Definition no_check (_ : N) (_ : T) : N := 0.

  Notation state := (state L G W T).
  Notation dispatch := (dispatch plain_leaf open_gate no_check).
  Notation run_seq := (run_seq plain_leaf open_gate no_check).
  Implicit Types s : state.

  Definition quiet s : Prop :=
    action_error (drv s) = false /\ phase_error (drv s) = false /\
    breakpoint (drv s) = None /\ breakpoint_id (drv s) = 0.

  Definition ran (e : event L G W T) : list L :=
    match e with EvRun _ l _ _ => [l] | EvGate _ _ _ => [] end.

  (** The calls in a log, oldest first. *)
  Definition calls (lg : list (event L G W T)) : list L := flat_map ran (rev lg).

  Definition does (ls : list L) s (r : result L G W T) : Prop :=
    exists s', r = Cont s' /\ quiet s' /\
      (fixed_point (drv s) = true -> fixed_point (drv s') = true) /\
      node s' = fold_left (fun t l => f l t) ls (node s) /\
      world s' = world s /\
      calls (log s') = calls (log s) ++ ls.

  Lemma calls_run i l w t lg : calls (EvRun i l w t :: lg) = calls lg ++ [l].
  Proof. unfold calls. cbn [rev]. rewrite flat_map_app. reflexivity. Qed.

  Lemma calls_gate i g b lg : calls (EvGate i g b :: lg) = calls lg.
  Proof. unfold calls. cbn [rev]. rewrite flat_map_app. apply app_nil_r. Qed.

  Lemma after_action_quiet n i s : quiet s -> after_action n i s = Cont s.
  Proof.
    intros (H1 & _ & H2 & H3). unfold after_action. rewrite H1, H2, H3. reflexivity.
  Qed.

  Lemma run_check_none s : exists s', run_check no_check s = Cont s' /\ drv s' = drv s /\
    world s' = world s /\ node s' = node s /\ log s' = log s.
  Proof.
    unfold run_check, no_check. destruct (tree_check (drv s)); cbn; eexists; repeat split.
  Qed.

  Lemma dispatch_does fuel a : forall s, quiet s -> does (leaves a) s (dispatch (S fuel) a s).
  Proof.
    induction a as [n l|n g c acts IH] using action_ind'; intros s Hq.
    - rewrite dispatch_leaf. cbn zeta. set (s1 := with_drv _ s).
      destruct (run_check_none s1) as (s2 & -> & D & Wd & Nd & Lg). cbn [andthen run_leaf plain_leaf].
      cbn [apply_signals fold_left]. cbn [drv].
      match goal with |- context [after_action _ _ ?x] => set (s3 := x) end.
      assert (Hq3 : quiet s3) by (unfold s3, quiet; cbn [drv]; rewrite D; exact Hq).
      rewrite (after_action_quiet _ _ _ Hq3).
      exists s3. split; [reflexivity|]. split; [exact Hq3|]. unfold s3.
      cbn [drv node world log]. rewrite D, Nd, Wd, Lg, calls_run. repeat split. auto.
    - assert (Hseq : forall s, quiet s -> does (flat_map leaves acts) s (run_seq (S fuel) acts s)).
      { clear -IH. induction IH as [|a l Ha Hl IHl]; intros s Hq.
        - exists s. split; [reflexivity|]. split; [exact Hq|]. cbn. rewrite app_nil_r. auto.
        - change (run_seq (S fuel) (a :: l) s) with
            (andthen (dispatch (S fuel) a s) (run_seq (S fuel) l)).
          destruct (Ha s Hq) as (s1 & -> & Q1 & F1 & N1 & W1 & L1). cbn [andthen].
          destruct (IHl s1 Q1) as (s2 & -> & Q2 & F2 & N2 & W2 & L2).
          exists s2. split; [reflexivity|]. split; [exact Q2|]. cbn [flat_map].
          rewrite fold_left_app, <- N1, <- N2, W2, W1, L2, L1, <- app_assoc. auto. }
      assert (Hen : forall s, quiet s ->
                does (flat_map leaves acts) s (enter_phase (S fuel) n c (run_seq (S fuel) acts) s)).
      { clear - Hseq. intros s Hq. unfold enter_phase.
        assert (Hb : breakpoint (drv s) = None) by apply Hq. rewrite Hb. cbn [do_while].
        set (s1 := with_drv _ s).
        destruct (Hseq s1 Hq) as (s2 & -> & Q2 & F2 & N2 & W2 & L2). cbn [andthen].
        cbn zeta. cbn [drv with_drv fixed_point set_cycle_iter].
        rewrite (F2 eq_refl). cbn [negb]. rewrite andb_false_r. cbn [andthen].
        cbn [drv with_drv phase_error set_cycle_iter].
        assert (Hp : phase_error (drv s2) = false) by apply Q2. rewrite Hp.
        eexists. split; [reflexivity|]. split; [exact Q2|].
        cbn [drv with_drv fixed_point set_cycle_iter node world log].
        split; [intros _; exact (F2 eq_refl)|]. repeat split; assumption. }
      rewrite dispatch_phase. cbn zeta. set (s1 := with_drv _ s).
      destruct (run_check_none s1) as (s2 & -> & D & Wd & Nd & Lg). cbn [andthen].
      assert (Q2 : quiet s2) by (unfold quiet; rewrite D; exact Hq).
      assert (Hf : phase_error (drv s2) = false) by apply Q2. rewrite Hf. cbn [orb leaves].
      set (s2' := with_drv (set_phase_error false) s2).
      assert (Q2' : quiet s2') by (split; [apply Q2|]; split; [reflexivity|]; apply Q2).
      assert (Hask : does (flat_map leaves acts) s
        (ask_gate open_gate g s2' (enter_phase (S fuel) n c (run_seq (S fuel) acts))
            (fun s3 => Cont (with_drv (fun d =>
               set_action_id (action_id d + skip_count (APhase n g c acts)) d) s3)))).
      { unfold ask_gate. destruct g as [g|].
        - cbn [open_gate apply_signals fold_left].
          match goal with |- does _ _ (enter_phase _ _ _ _ ?x) => set (s3 := x) end.
          destruct (Hen s3 Q2') as (s4 & -> & Q4 & F4 & N4 & W4 & L4).
          exists s4. split; [reflexivity|]. split; [exact Q4|].
          unfold s3 in F4, N4, W4, L4. cbn [drv node world log with_drv s2'] in F4, N4, W4, L4.
          rewrite calls_gate in L4. cbn [fixed_point set_phase_error] in F4.
          rewrite D in F4. rewrite Lg in L4. rewrite Nd in N4. rewrite Wd in W4.
          split; [exact F4|]. split; [exact N4|]. split; [exact W4|exact L4].
        - destruct (Hen s2' Q2') as (s4 & -> & Q4 & F4 & N4 & W4 & L4).
          exists s4. split; [reflexivity|]. split; [exact Q4|].
          cbn [drv node world log with_drv s2'] in F4, N4, W4, L4.
          cbn [fixed_point set_phase_error] in F4. rewrite D in F4. rewrite Lg in L4.
          rewrite Nd in N4. rewrite Wd in W4.
          split; [exact F4|]. split; [exact N4|]. split; [exact W4|exact L4]. }
      destruct Hask as (s5 & -> & Q5 & F5 & N5 & W5 & L5). cbn [andthen].
      match goal with |- context [after_action _ _ ?x] => set (s6 := x) end.
      assert (Q6 : quiet s6) by (split; [apply Q5|]; split; [apply Q5|]; apply Q5).
      rewrite (after_action_quiet _ _ _ Q6).
      exists s6. split; [reflexivity|]. split; [exact Q6|].
      split; [exact F5|]. split; [exact N5|]. split; [exact W5|exact L5].
  Qed.
End Straight.

(** ** A cycle computes a fixed point *)
Section FixedPoint.
  Context {L G W T : Type}.
  Variable f : L -> T -> T.       (* what a pass does to the tree *)
  Variable ch : L -> T -> bool.   (* whether it calls CCNcycleNotify *)

  Definition fp_leaf (l : L) (_ : N) (w : W) (t : T) : option (W * T * list signal) :=
    Some (w, f l t, if ch l t then [SNotify] else []).

  (** One round of the cycle, and whether a pass of it notifies. *)
  Definition round (ls : list L) (t : T) : T := fold_left (fun t l => f l t) ls t.
  Fixpoint noisy (ls : list L) (t : T) : bool :=
    match ls with
    | [] => false
    | l :: r => ch l t || noisy r (f l t)
    end.

  Definition cycle_of (n : cstring) (ls : list (cstring * L)) : action L G :=
    APhase n None true (map (fun x => ALeaf (fst x) (snd x)) ls).

  Notation state := (state L G W T).
  Notation dispatch := (dispatch fp_leaf (@open_gate G W) no_check).
  Notation run_seq := (run_seq fp_leaf (@open_gate G W) no_check).
  Implicit Types s : state.

  Lemma fp_seq fuel ls : forall s, quiet s -> exists s',
    run_seq fuel (map (fun x => ALeaf (fst x) (snd x)) ls) s = Cont s' /\ quiet s' /\
    node s' = round (map snd ls) (node s) /\
    fixed_point (drv s') = fixed_point (drv s) && negb (noisy (map snd ls) (node s)) /\
    cycle_iter (drv s') = cycle_iter (drv s) /\ max_cycles (drv s') = max_cycles (drv s).
  Proof.
    induction ls as [|[m l] ls IH]; intros s Hq.
    - exists s. cbn. rewrite andb_true_r. repeat split; apply Hq.
    - cbn [map fst snd].
      match goal with |- context [run_seq fuel (ALeaf m l :: ?r) s] =>
        change (run_seq fuel (ALeaf m l :: r) s) with
          (andthen (dispatch fuel (ALeaf m l) s) (run_seq fuel r)) end.
      rewrite dispatch_leaf. cbn zeta. set (s1 := with_drv _ s).
      destruct (run_check_none s1) as (s2 & -> & D & Wd & Nd & Lg). cbn [andthen run_leaf fp_leaf].
      assert (E : exists s3, after_action m (action_id (drv s1))
           (apply_signals (mk_state (drv s2) (world s2) (f l (node s2)) (errors s2)
              (EvRun (action_id (drv s2)) l (world s2) (node s2) :: log s2))
              (if ch l (node s2) then [SNotify] else [])) = Cont s3 /\ quiet s3 /\
           node s3 = f l (node s) /\
           fixed_point (drv s3) = fixed_point (drv s) && negb (ch l (node s)) /\
           cycle_iter (drv s3) = cycle_iter (drv s) /\ max_cycles (drv s3) = max_cycles (drv s)).
      { rewrite D, Nd. change (node s1) with (node s).
        destruct (ch l (node s)); cbn [apply_signals fold_left apply_signal].
        - rewrite after_action_quiet by exact Hq. eexists. split; [reflexivity|].
          split; [exact Hq|]. cbn. rewrite andb_false_r. auto.
        - rewrite after_action_quiet by exact Hq. eexists. split; [reflexivity|].
          split; [exact Hq|]. cbn. rewrite andb_true_r. auto. }
      cbn [drv world node errors log] in E |- *.
      destruct E as (s3 & -> & Q3 & N3 & F3 & C3 & M3). cbn [andthen].
      destruct (IH s3 Q3) as (s4 & -> & Q4 & N4 & F4 & C4 & M4).
      exists s4. split; [reflexivity|]. split; [exact Q4|].
      cbn [round fold_left noisy]. fold (round (map snd ls)).
      rewrite N4, F4, C4, M4, N3, F3, C3, M3, negb_orb, andb_assoc. auto.
  Qed.

  (** Number of rounds [k]: all rounds but the last notified, and the last one
      did not unless the maximum is reached. *)
  Lemma fp_loop fuel0 ls curr : forall fuel s, quiet s ->
    (N.to_nat (max_cycles (drv s) - cycle_iter (drv s)) < fuel)%nat ->
    exists k s', do_while fuel true curr
        (run_seq fuel0 (map (fun x => ALeaf (fst x) (snd x)) ls)) s = Cont s' /\ quiet s' /\
      node s' = Nat.iter (S k) (round (map snd ls)) (node s) /\
      (k = 0%nat \/ cycle_iter (drv s) + N.of_nat (S k) <= max_cycles (drv s)) /\
      (forall j, (j < k)%nat -> noisy (map snd ls) (Nat.iter j (round (map snd ls)) (node s)) = true) /\
      (cycle_iter (drv s) + N.of_nat (S k) < max_cycles (drv s) ->
         noisy (map snd ls) (Nat.iter k (round (map snd ls)) (node s)) = false).
  Proof.
    induction fuel as [|fuel IH]; intros s Hq Hf; [lia|].
    cbn [do_while]. set (s1 := with_drv _ s).
    destruct (fp_seq fuel0 ls s1 Hq) as (s2 & -> & Q2 & N2 & F2 & C2 & M2). cbn [andthen]. cbn zeta.
    set (s3 := with_drv (fun d => set_cycle_iter (cycle_iter d + 1) d) s2).
    assert (C3 : cycle_iter (drv s3) = cycle_iter (drv s) + 1) by (cbn; rewrite C2; reflexivity).
    assert (M3 : max_cycles (drv s3) = max_cycles (drv s)) by (cbn; rewrite M2; reflexivity).
    assert (F3 : fixed_point (drv s3) = negb (noisy (map snd ls) (node s))) by exact F2.
    assert (N3 : node s3 = round (map snd ls) (node s)) by exact N2.
    assert (Q3 : quiet s3) by exact Q2.
    rewrite C3, M3, F3, negb_involutive. cbn [andb].
    destruct (cycle_iter (drv s) + 1 <? max_cycles (drv s)) eqn:El; cbn [andb].
    - apply N.ltb_lt in El. destruct (noisy (map snd ls) (node s)) eqn:En.
      + destruct (IH s3 Q3) as (k & s' & E & Q' & X1 & X2 & X3 & X4); [rewrite C3, M3; lia|].
        exists (S k), s'. split; [exact E|]. split; [exact Q'|].
        rewrite N3 in X1, X3, X4. rewrite C3, M3 in X2, X4.
        assert (Sh : forall j, Nat.iter j (round (map snd ls)) (round (map snd ls) (node s)) =
                     Nat.iter (S j) (round (map snd ls)) (node s)).
        { intros j. generalize (round (map snd ls)) as h. generalize (node s) as x. clear.
          intros x h. induction j as [|j IHj]; [reflexivity|].
          change (h (Nat.iter j h (h x)) = h (Nat.iter (S j) h x)). rewrite IHj. reflexivity. }
        split; [rewrite X1; apply Sh|]. split; [right; destruct X2 as [->|X2]; lia|].
        split.
        * intros [|j] Hj; [exact En|]. rewrite <- Sh. apply X3. lia.
        * intros Hlt. rewrite <- Sh. apply X4. lia.
      + exists 0%nat, s3. split; [reflexivity|]. split; [exact Q3|]. split; [exact N3|].
        split; [left; reflexivity|]. split; [intros j Hj; lia|]. intros _. exact En.
    - apply N.ltb_ge in El. exists 0%nat, s3. split; [reflexivity|]. split; [exact Q3|].
      split; [exact N3|]. split; [left; reflexivity|]. split; [intros j Hj; lia|]. lia.
  Qed.

  Lemma cycle_fixed_point fuel n ls d w t :
    breakpoint d = None -> breakpoint_id d = 0 -> (N.to_nat (max_cycles d) < fuel)%nat ->
    exists k s, CCNrun fp_leaf (@open_gate G W) no_check fuel (cycle_of n ls) (start d w t) = Cont s /\
      node s = Nat.iter (S k) (round (map snd ls)) t /\
      (k = 0%nat \/ N.of_nat (S k) <= max_cycles d) /\
      (forall j, (j < k)%nat -> noisy (map snd ls) (Nat.iter j (round (map snd ls)) t) = true) /\
      (N.of_nat (S k) < max_cycles d ->
         noisy (map snd ls) (Nat.iter k (round (map snd ls)) t) = false).
  Proof.
    intros Hb Hi Hf. unfold CCNrun, cycle_of. rewrite dispatch_phase. cbn zeta.
    set (s0 := with_drv reset_driver (start d w t)).
    set (s1 := with_drv _ s0).
    destruct (run_check_none s1) as (s2 & -> & D & Wd & Nd & Lg). cbn [andthen ask_gate].
    unfold enter_phase. set (s2' := with_drv (set_phase_error false) s2).
    assert (D' : drv s2' = set_phase_error false (set_action_id 1 (reset_driver d)))
      by (cbn; rewrite D; reflexivity).
    assert (Q2 : quiet s2') by (unfold quiet; rewrite D'; repeat split; assumption).
    assert (Hbp : breakpoint (drv s2') = None) by (rewrite D'; exact Hb).
    assert (Hpe : phase_error (drv s2) = false) by (rewrite D; reflexivity).
    rewrite Hbp, Hpe.
    destruct (fp_loop fuel ls (action_id (drv s2')) fuel s2' Q2) as (k & s' & -> & Q' & X1 & X2 & X3 & X4).
    { rewrite D'. cbn. rewrite N.sub_0_r. exact Hf. }
    cbn [andthen]. assert (Hp' : phase_error (drv s') = false) by apply Q'. rewrite Hp'.
    cbn [andthen]. rewrite after_action_quiet by (split; [apply Q'|]; split; [exact Hp'|]; apply Q').
    exists k. eexists. split; [reflexivity|].
    rewrite D' in X2, X4. change (node s2') with (node s2) in X1, X3, X4.
    rewrite Nd in X1, X3, X4. 
    cbn [cycle_iter max_cycles set_phase_error set_action_id reset_driver] in X2, X4.
    rewrite N.add_0_l in X2, X4.
    split; [exact X1|]. split; [exact X2|]. split; [exact X3|exact X4].
  Qed.
End FixedPoint.

(** ** Counterexamples: cycles that contain a phase *)
Section Counter.
  (** Leaf [true] calls CCNcycleNotify every time, leaf [false] does nothing;
      the user's state counts the calls. *)
  Definition demo_leaf (l : bool) (_ : N) (w : N) (t : unit) : option (N * unit * list signal) :=
    Some (w + 1, t, if l then [SNotify] else []).
  Definition demo_gate (g : bool) (_ : N) (w : N) : option (bool * N * list signal) :=
    Some (g, w, []).
  Definition demo_check (_ : N) (_ : unit) : N := 0.
  Definition name (s : string) : cstring := list_ascii_of_string s.

  (** A cycle with a notifying pass followed by a phase: the notification is
      lost. *)
  Definition lost : action bool bool :=
    APhase (name "c") None true [ALeaf (name "n") true; APhase (name "p") None false []].

  (** A cycle with a phase followed by a notifying pass: the round counter is
      reset in every round, so the loop has no bound. *)
  Definition unbounded : action bool bool :=
    APhase (name "c") None true [APhase (name "p") None false []; ALeaf (name "n") true].

  Lemma lost_runs_once : exists s,
    CCNrun demo_leaf demo_gate demo_check 200 lost (start driver0 0 tt) = Cont s /\ world s = 1.
  Proof. eexists. split; vm_compute; reflexivity. Qed.

  (** With the promised semantics it runs 100 rounds. *)
  Lemma lost_promised : exists s n p,
    sem demo_leaf demo_gate demo_check None 200 1 [] lost (sstart driver0 0 tt) = SCont s n p /\
    s_world s = 100.
  Proof. do 3 eexists. split; vm_compute; reflexivity. Qed.

  Definition demo_state := state bool bool N unit.

  Lemma unbounded_loop fuel : forall k curr (s : demo_state),
    breakpoint (drv s) = None -> breakpoint_id (drv s) = 0 -> action_error (drv s) = false ->
    phase_error (drv s) = false -> max_cycles (drv s) = 100 ->
    exists s', do_while k true curr
      (run_seq demo_leaf demo_gate demo_check (S fuel)
         [APhase (name "p") None false []; ALeaf (name "n") true]) s = Halt HNoFuel s'.
  Proof.
    induction k as [|k IH]; intros curr s H1 H2 H3 H4 H5; [eexists; reflexivity|].
    destruct s as [[ai ci mc bi fp ae pe tc bp] w t er lg].
    cbn [drv breakpoint breakpoint_id action_error phase_error max_cycles] in H1, H2, H3, H4, H5.
    subst bp bi ae pe mc.
    assert (E : exists ai' er' lg' w',
      run_seq demo_leaf demo_gate demo_check (S fuel)
         [APhase (name "p") None false []; ALeaf (name "n") true]
         (with_drv (fun d => set_action_id curr (set_fixed_point true d))
            (mk_state (mk_driver ai ci 100 0 fp false false tc None) w t er lg)) =
      Cont (mk_state (mk_driver ai' 0 100 0 false false false tc None) w' t er' lg')).
    { destruct tc; do 4 eexists; vm_compute; reflexivity. }
    destruct E as (ai' & er' & lg' & w' & E).
    cbn [do_while]. rewrite E. cbn [andthen]. cbn zeta.
    cbn [drv with_drv set_cycle_iter cycle_iter max_cycles fixed_point negb andb].
    change (0 + 1 <? 100) with true. cbv iota. apply IH; reflexivity.
  Qed.

  Lemma unbounded_never_ends fuel w t : exists s,
    CCNrun demo_leaf demo_gate demo_check fuel unbounded (start driver0 w t) = Halt HNoFuel s.
  Proof.
    unfold CCNrun, unbounded. rewrite dispatch_phase. cbn zeta.
    destruct fuel as [|fuel]; [eexists; reflexivity|].
    cbn [run_check]. unfold start. cbn -[do_while run_seq name].
    match goal with |- context [do_while ?a ?b ?c ?d ?e] =>
      destruct (unbounded_loop fuel a c e eq_refl eq_refl eq_refl eq_refl eq_refl) as [s' E] end.
    cbn -[do_while run_seq name] in E |- *. rewrite E. eexists. reflexivity.
  Qed.

  (** The breakpoint "a.b" also stops at a pass b that stands deeper in a. *)
  Definition deeper : action bool bool :=
    APhase (name "root") None false
      [APhase (name "a") None false
         [APhase (name "c") None false [ALeaf (name "b") false];
          ALeaf (name "b") true]].
End Counter.
