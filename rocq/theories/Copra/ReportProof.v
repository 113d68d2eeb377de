(** The report of a run, and the structure of a compiler. *)

From Coq Require Import List NArith ZArith Bool Ascii String DecimalString DecimalN Lia.
From Verif Require Import Base.Outcome Palm.StrModel Copra.PhaseDriverModel Copra.PhaseDriverSpec
  Copra.PhaseDriverProof Copra.ReportModel Copra.ReportSpec.
Import ListNotations.
Local Open Scope N_scope.
Local Open Scope list_scope.

Section Proofs.
  Context {L G W T : Type}.
  Variable leaf_fun : L -> N -> W -> T -> option (W * T * list signal).
  Variable gate_fun : G -> N -> W -> option (bool * W * list signal).
  Variable check_fun : N -> T -> N.
  Variable v : N.
  Notation state := (state L G W T).
  Notation result := (result L G W T).
  Notation told := (@told L G W T).
  Notation history := (@history L G W T).
  Notation action := (action L G).
  Notation dispatch := (dispatch leaf_fun gate_fun check_fun).
  Notation vdispatch := (vdispatch leaf_fun gate_fun check_fun v).
  Notation reports := (@reports L G W T v).
  Notation all_report := (@all_report L G W T v).
  Implicit Types s : state.

  Definition vrun_seq (fuel : nat) : list action -> state -> told :=
    fix body (l : list action) (s : state) : told :=
      match l with
      | [] => quietly (Cont s)
      | b :: l' => vthen (vdispatch fuel b s) (body l')
      end.

  (** *** Printing changes nothing *)

  Lemma snd_tell ls (r : told) : snd (tell ls r) = snd r.
  Proof. reflexivity. Qed.
  Lemma snd_vthen (r : told) (f : state -> told) (g : state -> result) :
    (forall s, snd (f s) = g s) -> snd (vthen r f) = andthen (snd r) g.
  Proof. intros E. unfold vthen. destruct (snd r); cbn; auto. Qed.

  Lemma vafter_erased a i s : snd (vafter v a i s) = after_action (action_name a) i s.
  Proof. unfold vafter. destruct (after_action (action_name a) i s) as [s'|[] s']; reflexivity. Qed.
  Lemma vdo_while_erased c curr (vbody : state -> told) body : (forall s, snd (vbody s) = body s) ->
    forall fuel s, snd (vdo_while fuel c curr vbody s) = do_while fuel c curr body s.
  Proof.
    intros E. induction fuel as [|fuel IH]; intros s; [reflexivity|]. cbn [vdo_while do_while].
    rewrite (snd_vthen _ _ (fun s2 =>
          let s3 := with_drv (fun d => set_cycle_iter (cycle_iter d + 1) d) s2 in
          if c && (cycle_iter (drv s3) <? max_cycles (drv s3)) && negb (fixed_point (drv s3))
          then do_while fuel c curr body s3 else Cont s3)); [now rewrite E|].
    intros s2. cbn zeta. destruct (_ && _ && _); [apply IH|reflexivity].
  Qed.
  Lemma venter_erased fuel n c (vbody : state -> told) body : (forall s, snd (vbody s) = body s) ->
    forall s, snd (venter_phase v fuel n c vbody s) = enter_phase fuel n c body s.
  Proof.
    intros E s. unfold venter_phase, enter_phase.
    destruct (match breakpoint (drv s) with None => Val None | Some bp => Checkbreakpoint n bp end)
      as [nb| | | |]; try reflexivity. cbn zeta. rewrite snd_tell.
    rewrite <- (vdo_while_erased c _ vbody body E). apply snd_vthen.
    intros s2. now destruct (phase_error (drv s2)).
  Qed.

  Lemma vdispatch_phase fuel n g c acts s :
    vdispatch fuel (APhase n g c acts) s =
    let s1 := with_drv (fun d => set_action_id (action_id d + 1) d) s in
    tell (announce v (APhase n g c acts)) (vthen (quietly (run_check check_fun s1)) (fun s2 =>
      vthen
        (vthen
          (vask_gate gate_fun v n g (with_drv (set_phase_error false) s2)
            (venter_phase v fuel n c (vrun_seq fuel acts))
            (fun s3 => Cont (with_drv (fun d =>
               set_action_id (action_id d + skip_count (APhase n g c acts)) d) s3)))
          (fun s4 => quietly (Cont (with_drv (fun d =>
             set_phase_error (phase_error (drv s2) || phase_error d) d) s4))))
        (vafter v (APhase n g c acts) (action_id (drv s1))))).
  Proof. reflexivity. Qed.

  Theorem report_erased fuel a : forall s, snd (vdispatch fuel a s) = dispatch fuel a s.
  Proof.
    induction a as [n l|n g c acts IH] using action_ind'; intros s.
    - rewrite dispatch_leaf. cbn [ReportModel.vdispatch]. cbn zeta. rewrite snd_tell.
      apply snd_vthen. intros s2. apply snd_vthen. intros s3. apply vafter_erased.
    - rewrite vdispatch_phase, dispatch_phase. cbn zeta. rewrite snd_tell. apply snd_vthen. intros s2.
      assert (Es : forall s, snd (vrun_seq fuel acts s) = run_seq leaf_fun gate_fun check_fun fuel acts s).
      { clear -IH. induction IH as [|b l Hb Hl IHl]; intros s; [reflexivity|].
        change (vrun_seq fuel (b :: l) s) with (vthen (vdispatch fuel b s) (vrun_seq fuel l)).
        change (run_seq leaf_fun gate_fun check_fun fuel (b :: l) s) with
          (andthen (dispatch fuel b s) (run_seq leaf_fun gate_fun check_fun fuel l)).
        rewrite <- (Hb s). apply snd_vthen. exact IHl. }
      erewrite snd_vthen; [|intros s3; apply vafter_erased]. f_equal.
      erewrite snd_vthen; [|intros s3; reflexivity]. f_equal.
      unfold vask_gate, ask_gate. destruct g as [g|]; [|now apply venter_erased].
      destruct (gate_fun g _ _) as [[[b w] xs]|]; [|reflexivity]. destruct b; [now apply venter_erased|reflexivity].
  Qed.

  Lemma vthen_cont s (f : state -> told) : vthen (quietly (Cont s)) f = f s.
  Proof. unfold vthen, tell, quietly. cbn [fst snd app]. now destruct (f s). Qed.

  (** *** Accounts *)

  Definition acc (P : history -> Prop) (s : state) (r : told) : Prop :=
    match snd r with
    | Cont s' => exists tr, P tr /\ fst r = lines_of tr /\ log s' = rev (events_of tr) ++ log s
    | Halt h s' => exists tr tr', P (tr ++ tr') /\ fst r = lines_of tr ++ farewell v h /\
                     log s' = rev (events_of tr) ++ log s /\ (2 <= v -> ends_in h tr)
    end.

  Lemma lines_app (a b : history) : lines_of (a ++ b) = lines_of a ++ lines_of b.
  Proof. apply flat_map_app. Qed.
  Lemma events_app (a b : history) : events_of (a ++ b) = events_of a ++ events_of b.
  Proof. apply flat_map_app. Qed.
  Lemma ends_more h (a b : history) : ends_in h b -> ends_in h (a ++ b).
  Proof.
    destruct h; cbn; auto.
    - intros (t & n & [-> | ->]); exists (a ++ t), n; rewrite app_assoc; [now left|now right].
    - intros (t & [(n & ->)|(n & i & l & w & x & ->)]); exists (a ++ t); rewrite app_assoc;
        [left; now exists n|right; now exists n, i, l, w, x].
  Qed.

  Lemma acc_weaken (P Q : history -> Prop) s r : (forall tr, P tr -> Q tr) -> acc P s r -> acc Q s r.
  Proof.
    intros I A. unfold acc in *. destruct (snd r).
    - destruct A as (tr & H & R). exists tr. auto.
    - destruct A as (tr & tr' & H & R). exists tr, tr'. auto.
  Qed.
  (** Something happened before. *)
  Lemma acc_before (p : history) (P : history -> Prop) s s0 ls r :
    ls = lines_of p -> log s = rev (events_of p) ++ log s0 -> acc P s r ->
    acc (fun tr => exists t, tr = p ++ t /\ P t) s0 (tell ls r).
  Proof.
    intros -> E A. unfold acc in *. cbn [tell fst snd]. destruct (snd r) as [s'|h s'].
    - destruct A as (tr & H & El & Eg). exists (p ++ tr). split; [now exists tr|].
      rewrite lines_app, events_app, rev_app_distr, El, Eg, E, <- app_assoc. auto.
    - destruct A as (tr & tr' & H & El & Eg & En). exists (p ++ tr), tr'. split; [exists (tr ++ tr'); now rewrite app_assoc|].
      rewrite lines_app, events_app, rev_app_distr, El, Eg, E, <- !app_assoc. split; [reflexivity|].
      split; [reflexivity|]. intros H2. apply ends_more. auto.
  Qed.
  Lemma acc_then (P Q : history -> Prop) s (r : told) f :
    acc P s r -> (forall s', snd r = Cont s' -> acc Q s' (f s')) -> (exists t, Q t) ->
    acc (fun tr => exists t1 t2, tr = t1 ++ t2 /\ P t1 /\ Q t2) s (vthen r f).
  Proof.
    intros A F (q & Hq). unfold vthen. destruct (snd r) as [s'|h s'] eqn:Er; unfold acc in A; rewrite Er in A.
    - destruct A as (tr & H & El & Eg).
      apply (acc_weaken (fun t => exists t2, t = tr ++ t2 /\ Q t2)).
      + intros t (t2 & -> & H2). now exists tr, t2.
      + exact (acc_before tr Q s' s (fst r) (f s') El Eg (F s' eq_refl)).
    - destruct A as (tr & tr' & H & El & Eg & En). unfold acc. cbn [fst snd].
      exists tr, (tr' ++ q). split; [|auto]. exists (tr ++ tr'), q. now rewrite <- app_assoc.
  Qed.

  Lemma lines_say b l : @lines_of L G W T (say b l) = if b then [l] else [].
  Proof. now destruct b. Qed.
  Lemma events_say b l : @events_of L G W T (say b l) = [].
  Proof. now destruct b. Qed.
  Lemma above0 l : above v 0 l = lines_of (@say L G W T (1 <=? v) l).
  Proof. rewrite lines_say. unfold above. destruct (N.ltb_spec 0 v), (N.leb_spec 1 v); try lia; reflexivity. Qed.
  Lemma above1 l : above v 1 l = lines_of (@say L G W T (2 <=? v) l).
  Proof. rewrite lines_say. unfold above. destruct (N.ltb_spec 1 v), (N.leb_spec 2 v); try lia; reflexivity. Qed.
  Lemma above2 l : above v 2 l = lines_of (@say L G W T (3 <=? v) l).
  Proof. rewrite lines_say. unfold above. destruct (N.ltb_spec 2 v), (N.leb_spec 3 v); try lia; reflexivity. Qed.
  Lemma announce_phase n g c (acts : list action) :
    announce v (APhase n g c acts) = lines_of (@say L G W T (1 <=? v) (LEnter n)).
  Proof.
    unfold announce, above. rewrite lines_say.
    destruct (N.ltb_spec 0 v), (N.leb_spec 1 v); try lia; [reflexivity|].
    destruct (N.ltb_spec 1 v); [lia|reflexivity].
  Qed.

  Definition closing (a : action) : history :=
    match a with APhase n _ _ _ => @say L G W T (1 <=? v) (LLeave n) | ALeaf _ _ => [] end.

  Lemma vafter_cases (a : action) i s :
    vafter v a i s = (lines_of (closing a), Cont s) \/
    exists h, vafter v a i s = (farewell v h, Halt h s) /\ forall tr, @ends_in L G W T h tr.
  Proof.
    unfold vafter, after_action. destruct (action_error (drv s)).
    - right. exists HActionError. split; [|exact (fun _ => I)]. cbn [farewell]. f_equal. rewrite above0, lines_say. reflexivity.
    - destruct (match breakpoint (drv s) with None => Val false | Some bp => STReqci (Some bp) (Some (action_name a)) end)
        as [hit| | | |]; try (right; exists HUndef; split; [reflexivity|exact (fun _ => I)]).
      destruct hit; [right; exists HBreakpoint; split; [reflexivity|exact (fun _ => I)]|].
      destruct (_ && _); [right; exists HBreakpoint; split; [reflexivity|exact (fun _ => I)]|].
      left. f_equal. destruct a; [reflexivity|]. apply above0.
  Qed.
  Lemma acc_after (a : action) i (P : history -> Prop) s r : acc P s r ->
    acc (fun tr => exists t, tr = t ++ closing a /\ P t) s (vthen r (vafter v a i)).
  Proof.
    intros A. unfold vthen. unfold acc in A. destruct (snd r) as [s'|h s'].
    - destruct A as (tr & H & El & Eg). unfold acc. cbn [tell fst snd].
      destruct (vafter_cases a i s') as [E|(h & E & En)]; rewrite E; cbn [fst snd].
      + exists (tr ++ closing a). split; [now exists tr|]. rewrite lines_app, events_app, El.
        split; [reflexivity|]. destruct a; cbn [closing]; rewrite ?events_say, ?app_nil_r; exact Eg.
      + exists tr, (closing a). split; [now exists tr|]. rewrite El. auto.
    - destruct A as (tr & tr' & H & El & Eg & En). unfold acc. cbn [fst snd].
      exists tr, (tr' ++ closing a). split; [exists (tr ++ tr'); now rewrite app_assoc|auto].
  Qed.

  (** Every action has an account. *)
  Lemma report_exists (w : W) (t : T) a : forall id, exists h, reports id a h.
  Proof.
    induction a as [n l|n g c acts IH] using action_ind'; intros id.
    - eexists. exact (rep_leaf v id n l w t).
    - assert (X : forall i, exists h, all_report i acts h).
      { clear -IH. induction IH as [|b l Hb _ IHl]; intros i; [exists []; constructor|].
        destruct (Hb i) as (h1 & H1). destruct (IHl (i + size b)) as (h2 & H2).
        exists (h1 ++ h2). now constructor. }
      destruct (X (id + 1)) as (h & H). eexists.
      apply (rep_phase v id n g c acts [] [h]); [now left|discriminate|reflexivity|now constructor].
  Qed.
  Lemma all_report_exists (w : W) (t : T) acts : forall id, exists h, all_report id acts h.
  Proof.
    induction acts as [|b l IH]; intros i; [exists []; constructor|].
    destruct (report_exists w t b i) as (h1 & H1). destruct (IH (i + size b)) as (h2 & H2).
    exists (h1 ++ h2). now constructor.
  Qed.

  Lemma acc_seq fuel acts :
    Forall (fun a => forall s, acc (reports (action_id (drv s) + 1) a) s (vdispatch fuel a s)) acts ->
    forall s, acc (all_report (action_id (drv s) + 1) acts) s (vrun_seq fuel acts s).
  Proof.
    induction 1 as [|b l Hb _ IH]; intros s.
    - exists []. split; [constructor|]. split; reflexivity.
    - change (vrun_seq fuel (b :: l) s) with (vthen (vdispatch fuel b s) (vrun_seq fuel l)).
      apply (acc_weaken (fun tr => exists t1 t2, tr = t1 ++ t2 /\ reports (action_id (drv s) + 1) b t1 /\
                                     all_report (action_id (drv s) + 1 + size b) l t2)).
      + intros tr (t1 & t2 & -> & H1 & H2). now constructor.
      + apply acc_then; [apply Hb| |exact (all_report_exists (world s) (node s) l _)].
        intros s' E. rewrite report_erased in E.
        destruct (counts_dispatch leaf_fun gate_fun check_fun fuel b s) as [_ C]. specialize (C s' E).
        replace (action_id (drv s) + 1 + size b) with (action_id (drv s') + 1); [apply IH|].
        rewrite C. unfold size. lia.
  Qed.

  Definition rounds_of (id : N) (c : bool) (acts : list action) (tr : history) : Prop :=
    exists rounds, rounds <> [] /\ (c = false -> List.length rounds = 1%nat) /\
      Forall (all_report id acts) rounds /\ tr = List.concat rounds.

  Lemma acc_do_while (body : state -> told) acts c curr :
    (forall s, acc (all_report (action_id (drv s) + 1) acts) s (body s)) ->
    forall fuel s, acc (rounds_of (curr + 1) c acts) s (vdo_while fuel c curr body s).
  Proof.
    intros B. induction fuel as [|fuel IH]; intros s; cbn [vdo_while].
    - unfold acc, quietly. cbn [fst snd]. destruct (all_report_exists (world s) (node s) acts (curr + 1)) as (h & H).
      exists [], h. split; [|split; [reflexivity|split; [reflexivity|exact (fun _ => I)]]].
      exists [h]. split; [discriminate|]. split; [reflexivity|]. split; [now constructor|]. cbn. now rewrite app_nil_r.
    - set (s1 := with_drv (fun d => set_action_id curr (set_fixed_point true d)) s).
      assert (B1 := B s1). change (action_id (drv s1)) with curr in B1. change (log s1) with (log s) in B1.
      assert (B2 : acc (all_report (curr + 1) acts) s (body s1)).
      { unfold acc in *. change (log s1) with (log s) in B1. exact B1. } clear B1.
      unfold vthen. unfold acc in B2. destruct (snd (body s1)) as [s2|h s2].
      + destruct B2 as (tr & H & El & Eg). cbn zeta.
        set (s3 := with_drv (fun d => set_cycle_iter (cycle_iter d + 1) d) s2).
        destruct (c && (cycle_iter (drv s3) <? max_cycles (drv s3)) && negb (fixed_point (drv s3))) eqn:Ec.
        * apply (acc_weaken (fun t => exists t2, t = tr ++ t2 /\ rounds_of (curr + 1) c acts t2)).
          -- intros t (t2 & -> & rounds & Hn & _ & Hf & ->). exists (tr :: rounds). split; [discriminate|].
             split; [intros ->; discriminate|]. split; [now constructor|reflexivity].
          -- exact (acc_before tr _ s3 s _ _ El Eg (IH s3)).
        * unfold acc. cbn [tell quietly fst snd]. exists tr. rewrite app_nil_r. split; [|split; [exact El|exact Eg]].
          exists [tr]. split; [discriminate|]. split; [reflexivity|]. split; [now constructor|].
          cbn. now rewrite app_nil_r.
      + destruct B2 as (tr & tr' & H & El & Eg & En). unfold acc. cbn [fst snd]. exists tr, tr'.
        split; [|auto]. exists [tr ++ tr']. split; [discriminate|]. split; [reflexivity|]. split; [now constructor|].
        cbn. now rewrite app_nil_r.
  Qed.

  Lemma acc_enter fuel n (body : state -> told) acts c s :
    (forall s, acc (all_report (action_id (drv s) + 1) acts) s (body s)) ->
    acc (fun tr => exists warning t, tr = warning ++ t /\ (warning = [] \/ warning = [inl LBadBreak]) /\
                     rounds_of (action_id (drv s) + 1) c acts t) s (venter_phase v fuel n c body s).
  Proof.
    intros B. unfold venter_phase.
    destruct (match breakpoint (drv s) with None => Val None | Some bp => Checkbreakpoint n bp end) as [nb| | | |].
    2,3,4,5: (unfold acc, quietly; cbn [fst snd];
      destruct (all_report_exists (world s) (node s) acts (action_id (drv s) + 1)) as (h & H);
      exists [], h; split; [|split; [reflexivity|split; [reflexivity|exact (fun _ => I)]]];
      exists [], h; split; [reflexivity|]; split; [now left|];
      exists [h]; split; [discriminate|]; split; [reflexivity|]; split; [now constructor|]; cbn; now rewrite app_nil_r).
    cbn zeta. set (s1 := match nb with None => s | Some b => with_drv (set_breakpoint (Some b)) s end).
    assert (E1 : action_id (drv s1) = action_id (drv s)) by (destruct nb; reflexivity).
    assert (E2 : log s1 = log s) by (destruct nb; reflexivity).
    set (p := match bad_break n (breakpoint (drv s)) with [] => [] | _ => [inl LBadBreak] end : history).
    assert (Ep : bad_break n (breakpoint (drv s)) = lines_of p /\ events_of p = [] /\ (p = [] \/ p = [inl LBadBreak])).
    { unfold p, bad_break. destruct (breakpoint (drv s)) as [bp|]; [|auto].
      destruct (break_prefix n bp) as [[[|ch [|ch2 r]]|]| | | |]; try (destruct (Ascii.eqb ch dot)); cbn; auto. }
    destruct Ep as (Ep & Ee & Ec).
    apply (acc_weaken (fun tr => exists t, tr = p ++ t /\ rounds_of (action_id (drv s) + 1) c acts t)).
    { intros tr (t & -> & H). now exists p, t. }
    apply (acc_before p _ s1 s); [exact Ep|rewrite Ee; exact E2|].
    assert (D := acc_do_while body acts c (action_id (drv s1)) B fuel s1). rewrite E1 in D at 1.
    unfold vthen. unfold acc in D. destruct (snd (vdo_while fuel c (action_id (drv s1)) body s1)) as [s2|h s2].
    - destruct D as (tr & H & El & Eg). unfold acc. cbn [tell fst snd]. destruct (phase_error (drv s2)); cbn [fst snd quietly].
      + exists tr, []. rewrite app_nil_r. split; [exact H|]. rewrite El. split; [|split; [exact Eg|exact (fun _ => I)]].
        f_equal. rewrite above0, lines_say. reflexivity.
      + exists tr. rewrite app_nil_r. split; [exact H|]. split; [exact El|]. destruct nb; exact Eg.
    - destruct D as (tr & tr' & H & El & Eg & En). unfold acc. cbn [fst snd]. exists tr, tr'. auto.
  Qed.

  Theorem report_right fuel a : forall s, acc (reports (action_id (drv s) + 1) a) s (vdispatch fuel a s).
  Proof.
    induction a as [n l|n g c acts IH] using action_ind'; intros s.
    - cbn [ReportModel.vdispatch]. cbn zeta.
      set (s1 := with_drv (fun d => set_action_id (action_id d + 1) d) s).
      set (id := action_id (drv s) + 1). assert (K : action_id (drv s1) = id) by reflexivity.
      change (announce v (ALeaf n l)) with (above v 1 (LRun n)). rewrite above1.
      destruct (run_check_cases check_fun s1) as [(s2 & -> & D & Lg & _)|(s2 & -> & D & Lg & _)].
      + assert (E : vthen (quietly (Cont s2)) (fun s2 => vthen (quietly (run_leaf leaf_fun l s2)) (vafter v (ALeaf n l) (action_id (drv s1))))
                    = vthen (quietly (run_leaf leaf_fun l s2)) (vafter v (ALeaf n l) (action_id (drv s1)))).
        { unfold vthen at 1, tell, quietly at 1 2. cbn [fst snd app]. now destruct (vthen _ _). }
        rewrite E. clear E.
        assert (A : acc (fun tr => exists w t, tr = @say L G W T (2 <=? v) (LRun n) ++ [inr (EvRun id l w t)]) s
                        (tell (lines_of (@say L G W T (2 <=? v) (LRun n))) (quietly (run_leaf leaf_fun l s2)))).
        { unfold acc. cbn [tell quietly fst snd]. rewrite app_nil_r. unfold run_leaf.
          rewrite D, K. set (e := EvRun id l (world s2) (node s2)).
          assert (X : e :: log s2 = rev (events_of (@say L G W T (2 <=? v) (LRun n) ++ [inr e])) ++ log s).
          { rewrite events_app, events_say. cbn [app events_of flat_map rev]. now rewrite Lg. }
          destruct (leaf_fun l id (world s2) (node s2)) as [[[w t] xs]|].
          - exists (@say L G W T (2 <=? v) (LRun n) ++ [inr e]). split; [now exists (world s2), (node s2)|].
            split; [rewrite lines_app; cbn; now rewrite app_nil_r|].
            destruct (apply_signals_inert xs (mk_state (drv s2) w t (errors s2) (e :: log s2))) as [E1 _].
            rewrite D in E1. etransitivity; [exact E1|exact X].
          - exists (@say L G W T (2 <=? v) (LRun n) ++ [inr e]), []. rewrite app_nil_r. split; [now exists (world s2), (node s2)|].
            split; [rewrite lines_app; cbn; now rewrite !app_nil_r|]. split; [exact X|].
            intros H2. exists []. right. exists n, id, l, (world s2), (node s2).
            destruct (N.leb_spec 2 v); [reflexivity|lia]. }
        assert (E : tell (lines_of (@say L G W T (2 <=? v) (LRun n))) (vthen (quietly (run_leaf leaf_fun l s2)) (vafter v (ALeaf n l) (action_id (drv s1))))
                    = vthen (tell (lines_of (@say L G W T (2 <=? v) (LRun n))) (quietly (run_leaf leaf_fun l s2))) (vafter v (ALeaf n l) (action_id (drv s1)))).
        { unfold vthen. cbn [tell quietly fst snd]. destruct (run_leaf leaf_fun l s2); unfold tell; cbn [fst snd app]; rewrite ?app_nil_r; reflexivity. }
        rewrite E. apply (acc_weaken _ _ s _) with (2 := acc_after (ALeaf n l) (action_id (drv s1)) _ s _ A).
        intros tr (t & -> & w & x & ->). cbn [closing]. rewrite app_nil_r. constructor.
      + unfold acc. cbn [vthen quietly tell fst snd]. rewrite app_nil_r.
        exists (@say L G W T (2 <=? v) (LRun n)), [inr (EvRun id l (world s) (node s))].
        split; [constructor|]. split; [cbn [farewell]; now rewrite app_nil_r|].
        split; [rewrite events_say; exact Lg|]. intros H2. exists [], n. right.
        destruct (N.leb_spec 2 v); [reflexivity|lia].
    - rewrite vdispatch_phase. cbn zeta.
      set (s1 := with_drv (fun d => set_action_id (action_id d + 1) d) s).
      set (id := action_id (drv s) + 1). assert (K : action_id (drv s1) = id) by reflexivity.
      rewrite announce_phase. set (a := APhase n g c acts).
      destruct (run_check_cases check_fun s1) as [(s2 & -> & D & Lg & _)|(s2 & -> & D & Lg & _)].
      2:{ unfold acc. cbn [vthen quietly tell fst snd]. rewrite app_nil_r.
          destruct (report_exists (world s) (node s) a id) as (h & H).
          assert (exists r, h = @say L G W T (1 <=? v) (LEnter n) ++ r) as (r & Er).
          { unfold a in H. inversion H; subst; eexists; reflexivity. }
          subst h. exists (@say L G W T (1 <=? v) (LEnter n)), r.
          split; [exact H|]. split; [cbn [farewell]; now rewrite app_nil_r|].
          split; [rewrite events_say; exact Lg|]. intros H2. exists [], n. left.
          destruct (N.leb_spec 1 v); [reflexivity|lia]. }
      rewrite vthen_cont. assert (Sq := acc_seq fuel acts IH).
      set (s2' := with_drv (set_phase_error false) s2).
      assert (K2 : action_id (drv s2') = id) by (change (action_id (drv s2) = id); rewrite D; exact K).
      assert (L2 : log s2' = log s) by exact Lg.
      match goal with |- context [vask_gate _ _ _ _ _ _ ?f] => set (skip := f) end.
      match goal with |- context [vthen (vask_gate _ _ _ _ _ _ _) ?f] => set (back := f) end.
      assert (Bk : forall (P : history -> Prop) r, acc P s r -> acc P s (vthen r back)).
      { intros P r A. unfold acc, vthen in *. destruct (snd r) as [s3|h s3]; cbn [back tell quietly fst snd]; [|exact A].
        rewrite app_nil_r. exact A. }
      set (P := fun tr => reports id a (tr ++ closing a)).
      assert (A : acc P s (tell (lines_of (@say L G W T (1 <=? v) (LEnter n)))
                    (vask_gate gate_fun v n g s2' (venter_phase v fuel n c (vrun_seq fuel acts)) skip))).
      { unfold vask_gate. destruct g as [g|].
        - rewrite K2. destruct (gate_fun g id (world s2')) as [[[b w] xs]|].
          + set (s3 := apply_signals (mk_state (drv s2') w (node s2') (errors s2') (EvGate id g b :: log s2')) xs).
            destruct (apply_signals_inert xs (mk_state (drv s2') w (node s2') (errors s2') (EvGate id g b :: log s2'))) as [E1 E2].
            fold s3 in E1, E2. cbn [log drv] in E1, E2. rewrite K2 in E2. rewrite L2 in E1.
            destruct b.
            * assert (En := acc_enter fuel n (vrun_seq fuel acts) acts c s3 Sq). rewrite E2 in En.
              apply (acc_weaken _ _ s _) with (2 := acc_before (@say L G W T (1 <=? v) (LEnter n) ++ [inr (EvGate id g true)]) _ s3 s _ _
                (ltac:(rewrite lines_app; cbn; now rewrite app_nil_r)) (ltac:(rewrite events_app, events_say; exact E1)) En).
              intros tr (t & -> & wn & t2 & -> & Hw & rounds & H1 & H2 & H3 & ->). unfold P, a. cbn [closing].
              rewrite <- !app_assoc. now apply (rep_phase v id n (Some g) c acts wn rounds).
            * unfold acc. cbn [tell quietly fst snd]. rewrite above2, app_nil_r. cbn [skip].
              exists (@say L G W T (1 <=? v) (LEnter n) ++ [inr (EvGate id g false)] ++ @say L G W T (3 <=? v) (LSkip n)).
              split; [|split].
              -- unfold P, a. cbn [closing]. rewrite <- !app_assoc. constructor.
              -- rewrite !lines_app. reflexivity.
              -- rewrite !events_app, !events_say. exact E1.
          + unfold acc. cbn [tell quietly fst snd]. rewrite app_nil_r.
            exists (@say L G W T (1 <=? v) (LEnter n)), ([inr (EvGate id g false)] ++ @say L G W T (3 <=? v) (LSkip n)).
            split; [unfold P, a; cbn [closing]; rewrite <- !app_assoc; constructor|].
            split; [cbn [farewell]; now rewrite app_nil_r|]. split; [rewrite events_say; exact L2|].
            intros H2. exists []. left. exists n. destruct (N.leb_spec 1 v); [reflexivity|lia].
        - assert (En := acc_enter fuel n (vrun_seq fuel acts) acts c s2' Sq). rewrite K2 in En.
          apply (acc_weaken _ _ s _) with (2 := acc_before (@say L G W T (1 <=? v) (LEnter n)) _ s2' s _ _ eq_refl
            (ltac:(rewrite events_say; exact L2)) En).
          intros tr (t & -> & wn & t2 & -> & Hw & rounds & H1 & H2 & H3 & ->). unfold P, a. cbn [closing].
          rewrite <- !app_assoc. now apply (rep_phase v id n None c acts wn rounds). }
      set (q := vask_gate gate_fun v n g s2' (venter_phase v fuel n c (vrun_seq fuel acts)) skip) in *.
      assert (E : tell (lines_of (@say L G W T (1 <=? v) (LEnter n)))
                    (vthen (vthen q back) (vafter v a (action_id (drv s1))))
                  = vthen (vthen (tell (lines_of (@say L G W T (1 <=? v) (LEnter n))) q) back) (vafter v a (action_id (drv s1)))).
      { unfold vthen, tell. cbn [fst snd app]. destruct (snd q); cbn [fst snd app back tell quietly]; rewrite ?app_nil_r, ?app_assoc; reflexivity. }
      rewrite E. apply (acc_weaken _ _ s _) with (2 := acc_after a (action_id (drv s1)) _ s _ (Bk _ _ A)).
      intros tr (t & -> & H). exact H.
  Qed.
End Proofs.
