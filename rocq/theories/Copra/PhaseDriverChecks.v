(** Proofs: the phase driver runs nothing on a tree that the check rejects. *)

From Coq Require Import List NArith Bool Ascii Lia.
From Verif Require Import Base.Outcome Palm.StrModel Copra.PhaseDriverModel Copra.PhaseDriverSpec Copra.PhaseDriverProof.
Import ListNotations.
Local Open Scope N_scope.

Section Checks.
  Context {L G W T : Type}.
  Variable leaf_fun : L -> N -> W -> T -> option (W * T * list signal).
  Variable gate_fun : G -> N -> W -> option (bool * W * list signal).
  Variable check_fun : N -> T -> N.
  (** What is known of all trees. *)
  Variable ok : T -> Prop.

  Notation state := (state L G W T).
  Notation result := (result L G W T).
  Notation dispatch := (dispatch leaf_fun gate_fun check_fun).
  Implicit Types s : state.

  Hypothesis leaves_keep : forall l i w t w' t' xs, ok t -> leaf_fun l i w t = Some (w', t', xs) -> ok t'.
  Hypothesis leaves_check : forall l i w t w' t' xs, leaf_fun l i w t = Some (w', t', xs) -> ~ In (SSetCheck false) xs.
  Hypothesis gates_check : forall g i w b w' xs, gate_fun g i w = Some (b, w', xs) -> ~ In (SSetCheck false) xs.

  Definition passed (e : event L G W T) : Prop :=
    match e with EvRun i _ _ t => ok t /\ check_fun i t = 0 | EvGate _ _ _ => True end.
  Definition fit s : Prop := Forall passed (log s) /\ tree_check (drv s) = true /\ ok (node s).
  Definition ends_fit (r : result) : Prop :=
    match r with
    | Cont s => fit s
    | Halt h s => Forall passed (log s) /\
        (h = HCheckFailed -> ok (node s) /\ check_fun (action_id (drv s)) (node s) <> 0)
    end.

  Lemma fit_drv : forall f s, (forall d, tree_check (f d) = tree_check d) -> fit s -> fit (with_drv f s).
  Proof. intros f s H (A & B & C). split; [exact A|]. split; [cbn; rewrite H; exact B|exact C]. Qed.
  Lemma fit_then : forall r f, ends_fit r -> (forall s, fit s -> ends_fit (f s)) -> ends_fit (andthen r f).
  Proof. intros [s|h s] f H K; [apply K, H|exact H]. Qed.
  Lemma fit_halt : forall h s, h <> HCheckFailed -> fit s -> ends_fit (Halt h s).
  Proof. intros h s Ne (A & _). split; [exact A|]. intros E. contradiction. Qed.

  Lemma fit_signals : forall xs s, ~ In (SSetCheck false) xs -> fit s -> fit (apply_signals s xs).
  Proof.
    induction xs as [|x xs IH]; intros s No F; [exact F|]. cbn [apply_signals fold_left]. apply IH; [intros I; apply No; now right|].
    destruct x as [| | |n|b|n|b|]; cbn [apply_signal]; try (apply fit_drv; [reflexivity|exact F]); [|exact F].
    destruct b; [|exfalso; apply No; now left]. destruct F as (A & B & C). split; [exact A|]. split; [reflexivity|exact C].
  Qed.

  Lemma fit_after : forall n i s, fit s -> ends_fit (after_action n i s).
  Proof.
    intros n i s F. unfold after_action. destruct (action_error (drv s)); [apply fit_halt; [discriminate|exact F]|].
    destruct (match breakpoint (drv s) with None => Val false | Some bp => STReqci (Some bp) (Some n) end) as [b| | | |];
      try (apply fit_halt; [discriminate|exact F]).
    destruct b; [apply fit_halt; [discriminate|exact F]|]. destruct (_ && _); [apply fit_halt; [discriminate|exact F]|exact F].
  Qed.

  (** After the check. *)
  Definition checked_state s : Prop := fit s /\ check_fun (action_id (drv s)) (node s) = 0.
  Lemma fit_check : forall s f, fit s -> (forall s', checked_state s' -> ends_fit (f s')) ->
    ends_fit (andthen (run_check check_fun s) f).
  Proof.
    intros s f F K. unfold run_check. destruct F as (A & B & C). rewrite B.
    destruct (N.eqb_spec (check_fun (action_id (drv s)) (node s)) 0) as [E|E]; cbn [andthen].
    - apply K. split; [|exact E]. split; [exact A|]. split; [exact B|exact C].
    - split; [exact A|]. intros _. split; [exact C|exact E].
  Qed.

  Lemma fit_leaf : forall l s, checked_state s -> ends_fit (run_leaf leaf_fun l s).
  Proof.
    intros l s ((A & B & C) & Z). unfold run_leaf.
    destruct (leaf_fun l (action_id (drv s)) (world s) (node s)) as [[[w t] xs]|] eqn:E.
    - cbn [ends_fit]. apply fit_signals; [exact (leaves_check _ _ _ _ _ _ _ E)|]. split; [|split].
      + cbn [log]. constructor; [split; assumption|exact A].
      + exact B.
      + exact (leaves_keep _ _ _ _ _ _ _ C E).
    - split; [|discriminate]. cbn [log]. constructor; [split; assumption|exact A].
  Qed.

  Lemma fit_while : forall body c curr, (forall s, fit s -> ends_fit (body s)) -> forall fuel s, fit s ->
    ends_fit (do_while fuel c curr body s).
  Proof.
    intros body c curr Hb. induction fuel as [|fuel IH]; intros s F; [apply fit_halt; [discriminate|exact F]|]. cbn [do_while].
    apply fit_then; [apply Hb, fit_drv; [reflexivity|exact F]|]. intros s2 F2. cbn zeta.
    destruct (c && _ && _).
    - apply IH, fit_drv; [reflexivity|exact F2].
    - apply fit_drv; [reflexivity|exact F2].
  Qed.

  Lemma fit_enter : forall body fuel n c, (forall s, fit s -> ends_fit (body s)) -> forall s, fit s ->
    ends_fit (enter_phase fuel n c body s).
  Proof.
    intros body fuel n c Hb s F. unfold enter_phase.
    destruct (match breakpoint (drv s) with None => Val None | Some bp => Checkbreakpoint n bp end) as [nb| | | |];
      try (apply fit_halt; [discriminate|exact F]).
    apply fit_then; [apply fit_while; [exact Hb|]; destruct nb; [apply fit_drv; [reflexivity|exact F]|exact F]|].
    intros s2 F2. destruct (phase_error (drv s2)); [apply fit_halt; [discriminate|exact F2]|].
    destruct nb; cbn [ends_fit]; repeat (apply fit_drv; [reflexivity|]); exact F2.
  Qed.

  Lemma fit_gate : forall g s enter skip, fit s -> (forall s, fit s -> ends_fit (enter s)) -> (forall s, fit s -> ends_fit (skip s)) ->
    ends_fit (ask_gate gate_fun g s enter skip).
  Proof.
    intros [g|] s enter skip F He Hs; cbn [ask_gate]; [|apply He, F].
    destruct (gate_fun g (action_id (drv s)) (world s)) as [[[b w] xs]|] eqn:E; [|apply fit_halt; [discriminate|exact F]].
    assert (K : fit (apply_signals (mk_state (drv s) w (node s) (errors s) (EvGate (action_id (drv s)) g b :: log s)) xs)).
    { apply fit_signals; [exact (gates_check _ _ _ _ _ _ E)|]. destruct F as (A & B & C). split; [|split; assumption].
      cbn [log]. constructor; [exact I|exact A]. }
    destruct b; [apply He, K|apply Hs, K].
  Qed.

  Lemma fit_dispatch : forall fuel a s, fit s -> ends_fit (dispatch fuel a s).
  Proof.
    intros fuel. induction a as [n l|n g c acts IH] using action_ind'; intros s F.
    - rewrite dispatch_leaf. cbn zeta. apply fit_check; [apply fit_drv; [reflexivity|exact F]|]. intros s2 K.
      apply fit_then; [apply fit_leaf, K|]. intros s3. apply fit_after.
    - rewrite dispatch_phase. cbn zeta. apply fit_check; [apply fit_drv; [reflexivity|exact F]|]. intros s2 [K _].
      apply fit_then; [|intros s3; apply fit_after]. apply fit_then.
      + apply fit_gate; [apply fit_drv; [reflexivity|exact K]| |].
        * apply fit_enter. intros s' F'. revert s' F'. clear - IH. induction IH as [|a l Ha Hl IHl]; intros s F; [exact F|].
          cbn [run_seq]. apply fit_then; [apply Ha, F|exact IHl].
        * intros s3 F3. apply fit_drv; [reflexivity|exact F3].
      + intros s4 F4. apply fit_drv; [reflexivity|exact F4].
  Qed.

  Theorem only_checked : forall fuel root d w t, tree_check d = true -> ok t ->
    ends_fit (CCNrun leaf_fun gate_fun check_fun fuel root (start d w t)).
  Proof.
    intros fuel root d w t Ch O. unfold CCNrun. apply fit_dispatch. apply fit_drv; [reflexivity|].
    split; [constructor|]. split; [exact Ch|exact O].
  Qed.
End Checks.
