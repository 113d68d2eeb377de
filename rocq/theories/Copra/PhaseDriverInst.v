(** Wrappers and concrete compilers for the theorems of PhaseDriverProps.v. *)

From Coq Require Import List NArith Bool Ascii String Lia.
From Verif Require Import Base.Outcome Palm.StrModel
  Copra.PhaseDriverModel Copra.PhaseDriverSpec Copra.PhaseDriverProof Copra.PhaseDriverRefine
  Copra.PhaseDriverTrace Copra.PhaseDriverMore.
Import ListNotations.
Local Open Scope N_scope.
Local Open Scope list_scope.

Section Top.
  Context {L G W T : Type}.
  Variable leaf_fun : L -> N -> W -> T -> option (W * T * list signal).
  Variable gate_fun : G -> N -> W -> option (bool * W * list signal).
  Variable check_fun : N -> T -> N.
  Notation run := (CCNrun leaf_fun gate_fun check_fun).

  Lemma ids_static fuel (root : action L G) d w t e :
    In e (log (end_state (run fuel root (start d w t)))) ->
    1 <= ev_id e /\
    match e with
    | EvRun i l _ _ => exists n, nth_error (preorder root) (N.to_nat (i - 1)) = Some (ALeaf n l)
    | EvGate i g _ => exists n c acts,
        nth_error (preorder root) (N.to_nat (i - 1)) = Some (APhase n (Some g) c acts)
    end.
  Proof.
    unfold CCNrun. intros H.
    destruct (counts_dispatch leaf_fun gate_fun check_fun fuel root
                (with_drv reset_driver (start d w t))) as [(new & E & F) _].
    cbn in E. rewrite app_nil_r in E. rewrite E in H.
    rewrite Forall_forall in F. destruct (F e H) as [H1 H2]. cbn in H1.
    split; [lia|]. destruct e as [i l w' t'|i g b]; cbn in H2; rewrite N.sub_0_r in H2; exact H2.
  Qed.

  Lemma show_tree_static (root : action L G) i :
    nth_error (CCNshowTree root) i =
    option_map (fun a => (N.of_nat i + 2, action_name a)) (nth_error (preorder root) (S i)).
  Proof.
    rewrite CCNshowTree_number. destruct (preorder root) as [|a l] eqn:E; [destruct root; discriminate|].
    cbn [tl nth_error]. rewrite number_nth. destruct (nth_error l i); [|reflexivity].
    cbn [option_map]. rewrite N.add_comm. reflexivity.
  Qed.

  Lemma run_refines fuel root d w t path :
    plain_gates gate_fun -> keeps_breakpoint leaf_fun ->
    (forall p, path = Some p -> Forall is_name p /\ p <> []) ->
    breakpoint d = option_map dotted path ->
    flat_cycles root = true -> named root ->
    same_end (run fuel root (start d w t))
             (sem leaf_fun gate_fun check_fun path fuel 1 [] root (sstart d w t)).
  Proof.
    intros Hg Hk Hp Hb Hf Hn. unfold CCNrun.
    pose proof (dispatch_refines leaf_fun gate_fun check_fun path Hg Hk Hp fuel root [] Hf Hn
                  1 (with_drv reset_driver (start d w t)) (sstart d w t)) as R.
    specialize (fun H => R H (or_introl eq_refl)).
    assert (Hr : ready path 1 [] (with_drv reset_driver (@start L G W T d w t)) (sstart d w t)).
    { split; [|split; reflexivity]. repeat split. cbn. rewrite Hb. unfold bp_of.
      destruct path; reflexivity. }
    specialize (R Hr). unfold matches in R. unfold same_end.
    destruct (dispatch _ _ _ _ _ _); destruct (sem _ _ _ _ _ _ _ _ _); try contradiction.
    - apply R.
    - exact R.
  Qed.

  Lemma action_error_stops fuel root d w t newer e older :
    log (end_state (run fuel root (start d w t))) = newer ++ e :: older ->
    made leaf_fun SErrorAction e ->
    newer = [] /\ exists s, run fuel root (start d w t) = Halt HActionError s.
  Proof.
    unfold CCNrun. intros H Hm.
    destruct (aerr_dispatch leaf_fun gate_fun check_fun fuel root
                (with_drv reset_driver (start d w t))) as (new & E & F).
    cbn in E. rewrite app_nil_r in E. rewrite E in H. exact (F newer e older H Hm).
  Qed.

  (** [e] is a call of a pass or traversal that stands directly in phase number [j]. *)
  Lemma phase_error_stops fuel n0 g0 c0 acts0 d w t newer e older :
    let root := APhase n0 g0 c0 acts0 in
    log (end_state (run fuel root (start d w t))) = newer ++ e :: older ->
    made leaf_fun SErrorPhase e ->
    not_cont (run fuel root (start d w t)) /\
    exists j n g c acts, 1 <= j /\
      nth_error (preorder root) (N.to_nat (j - 1)) = Some (APhase n g c acts) /\
      direct acts j e /\
      Forall (fun e' => j < ev_id e' < j + size (APhase n g c acts)) newer.
  Proof.
    cbn zeta. unfold CCNrun. intros H Hm.
    destruct (perr_dispatch leaf_fun gate_fun check_fun fuel (APhase n0 g0 c0 acts0)
                (with_drv reset_driver (start d w t))) as (new & E & F).
    cbn -[dispatch] in E. rewrite app_nil_r in E. rewrite E in H.
    destruct (F newer e older H Hm) as [[(pre & n & l & post & H1 & _) _]|[Hn Hnc]].
    - destruct pre as [|x pre]; [discriminate|destruct pre; discriminate].
    - split; [exact Hnc|]. destruct Hn as (j & n & g & c & acts & J1 & J2 & J3).
      exists j, n, g, c, acts. change (action_id (drv (with_drv reset_driver (start d w t)))) with 0 in *.
      split; [lia|]. cbn [flat_map] in J2. rewrite app_nil_r, N.sub_0_r in J2. auto.
  Qed.

  Lemma run_terminates fuel root d w t :
    never_sets_cycles leaf_fun gate_fun -> flat_cycles root = true ->
    (N.to_nat (max_cycles d) < fuel)%nat ->
    forall s, run fuel root (start d w t) <> Halt HNoFuel s.
  Proof.
    intros Hs Hf Hl s E. unfold CCNrun in E.
    pose proof (dispatch_ends leaf_fun gate_fun check_fun Hs fuel (max_cycles d) Hl root Hf
                  (with_drv reset_driver (start d w t)) eq_refl) as R.
    rewrite E in R. apply R. reflexivity.
  Qed.
End Top.

Lemma straight_line {L G W T : Type} (f : L -> T -> T) fuel (root : action L G) d (w : W) t :
  breakpoint d = None -> breakpoint_id d = 0 ->
  exists s, CCNrun (plain_leaf f) open_gate no_check (S fuel) root (start d w t) = Cont s /\
    node s = fold_left (fun t l => f l t) (leaves root) t /\ calls (log s) = leaves root.
Proof.
  intros Hb Hi. unfold CCNrun.
  destruct (dispatch_does (W := W) f fuel root (with_drv reset_driver (start d w t)))
    as (s & E & _ & _ & N1 & _ & L1).
  { repeat split; assumption. }
  exists s. split; [exact E|]. split; [exact N1|exact L1].
Qed.

(** ** A compiler with a gate, a cycle and nested phases *)

(** Leaf [n]: [0] does nothing, [1] notifies while the user's counter is below
    3, [2] raises an action error, [3] raises a phase error. *)
Definition ex_leaf (l : N) (i : N) (w : N) (t : list N) : option (N * list N * list signal) :=
  Some (w + 1, i :: t,
    if l =? 1 then (if w <? 3 then [SNotify] else [])
    else if l =? 2 then [SErrorAction]
    else if l =? 3 then [SErrorPhase] else []).
Definition ex_gate (g : bool) (_ : N) (w : N) : option (bool * N * list signal) := Some (g, w, []).
Definition ex_check (_ : N) (_ : list N) : N := 0.

Definition ex_root (last : N) : action N bool :=
  APhase (name "Root") None false
    [ALeaf (name "scan") 0;
     APhase (name "Skipped") (Some false) false [ALeaf (name "dead") 0; ALeaf (name "dead2") 0];
     APhase (name "Opt") (Some true) true [ALeaf (name "fold") 0; ALeaf (name "prop") 1];
     APhase (name "End") None false [ALeaf (name "emit") last; ALeaf (name "done") 0];
     ALeaf (name "print") 0].

Lemma ex_hyps last : plain_gates ex_gate /\ keeps_breakpoint ex_leaf /\
  never_sets_cycles ex_leaf ex_gate /\ flat_cycles (ex_root last) = true /\ named (ex_root last).
Proof.
  split; [intros g i w b w' xs [= <- <- <-]; reflexivity|].
  split.
  { intros l i w t w' t' xs b [= <- <- <-].
    destruct (l =? 1); [destruct (w <? 3); cbn; intuition congruence|].
    destruct (l =? 2); [cbn; intuition congruence|].
    destruct (l =? 3); cbn; intuition congruence. }
  split.
  { split; [|intros g i w b w' xs n [= <- <- <-]; cbn; tauto].
    intros l i w t w' t' xs n [= <- <- <-].
    destruct (l =? 1); [destruct (w <? 3); cbn; intuition congruence|].
    destruct (l =? 2); [cbn; intuition congruence|].
    destruct (l =? 3); cbn; intuition congruence. }
  split; [reflexivity|].
  assert (D : forall s, forallb (fun c => (N_of_ascii c <? 128) && negb (Ascii.eqb c ".")) s = true ->
                s <> [] -> is_name s).
  { intros s H Hne. split; [exact Hne|]. rewrite forallb_forall in H. apply Forall_forall.
    intros c Hc. specialize (H c Hc). apply andb_true_iff in H. destruct H as [H1 H2].
    split; [apply N.ltb_lt; exact H1|]. intros ->. discriminate. }
  cbn [named ex_root fold_right].
  repeat split; apply D; solve [reflexivity | discriminate].
Qed.

(** The tree collects the action ids seen by the passes (newest first): the
    skipped phase keeps its numbers 3-5, the cycle runs twice. *)
Lemma ex_run : exists s,
  CCNrun ex_leaf ex_gate ex_check 200 (ex_root 0) (start driver0 0 []) = Cont s /\
  rev (node s) = [2; 7; 8; 7; 8; 10; 11; 12].
Proof. eexists. split; vm_compute; reflexivity. Qed.

Lemma ex_run_perr : exists s,
  CCNrun ex_leaf ex_gate ex_check 200 (ex_root 3) (start driver0 0 []) = Halt HPhaseError s /\
  rev (node s) = [2; 7; 8; 7; 8; 10; 11].
Proof. eexists. split; vm_compute; reflexivity. Qed.

Lemma ex_run_aerr : exists s,
  CCNrun ex_leaf ex_gate ex_check 200 (ex_root 2) (start driver0 0 []) = Halt HActionError s /\
  rev (node s) = [2; 7; 8; 7; 8; 10].
Proof. eexists. split; vm_compute; reflexivity. Qed.

Lemma ex_run_break : exists s,
  CCNrun ex_leaf ex_gate ex_check 200 (ex_root 0)
    (start (set_breakpoint (Some (name "root.OPT.fold")) driver0) 0 []) = Halt HBreakpoint s /\
  rev (node s) = [2; 7].
Proof. eexists. split; vm_compute; reflexivity. Qed.

Lemma ex_run_break_id : exists s,
  CCNrun ex_leaf ex_gate ex_check 200 (ex_root 0)
    (start (set_breakpoint_id 6 driver0) 0 []) = Halt HBreakpoint s /\
  rev (node s) = [2; 7; 8; 7; 8].
Proof. eexists. split; vm_compute; reflexivity. Qed.

Lemma deeper_witness : exists s,
  CCNrun demo_leaf demo_gate demo_check 5 deeper
    (start (set_breakpoint (Some (name "root.a.b")) driver0) 0 tt) = Halt HBreakpoint s /\
  log s = [EvRun 4 false 0 tt].
Proof. eexists. split; vm_compute; reflexivity. Qed.
