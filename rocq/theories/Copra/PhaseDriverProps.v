(** Properties C15 - C19: running the actions of a compiler. *)

From Coq Require Import List NArith Bool Ascii String.
From Verif Require Import Base.Outcome Palm.StrModel
  Copra.PhaseDriverModel Copra.PhaseDriverSpec Copra.PhaseDriverProof Copra.PhaseDriverRefine
  Copra.PhaseDriverTrace Copra.PhaseDriverMore Copra.PhaseDriverInst.
Import ListNotations.
Local Open Scope N_scope.
Local Open Scope list_scope.

(** C15: whatever the user code does, with gates, cycles, nested phases and
    breakpoints, [CCNgetCurrentActionId] inside user code is the number of the
    running action in the preorder numbering of the specification. *)
Theorem C15_action_id_is_static : forall (L G W T : Type) leaf_fun gate_fun check_fun fuel
    (root : action L G) d (w : W) (t : T) e,
  In e (log (end_state (CCNrun leaf_fun gate_fun check_fun fuel root (start d w t)))) ->
  1 <= ev_id e /\
  match e with
  | EvRun i l _ _ => exists n, nth_error (preorder root) (N.to_nat (i - 1)) = Some (ALeaf n l)
  | EvGate i g _ => exists n c acts,
      nth_error (preorder root) (N.to_nat (i - 1)) = Some (APhase n (Some g) c acts)
  end.
Proof. intros L G W T. exact ids_static. Qed.
Print Assumptions C15_action_id_is_static.

(** CCNshowTree prints these numbers. *)
Theorem C15_show_tree : forall (L G : Type) (root : action L G) i,
  nth_error (CCNshowTree root) i =
  option_map (fun a => (N.of_nat i + 2, action_name a)) (nth_error (preorder root) (S i)).
Proof. intros L G. exact show_tree_static. Qed.
Print Assumptions C15_show_tree.

(** C16: a phase whose gate answers false runs nothing and leaves the tree alone. *)
Theorem C16_gate_false_skips : forall (L G W T : Type) leaf_fun gate_fun check_fun fuel n g c acts
    (s : state L G W T) w xs,
  gate_fun g (action_id (drv s) + 1) (world s) = Some (false, w, xs) ->
  match dispatch leaf_fun gate_fun check_fun fuel (APhase n (Some g) c acts) s with
  | Halt HCheckFailed s' => log s' = log s /\ node s' = node s
  | Cont s' | Halt _ s' =>
      log s' = EvGate (action_id (drv s) + 1) g false :: log s /\
      node s' = node s /\ world s' = w
  end.
Proof. intros L G W T. exact gate_false. Qed.
Print Assumptions C16_gate_false_skips.

(** C16: passes that only transform the tree run exactly once each, in the
    order of the specification, each on the result of the one before. *)
Theorem C16_straight_line : forall (L G W T : Type) (f : L -> T -> T) fuel (root : action L G) d
    (w : W) t,
  breakpoint d = None -> breakpoint_id d = 0 ->
  exists s, CCNrun (plain_leaf f) open_gate no_check (S fuel) root (start d w t) = Cont s /\
    node s = fold_left (fun t l => f l t) (leaves root) t /\ calls (log s) = leaves root.
Proof. intros L G W T. exact straight_line. Qed.
Print Assumptions C16_straight_line.

(** C16-C19: with passes and traversals only in cycles, a run is the run that
    PhaseDriverSpec.v describes: same calls in the same order with the same
    trees, gates, cycles, errors, tree checks and breakpoints, same end. *)
Theorem C16_run_is_as_specified : forall (L G W T : Type) leaf_fun gate_fun check_fun fuel
    (root : action L G) d (w : W) (t : T) path,
  plain_gates gate_fun -> keeps_breakpoint leaf_fun ->
  (forall p, path = Some p -> Forall is_name p /\ p <> []) ->
  breakpoint d = option_map dotted path ->
  flat_cycles root = true -> named root ->
  same_end (CCNrun leaf_fun gate_fun check_fun fuel root (start d w t))
           (sem leaf_fun gate_fun check_fun path fuel 1 [] root (sstart d w t)).
Proof. intros L G W T. exact run_refines. Qed.
Print Assumptions C16_run_is_as_specified.

(** C17: cycles of passes and traversals end after at most the maximum number
    of rounds, whatever the user code reports. *)
Theorem C17_flat_cycles_terminate_partial : forall (L G W T : Type) leaf_fun gate_fun check_fun fuel
    (root : action L G) d (w : W) (t : T),
  never_sets_cycles leaf_fun gate_fun -> flat_cycles root = true ->
  (N.to_nat (max_cycles d) < fuel)%nat ->
  forall s, CCNrun leaf_fun gate_fun check_fun fuel root (start d w t) <> Halt HNoFuel s.
Proof. intros L G W T. exact run_terminates. Qed.
Print Assumptions C17_flat_cycles_terminate_partial.

(** C17: a cycle repeats its passes while a round notifies: every round but
    the last notified, and the last one did not, unless the maximum number of
    rounds is reached. *)
Theorem C17_cycle_reaches_fixed_point_partial : forall (L G W T : Type) (f : L -> T -> T) ch fuel n
    (ls : list (cstring * L)) d (w : W) t,
  breakpoint d = None -> breakpoint_id d = 0 -> (N.to_nat (max_cycles d) < fuel)%nat ->
  exists k s,
    CCNrun (fp_leaf f ch) (@open_gate G W) no_check fuel (cycle_of n ls) (start d w t) = Cont s /\
    node s = Nat.iter (S k) (round f (map snd ls)) t /\
    (k = 0%nat \/ N.of_nat (S k) <= max_cycles d) /\
    (forall j, (j < k)%nat -> noisy f ch (map snd ls) (Nat.iter j (round f (map snd ls)) t) = true) /\
    (N.of_nat (S k) < max_cycles d ->
       noisy f ch (map snd ls) (Nat.iter k (round f (map snd ls)) t) = false).
Proof. intros L G W T. exact cycle_fixed_point. Qed.
Print Assumptions C17_cycle_reaches_fixed_point_partial.

(** In general both halves of C17 are false.  A notification before a nested
    phase is lost: the cycle of [lost] runs once although its pass notifies
    every time (100 rounds are promised). *)
Theorem C17_notification_lost_refuted :
  (exists s, CCNrun demo_leaf demo_gate demo_check 200 lost (start driver0 0 tt) = Cont s /\
     world s = 1) /\
  (exists s n p,
     sem demo_leaf demo_gate demo_check None 200 1 [] lost (sstart driver0 0 tt) = SCont s n p /\
     s_world s = 100).
Proof. exact (conj lost_runs_once lost_promised). Qed.
Print Assumptions C17_notification_lost_refuted.

(** A nested phase resets the round counter: the maximum of 100 rounds never
    stops the cycle of [unbounded], however much fuel is given. *)
Theorem C17_max_cycles_refuted : forall fuel w t, exists s,
  CCNrun demo_leaf demo_gate demo_check fuel unbounded (start driver0 w t) = Halt HNoFuel s.
Proof. exact unbounded_never_ends. Qed.
Print Assumptions C17_max_cycles_refuted.

(** C18: after an action that called CCNerrorAction nothing else runs. *)
Theorem C18_action_error_stops : forall (L G W T : Type) leaf_fun gate_fun check_fun fuel
    (root : action L G) d (w : W) (t : T) newer e older,
  log (end_state (CCNrun leaf_fun gate_fun check_fun fuel root (start d w t))) = newer ++ e :: older ->
  made leaf_fun SErrorAction e ->
  newer = [] /\
  exists s, CCNrun leaf_fun gate_fun check_fun fuel root (start d w t) = Halt HActionError s.
Proof. intros L G W T. exact action_error_stops. Qed.
Print Assumptions C18_action_error_stops.

(** C18: after CCNerrorPhase everything that still runs is inside the
    innermost phase around the caller, and the compiler does not finish. *)
Theorem C18_phase_error_stops : forall (L G W T : Type) leaf_fun gate_fun check_fun fuel
    n0 g0 c0 (acts0 : list (action L G)) d (w : W) (t : T) newer e older,
  let root := APhase n0 g0 c0 acts0 in
  log (end_state (CCNrun leaf_fun gate_fun check_fun fuel root (start d w t))) = newer ++ e :: older ->
  made leaf_fun SErrorPhase e ->
  not_cont (CCNrun leaf_fun gate_fun check_fun fuel root (start d w t)) /\
  exists j n g c acts, 1 <= j /\
    nth_error (preorder root) (N.to_nat (j - 1)) = Some (APhase n g c acts) /\
    direct acts j e /\
    Forall (fun e' => j < ev_id e' < j + size (APhase n g c acts)) newer.
Proof. intros L G W T. exact phase_error_stops. Qed.
Print Assumptions C18_phase_error_stops.

(** C19: breakpoints, by path and by number, are part of the specification
    [sem]; the compiler stops after the first action that [stops_at] selects
    or whose number is the breakpoint number. *)
Theorem C19_breakpoints_as_specified_partial : forall (L G W T : Type) leaf_fun gate_fun check_fun fuel
    (root : action L G) d (w : W) (t : T) p,
  plain_gates gate_fun -> keeps_breakpoint leaf_fun ->
  Forall is_name p -> p <> [] -> breakpoint d = Some (dotted p) ->
  flat_cycles root = true -> named root ->
  same_end (CCNrun leaf_fun gate_fun check_fun fuel root (start d w t))
           (sem leaf_fun gate_fun check_fun (Some p) fuel 1 [] root (sstart d w t)).
Proof.
  intros L G W T lf gf cf fuel root d w t p Hg Hk Hp Hne Hb Hf Hn.
  exact (run_refines lf gf cf fuel root d w t (Some p) Hg Hk
           (fun q E => match E in _ = o return match o with Some q' => Forall is_name q' /\ q' <> [] | None => True end
                       with eq_refl => conj Hp Hne end) Hb Hf Hn).
Qed.
Print Assumptions C19_breakpoints_as_specified_partial.

(** The path is matched with gaps: "root.a.b" stops at root.a.c.b, number 4,
    although root.a.b is number 5. *)
Theorem C19_exact_path_refuted :
  exists s, CCNrun demo_leaf demo_gate demo_check 5 deeper
      (start (set_breakpoint (Some (name "root.a.b")) driver0) 0 tt) = Halt HBreakpoint s /\
    log s = [EvRun 4 false 0 tt].
Proof. exact deeper_witness. Qed.
Print Assumptions C19_exact_path_refuted.

(** The hypotheses hold for a compiler with a skipped phase, a cycle that runs
    twice, and nested phases. *)
Example hypotheses_met : forall last, plain_gates ex_gate /\ keeps_breakpoint ex_leaf /\
  never_sets_cycles ex_leaf ex_gate /\ flat_cycles (ex_root last) = true /\ named (ex_root last).
Proof. exact ex_hyps. Qed.
Example run_example : exists s,
  CCNrun ex_leaf ex_gate ex_check 200 (ex_root 0) (start driver0 0 []) = Cont s /\
  rev (node s) = [2; 7; 8; 7; 8; 10; 11; 12].
Proof. exact ex_run. Qed.
Example phase_error_example : exists s,
  CCNrun ex_leaf ex_gate ex_check 200 (ex_root 3) (start driver0 0 []) = Halt HPhaseError s /\
  rev (node s) = [2; 7; 8; 7; 8; 10; 11].
Proof. exact ex_run_perr. Qed.
Example action_error_example : exists s,
  CCNrun ex_leaf ex_gate ex_check 200 (ex_root 2) (start driver0 0 []) = Halt HActionError s /\
  rev (node s) = [2; 7; 8; 7; 8; 10].
Proof. exact ex_run_aerr. Qed.
Example breakpoint_example : exists s,
  CCNrun ex_leaf ex_gate ex_check 200 (ex_root 0)
    (start (set_breakpoint (Some (name "root.OPT.fold")) driver0) 0 []) = Halt HBreakpoint s /\
  rev (node s) = [2; 7].
Proof. exact ex_run_break. Qed.
Example breakpoint_id_example : exists s,
  CCNrun ex_leaf ex_gate ex_check 200 (ex_root 0)
    (start (set_breakpoint_id 6 driver0) 0 []) = Halt HBreakpoint s /\
  rev (node s) = [2; 7; 8; 7; 8].
Proof. exact ex_run_break_id. Qed.
