(** C65: what a compiler prints about its structure and progress is true. *)

From Coq Require Import List NArith ZArith Bool Ascii String.
From Verif Require Import Base.Outcome Palm.StrModel
  Copra.PhaseDriverModel Copra.PhaseDriverSpec Copra.PhaseDriverProof Copra.PhaseDriverMore Copra.PhaseDriverInst
  Copra.ReportModel Copra.ReportSpec Copra.ReportProof Copra.ReportStructure Copra.ReportInst.
Import ListNotations.
Local Open Scope N_scope.
Local Open Scope list_scope.

(** The verbosity changes nothing but what is printed. *)
Theorem C65_verbosity_invisible : forall (L G W T : Type) leaf_fun gate_fun check_fun v fuel
    (root : action L G) (s : state L G W T),
  snd (vrun leaf_fun gate_fun check_fun v fuel root s) = CCNrun leaf_fun gate_fun check_fun fuel root s.
Proof. intros L G W T. exact verbosity_invisible. Qed.
Print Assumptions C65_verbosity_invisible.

(** A run that came to its end: there is one account of all actions in their
    order of which the lines are what was printed and the calls are what was
    called. *)
Theorem C65_report : forall (L G W T : Type) leaf_fun gate_fun check_fun v fuel
    (root : action L G) d (w : W) (t : T) s',
  snd (vrun leaf_fun gate_fun check_fun v fuel root (start d w t)) = Cont s' ->
  exists h, reports v 1 root h /\
    fst (vrun leaf_fun gate_fun check_fun v fuel root (start d w t)) = lines_of h /\
    rev (log s') = events_of h.
Proof. intros L G W T. exact run_report. Qed.
Print Assumptions C65_report.

(** A run that stopped: a beginning of such an account, followed by the
    message for the reason; with verbosity 2 or 3 the last line names the
    action of which the tree was refused or the code ended the process. *)
Theorem C65_report_stopped : forall (L G W T : Type) leaf_fun gate_fun check_fun v fuel
    (root : action L G) d (w : W) (t : T) why s',
  snd (vrun leaf_fun gate_fun check_fun v fuel root (start d w t)) = Halt why s' ->
  exists h rest, reports v 1 root (h ++ rest) /\
    fst (vrun leaf_fun gate_fun check_fun v fuel root (start d w t)) = lines_of h ++ farewell v why /\
    rev (log s') = events_of h /\ (2 <= v -> ends_in why h).
Proof. intros L G W T. exact run_report_stopped. Qed.
Print Assumptions C65_report_stopped.

(** A quiet compiler prints nothing about its progress, except the warning
    about a breakpoint that ends in a dot. *)
Theorem C65_quiet : forall (L G W T : Type) leaf_fun gate_fun check_fun fuel
    (root : action L G) d (w : W) (t : T) l,
  In l (fst (vrun leaf_fun gate_fun check_fun 0 fuel root (start d w t))) -> l = LBadBreak.
Proof. intros L G W T. exact quiet_run. Qed.
Print Assumptions C65_quiet.

(** The structure: a reader who takes each line that is not empty as a number
    of tabs, a number and a name gets the contents of the root phase, indented
    by depth and numbered from 2. *)
Theorem C65_structure : forall (L G : Type) n (g : option G) c (acts : list (action L G)),
  (forall a, In a (preorder (APhase n g c acts)) -> ~ In newline (action_name a)) ->
  read_structure (structure (APhase n g c acts)) = Some (numbered 2 (contents (APhase n g c acts))).
Proof. intros L G. exact structure_read. Qed.
Print Assumptions C65_structure.

(** The numbers in it are the numbers user code gets: a call with number [i]
    is a call of the action with the name printed beside [i]. *)
Theorem C65_numbers : forall (L G W T : Type) leaf_fun gate_fun check_fun fuel
    (root : action L G) d (w : W) (t : T) e,
  In e (log (end_state (CCNrun leaf_fun gate_fun check_fun fuel root (start d w t)))) -> 2 <= ev_id e ->
  exists depth n, In (depth, ev_id e, n) (numbered 2 (contents root)) /\
    match e with
    | EvRun i l _ _ => nth_error (preorder root) (N.to_nat (i - 1)) = Some (ALeaf n l)
    | EvGate i g _ => exists c acts, nth_error (preorder root) (N.to_nat (i - 1)) = Some (APhase n (Some g) c acts)
    end.
Proof. intros L G W T. exact event_in_structure. Qed.
Print Assumptions C65_numbers.

(** A run to the end with verbosity 3 and one that stops with verbosity 1. *)
Example report_example : ex_report 3 0 =
  [LEnter (name "Root"); LRun (name "scan");
   LEnter (name "Skipped"); LSkip (name "Skipped"); LLeave (name "Skipped");
   LEnter (name "Opt"); LRun (name "fold"); LRun (name "prop"); LRun (name "fold"); LRun (name "prop"); LLeave (name "Opt");
   LEnter (name "End"); LRun (name "emit"); LRun (name "done"); LLeave (name "End");
   LRun (name "print"); LLeave (name "Root")].
Proof. exact ex_report_3. Qed.
Example stopped_example : ex_report 1 2 =
  [LEnter (name "Root"); LEnter (name "Skipped"); LLeave (name "Skipped"); LEnter (name "Opt"); LLeave (name "Opt");
   LEnter (name "End"); LActionError].
Proof. exact ex_report_1. Qed.
Example structure_example : structure (ex_root 0) = name
  ("2: scan" ++ nl ++ "3: Skipped" ++ nl ++ tb ++ "4: dead" ++ nl ++ tb ++ "5: dead2" ++ nl ++ nl ++
   "6: Opt" ++ nl ++ tb ++ "7: fold" ++ nl ++ tb ++ "8: prop" ++ nl ++ nl ++
   "9: End" ++ nl ++ tb ++ "10: emit" ++ nl ++ tb ++ "11: done" ++ nl ++ nl ++
   "12: print" ++ nl ++ nl)%string.
Proof. exact ex_structure. Qed.
Example structure_hypothesis : forall last a, In a (preorder (ex_root last)) -> ~ In newline (action_name a).
Proof. exact ex_one_line. Qed.
