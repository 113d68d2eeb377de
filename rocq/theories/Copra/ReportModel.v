(** Model of what copra/src/phase_driver.c prints: the report of a run
    ([CCNsetVerbosity], on stderr) and the structure of a compiler
    ([CCNshowTree], on stdout).

    [vdispatch] is [dispatch] of PhaseDriverModel.v with the lines printed,
    oldest first.  The verbosity is set before the run and not changed in it
    (user code could call [CCNsetVerbosity] at any time).  What user code, the
    check traversal and ctinfo.c print is left out. *)

From Coq Require Import List NArith ZArith Bool Ascii String DecimalString.
From Verif Require Import Base.Outcome Palm.StrModel Copra.PhaseDriverModel.
Import ListNotations.
Local Open Scope N_scope.
Local Open Scope list_scope.

(** A line on stderr. *)
Inductive line : Type :=
| LEnter (n : cstring)     (* phase_driver.c:69 ">> %s\n" *)
| LRun (n : cstring)       (* phase_driver.c:72 "  *** %s\n" *)
| LLeave (n : cstring)     (* phase_driver.c:119 "<< %s\n" *)
| LSkip (n : cstring)      (* phase_driver.c:173 "[coconut] Skipping phase %s because ...\n" *)
| LActionError             (* phase_driver.c:103 "[coconut] Action error received. Stopping...\n" *)
| LPhaseError              (* phase_driver.c:211 "[coconut] Phase error received. Stopping...\n" *)
| LBadBreak.               (* phase_driver.c:161 "[coconut] breakpoint string is invalid.\n" *)

Section Report.
  Context {L G W T : Type}.
  Variable leaf_fun : L -> N -> W -> T -> option (W * T * list signal).
  Variable gate_fun : G -> N -> W -> option (bool * W * list signal).
  Variable check_fun : N -> T -> N.
  (** [phase_driver.verbosity]: 0 quiet, 1 small, 2 medium, 3 high
      (phase_driver.h:7-12) *)
  Variable verbosity : N.
  Notation state := (state L G W T).
  Notation result := (result L G W T).

  Definition told : Type := list line * result.
  Definition tell (ls : list line) (r : told) : told := (ls ++ fst r, snd r).
  Definition vthen (r : told) (f : state -> told) : told :=
    match snd r with
    | Cont s => tell (fst r) (f s)
    | Halt h s => (fst r, Halt h s)
    end.
  Definition quietly (r : result) : told := ([], r).
  (** [if (phase_driver.verbosity > v) fprintf(...)] *)
  Definition above (v : N) (l : line) : list line := if v <? verbosity then [l] else [].

  (** phase_driver.c:68-74 *)
  Definition announce (a : action L G) : list line :=
    match a with
    | APhase n _ _ _ => if 0 <? verbosity then [LEnter n] else above 1 (LRun n)
    | ALeaf n _ => above 1 (LRun n)
    end.

  (** phase_driver.c:101-120 *)
  Definition vafter (a : action L G) (start_id : N) (s : state) : told :=
    match after_action (action_name a) start_id s with
    | Halt HActionError s' => (above 0 LActionError, Halt HActionError s')
    | Cont s' => (match a with APhase n _ _ _ => above 0 (LLeave n) | ALeaf _ _ => [] end, Cont s')
    | r => quietly r
    end.

  (** phase_driver.c:194-207 *)
  Fixpoint vdo_while (fuel : nat) (cycle : bool) (curr : N) (body : state -> told)
           (s : state) : told :=
    match fuel with
    | O => quietly (Halt HNoFuel s)
    | S fuel' =>
        let s1 := with_drv (fun d => set_action_id curr (set_fixed_point true d)) s in
        vthen (body s1) (fun s2 =>
          let s3 := with_drv (fun d => set_cycle_iter (cycle_iter d + 1) d) s2 in
          if cycle && (cycle_iter (drv s3) <? max_cycles (drv s3))
             && negb (fixed_point (drv s3))
          then vdo_while fuel' cycle curr body s3
          else quietly (Cont s3))
    end.

  (** phase_driver.c:171-177 *)
  Definition vask_gate (n : cstring) (g : option G) (s : state) (enter : state -> told)
             (skip : state -> result) : told :=
    match g with
    | None => enter s
    | Some g =>
        match gate_fun g (action_id (drv s)) (world s) with
        | None => quietly (Halt HUser s)
        | Some (b, w, xs) =>
            let s1 := apply_signals
                        (mk_state (drv s) w (node s) (errors s)
                                  (EvGate (action_id (drv s)) g b :: log s)) xs in
            if b then enter s1 else tell (above 2 (LSkip n)) (quietly (skip s1))
        end
    end.

  (** phase_driver.c:158-164: the name is followed by a dot and nothing else. *)
  Definition bad_break (name : cstring) (bp : option cstring) : list line :=
    match bp with
    | None => []
    | Some bp =>
        match break_prefix name bp with
        | Val (Some [c]) => if Ascii.eqb c dot then [LBadBreak] else []
        | _ => []
        end
    end.

  (** phase_driver.c:179-223 *)
  Definition venter_phase (fuel : nat) (name : cstring) (cycle : bool)
             (body : state -> told) (s : state) : told :=
    match (match breakpoint (drv s) with
           | None => Val None
           | Some bp => Checkbreakpoint name bp
           end) with
    | Val nb =>
        let old := breakpoint (drv s) in
        let s1 := match nb with
                  | None => s
                  | Some b => with_drv (set_breakpoint (Some b)) s
                  end in
        tell (bad_break name old)
        (vthen (vdo_while fuel cycle (action_id (drv s1)) body s1) (fun s2 =>
          if phase_error (drv s2) then (above 0 LPhaseError, Halt HPhaseError s2)
          else
            let s3 := with_drv (set_cycle_iter 0) s2 in
            quietly (Cont (match nb with
                  | None => s3
                  | Some _ => with_drv (set_breakpoint old) s3
                  end))))
    | _ => quietly (Halt HUndef s)
    end.

  (** phase_driver.c:62-125 *)
  Fixpoint vdispatch (fuel : nat) (a : action L G) (s : state) : told :=
    let s1 := with_drv (fun d => set_action_id (action_id d + 1) d) s in
    let start_id := action_id (drv s1) in
    tell (announce a)
    (vthen (quietly (run_check check_fun s1)) (fun s2 =>
    vthen
      (match a with
       | ALeaf _ l => quietly (run_leaf leaf_fun l s2)
       | APhase name g cycle acts =>
           let outer := phase_error (drv s2) in
           let body :=
             (fix body (l : list (action L G)) (s : state) : told :=
                match l with
                | [] => quietly (Cont s)
                | b :: l' => vthen (vdispatch fuel b s) (body l')
                end) acts in
           vthen
             (vask_gate name g (with_drv (set_phase_error false) s2)
                (venter_phase fuel name cycle body)
                (fun s3 => Cont (with_drv (fun d =>
                                   set_action_id (action_id d + skip_count a) d) s3)))
             (fun s4 => quietly (Cont (with_drv (fun d =>
                                set_phase_error (outer || phase_error d) d) s4)))
       end)
      (vafter a start_id))).

  (** phase_driver.c:298-303 *)
  Definition vrun (fuel : nat) (root : action L G) (s : state) : told :=
    vdispatch fuel root (with_drv reset_driver s).
End Report.

(** ** The structure *)

Definition tab : ascii := ascii_of_N 9.
Definition newline : ascii := ascii_of_N 10.
Definition digits (n : N) : cstring := list_ascii_of_string (NilEmpty.string_of_uint (N.to_uint n)).

Section Structure.
  Context {L G : Type}.

  (** phase_driver.c:310-334 [ShowTree]: the characters printed and the id
      returned. *)
  Fixpoint show_tree (a : action L G) (id : N) (indent : Z) : cstring * N :=
    let first :=
      if 1 <? id then
        repeat tab (Z.to_nat indent) ++ digits id ++ list_ascii_of_string ": " ++ action_name a ++ [newline]
      else [] in
    match a with
    | ALeaf _ _ => (first, id + 1)
    | APhase _ _ _ acts =>
        let (text, id') :=
          (fix go (l : list (action L G)) (id : N) : cstring * N :=
             match l with
             | [] => ([], id)
             | b :: l' => let (x, i1) := show_tree b id (indent + 1)%Z in
                          let (y, i2) := go l' i1 in (x ++ y, i2)
             end) acts (id + 1) in
        (first ++ text ++ [newline], id')
    end.

  (** phase_driver.c:339-342 *)
  Definition structure (root : action L G) : cstring := fst (show_tree root 1 (-1)%Z).
End Structure.
