(** Model of copra/src/phase_driver.c.

    The action tables ([CCNgetActionFromID], the [action_table] of a phase)
    are unfolded into a finite tree [action]; a phase that contains itself has
    no such tree, and cocogen does not generate a compiler with one (C56).
    User code is arbitrary: a pass or traversal is a function of the current
    action id, the user's global state [W] and the syntax tree [T]; it returns
    the new ones and the list of framework calls it made ([signal]), or
    [None] when it ends the process itself.
    Not modelled: [verbosity] and the messages it prints, [level] and
    [current_phase] (never read by the driver), [root_type]/[is_root] (unused
    parameters).  Counters do not wrap around. *)

From Coq Require Import List NArith Bool Ascii.
From Verif Require Import Base.Outcome Palm.StrModel.
Import ListNotations.
Local Open Scope N_scope.

(** ccn/action_types.h: passes and traversals ([ALeaf]) and phases; [L]
    identifies the user's function, [G] the gate function. *)
Inductive action (L G : Type) : Type :=
| ALeaf (name : cstring) (l : L)
| APhase (name : cstring) (gate : option G) (is_cycle : bool) (acts : list (action L G)).
Arguments ALeaf {L G} name l.
Arguments APhase {L G} name gate is_cycle acts.

Definition action_name {L G} (a : action L G) : cstring :=
  match a with ALeaf n _ => n | APhase n _ _ _ => n end.

(** Calls of user code into the framework: phase_driver.c:229 CCNcycleNotify,
    238 CCNerrorAction, 247 CCNerrorPhase, 256 CCNsetCycles, 266
    CCNsetBreakpoint, 271 CCNsetBreakpointWithID, 289 CCNsetTreeCheck, and
    CTI(CTI_ERROR, ...) of palm/src/ctinfo.c. *)
Inductive signal : Type :=
| SNotify
| SErrorAction
| SErrorPhase
| SSetCycles (n : N)
| SSetBreak (b : option cstring)
| SSetBreakId (n : N)
| SSetCheck (b : bool)
| SError.

(** phase_driver.c:17-30 [struct phase_driver] *)
Record driver : Type := mk_driver {
  action_id : N;
  cycle_iter : N;
  max_cycles : N;
  breakpoint_id : N;
  fixed_point : bool;
  action_error : bool;
  phase_error : bool;
  tree_check : bool;
  breakpoint : option cstring
}.

(** phase_driver.c:32-45 *)
Definition driver0 : driver := mk_driver 0 0 100 0 false false false true None.

Definition set_action_id v d := mk_driver v (cycle_iter d) (max_cycles d) (breakpoint_id d)
  (fixed_point d) (action_error d) (phase_error d) (tree_check d) (breakpoint d).
Definition set_cycle_iter v d := mk_driver (action_id d) v (max_cycles d) (breakpoint_id d)
  (fixed_point d) (action_error d) (phase_error d) (tree_check d) (breakpoint d).
Definition set_max_cycles v d := mk_driver (action_id d) (cycle_iter d) v (breakpoint_id d)
  (fixed_point d) (action_error d) (phase_error d) (tree_check d) (breakpoint d).
Definition set_breakpoint_id v d := mk_driver (action_id d) (cycle_iter d) (max_cycles d) v
  (fixed_point d) (action_error d) (phase_error d) (tree_check d) (breakpoint d).
Definition set_fixed_point v d := mk_driver (action_id d) (cycle_iter d) (max_cycles d)
  (breakpoint_id d) v (action_error d) (phase_error d) (tree_check d) (breakpoint d).
Definition set_action_error v d := mk_driver (action_id d) (cycle_iter d) (max_cycles d)
  (breakpoint_id d) (fixed_point d) v (phase_error d) (tree_check d) (breakpoint d).
Definition set_phase_error v d := mk_driver (action_id d) (cycle_iter d) (max_cycles d)
  (breakpoint_id d) (fixed_point d) (action_error d) v (tree_check d) (breakpoint d).
Definition set_tree_check v d := mk_driver (action_id d) (cycle_iter d) (max_cycles d)
  (breakpoint_id d) (fixed_point d) (action_error d) (phase_error d) v (breakpoint d).
Definition set_breakpoint v d := mk_driver (action_id d) (cycle_iter d) (max_cycles d)
  (breakpoint_id d) (fixed_point d) (action_error d) (phase_error d) (tree_check d) v.

(** phase_driver.c:47-56 [resetPhaseDriver]: the settings are kept. *)
Definition reset_driver (d : driver) : driver :=
  mk_driver 0 0 (max_cycles d) (breakpoint_id d) false false false (tree_check d) (breakpoint d).

(** What the process did, oldest last (ghost state, for the theorems): the
    user function [l] was called while [CCNgetCurrentActionId() = id], with
    the user's state [w], on tree [t]; a gate was asked and answered [b]. *)
Inductive event (L G W T : Type) : Type :=
| EvRun (id : N) (l : L) (w : W) (t : T)
| EvGate (id : N) (g : G) (b : bool).
Arguments EvRun {L G W T} id l w t.
Arguments EvGate {L G W T} id g b.

Inductive halt : Type :=
| HCheckFailed    (* tree check reported errors: CTIabortOnError, line 80 *)
| HActionError    (* CTIabortCompilation, line 105 *)
| HPhaseError     (* CTIabortCompilation, line 213 *)
| HBreakpoint     (* BreakpointHandler(node); exit(0), lines 110-111, 115-116 *)
| HUser           (* user code ended the process *)
| HUndef          (* undefined behaviour *)
| HNoFuel.        (* fuel of the model *)

Section Model.
  Context {L G W T : Type}.

  Record state : Type := mk_state {
    drv : driver;
    world : W;
    node : T;
    errors : N;        (* CTIgetErrors() *)
    log : list (event L G W T)
  }.

  Definition with_drv (f : driver -> driver) (s : state) : state :=
    mk_state (f (drv s)) (world s) (node s) (errors s) (log s).

  (** Result of running a piece of the driver: it goes on, or the process
      ended in the given state. *)
  Inductive result : Type :=
  | Cont (s : state)
  | Halt (h : halt) (s : state).

  Definition andthen (r : result) (f : state -> result) : result :=
    match r with Cont s => f s | Halt h s => Halt h s end.

  (** User code (oracles). *)
  Variable leaf_fun : L -> N -> W -> T -> option (W * T * list signal).
  Variable gate_fun : G -> N -> W -> option (bool * W * list signal).
  (** Number of errors the generated check traversal reports for a tree at an
      action id (gen_check_traversal.c; it does not change the tree). *)
  Variable check_fun : N -> T -> N.

  Definition apply_signal (s : state) (x : signal) : state :=
    match x with
    | SNotify => with_drv (set_fixed_point false) s
    | SErrorAction => with_drv (set_action_error true) s
    | SErrorPhase => with_drv (set_phase_error true) s
    | SSetCycles n => with_drv (set_max_cycles n) s
    | SSetBreak b => with_drv (set_breakpoint b) s
    | SSetBreakId n => with_drv (set_breakpoint_id n) s
    | SSetCheck b => with_drv (set_tree_check b) s
    | SError => mk_state (drv s) (world s) (node s) (errors s + 1) (log s)
    end.

  Definition apply_signals (s : state) (xs : list signal) : state :=
    fold_left apply_signal xs s.

  (** phase_driver.c:86-91: [PASSstart]/[TRAVstart] of the user's function *)
  Definition run_leaf (l : L) (s : state) : result :=
    let s1 := mk_state (drv s) (world s) (node s) (errors s)
                       (EvRun (action_id (drv s)) l (world s) (node s) :: log s) in
    match leaf_fun l (action_id (drv s)) (world s) (node s) with
    | None => Halt HUser s1
    | Some (w, t, xs) =>
        Cont (apply_signals (mk_state (drv s1) w t (errors s1) (log s1)) xs)
    end.

  (** phase_driver.c:76-82 *)
  Definition run_check (s : state) : result :=
    if tree_check (drv s) then
      let n := check_fun (action_id (drv s)) (node s) in
      let s1 := mk_state (drv s) (world s) (node s) (errors s + n) (log s) in
      if n =? 0 then Cont s1 else Halt HCheckFailed s1
    else Cont s.

  (** phase_driver.c:128-142 [SkipPhase] *)
  Fixpoint skip_count (a : action L G) : N :=
    match a with
    | ALeaf _ _ => 0
    | APhase _ _ _ acts => fold_right (fun b n => 1 + skip_count b + n) 0 acts
    end.

  (** phase_driver.c:144-168 [Checkbreakpoint]: the loop on lines 147-154.
      [Some rest]: [name] is a case-insensitive prefix, [rest] follows it. *)
  Fixpoint break_prefix (name bp : cstring) : outcome (option cstring) :=
    match name, bp with
    | [], _ => Val (Some bp)
    | _ :: _, [] => Val None
    | c :: name', d :: bp' =>
        bind (tolower c) (fun c' => bind (tolower d) (fun d' =>
          if Ascii.eqb c' d' then break_prefix name' bp' else Val None))
    end.

  Definition dot : ascii := "."%char.

  (** lines 156-167 *)
  Definition Checkbreakpoint (name bp : cstring) : outcome (option cstring) :=
    bind (break_prefix name bp) (fun r =>
      match r with
      | Some (c :: rest) =>
          if Ascii.eqb c dot then
            match rest with [] => Val None | _ => Val (Some rest) end
          else Val None
      | _ => Val None
      end).

  (** phase_driver.c:194-207: the do-while loop of [StartPhase] *)
  Fixpoint do_while (fuel : nat) (cycle : bool) (curr : N) (body : state -> result)
           (s : state) : result :=
    match fuel with
    | O => Halt HNoFuel s
    | S fuel' =>
        let s1 := with_drv (fun d => set_action_id curr (set_fixed_point true d)) s in
        andthen (body s1) (fun s2 =>
          let s3 := with_drv (fun d => set_cycle_iter (cycle_iter d + 1) d) s2 in
          if cycle && (cycle_iter (drv s3) <? max_cycles (drv s3))
             && negb (fixed_point (drv s3))
          then do_while fuel' cycle curr body s3
          else Cont s3)
    end.

  (** phase_driver.c:171-177: ask the gate; [true] when the phase is entered *)
  Definition ask_gate (g : option G) (s : state) (enter skip : state -> result) : result :=
    match g with
    | None => enter s
    | Some g =>
        match gate_fun g (action_id (drv s)) (world s) with
        | None => Halt HUser s
        | Some (b, w, xs) =>
            let s1 := apply_signals
                        (mk_state (drv s) w (node s) (errors s)
                                  (EvGate (action_id (drv s)) g b :: log s)) xs in
            if b then enter s1 else skip s1
        end
    end.

  (** phase_driver.c:179-223: the rest of [StartPhase], [body] being one pass
      through the action table *)
  Definition enter_phase (fuel : nat) (name : cstring) (cycle : bool)
             (body : state -> result) (s : state) : result :=
    match (match breakpoint (drv s) with
           | None => Val None
           | Some bp => Checkbreakpoint name bp
           end) with
    | Val nb =>
        let old := breakpoint (drv s) in
        let s1 := match nb with
                  | None => s
                  | Some b => with_drv (set_breakpoint (Some b)) s
                  end in
        andthen (do_while fuel cycle (action_id (drv s1)) body s1) (fun s2 =>
          if phase_error (drv s2) then Halt HPhaseError s2
          else
            let s3 := with_drv (set_cycle_iter 0) s2 in
            Cont (match nb with
                  | None => s3
                  | Some _ => with_drv (set_breakpoint old) s3
                  end))
    | _ => Halt HUndef s
    end.

  (** phase_driver.c:101-117: what happens after an action *)
  Definition after_action (name : cstring) (start_id : N) (s : state) : result :=
    if action_error (drv s) then Halt HActionError s
    else
      match (match breakpoint (drv s) with
             | None => Val false
             | Some bp => STReqci (Some bp) (Some name)
             end) with
      | Val hit =>
          if hit then Halt HBreakpoint s
          else if (0 <? breakpoint_id (drv s)) && (breakpoint_id (drv s) =? start_id)
               then Halt HBreakpoint s
               else Cont s
      | _ => Halt HUndef s
      end.

  (** phase_driver.c:62-125 [CCNdispatchAction] with [StartPhase] inlined;
      lines 92-97: the phase error flag of the surrounding phase is put aside
      while a nested phase runs. *)
  Fixpoint dispatch (fuel : nat) (a : action L G) (s : state) : result :=
    let s1 := with_drv (fun d => set_action_id (action_id d + 1) d) s in
    let start_id := action_id (drv s1) in
    andthen (run_check s1) (fun s2 =>
    andthen
      (match a with
       | ALeaf _ l => run_leaf l s2
       | APhase name g cycle acts =>
           let outer := phase_error (drv s2) in
           let body :=
             (fix body (l : list (action L G)) (s : state) : result :=
                match l with
                | [] => Cont s
                | b :: l' => andthen (dispatch fuel b s) (body l')
                end) acts in
           andthen
             (ask_gate g (with_drv (set_phase_error false) s2)
                (enter_phase fuel name cycle body)
                (fun s3 => Cont (with_drv (fun d =>
                                   set_action_id (action_id d + skip_count a) d) s3)))
             (fun s4 => Cont (with_drv (fun d =>
                                set_phase_error (outer || phase_error d) d) s4))
       end)
      (after_action (action_name a) start_id)).

  (** phase_driver.c:298-303 [CCNrun] up to the final free traversal *)
  Definition CCNrun (fuel : nat) (root : action L G) (s : state) : result :=
    dispatch fuel root (with_drv reset_driver s).

  (** phase_driver.c:310-334 [ShowTree]: the lines printed (id and name), for
      the ids greater than 1, and the next id. *)
  Fixpoint ShowTree (a : action L G) (id : N) : list (N * cstring) * N :=
    let line := if 1 <? id then [(id, action_name a)] else [] in
    match a with
    | ALeaf _ _ => (line, id + 1)
    | APhase _ _ _ acts =>
        let (ls, id') :=
          (fix go (l : list (action L G)) (id : N) : list (N * cstring) * N :=
             match l with
             | [] => ([], id)
             | b :: l' => let (x, i1) := ShowTree b id in
                          let (y, i2) := go l' i1 in (x ++ y, i2)
             end) acts (id + 1) in
        (line ++ ls, id')
    end.

  (** phase_driver.c:339-342 *)
  Definition CCNshowTree (root : action L G) : list (N * cstring) := fst (ShowTree root 1).
End Model.
Arguments state : clear implicits.
Arguments result : clear implicits.
