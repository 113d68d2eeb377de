(** What the manual promises about running a compiler, without counters and
    global flags.  [sem] runs one action: it is given the action's number in
    the static preorder numbering and the names of the phases around it. *)

From Coq Require Import List NArith Bool Ascii.
From Verif Require Import Palm.StrModel Copra.PhaseDriverModel.
Import ListNotations.
Local Open Scope N_scope.

(** ** Static structure *)
Section Static.
  Context {L G : Type}.

  (** All actions of a compiler, each phase before its contents. *)
  Fixpoint preorder (a : action L G) : list (action L G) :=
    a :: match a with
         | ALeaf _ _ => []
         | APhase _ _ _ acts => flat_map preorder acts
         end.

  (** Number of actions in an action, itself included. *)
  Definition size (a : action L G) : N := N.of_nat (length (preorder a)).

  Definition is_leaf (a : action L G) : bool :=
    match a with ALeaf _ _ => true | APhase _ _ _ _ => false end.

  (** Cycles contain passes and traversals only. *)
  Fixpoint flat_cycles (a : action L G) : bool :=
    match a with
    | ALeaf _ _ => true
    | APhase _ _ cycle acts =>
        (if cycle then forallb is_leaf acts else true) && forallb flat_cycles acts
    end.
End Static.

(** ** Names *)

Definition lower (c : ascii) : ascii :=
  let n := N_of_ascii c in
  if (65 <=? n) && (n <=? 90) then ascii_of_N (n + 32) else c.

(** Names are compared ignoring case. *)
Definition same_name (a b : cstring) : bool :=
  if list_eq_dec Ascii.ascii_dec (map lower a) (map lower b) then true else false.

(** A name: non-empty, 7-bit characters, no dot. *)
Definition is_name (s : cstring) : Prop :=
  s <> [] /\ Forall (fun c => N_of_ascii c < 128 /\ c <> "."%char) s.

(** The breakpoint string for a path of names. *)
Fixpoint dotted (p : list cstring) : cstring :=
  match p with
  | [] => []
  | [n] => n
  | n :: p' => n ++ "."%char :: dotted p'
  end.

(** [path] occurs in [names] in this order, possibly with gaps. *)
Fixpoint occurs_in (path names : list cstring) : bool :=
  match path, names with
  | [], _ => true
  | _, [] => false
  | p :: path', n :: names' =>
      if same_name p n then occurs_in path' names' else occurs_in path names'
  end.

(** The breakpoint [path] stops the compiler at the action [name] inside the
    phases [around] (outermost first). *)
Definition stops_at (path : option (list cstring)) (around : list cstring) (name : cstring) : bool :=
  match path with
  | None => false
  | Some p => same_name (last p []) name && occurs_in (removelast p) around
  end.

(** ** Running *)
Section Sem.
  Context {L G W T : Type}.
  Variable leaf_fun : L -> N -> W -> T -> option (W * T * list signal).
  Variable gate_fun : G -> N -> W -> option (bool * W * list signal).
  Variable check_fun : N -> T -> N.
  Variable path : option (list cstring).   (* CCNsetBreakpoint *)

  Record sstate : Type := mk_sstate {
    s_world : W;
    s_node : T;
    s_errors : N;
    s_log : list (event L G W T);
    s_max : N;       (* CCNsetCycles *)
    s_check : bool;  (* CCNsetTreeCheck *)
    s_break : N      (* CCNsetBreakpointWithID, 0: none *)
  }.

  (** An action ended normally; did it (or something in it) call
      CCNcycleNotify, is a CCNerrorPhase of it still to be acted upon? *)
  Inductive sresult : Type :=
  | SCont (s : sstate) (notified perror : bool)
  | SHalt (h : halt) (s : sstate).

  Definition is_notify x := match x with SNotify => true | _ => false end.
  Definition is_aerror x := match x with SErrorAction => true | _ => false end.
  Definition is_perror x := match x with SErrorPhase => true | _ => false end.

  (** Settings and error counter after a list of calls. *)
  Definition settings (s : sstate) (x : signal) : sstate :=
    match x with
    | SSetCycles n => mk_sstate (s_world s) (s_node s) (s_errors s) (s_log s) n (s_check s) (s_break s)
    | SSetCheck b => mk_sstate (s_world s) (s_node s) (s_errors s) (s_log s) (s_max s) b (s_break s)
    | SSetBreakId n => mk_sstate (s_world s) (s_node s) (s_errors s) (s_log s) (s_max s) (s_check s) n
    | SError => mk_sstate (s_world s) (s_node s) (s_errors s + 1) (s_log s) (s_max s) (s_check s) (s_break s)
    | _ => s
    end.

  Definition logged (e : event L G W T) (s : sstate) : sstate :=
    mk_sstate (s_world s) (s_node s) (s_errors s) (e :: s_log s) (s_max s) (s_check s) (s_break s).

  Definition results (w : W) (t : T) (s : sstate) : sstate :=
    mk_sstate w t (s_errors s) (s_log s) (s_max s) (s_check s) (s_break s).

  (** The breakpoints are looked at when an action has ended. *)
  Definition finish (id : N) (around : list cstring) (name : cstring)
             (s : sstate) (notified perror : bool) : sresult :=
    if stops_at path around name || ((0 <? s_break s) && (s_break s =? id))
    then SHalt HBreakpoint s
    else SCont s notified perror.

  Definition sem_leaf (id : N) (around : list cstring) (name : cstring) (l : L)
             (s : sstate) : sresult :=
    let s1 := logged (EvRun id l (s_world s) (s_node s)) s in
    match leaf_fun l id (s_world s) (s_node s) with
    | None => SHalt HUser s1
    | Some (w, t, calls) =>
        let s2 := fold_left settings calls (results w t s1) in
        if existsb is_aerror calls then SHalt HActionError s2
        else finish id around name s2 (existsb is_notify calls) (existsb is_perror calls)
    end.

  (** Repeat [round] while it notified and fewer than the maximum number of
      rounds are done; then a phase error of any round stops the compiler. *)
  Fixpoint rounds (fuel : nat) (cycle : bool) (round : sstate -> sresult)
           (n : N) (failed : bool) (s : sstate) : sresult :=
    match fuel with
    | O => SHalt HNoFuel s
    | S fuel' =>
        match round s with
        | SHalt h s' => SHalt h s'
        | SCont s' notified perror =>
            if cycle && notified && (n + 1 <? s_max s')
            then rounds fuel' cycle round (n + 1) (failed || perror) s'
            else if failed || perror then SHalt HPhaseError s'
                 else SCont s' notified false
        end
    end.

  (** The tree is checked before every action. *)
  Definition checked (id : N) (s : sstate) (k : sstate -> sresult) : sresult :=
    if s_check s then
      let n := check_fun id (s_node s) in
      let s1 := mk_sstate (s_world s) (s_node s) (s_errors s + n) (s_log s)
                          (s_max s) (s_check s) (s_break s) in
      if n =? 0 then k s1 else SHalt HCheckFailed s1
    else k s.

  Fixpoint sem (fuel : nat) (id : N) (around : list cstring) (a : action L G)
           (s : sstate) : sresult :=
    checked id s (fun s =>
      match a with
      | ALeaf name l => sem_leaf id around name l s
      | APhase name g cycle acts =>
          let inside := around ++ [name] in
          let round :=
            (fix seq (id : N) (l : list (action L G)) (notified perror : bool)
                 (s : sstate) : sresult :=
               match l with
               | [] => SCont s notified perror
               | b :: l' =>
                   match sem fuel id inside b s with
                   | SHalt h s' => SHalt h s'
                   | SCont s' n p => seq (id + size b) l' (notified || n) (perror || p) s'
                   end
               end) (id + 1) acts false false in
          let enter := fun s =>
            match rounds fuel cycle round 0 false s with
            | SHalt h s' => SHalt h s'
            | SCont s' n p => finish id around name s' n p
            end in
          match g with
          | None => enter s
          | Some g =>
              match gate_fun g id (s_world s) with
              | None => SHalt HUser s
              | Some (b, w, _) =>
                  let s' := logged (EvGate id g b) (results w (s_node s) s) in
                  if b then enter s' else finish id around name s' false false
              end
          end
      end).
End Sem.
Arguments sstate : clear implicits.
Arguments sresult : clear implicits.

(** What a user sees of a state of the process, and of how it ended. *)
Section View.
  Context {L G W T : Type}.

  Definition sees (s : state L G W T) (s' : sstate L G W T) : Prop :=
    world s = s_world s' /\ node s = s_node s' /\ errors s = s_errors s' /\ log s = s_log s'.

  Definition same_end (r : result L G W T) (r' : sresult L G W T) : Prop :=
    match r, r' with
    | Cont s, SCont s' _ _ => sees s s'
    | Halt h s, SHalt h' s' => h = h' /\ sees s s'
    | _, _ => False
    end.

  (** Gates only decide; user code leaves the breakpoint string alone. *)
  Definition plain_gates (gate_fun : G -> N -> W -> option (bool * W * list signal)) : Prop :=
    forall g i w b w' xs, gate_fun g i w = Some (b, w', xs) -> xs = [].
  Definition keeps_breakpoint (leaf_fun : L -> N -> W -> T -> option (W * T * list signal)) : Prop :=
    forall l i w t w' t' xs b, leaf_fun l i w t = Some (w', t', xs) -> ~ In (SSetBreak b) xs.

  (** The state of the driver when CCNrun is called. *)
  Definition start (d : driver) (w : W) (t : T) : state L G W T :=
    mk_state d w t 0 [].
  Definition sstart (d : driver) (w : W) (t : T) : sstate L G W T :=
    mk_sstate w t 0 [] (max_cycles d) (tree_check d) (breakpoint_id d).
End View.
