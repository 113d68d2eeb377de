(** What the report and the structure of a compiler should say. *)

From Coq Require Import List NArith ZArith Bool Ascii String DecimalString.
From Verif Require Import Palm.StrModel Copra.PhaseDriverModel Copra.PhaseDriverSpec Copra.ReportModel.
Import ListNotations.
Local Open Scope N_scope.
Local Open Scope list_scope.

Section Spec.
  Context {L G W T : Type}.
  Variable v : N.          (* verbosity *)
  Notation event := (event L G W T).

  (** What happens in a run, in order: lines are printed ([inl]), user code is
      called ([inr]). *)
  Definition history : Type := list (line + event).
  Definition lines_of (h : history) : list line := flat_map (fun x => match x with inl l => [l] | inr _ => [] end) h.
  Definition events_of (h : history) : list event := flat_map (fun x => match x with inl _ => [] | inr e => [e] end) h.
  Definition say (b : bool) (l : line) : history := if b then [inl l] else [].

  (** [reports id a h]: [h] is a complete account of action [a], number [id]:
      - a pass or traversal is announced (verbosity 2 and 3) and called once;
      - a phase is opened and closed (verbosity 1 and more); in between, its
        gate said no, which is said with verbosity 3, or its gate, if there is
        one, said yes, and its actions were done in order, once, or at least
        once if the phase is a cycle. *)
  Inductive reports : N -> action L G -> history -> Prop :=
  | rep_leaf id n l w t :
      reports id (ALeaf n l) (say (2 <=? v) (LRun n) ++ [inr (EvRun id l w t)])
  | rep_skipped id n g c acts :
      reports id (APhase n (Some g) c acts)
              (say (1 <=? v) (LEnter n) ++ [inr (EvGate id g false)] ++
               say (3 <=? v) (LSkip n) ++ say (1 <=? v) (LLeave n))
  | rep_phase id n g c acts warning rounds :
      warning = [] \/ warning = [inl LBadBreak] ->
      rounds <> [] -> (c = false -> List.length rounds = 1%nat) ->
      Forall (all_report (id + 1) acts) rounds ->
      reports id (APhase n g c acts)
              (say (1 <=? v) (LEnter n) ++ match g with Some g => [inr (EvGate id g true)] | None => [] end ++
               warning ++ List.concat rounds ++ say (1 <=? v) (LLeave n))
  with all_report : N -> list (action L G) -> history -> Prop :=
  | rep_nil id : all_report id [] []
  | rep_cons id a acts h1 h2 :
      reports id a h1 -> all_report (id + size a) acts h2 -> all_report id (a :: acts) (h1 ++ h2).

  (** The last line if the compiler stopped. *)
  Definition farewell (h : halt) : list line :=
    match h with
    | HActionError => if 1 <=? v then [LActionError] else []
    | HPhaseError => if 1 <=? v then [LPhaseError] else []
    | _ => []
    end.

  (** With verbosity 2 and 3, if the tree is refused the last thing printed is
      the name of the action before which it was checked; if user code ends
      the process, nothing is printed after its name. *)
  Definition ends_in (h : halt) (tr : history) : Prop :=
    match h with
    | HCheckFailed => exists tr0 n, tr = tr0 ++ [inl (LEnter n)] \/ tr = tr0 ++ [inl (LRun n)]
    | HUser => exists tr0, (exists n, tr = tr0 ++ [inl (LEnter n)]) \/
                           (exists n i l w t, tr = tr0 ++ [inl (LRun n); inr (EvRun i l w t)])
    | _ => True
    end.
End Spec.

(** ** The structure *)

Section Structure.
  Context {L G : Type}.
  (** Depth and name of all actions, each phase before its contents. *)
  Fixpoint outline (d : nat) (a : action L G) : list (nat * cstring) :=
    (d, action_name a) ::
    match a with ALeaf _ _ => [] | APhase _ _ _ acts => flat_map (outline (S d)) acts end.
  (** The outline of the actions in the root. *)
  Definition contents (root : action L G) : list (nat * cstring) :=
    match root with ALeaf _ _ => [] | APhase _ _ _ acts => flat_map (outline 0) acts end.
End Structure.

Fixpoint numbered (i : N) (l : list (nat * cstring)) : list (nat * N * cstring) :=
  match l with [] => [] | (d, n) :: l => (d, i, n) :: numbered (i + 1) l end.

(** A reader: lines that are not empty; tabs, a number, a colon, a space, a
    name. *)
Fixpoint split_lines (t : cstring) : list cstring :=
  match t with
  | [] => [[]]
  | c :: t =>
      if Ascii.eqb c newline then [] :: split_lines t
      else match split_lines t with
           | l :: ls => (c :: l) :: ls
           | [] => [[c]]
           end
  end.
Fixpoint tabs (t : cstring) : nat * cstring :=
  match t with
  | c :: t' => if Ascii.eqb c tab then let (k, r) := tabs t' in (S k, r) else (O, t)
  | [] => (O, t)
  end.
Fixpoint until_colon (t : cstring) : option (cstring * cstring) :=
  match t with
  | [] => None
  | c :: t => if Ascii.eqb c ":" then Some ([], t)
              else match until_colon t with Some (a, b) => Some (c :: a, b) | None => None end
  end.
Definition read_line (t : cstring) : option (nat * N * cstring) :=
  let (k, r) := tabs t in
  match until_colon r with
  | Some (d, c :: n) =>
      match NilEmpty.uint_of_string (string_of_list_ascii d) with
      | Some u => if Ascii.eqb c " " then Some (k, N.of_uint u, n) else None
      | None => None
      end
  | _ => None
  end.
Fixpoint read_lines (ls : list cstring) : option (list (nat * N * cstring)) :=
  match ls with
  | [] => Some []
  | [] :: ls => read_lines ls
  | l :: ls => match read_line l, read_lines ls with Some x, Some xs => Some (x :: xs) | _, _ => None end
  end.
Definition read_structure (t : cstring) : option (list (nat * N * cstring)) := read_lines (split_lines t).
