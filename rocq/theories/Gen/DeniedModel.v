(** A run of cocogen if files cannot be opened, or the device they are on is
    full.  The actions are those of RunModel.v. *)

From Coq Require Import String.
From Coq Require Import List Ascii NArith Bool.
From Verif Require Import Base.Outcome Palm.StrModel Front.Syntax Copra.PhaseDriverModel
  Sched.GraphModel Sched.ScheduleModel Gen.RunModel.
Import ListNotations.
Local Open Scope list_scope.

Section Denied.
  Context {P : Type}.
  (** [denied path]: fopen(path, "w") gives NULL; then the file is as before.
      [full path l]: if the file has the text [l], nothing that is printed
      into it arrives.  (For the log of the scheduler only: if there is no
      space for all, there is none.) *)
  Variable denied : cstring -> bool.
  Variable full : cstring -> list P -> bool.

  (** generator/generator.c:41-52: exit(1) if the file cannot be opened.
      generator/generator.c:92-120: the results of fprintf, vfprintf and fflush
      are not looked at.  schedule_attribute_visits.c:622-646: a log that
      cannot be opened ends the run, results of fprintf are not looked at.
      [true]: the program has ended. *)
  Fixpoint attempt (es : list (effect P)) (w : @machine P) : @machine P * bool :=
    match es with
    | [] => (w, false)
    | Open path :: es =>
        if denied path then (mk_machine (disk w) None Exited, true) else attempt es (perform w (Open path))
    | Write path l :: es =>
        if denied path then (mk_machine (disk w) (fp w) Exited, true)
        else attempt es (perform w (Write path (if full path [] then [] else l)))
    | Print p :: es =>
        attempt es (match fp w with
                    | Some path =>
                        if match disk w path with Some l => full path l | None => false end then w else perform w (Print p)
                    | None => perform w (Print p)
                    end)
    end.

  Variable directory : cstring.
  Variable backend : cstring.
  Variable input : option ast.
  Variable shuffle : list (graph_key * ag_graph) -> list (graph_key * ag_graph).
  Variable max_iter : nat.
  Variable iteration : list nat -> list nat.
  Variable content : string -> nat -> list P.
  Variable rounds stage : nat.

  (** As leaf_step, leaf_fun and cocogen of RunModel.v; that the program ends
      at once is, for the files and the status, an action that fails. *)
  Definition leaf_try (l : leaf) (w : machine) (t : progress) : machine * progress * bool :=
    let '(effects, o, t') := leaf_action directory input shuffle max_iter iteration content rounds stage l t in
    let '(w, ended) := attempt effects w in
    if ended then (w, t', true) else
    match o with
    | Val _ => (w, t', false)
    | _ => (mk_machine (disk w) (fp w) o, t', true)
    end.
  Definition leaf_try_fun (l : leaf) (_ : N) (w : machine) (t : progress) : option (machine * progress * list signal) :=
    let '(w, t, e) := leaf_try l w t in Some (w, t, if e then [SErrorAction] else []).

  (** main.c:41-80 *)
  Definition cocogen_on (d : files) : files * outcome unit :=
    match CCNrun leaf_try_fun (gate_fun backend) (fun _ _ => 0%N) 1 startPhase (mk_state driver0 (mk_machine d None (Val tt)) Nothing 0%N []) with
    | Cont s => (disk (world s), verdict (world s))
    | Halt HActionError s => (disk (world s), verdict (world s))
    | Halt _ s => (disk (world s), Undef)
    end.
End Denied.
