(** C69: a run that ends with success has written its files. *)

From Coq Require Import String.
From Coq Require Import List Ascii Bool Arith Permutation.
From Verif Require Import Base.Outcome Palm.StrModel Front.Syntax Sched.GraphModel Sched.ScheduleModel
  Gen.CompileModel Gen.StubsInst Gen.RunModel Gen.RunSpec Gen.RunProof Gen.RunInst Gen.RunProps Gen.DeniedModel Gen.DeniedProof Gen.DeniedStatus.
Import ListNotations.
Local Open Scope list_scope.

(** Full property: if a run of cocogen ends with success, every file of the
    specification has its text, whichever files can be opened and whether or
    not there is space for them; a file that cannot be opened makes the run
    fail, and then no file has been replaced.  Proved: if nothing that is printed gets lost ([full]), a run that
    ends with success could open all files of the specification, they have
    their texts, and other files are as before.  Missing, since false: a full
    device is not noticed (C69_full_refuted), and a run that fails has replaced
    the files before the one it could not open (C69_mixture_refuted). *)
Theorem C69_written_partial : forall (P : Type) denied full directory backend input shuffle mx iteration (content : string -> nat -> list P) rounds stage d d',
  backend_is_dynamic backend -> (forall path l, full path l = false) ->
  cocogen_on denied full directory backend input shuffle mx iteration content rounds stage d = (d', Val tt) ->
  exists a, input = Some a /\
  (forall path parts, In (path, parts) (outputs a) ->
     denied (directory ++ path) = false /\ d' (directory ++ path) = Some (text_of content parts)) /\
  (forall path, (forall o, In o (outputs a) -> path <> directory ++ fst o) -> ~ diagnostic directory path -> d' path = d path).
Proof.
  intros P denied full directory backend input shuffle mx iteration content rounds stage d d' H F R.
  destruct (run_on_done _ _ _ _ _ _ _ _ _ _ _ true H _ _ R) as (A & S & E). specialize (E F).
  destruct (C55_finished P directory backend input shuffle mx iteration content rounds stage d d' H E) as (a & Ia & _ & W & U).
  exists a. split; [exact Ia|]. split; [|exact U]. intros path parts I. split; [|exact (W path parts I)].
  destruct (S (fun _ => None)) as (d0 & E0).
  destruct (C55_finished P directory backend input shuffle mx iteration content rounds stage _ d0 H E0) as (a' & Ia' & _ & W' & _).
  rewrite Ia in Ia'. injection Ia' as <-.
  apply (run_opens _ _ _ _ _ _ _ _ _ _ true H A _ _ E0). rewrite (W' path parts I). discriminate.
Qed.
Print Assumptions C69_written_partial.

(** If a file of the specification cannot be opened, the run does not end with
    success, also if devices are full ... *)
Theorem C69_denied : forall (P : Type) denied full directory backend a shuffle mx iteration (content : string -> nat -> list P) rounds stage path parts d,
  backend_is_dynamic backend -> In (path, parts) (outputs a) -> denied (directory ++ path) = true ->
  snd (cocogen_on denied full directory backend (Some a) shuffle mx iteration content rounds stage d) <> Val tt.
Proof.
  intros P denied full directory backend a shuffle mx iteration content rounds stage path parts d H I D V.
  destruct (cocogen_on _ _ _ _ _ _ _ _ _ _ _ d) as [d' o] eqn:R. cbn [snd] in V. subst o.
  destruct (run_on_done _ _ _ _ _ _ _ _ _ _ _ true H _ _ R) as (A & S & _). destruct (S (fun _ => None)) as (d0 & E0).
  destruct (C55_finished P directory backend (Some a) shuffle mx iteration content rounds stage _ d0 H E0) as (a' & Ia' & _ & W' & _).
  injection Ia' as <-.
  assert (X : denied (directory ++ path) = false); [|congruence].
  apply (run_opens _ _ _ _ _ _ _ _ _ _ true H A _ _ E0). rewrite (W' path parts I). discriminate.
Qed.
Print Assumptions C69_denied.

(** ... but exits with an error, without undefined behaviour, if it would end
    with success otherwise. *)
Theorem C69_exits : forall (P : Type) denied full directory backend a shuffle mx iteration (content : string -> nat -> list P) rounds stage path parts d d1 d2,
  backend_is_dynamic backend -> In (path, parts) (outputs a) -> denied (directory ++ path) = true ->
  cocogen directory backend (Some a) shuffle mx iteration content rounds stage d1 = (d2, Val tt) ->
  snd (cocogen_on denied full directory backend (Some a) shuffle mx iteration content rounds stage d) = Exited.
Proof.
  intros P denied full directory backend a shuffle mx iteration content rounds stage path parts d d1 d2 H I D R.
  destruct (run_on_ended denied full _ _ _ _ _ _ _ _ _ true H d d1 d2 R) as [V|V]; [|exact V].
  destruct (C69_denied P denied full directory backend a shuffle mx iteration content rounds stage path parts d H I D V).
Qed.
Print Assumptions C69_exits.

(** A file that cannot be opened stays as it is, however the run ends. *)
Theorem C69_unchanged : forall (P : Type) denied full directory backend b input shuffle mx iteration (content : string -> nat -> list P) rounds stage d path,
  STReqci (Some (str "dynamic")) (Some backend) = Val b -> denied path = true ->
  fst (cocogen_on denied full directory backend input shuffle mx iteration content rounds stage d) path = d path.
Proof.
  intros P denied full directory backend b input shuffle mx iteration content rounds stage d path H D.
  exact (run_on_kept denied full _ _ _ _ _ _ _ _ _ b H d path D).
Qed.
Print Assumptions C69_unchanged.

(** If all files below the directory can be opened and written, the theorems
    of C55 hold. *)
Theorem C69_writable : forall (P : Type) denied full directory backend b input shuffle mx iteration (content : string -> nat -> list P) rounds stage d,
  STReqci (Some (str "dynamic")) (Some backend) = Val b ->
  (forall path, denied (directory ++ path) = false) -> (forall path l, full path l = false) ->
  cocogen_on denied full directory backend input shuffle mx iteration content rounds stage d =
  cocogen directory backend input shuffle mx iteration content rounds stage d.
Proof.
  intros P denied full directory backend b input shuffle mx iteration content rounds stage d H D F.
  exact (run_on_same denied full _ _ _ _ _ _ _ _ _ b H D F d).
Qed.
Print Assumptions C69_writable.

(** More precisely, for a specification that passes the checks the files of
    the specification and those for looking at the scheduler are enough. *)
Theorem C69_needed : forall (P : Type) denied full directory backend a x shuffle mx iteration (content : string -> nat -> list P) rounds stage d,
  backend_is_dynamic backend -> semantic shuffle mx a = Val x ->
  (forall o, In o (outputs a) -> denied (directory ++ fst o) = false) ->
  (forall path, diagnostic directory path -> denied path = false) -> (forall path l, full path l = false) ->
  cocogen_on denied full directory backend (Some a) shuffle mx iteration content rounds stage d =
  cocogen directory backend (Some a) shuffle mx iteration content rounds stage d.
Proof.
  intros P denied full directory backend a x shuffle mx iteration content rounds stage d H S O D F.
  rewrite (run_on_is denied full directory backend (Some a) shuffle mx iteration content rounds stage true H d).
  rewrite (run_is directory backend (Some a) shuffle mx iteration content rounds stage true H d).
  rewrite (go_allowed denied full directory a shuffle mx iteration content rounds stage F); [reflexivity|].
  exact (trace_allowed denied directory backend a shuffle mx iteration content rounds stage x H S O D).
Qed.
Print Assumptions C69_needed.

(** ** Instances and what does not hold *)

Definition only (p : string) (path : cstring) : bool := if list_eq_dec ascii_dec path (str p) then true else false.
Definition run_with (denied : cstring -> bool) (full : cstring -> list piece -> bool) (d : @files piece) : @files piece * outcome unit :=
  cocogen_on denied full (str "gen/") (str "dynamic") (Some stubs_ast) (fun l => l) 1000 (fun l => l) (written "new") 1 2 d.
Definition seen (r : @files piece * outcome unit) (paths : list string) : outcome unit * list (option (list piece)) :=
  (snd r, map (fun p => fst r (str p)) paths).

(** A run for [stubs_ast] ends with success if only a file cannot be opened
    that it does not write. *)
Example C69_instance : backend_is_dynamic (str "dynamic") /\
  seen (run_with (only "gen/makefile") (fun _ _ => false) old) ["gen/makefile"; "gen/visit.c"]%string =
  (Val tt, [Some [("old", ("", 0))]; Some [("new", ("dynamicSwitchToVisitSource", 1)); ("new", ("dynamicGenVisitSource", 0))]])%string.
Proof. split; vm_compute; reflexivity. Qed.

(** visit.c cannot be opened: the header visit.h, which is written before, is
    new; visit.c and trav.c are old. *)
Theorem C69_mixture_refuted :
  seen (run_with (only "gen/visit.c") (fun _ _ => false) old) ["gen/ccngen/visit.h"; "gen/visit.c"; "gen/trav.c"]%string =
  (Exited, [Some [("new", ("dynamic_start_visit_header", 1)); ("new", ("dynamicGenVisitFunctions", 0))]; Some [("old", ("", 0))]; Some [("old", ("", 0))]])%string.
Proof. vm_compute. reflexivity. Qed.
Print Assumptions C69_mixture_refuted.

(** There is space for the first lines of visit.c only: the run ends with
    success, and the rest is missing. *)
Theorem C69_full_refuted :
  In (str "visit.c", [("dynamicSwitchToVisitSource", 1); ("dynamicGenVisitSource", 0)])%string (outputs stubs_ast) /\
  seen (run_with (fun _ => false) (fun path l => only "gen/visit.c" path && (1 <=? List.length l)) old) ["gen/visit.c"; "gen/ag.c"]%string =
  (Val tt, [Some [("new", ("dynamicSwitchToVisitSource", 1))]; Some [("new", ("dynamicSwitchToAGSource", 1)); ("new", ("dynamicGenAGSource", 0))]])%string.
Proof. split; [vm_compute; tauto|vm_compute; reflexivity]. Qed.
Print Assumptions C69_full_refuted.
