(** The model on the project's own tests: it accepts the files cocogen has to
    accept, and rejects those it has to reject, without undefined behaviour.
    These are tests of the model, not properties. *)

From Coq Require Import String.
From Coq Require Import List Ascii Bool Arith.
From Verif Require Import Base.Outcome Front.Syntax Front.ScannerModel Gen.CompileModel Gen.CompileInst Gen.RunModel Gen.RepoTestsInst.
Import ListNotations.
Local Open Scope list_scope.
Local Open Scope outcome_scope.

(** Reading the file, all checks, scheduling and generating the visits: what
    the status of a run depends on (C55_status). *)
Definition verdict (t : ScannerModel.text) : outcome unit :=
  match tree t with
  | None => Exited
  | Some a =>
      let! r := translate (fun l => l) 1000 (fun l => l) a in
      lifetimes a (fst r)
  end.

Example C48_pass_files : map verdict pass_files = map (fun _ => Val tt) pass_files.
Proof. vm_compute. reflexivity. Qed.

Example C48_fail_files : map verdict fail_files = map (fun _ => Exited) fail_files.
Proof. vm_compute. reflexivity. Qed.
