(** Files for C55. *)

From Coq Require Import String.
From Coq Require Import List Ascii NArith Bool.
From Verif Require Import Base.Outcome Palm.StrModel Front.Syntax Front.ScannerModel Front.ScannerInst Front.SetsInst
  Sched.GraphModel Sched.ScheduleModel Gen.CompileInst Gen.CompileModel Gen.AccessInst Gen.StubsInst Gen.RunSpec Gen.RunModel.
Import ListNotations.
Local Open Scope string_scope.
Local Open Scope list_scope.

(** The text of a file, as the specification it was made from and the parts
    of it. *)
Definition piece : Type := (string * part)%type.
Definition written (version : string) (name : string) (k : nat) : list piece := [(version, (name, k))].

Definition run_of (version : string) (backend : string) (a : option ast) (d : @files piece) : @files piece * outcome unit :=
  cocogen (str "gen/") (str backend) a (fun l => l) 1000 (fun l => l) (written version) 1 2 d.

(** Nothing below gen/, or old files everywhere *)
Definition fresh : @files piece := fun _ => None.
Definition old : @files piece := fun _ => Some [("old", ("", 0))].

Definition result_at (r : @files piece * outcome unit) (path : string) : option (list piece) := fst r (str path).

(** Attributes that no sequence of visits computes in the order that is
    needed: a2 of a is computed from s0 of it. *)
Definition early_text : ScannerModel.text := txt "
start phase main { actions { pass parse; } };
node leaf { attributes { int b { inherited }, int y { synthesized } }, equations { this.y = { } } };
node mid {
    children { leaf c { constructor } },
    attributes { int a2 { inherited }, int s0 { synthesized }, int s1 { synthesized } },
    equations { this.s0 = { }, c.b = { args = { this.a2 } }, this.s1 = { args = { c.y } } }
};
root node top { children { mid a { constructor } }, equations { a.a2 = { args = { a.s0 } } } };".
Definition early_ast : ast := Eval vm_compute in tree_of early_text.
Lemma early_read : tree early_text = Some early_ast.
Proof. vm_compute. reflexivity. Qed.

(** The specification of StubsInst.v without equations for var. *)
Definition later_text : ScannerModel.text := txt "
start phase main { actions { pass parse; } };
root node num { attributes { int value { constructor } } };".
Definition later_ast : ast := Eval vm_compute in tree_of later_text.
Lemma later_read : tree later_text = Some later_ast.
Proof. vm_compute. reflexivity. Qed.

(** A node that is not there. *)
Definition missing_text : ScannerModel.text := txt "
start phase main { actions { pass parse; } };
root node num { children { expr body { constructor } } };".
Definition missing_ast : ast := Eval vm_compute in tree_of missing_text.
Lemma missing_read : tree missing_text = Some missing_ast.
Proof. vm_compute. reflexivity. Qed.
