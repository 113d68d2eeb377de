(** Files for C53. *)

From Coq Require Import String.
From Coq Require Import List Ascii Bool.
From Verif Require Import Base.Outcome Palm.StrModel Front.Syntax Front.ScannerModel Front.ScannerInst Sched.FrontendModel Gen.CompileInst Gen.AccessInst.
Import ListNotations.
Local Open Scope string_scope.

(** A child called If; its member in the generated struct is called if. *)
Definition if_text : ScannerModel.text := txt "
start phase main { actions { pass parse; } };
root node prog { children { leaf If { constructor } } };
node leaf { attributes { int x } };".
Definition if_ast : ast := Eval vm_compute in tree_of if_text.
Definition if_passes := Eval vm_compute in passes_of if_ast.
Lemma if_read : tree if_text = Some if_ast.
Proof. vm_compute. reflexivity. Qed.
Lemma if_accepted : before_scheduling if_ast = Val if_passes.
Proof. vm_compute. reflexivity. Qed.

(** An enum with the value -> *)
Definition arrow_text : ScannerModel.text := txt "
start phase main { actions { pass parse; } };
root node prog { attributes { op x } };
enum op { prefix = OP, values { add, -> } };".
Definition arrow_ast : ast := Eval vm_compute in tree_of arrow_text.
Definition arrow_passes := Eval vm_compute in passes_of arrow_ast.
Lemma arrow_read : tree arrow_text = Some arrow_ast.
Proof. vm_compute. reflexivity. Qed.
Lemma arrow_accepted : before_scheduling arrow_ast = Val arrow_passes.
Proof. vm_compute. reflexivity. Qed.
