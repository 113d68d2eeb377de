(** A file for C62: both children of pair may be missing, and the equation
    reads both. *)

From Coq Require Import String.
From Coq Require Import List Ascii NArith Bool Permutation.
From Verif Require Import Base.Outcome Palm.StrModel Front.Syntax Front.ScannerModel Front.ScannerInst Front.SetsInst
  Front.PropagateModel Sched.FrontendModel Gen.TablesModel Gen.EvalVariantsModel Gen.EvaluateModel Gen.CompileModel Gen.CompileInst
  Gen.AccessModel Gen.AccessInst Gen.StubsModel Gen.StubsInst Gen.ReproduceSpec.
Import ListNotations.
Local Open Scope string_scope.
Local Open Scope list_scope.

Definition pair_text : ScannerModel.text := txt "
start phase main { actions { pass p; } };
node leaf { equations { this.size = { } } };
node pair {
    children { tree left { constructor }, tree right { constructor } },
    equations { this.size = { args = { left.size, right.size } } }
};
root node top { children { tree body { constructor, mandatory } } };
nodeset tree { nodes = { leaf, pair }, attributes { int size { synthesized } } };".
Definition pair_ast : ast := Eval vm_compute in tree_of pair_text.
Lemma pair_read : tree pair_text = Some pair_ast.
Proof. vm_compute. reflexivity. Qed.
Definition pair_passes := Eval vm_compute in passes_of pair_ast.
Lemma pair_accepted : before_scheduling pair_ast = Val pair_passes.
Proof. vm_compute. reflexivity. Qed.

(** Two orders of iteration. *)
Lemma forwards : forall A, iterates (fun l : list A => l).
Proof. intros A l. apply Permutation_refl. Qed.
Lemma backwards : forall A, iterates (@rev A).
Proof. intros A l. apply Permutation_sym, Permutation_rev. Qed.

Definition pair_analysis : analysis := Eval vm_compute in
  match translate (fun l => l) 10 (fun l => l) pair_ast with Val r => fst r | _ => mk_analysis (fst pair_passes) [] [] [] end.
Definition pair_functions : list (list EvaluateModel.function) := Eval vm_compute in
  match translate (fun l => l) 10 (fun l => l) pair_ast with Val r => snd r | _ => [] end.
Definition other_functions : list (list EvaluateModel.function) := Eval vm_compute in
  match translate (fun l => l) 10 (@rev nat) pair_ast with Val r => snd r | _ => [] end.
Lemma pair_translated : translate (fun l => l) 10 (fun l => l) pair_ast = Val (pair_analysis, pair_functions).
Proof. vm_compute. reflexivity. Qed.
Lemma other_translated : translate (fun l => l) 10 (@rev nat) pair_ast = Val (pair_analysis, other_functions).
Proof. vm_compute. reflexivity. Qed.

Definition pair_directory := Eval vm_compute in directory_of pair_ast.
Definition other_directory := Eval vm_compute in match user_directory (@rev nat) pair_ast with Val d => d | _ => [] end.
Lemma pair_generated : user_directory (fun l => l) pair_ast = Val pair_directory.
Proof. vm_compute. reflexivity. Qed.
Lemma other_generated : user_directory (@rev nat) pair_ast = Val other_directory.
Proof. vm_compute. reflexivity. Qed.
