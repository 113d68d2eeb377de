(** Files for C54. *)

From Coq Require Import String.
From Coq Require Import List Ascii NArith Bool.
From Verif Require Import Base.Outcome Palm.StrModel Front.Syntax Front.ScannerModel Front.ScannerInst Front.SetsInst
  Front.PropagateModel Sched.FrontendModel Copra.TravModel Gen.TablesModel Gen.CompileInst Gen.AccessModel Gen.AccessInst Gen.StubsModel.
Import ListNotations.
Local Open Scope string_scope.
Local Open Scope list_scope.

(** The child right of add may be missing. *)
Definition stubs_text : ScannerModel.text := txt "
start phase main { gate = ready, actions { pass parse { func = doParse }; pass Print { uid = PRT }; Count; Names; } };
traversal Count { uid = CNT, travdata { int n } };
traversal Names { uid = Nms, nodes = expr - { add } };
node num { attributes { int value { constructor } }, equations { this.size = { } } };
node var { attributes { string name { constructor } }, equations { this.size = { } } };
node add {
    children { expr left { constructor, mandatory }, expr right { constructor } },
    equations { this.size = { args = { left.size, right.size } } }
};
root node prog { children { expr body { constructor, mandatory } } };
nodeset expr { nodes = { num, var, add }, attributes { int size { synthesized } } };".
Definition stubs_ast : ast := Eval vm_compute in tree_of stubs_text.
Definition stubs_passes := Eval vm_compute in passes_of stubs_ast.
Lemma stubs_read : tree stubs_text = Some stubs_ast.
Proof. vm_compute. reflexivity. Qed.
Lemma stubs_accepted : before_scheduling stubs_ast = Val stubs_passes.
Proof. vm_compute. reflexivity. Qed.

Definition directory_of (a : ast) : list cfile := match user_directory (fun l => l) a with Val d => d | _ => [] end.
Definition stubs_directory := Eval vm_compute in directory_of stubs_ast.
Lemma stubs_generated : user_directory (fun l => l) stubs_ast = Val stubs_directory.
Proof. vm_compute. reflexivity. Qed.
Definition shown_files (d : list cfile) : list (string * list string) :=
  map (fun f => (string_of_list_ascii (fst f), map (fun g => string_of_list_ascii (fst g)) (snd f))) d.

(** Handlers that are called in the program num + NULL *)
Definition stubs_tree : TravModel.tree unit :=
  TravModel.Node 1 tt [Some (TravModel.Node 2 tt [Some (TravModel.Node 4 tt []); None])].

(** The function of the pass VISnum has the name of a handler. *)
Definition clash_text : ScannerModel.text := txt "
start phase main { actions { pass VISnum; Visit; } };
traversal Visit { uid = VIS };
root node num { attributes { int value } };".
Definition clash_ast : ast := Eval vm_compute in tree_of clash_text.
Definition clash_passes := Eval vm_compute in passes_of clash_ast.
Lemma clash_read : tree clash_text = Some clash_ast.
Proof. vm_compute. reflexivity. Qed.
Lemma clash_accepted : before_scheduling clash_ast = Val clash_passes.
Proof. vm_compute. reflexivity. Qed.
Definition clash_directory := Eval vm_compute in directory_of clash_ast.
Lemma clash_generated : user_directory (fun l => l) clash_ast = Val clash_directory.
Proof. vm_compute. reflexivity. Qed.
