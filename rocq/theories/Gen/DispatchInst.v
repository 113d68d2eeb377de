(** Files for C52. *)

From Coq Require Import String.
From Coq Require Import List Ascii NArith Bool.
From Verif Require Import Base.Outcome Palm.StrModel Front.Syntax Front.ScannerModel Front.ScannerInst Front.SetsInst Front.ReachModel
  Front.SymbolTableModel Front.SetsModel
  Front.PropagateModel Sched.FrontendModel Copra.TravModel Gen.TablesModel Gen.CompileInst Gen.AccessModel Gen.AccessInst Gen.DispatchModel.
Import ListNotations.
Local Open Scope string_scope.
Local Open Scope list_scope.

(** Nodes of type note have nothing for Names below them. *)
Definition dispatch_text : ScannerModel.text := txt "
start phase main { actions { pass parse; Count; Names; } };
traversal Count { uid = CNT };
traversal Names { uid = Nms, nodes = leaf - { num } };
node num { attributes { int value { constructor } } };
node Var { attributes { string name { constructor } } };
node add { children { expr left { constructor }, expr right { constructor } } };
node note { children { num line } };
root node prog { children { expr body { constructor }, note remark } };
nodeset leaf { nodes = { num, var } };
nodeset expr { nodes = leaf | { add } };".
Definition dispatch_ast : ast := Eval vm_compute in tree_of dispatch_text.
Definition dispatch_passes := Eval vm_compute in passes_of dispatch_ast.
Lemma dispatch_read : tree dispatch_text = Some dispatch_ast.
Proof. vm_compute. reflexivity. Qed.
Lemma dispatch_accepted : before_scheduling dispatch_ast = Val dispatch_passes.
Proof. vm_compute. reflexivity. Qed.

Definition table (a : ast) : list (list (option cstring)) :=
  match dispatch a with
  | Val calls => map (fun i => map (fun j => match calls i j with Val f => Some f | _ => None end) (seq 0 (2 + length (a_nodes a))))
                   (seq 0 (5 + length (a_traversals a)))
  | _ => []
  end.
Definition shown (l : list (list (option cstring))) : list (list string) :=
  map (map (fun o => match o with Some f => string_of_list_ascii f | None => "?" end)) l.
Definition dispatch_table := Eval vm_compute in table dispatch_ast.

(** Handlers that write down their name and go on with the children. *)
Definition note_calls (f : cstring) (w : list cstring) (t : TravModel.tree unit) : prog unit (list cstring) :=
  PChildren (w ++ [f]) (Some t) (fun w r => PRet w r).

(** Trees: prog(add(var, num), note(num)) and prog(num, NULL) *)
Definition small_tree : TravModel.tree unit :=
  TravModel.Node 1 tt [Some (TravModel.Node 3 tt [Some (TravModel.Node 4 tt []); Some (TravModel.Node 5 tt [])]);
                       Some (TravModel.Node 2 tt [Some (TravModel.Node 5 tt [])])].
Definition tiny_tree : TravModel.tree unit := TravModel.Node 1 tt [Some (TravModel.Node 5 tt []); None].

(** A node type called Null. *)
Definition null_text : ScannerModel.text := txt "
start phase main { actions { pass parse; One; } };
traversal One { uid = VIS };
root node Null { attributes { int x } };".
Definition null_ast : ast := Eval vm_compute in tree_of null_text.
Definition null_passes := Eval vm_compute in passes_of null_ast.
Lemma null_read : tree null_text = Some null_ast.
Proof. vm_compute. reflexivity. Qed.
Lemma null_accepted : before_scheduling null_ast = Val null_passes.
Proof. vm_compute. reflexivity. Qed.

(** A traversal for no node at all. *)
Definition empty_text : ScannerModel.text := txt "
start phase main { actions { pass parse; One; } };
traversal One { uid = VIS, nodes = { prog } - { prog } };
root node prog { attributes { int x } };".
Definition empty_ast : ast := Eval vm_compute in tree_of empty_text.
Definition empty_passes := Eval vm_compute in passes_of empty_ast.
Lemma empty_read : tree empty_text = Some empty_ast.
Proof. vm_compute. reflexivity. Qed.
Lemma empty_accepted : before_scheduling empty_ast = Val empty_passes.
Proof. vm_compute. reflexivity. Qed.
