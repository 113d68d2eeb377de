(** Files for C61. *)

From Coq Require Import String.
From Coq Require Import List Ascii NArith Bool.
From Verif Require Import Base.Outcome Palm.StrModel Front.Syntax Front.ScannerModel Front.ScannerInst Front.SetsInst
  Front.PropagateModel Sched.FrontendModel Gen.TablesModel Gen.CompileInst Gen.AccessModel Gen.AccessInst Gen.NamesModel.
Import ListNotations.
Local Open Scope string_scope.
Local Open Scope list_scope.

Definition names_text : ScannerModel.text := txt "
start phase main { actions { pass parse { func = SPdoParse }; pass Print { uid = PRT }; Count; phase inner { actions { Names; } }; } };
traversal Count { uid = CNT, travdata { int n, int m } };
traversal Names { uid = NMS, nodes = { num, var } };
enum op_type { prefix = OP, values { plus, minus } };
node num { attributes { int value { constructor } }, equations { this.size = { } } };
node var { attributes { string name { constructor } }, equations { this.size = { } } };
node add {
    children { expr left { constructor, mandatory }, expr right { constructor } },
    attributes { op_type op { constructor } },
    equations { this.size = { args = { left.size, right.size } } }
};
root node prog { children { expr body { constructor, mandatory } } };
nodeset expr { nodes = { num, var, add }, attributes { int size { synthesized } } };".
Definition names_ast : ast := Eval vm_compute in tree_of names_text.
Definition names_passes := Eval vm_compute in passes_of names_ast.
Lemma names_read : tree names_text = Some names_ast.
Proof. vm_compute. reflexivity. Qed.
Lemma names_accepted : before_scheduling names_ast = Val names_passes.
Proof. vm_compute. reflexivity. Qed.

(** The handler of Visit for num and the constructor of num *)
Definition uid_text : ScannerModel.text := txt "
start phase main { actions { pass parse; Visit; } };
traversal Visit { uid = AST };
root node num { attributes { int value } };".
(** Two values that agree up to case *)
Definition values_text : ScannerModel.text := txt "
start phase main { actions { pass parse; } };
enum op { prefix = OP, values { add, sub, Add } };
root node num { attributes { int value } };".
(** The function TRAVgetCurrent is in the runtime library. *)
Definition child_text : ScannerModel.text := txt "
start phase main { actions { pass parse; } };
root node list { children { list getCurrent } };".
(** The function of a pass in the runtime library *)
Definition library_text : ScannerModel.text := txt "
start phase main { actions { pass copy { func = STRcpy }; } };
root node num { attributes { int value } };".
(** The enum of the nodesets has this name. *)
Definition enum_text : ScannerModel.text := txt "
start phase main { actions { pass parse; } };
enum nodesettype { prefix = OP, values { add, sub } };
root node num { attributes { int value } };".
(** The structure of the attribute num of children, and that of the children of num *)
Definition tags_text : ScannerModel.text := txt "
start phase main { actions { pass parse; } };
root node num { children { Children next } };
node Children { attributes { int num { synthesized } }, equations { this.num = { } } };".
(** The macro DBUG_ASSERT of palm/dbug.h *)
Definition assert_text : ScannerModel.text := txt "
start phase main { actions { pass parse; } };
root node dbug { attributes { bool assert } };".
(** The macro NODE_TYPE of the generated ast.h *)
Definition node_type_text : ScannerModel.text := txt "
start phase main { actions { pass parse; } };
root node num { attributes { int value } };
nodeset Node { nodes = { num }, attributes { int type } };".
(** The accessor of the travdata of Visit, and that of an attribute *)
Definition data_text : ScannerModel.text := txt "
start phase main { actions { pass parse; Visit; } };
traversal Visit { uid = VIS, travdata { int n } };
root node data { attributes { int vis_get } };".
(** The member for the children of num, and an attribute *)
Definition members_text : ScannerModel.text := txt "
start phase main { actions { pass parse; } };
root node num { children { num next }, attributes { int num_children } };".
(** The mark that an attribute of the grammar has a value *)
Definition mark_text : ScannerModel.text := txt "
start phase main { actions { pass parse; } };
root node num { attributes { int ccn_val_set { synthesized } }, equations { this.ccn_val_set = { } } };".

(** Their trees, and what the semantic passes find *)
Definition uid_ast : ast := Eval vm_compute in tree_of uid_text.
Definition uid_passes := Eval vm_compute in passes_of uid_ast.
Definition values_ast : ast := Eval vm_compute in tree_of values_text.
Definition values_passes := Eval vm_compute in passes_of values_ast.
Definition child_ast : ast := Eval vm_compute in tree_of child_text.
Definition child_passes := Eval vm_compute in passes_of child_ast.
Definition library_ast : ast := Eval vm_compute in tree_of library_text.
Definition library_passes := Eval vm_compute in passes_of library_ast.
Definition enum_ast : ast := Eval vm_compute in tree_of enum_text.
Definition enum_passes := Eval vm_compute in passes_of enum_ast.
Definition tags_ast : ast := Eval vm_compute in tree_of tags_text.
Definition tags_passes := Eval vm_compute in passes_of tags_ast.
Definition assert_ast : ast := Eval vm_compute in tree_of assert_text.
Definition assert_passes := Eval vm_compute in passes_of assert_ast.
Definition node_type_ast : ast := Eval vm_compute in tree_of node_type_text.
Definition node_type_passes := Eval vm_compute in passes_of node_type_ast.
Definition data_ast : ast := Eval vm_compute in tree_of data_text.
Definition data_passes := Eval vm_compute in passes_of data_ast.
Definition members_ast : ast := Eval vm_compute in tree_of members_text.
Definition members_passes := Eval vm_compute in passes_of members_ast.
Definition mark_ast : ast := Eval vm_compute in tree_of mark_text.
Definition mark_passes := Eval vm_compute in passes_of mark_ast.

(** A text with its tree and the result of the passes *)
Record accepted := mk_accepted { ac_text : ScannerModel.text; ac_ast : ast; ac_passes : pra * list Syntax.literal }.
Definition is_accepted (c : accepted) : Prop :=
  tree (ac_text c) = Some (ac_ast c) /\ before_scheduling (ac_ast c) = Val (ac_passes c).
Definition uid_file := mk_accepted uid_text uid_ast uid_passes.
Lemma uid_accepted : is_accepted uid_file.
Proof. split; vm_compute; reflexivity. Qed.
Definition values_file := mk_accepted values_text values_ast values_passes.
Lemma values_accepted : is_accepted values_file.
Proof. split; vm_compute; reflexivity. Qed.
Definition child_file := mk_accepted child_text child_ast child_passes.
Lemma child_accepted : is_accepted child_file.
Proof. split; vm_compute; reflexivity. Qed.
Definition library_file := mk_accepted library_text library_ast library_passes.
Lemma library_accepted : is_accepted library_file.
Proof. split; vm_compute; reflexivity. Qed.
Definition enum_file := mk_accepted enum_text enum_ast enum_passes.
Lemma enum_accepted : is_accepted enum_file.
Proof. split; vm_compute; reflexivity. Qed.
Definition tags_file := mk_accepted tags_text tags_ast tags_passes.
Lemma tags_accepted : is_accepted tags_file.
Proof. split; vm_compute; reflexivity. Qed.
Definition assert_file := mk_accepted assert_text assert_ast assert_passes.
Lemma assert_accepted : is_accepted assert_file.
Proof. split; vm_compute; reflexivity. Qed.
Definition node_type_file := mk_accepted node_type_text node_type_ast node_type_passes.
Lemma node_type_accepted : is_accepted node_type_file.
Proof. split; vm_compute; reflexivity. Qed.
Definition data_file := mk_accepted data_text data_ast data_passes.
Lemma data_accepted : is_accepted data_file.
Proof. split; vm_compute; reflexivity. Qed.
Definition members_file := mk_accepted members_text members_ast members_passes.
Lemma members_accepted : is_accepted members_file.
Proof. split; vm_compute; reflexivity. Qed.
Definition mark_file := mk_accepted mark_text mark_ast mark_passes.
Lemma mark_accepted : is_accepted mark_file.
Proof. split; vm_compute; reflexivity. Qed.

Definition ordinary_of (a : ast) : list cstring :=
  match ordinary_names (fun _ => 1) (fun l => l) a with Val l => l | _ => [] end.
Definition finished_of (c : accepted) : ast := finished (ac_ast c) (fst (ac_passes c)) (snd (ac_passes c)).
Definition times (x : string) (l : list cstring) : nat := count_occ (list_eq_dec ascii_dec) l (list_ascii_of_string x).
