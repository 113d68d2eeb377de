(** Files for C56. *)

From Coq Require Import String.
From Coq Require Import List Ascii NArith Bool.
From Verif Require Import Base.Outcome Palm.StrModel Front.Syntax Front.ScannerModel Front.ScannerInst Front.SetsInst
  Gen.CompileInst Gen.CompileModel Gen.AccessInst Gen.RunModel.
Import ListNotations.
Local Open Scope string_scope.
Local Open Scope list_scope.

(** Nested phases with lifetimes on a node, children and attributes. *)
Definition nested_text : ScannerModel.text := txt "
start phase main { actions {
    pass parse;
    phase opt { uid = OP, actions { pass fold; phase inner { actions { traversal count { uid = CNT }; } }; pass print; } };
    pass write;
} };
root node prog {
    children { expr body { constructor, mandatory [parse -> ) }, expr spare { disallowed (opt.inner -> write] } },
    attributes { string label { disallowed [OP.CNT -> write) }, prog other { mandatory (write -> ) } }
};
node num { attributes { int value { constructor } }, lifetime { disallowed [write -> ) } };
nodeset expr { nodes = { num, prog }, attributes { string origin { mandatory [opt -> ) } } };".
Definition nested_ast : ast := Eval vm_compute in tree_of nested_text.
Lemma nested_read : tree nested_text = Some nested_ast.
Proof. vm_compute. reflexivity. Qed.

(** The phase again contains itself. *)
Definition again_text : ScannerModel.text := txt "
start phase main { actions { pass parse; phase again { actions { pass fold; again; } }; } };
root node prog { attributes { int value { constructor } } };".
Definition again_ast : ast := Eval vm_compute in tree_of again_text.
Lemma again_read : tree again_text = Some again_ast.
Proof. vm_compute. reflexivity. Qed.

(** The second lifetime of a child names an action that does not exist, and
    a node is mandatory by its second lifetime. *)
Definition second_text : ScannerModel.text := txt "
start phase main { actions { pass parse; pass write; } };
root node prog {
    children { prog body { disallowed [parse -> write), mandatory [nowhere -> ) } },
    lifetime { disallowed [write -> ), mandatory }
};".
Definition second_ast : ast := Eval vm_compute in tree_of second_text.
Lemma second_read : tree second_text = Some second_ast.
Proof. vm_compute. reflexivity. Qed.

Definition analysed (a : ast) : outcome analysis := semantic (fun l => l) 1000 a.
Definition lifetimes_of (a : ast) : outcome unit := bind (analysed a) (lifetimes a).
