(** Files for C51. *)

From Coq Require Import String.
From Coq Require Import List Ascii NArith ZArith Bool.
From Verif Require Import Base.Outcome Base.Heap Palm.StrModel Front.Syntax Front.ScannerModel Front.ScannerInst Front.SetsInst
  Front.PropagateModel Sched.FrontendModel Gen.NodesModel Gen.CompileInst Gen.AccessModel.
Import ListNotations.
Local Open Scope string_scope.
Local Open Scope list_scope.

(** The nodeset leaf is part of expr, so that its members have the attributes
    of expr, and so has leaf itself. *)
Definition access_text : ScannerModel.text := txt "
start phase main { actions { pass parse; } };
node num { attributes { int value { constructor } }, equations { this.size = { } } };
node var { attributes { string name { constructor } }, equations { this.size = { } } };
node add {
    children { expr left { constructor }, expr right { constructor } },
    equations { this.size = { args = { left.size, right.size } } }
};
root node prog { children { expr body { constructor } } };
nodeset leaf { nodes = { num, var } };
nodeset Expr {
    nodes = leaf | { add },
    attributes { int line, int size { synthesized } }
};".
(** A program with the expression 7 + NULL: the size of 7 is known. *)
Definition here := mk_loc 1 1 1 5.
Definition cell_of (ty : string) (d : addr) (k : nat) : cell :=
  mk_cell (Some (nm ty)) (Ptr (Some d)) (Ptr (match k with 0 => None | _ => Some d end)) (Ptr None) k here.
Definition memory : nheap :=
  [ (1, BNode (cell_of "add" 2 2));
    (2, BData [(nm "left", Ptr (Some 3)); (nm "right", Ptr None)]
              [(nm "size", Evaluated (Some false) Raw); (nm "line", Classic (Prim 4))]);
    (3, BNode (cell_of "num" 4 0));
    (4, BData [] [(nm "size", Evaluated (Some true) (Prim 1)); (nm "line", Classic (Prim 5)); (nm "value", Classic (Prim 7))]);
    (5, BNode (cell_of "prog" 6 1));
    (6, BData [(nm "body", Ptr (Some 1))] []) ]%N.

(** Two accessors with different names and the same function. *)
Definition readonly_text : ScannerModel.text := txt "
start phase main { actions { pass parse; } };
root node readonly { children { expr expr_type } };
node expr { attributes { int type { synthesized } }, equations { this.type = { } } };".

(** Two accessors with the same name. *)
Definition underscore_text : ScannerModel.text := txt "
start phase main { actions { pass parse; } };
root node a_b { attributes { int c } };
node a { attributes { int b_c } };".

(** The trees of the files, and those that the generators find, as values *)
Definition empty : ast := mk_ast [] [] [] [] [] [].
Definition tree_of (t : ScannerModel.text) : ast := match tree t with Some a => a | None => empty end.
Definition passes_of (a : ast) : pra * list Syntax.literal :=
  match before_scheduling a with Val r => r | _ => (mk_pra [] [] [], []) end.
Definition access_ast : ast := Eval vm_compute in tree_of access_text.
Definition readonly_ast : ast := Eval vm_compute in tree_of readonly_text.
Definition underscore_ast : ast := Eval vm_compute in tree_of underscore_text.
Definition access_passes := Eval vm_compute in passes_of access_ast.
Definition readonly_passes := Eval vm_compute in passes_of readonly_ast.
Definition underscore_passes := Eval vm_compute in passes_of underscore_ast.
Lemma access_read : tree access_text = Some access_ast.
Proof. vm_compute. reflexivity. Qed.
Lemma readonly_read : tree readonly_text = Some readonly_ast.
Proof. vm_compute. reflexivity. Qed.
Lemma underscore_read : tree underscore_text = Some underscore_ast.
Proof. vm_compute. reflexivity. Qed.
Lemma access_accepted : before_scheduling access_ast = Val access_passes.
Proof. vm_compute. reflexivity. Qed.
Lemma readonly_accepted : before_scheduling readonly_ast = Val readonly_passes.
Proof. vm_compute. reflexivity. Qed.
Lemma underscore_accepted : before_scheduling underscore_ast = Val underscore_passes.
Proof. vm_compute. reflexivity. Qed.
Definition final_of (a : ast) (r : pra * list Syntax.literal) : ast := finished a (fst r) (snd r).
Definition access_final : ast := Eval vm_compute in final_of access_ast access_passes.
