(** Instances for checkExistance (C28). *)

From Coq Require Import String.
From Coq Require Import List Ascii Bool.
From Verif Require Import Base.Outcome Front.Syntax Front.SymbolTableModel Front.SymbolTableSpec
  Front.SetsInst Front.ExampleInst Front.CheckExistanceModel Front.CheckExistanceSpec
  Front.CheckExistanceProof.
Import ListNotations.
Local Open Scope string_scope.
Local Open Scope list_scope.

Lemma calc_obeys : obeys_rules calc.
Proof. apply (check_names_accepts calc). vm_compute. reflexivity. Qed.

(** [calc] with the list of nodes extended by a node with a child of an
    unknown type *)
Definition calc_unknown : ast :=
  mk_ast (a_phases calc) (a_traversals calc) (a_passes calc)
    (mk_node (nm "neg") false [ch "exprs" "arg"] [] [] [] :: a_nodes calc)
    (a_nodesets calc) (a_enums calc).
Lemma calc_unknown_rejected : check_names calc_unknown = Exited.
Proof. vm_compute. reflexivity. Qed.

(** Two root nodes. *)
Definition calc_two_roots : ast :=
  mk_ast (a_phases calc) (a_traversals calc) (a_passes calc)
    (mk_node (nm "neg") true [] [] [] [] :: a_nodes calc)
    (a_nodesets calc) (a_enums calc).
Lemma calc_two_roots_rejected : check_names calc_two_roots = Exited.
Proof. vm_compute. reflexivity. Qed.

(** A phase with a node type as action. *)
Definition calc_node_action : ast :=
  mk_ast (mk_phase (nm "odd") None None [nm "num"] false false :: a_phases calc)
    (a_traversals calc) (a_passes calc) (a_nodes calc) (a_nodesets calc) (a_enums calc).

(** No start phase and no root node at all. *)
Definition rootless : ast :=
  mk_ast [mk_phase (nm "p") None None [] false false] [] []
    [mk_node (nm "leaf") false [] [] [] []] [] [].
