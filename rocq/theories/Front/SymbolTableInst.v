(** Concrete cases for the symbol table. *)

From Coq Require Import String.
From Coq Require Import List Ascii Bool.
From Verif Require Import Base.Outcome Palm.StrModel Front.Syntax Front.SetsInst Front.ExampleInst
  Front.SymbolTableModel Front.SymbolTableSpec Front.SymbolTableProof.
Import ListNotations.
Local Open Scope string_scope.
Local Open Scope list_scope.

Example calc_accepted : exists t, BSTast calc = Val t /\ List.length t = 12.
Proof. eexists. split; [vm_compute; reflexivity|reflexivity]. Qed.

Lemma calc_names : distinct_names (all_names calc) /\ distinct_names (pass_functions calc).
Proof. apply (proj1 (BSTast_accepts calc)). destruct calc_accepted as (t & H & _). eauto. Qed.

(** A traversal whose uid is a node's name in another case. *)
Definition clash : ast :=
  mk_ast [] [mk_traversal (nm "fold") (Some (nm "NUM")) None []] []
    [mk_node (nm "num") false [] [] [] []] [] [].
Example clash_rejected : BSTast clash = Exited.
Proof. vm_compute. reflexivity. Qed.

(** pass one = run; pass two = Run *)
Definition same_function : ast :=
  mk_ast [] [] [mk_pass (nm "one") None (Some (nm "run")); mk_pass (nm "two") None (Some (nm "Run"))] [] [] [].
Example same_function_undefined : BSTast same_function = Undef.
Proof. vm_compute. reflexivity. Qed.
