(** C27: names are unique up to case. *)

From Coq Require Import String.
From Coq Require Import List Ascii.
From Verif Require Import Base.Outcome Front.Syntax Front.SymbolTableModel Front.SymbolTableSpec
  Front.SymbolTableProof Front.SetsInst Front.ExampleInst Front.SymbolTableInst.
Import ListNotations.
Local Open Scope string_scope.
Local Open Scope list_scope.

(** A specification is accepted exactly when all names and uids differ, and
    all pass functions differ, ignoring case; otherwise the compiler stops if
    it is only names that are equal. *)
Theorem C27_accepted_iff_distinct :
  forall a,
  ((exists t, BSTast a = Val t) <->
     distinct_names (all_names a) /\ distinct_names (pass_functions a)) /\
  (BSTast a = Exited <-> ~ distinct_names (all_names a) /\ distinct_names (pass_functions a)) /\
  (BSTast a = Undef <-> ~ distinct_names (pass_functions a)).
Proof. exact BSTast_accepts. Qed.
Print Assumptions C27_accepted_iff_distinct.

(** If two passes have the same function the error message itself has
    undefined behaviour. *)
Theorem C27_reported_refuted : ~ forall a, (exists t, BSTast a = Val t) \/ BSTast a = Exited.
Proof.
  intros H. destruct (H same_function) as [(t & E)|E]; rewrite same_function_undefined in E; discriminate.
Qed.
Print Assumptions C27_reported_refuted.

Example C27_accepted_instance : distinct_names (all_names calc) /\ distinct_names (pass_functions calc).
Proof. exact calc_names. Qed.
Example C27_rejected_instance : BSTast clash = Exited.
Proof. exact clash_rejected. Qed.

(** After that a name, in any case, is looked up to the declaration that has
    it as its name or uid, and to nothing else. *)
Theorem C27_lookup_finds_declaration :
  forall a t id d, BSTast a = Val t ->
  (STlookup t id = Some d <->
   In d (declarations a) /\ exists k, In k (names_of d) /\ ID_LWR k = ID_LWR id).
Proof. exact BSTast_lookup. Qed.
Print Assumptions C27_lookup_finds_declaration.

Example C27_lookup_instance :
  match BSTast calc with
  | Val t => exists n, STlookup t (nm "NuM") = Some (DNode n) /\ nd_name n = nm "num"
  | _ => False
  end.
Proof. vm_compute. eexists. split; reflexivity. Qed.

(** Ignoring case is the same whether names are compared in lower or in upper
    case. *)
Theorem C27_case_classes : forall a b, ID_LWR a = ID_LWR b <-> ID_UPR a = ID_UPR b.
Proof. exact case_classes. Qed.
Print Assumptions C27_case_classes.
