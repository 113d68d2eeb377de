(** C30: recursive nodesets are reported and the table of contained nodesets
    is the transitive closure. *)

From Coq Require Import List Relations.
From Verif Require Import Base.Outcome Front.Syntax Front.SetsSpec
  Front.NodesetTableModel Front.NodesetTableSpec Front.NodesetTableProof Front.NodesetTableInst.
Import ListNotations.

(** For nodesets whose references resolve (C27, C28): the pass ends; it
    reports an error exactly when some nodeset is defined in terms of itself;
    otherwise the table of every nodeset lists, once each, exactly the
    nodesets it is built from, directly or through others. *)
Theorem C30_recursion_and_closure :
  forall sets, names_unique sets -> sets_resolve sets ->
  exists s, NCTast sets = Val s /\ length (n_tables s) = length sets /\
    (n_errors s <> [] <-> recursive sets) /\
    (n_errors s = [] -> forall i, i < length sets ->
       NoDup (table_of s i) /\ forall k, In k (table_of s i) <-> built_from sets i k) /\
    (forall i n, nth_error sets i = Some n ->
       (nth i (n_illegal s) false = true <-> not_only_unions (ns_expr n))).
Proof. exact NCTast_right. Qed.
Print Assumptions C30_recursion_and_closure.

Example C30_instance : names_unique layers /\ sets_resolve layers /\
  exists s, NCTast layers = Val s /\ n_errors s = [] /\
    n_tables s = [[4; 3; 2; 1]; [4; 3; 2]; [4; 3]; []; []] /\
    n_illegal s = [true; false; false; false; false].
Proof. exact (conj layers_unique (conj layers_resolve layers_run)). Qed.
Example C30_recursive_instance : exists s, NCTast circle = Val s /\ n_errors s <> [].
Proof. exact circle_run. Qed.
