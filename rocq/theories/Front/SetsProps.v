(** C26: nodeset expressions denote set operations. *)

From Coq Require Import List.
From Verif Require Import Base.Outcome Front.Syntax Front.SetsModel Front.SetsSpec
  Front.SetsProof Front.SetsTotal Front.SetsInst.
Import ListNotations.

(** When the evaluation of the set expressions of a specification ends
    normally, the literal of every nodeset and of every traversal lists
    exactly the members that set theory gives, none of them twice. *)
Theorem C26_result_is_set_theory :
  forall a ts ls,
  parsed_ast a -> unwrap a = Val (ts, ls) ->
  Forall2 (fun n l => right_set (a_nodesets a) (ns_expr n) l) (a_nodesets a) ls /\
  Forall2 (fun t l => match tv_nodes t, l with
                      | None, None => True
                      | Some e, Some l => right_set (a_nodesets a) e l
                      | _, _ => False
                      end) (a_traversals a) ts.
Proof. exact unwrap_right. Qed.
Print Assumptions C26_result_is_set_theory.

Example C26_result_is_set_theory_instance :
  parsed_ast example_ast /\ exists ts ls, unwrap example_ast = Val (ts, ls) /\ length ls = 3.
Proof.
  split; [exact example_parsed|]. eexists. eexists.
  split; [vm_compute; reflexivity|reflexivity].
Qed.

(** The set an expression denotes is unique. *)
Theorem C26_denotation_unique :
  forall sets e S T,
  names_unique sets -> denotes sets e S -> denotes sets e T -> forall x, S x <-> T x.
Proof. exact denotes_unique. Qed.
Print Assumptions C26_denotation_unique.

(** The evaluation ends normally when every nodeset is declared before it is
    used.  The full property (every nodeset declaration that is not recursive
    is evaluated) is false, see below. *)
Theorem C26_evaluation_defined_partial :
  forall a,
  names_unique (a_nodesets a) -> declared_before_use (a_nodesets a) -> traversals_resolve a ->
  exists ts ls, unwrap a = Val (ts, ls).
Proof. exact unwrap_defined. Qed.
Print Assumptions C26_evaluation_defined_partial.

Example C26_evaluation_defined_instance :
  names_unique (a_nodesets example_ast) /\ declared_before_use (a_nodesets example_ast) /\
  traversals_resolve example_ast.
Proof. exact (conj example_unique (conj example_before_use example_resolve)). Qed.

(** Whatever the order of declarations, the evaluation ends. *)
Theorem C26_evaluation_ends : forall a, unwrap a <> NoFuel.
Proof. exact unwrap_enough_fuel. Qed.
Print Assumptions C26_evaluation_ends.

(** Two legal specifications whose evaluation uses freed memory. *)
Theorem C26_any_order_refuted :
  (parsed_ast reentrant_ast /\ names_unique (a_nodesets reentrant_ast) /\
   not_recursive (a_nodesets reentrant_ast) /\ sets_resolve (a_nodesets reentrant_ast) /\
   traversals_resolve reentrant_ast) /\
  unwrap reentrant_ast = Undef /\
  (parsed_ast reentrant_trav_ast /\ names_unique (a_nodesets reentrant_trav_ast) /\
   not_recursive (a_nodesets reentrant_trav_ast) /\ sets_resolve (a_nodesets reentrant_trav_ast) /\
   traversals_resolve reentrant_trav_ast) /\
  unwrap reentrant_trav_ast = Undef.
Proof.
  exact (conj reentrant_fine (conj reentrant_undefined
          (conj reentrant_trav_fine reentrant_trav_undefined))).
Qed.
Print Assumptions C26_any_order_refuted.
