(** C38: equations. *)

From Coq Require Import String.
From Coq Require Import List Ascii Bool Arith.
From Verif Require Import Base.Outcome Front.Syntax Front.SetsModel Front.SetsSpec
  Front.PropagateModel Front.NodesetPassesModel Front.NodesetPassesProof
  Front.ProductRulesModel Front.ProductRulesSpec Front.ProductRulesProof Front.ProductRulesInst.
Import ListNotations.

(** For a specification that passes the checks before (and the parser): the
    rule check reports no error exactly when the equations of every node are
    good; then every reference in an equation is linked, and every link goes
    to the attribute the reference stands for. *)
Theorem C38_equations_checked :
  forall a s, parsed_ast a -> unmarked a -> nodeset_passes a = Val s ->
  exists r, CPRast (a_nodes a) (a_nodesets a) s = Val r /\
    (c_errors r = [] <->
     forall n l, In (n, l) (combine (a_nodes a) (p_nodes s)) ->
       good_equations (combine (a_nodes a) (p_nodes s)) (combine (a_nodesets a) (p_sets s)) n l) /\
    (c_errors r = [] -> forall i n l e x, nth_error (a_nodes a) i = Some n -> nth_error (p_nodes s) i = Some l ->
       In e (nd_equations n) -> In x (eq_rule e :: eq_args e) ->
       exists k, In k (c_links r) /\ l_node k = i /\ l_reference k = x) /\
    (forall k, In k (c_links r) -> exists n l,
       nth_error (a_nodes a) (l_node k) = Some n /\ nth_error (p_nodes s) (l_node k) = Some l /\
       refers_to (combine (a_nodes a) (p_nodes s)) (combine (a_nodesets a) (p_sets s)) n l
         (l_reference k) (l_attribute k)).
Proof. exact product_rules_right. Qed.
Print Assumptions C38_equations_checked.

Example C38_instance :
  parsed_ast (grammar add_equations) /\ unmarked (grammar add_equations) /\
  is_val (nodeset_passes (grammar add_equations)) = true /\
  rule_errors (grammar add_equations) = Val [] /\
  rule_errors (grammar (tl add_equations)) =
    Val [MissingRule (SetsInst.nm "add") (Some (SetsInst.nm "left")) (SetsInst.nm "depth")].
Proof.
  exact (conj (grammar_parsed _) (conj (grammar_unmarked _)
          (conj grammar_passes (conj grammar_accepted grammar_missing)))).
Qed.

(** Two equations for one attribute are not reported (the file has a TODO for
    it). *)
Theorem C38_defined_once_refuted :
  ~ forall a s r, nodeset_passes a = Val s -> CPRast (a_nodes a) (a_nodesets a) s = Val r -> c_errors r = [] ->
    forall n, In n (a_nodes a) -> NoDup (map eq_rule (nd_equations n)).
Proof.
  intros H. assert (T := grammar_twice). unfold rule_errors in T.
  set (a := grammar (mk_equation (this_ "value") [] :: add_equations)) in T.
  destruct (nodeset_passes a) as [s| | | |] eqn:E1; try discriminate T. cbn [bind] in T.
  destruct (CPRast (a_nodes a) (a_nodesets a) s) as [r| | | |] eqn:E2; try discriminate T.
  injection T as E3.
  assert (N := H a s r E1 E2 E3 _ (or_intror (or_introl eq_refl))).
  cbn [nd_equations map eq_rule add_equations] in N.
  inversion N as [|? ? N1 _]. apply N1. right. right. left. reflexivity.
Qed.
Print Assumptions C38_defined_once_refuted.
