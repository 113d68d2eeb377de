(** Instances for checkProductRules (C38): a small attribute grammar. *)

From Coq Require Import String.
From Coq Require Import List Ascii Bool Arith.
From Verif Require Import Base.Outcome Front.Syntax Front.SetsModel Front.SetsSpec Front.SetsInst Front.ExampleInst
  Front.PropagateModel Front.PropagateInst Front.NodesetPassesModel Front.NodesetPassesProof
  Front.ProductRulesModel.
Import ListNotations.
Local Open Scope string_scope.
Local Open Scope list_scope.

Definition this_ (x : string) : attribute_reference := mk_aref None (nm x).
Definition of_ (c x : string) : attribute_reference := mk_aref (Some (nm c)) (nm x).

Definition add_equations : list equation :=
  [ mk_equation (of_ "left" "depth") [this_ "depth"];
    mk_equation (of_ "Right" "depth") [this_ "depth"; of_ "left" "value"];
    mk_equation (this_ "value") [of_ "left" "value"; of_ "right" "value"] ].

Definition grammar (add_eqs : list equation) : ast :=
  mk_ast
    [ mk_phase (nm "main") None None [] true false ] [] []
    [ mk_node (nm "prog") true [ch "expr" "body"] [] [mk_equation (of_ "body" "depth") []] [];
      mk_node (nm "add") false [ch "expr" "left"; ch "expr" "right"] [] add_eqs [];
      mk_node (nm "num") false [] [] [mk_equation (this_ "value") []] [] ]
    [ mk_nodeset (nm "expr") (lit ["add"; "num"]) [syn_attr "value" AT_int; inh_attr "depth" AT_int] ]
    [].

Lemma grammar_parsed : forall eqs, parsed_ast (grammar eqs).
Proof.
  intros eqs. split.
  - intros n [<-|[]]. cbn [ns_expr]. apply parsed_lit.
  - intros t e [].
Qed.
Lemma grammar_unmarked : forall eqs, unmarked (grammar eqs).
Proof. intros eqs m x [<-|[]]; cbn; intuition; subst; reflexivity. Qed.

Definition rule_errors (a : ast) : outcome (list cpr_error) :=
  map_outcome c_errors (bind (nodeset_passes a) (fun s => CPRast (a_nodes a) (a_nodesets a) s)).

Lemma grammar_accepted : rule_errors (grammar add_equations) = Val [].
Proof. vm_compute. reflexivity. Qed.
Lemma grammar_missing : rule_errors (grammar (tl add_equations)) =
  Val [MissingRule (nm "add") (Some (nm "left")) (nm "depth")].
Proof. vm_compute. reflexivity. Qed.
Lemma grammar_wrong_kind :
  rule_errors (grammar (mk_equation (of_ "left" "value") [this_ "size"; of_ "middle" "value"] :: add_equations)) =
  Val [NotInherited (nm "left") (nm "value"); NoSuchAttribute (nm "size"); NoSuchChild (nm "middle")].
Proof. vm_compute. reflexivity. Qed.
Lemma grammar_passes : is_val (nodeset_passes (grammar add_equations)) = true.
Proof. vm_compute. reflexivity. Qed.

(** Two equations for the same attribute are accepted. *)
Lemma grammar_twice :
  rule_errors (grammar (mk_equation (this_ "value") [] :: add_equations)) = Val [].
Proof. vm_compute. reflexivity. Qed.
