(** Instances for scheduleAttributeVisits (C32). *)

From Coq Require Import String.
From Coq Require Import List Ascii Bool Arith.
From Verif Require Import Base.Outcome Front.Syntax Front.SetsModel Front.SetsSpec Front.SetsInst Front.ExampleInst
  Front.PropagateModel Front.PropagateInst Front.NodesetPassesModel Front.NodesetPassesProof
  Front.ProductRulesModel Front.ProductRulesInst
  Sched.GraphModel Sched.ScheduleModel Sched.FrontendModel.
Import ListNotations.
Local Open Scope string_scope.
Local Open Scope list_scope.

(** prog: expr body; add: expr left, expr right; num; nodeset
    expr = {add, num} with the inherited depth and the synthesized value.
    [body] lists what body.depth is computed from, [num] what num.value is
    computed from. *)
Definition expressions (body num : list attribute_reference) : ast :=
  mk_ast
    [ mk_phase (nm "main") None None [] true false ] [] []
    [ mk_node (nm "prog") true [ch "expr" "body"] [] [mk_equation (of_ "body" "depth") body] [];
      mk_node (nm "add") false [ch "expr" "left"; ch "expr" "right"] [] ProductRulesInst.add_equations [];
      mk_node (nm "num") false [] [] [mk_equation (this_ "value") num] [] ]
    [ mk_nodeset (nm "expr") (lit ["add"; "num"]) [syn_attr "value" AT_int; inh_attr "depth" AT_int] ]
    [].
Lemma expressions_parsed : forall body num, parsed_ast (expressions body num).
Proof.
  intros body num. split.
  - intros n [<-|[]]. cbn [ns_expr]. apply parsed_lit.
  - intros t e [].
Qed.
Lemma expressions_unmarked : forall body num, unmarked (expressions body num).
Proof. intros body num m x [<-|[]]; cbn; intuition; subst; reflexivity. Qed.

(** num.value needs num.depth: no cycle. *)
Definition depth_to_value : ast := expressions [] [this_ "depth"].
(** Neither body.depth = f(body.value) nor num.value = f(num.depth) is a
    cycle, but both together are. *)
Definition value_to_depth : ast := expressions [of_ "body" "value"] [].
Definition both_ways : ast := expressions [of_ "body" "value"] [this_ "depth"].
(** num.value = f(num.value) *)
Definition value_to_value : ast := expressions [] [this_ "value"].

Definition scheduler_errors (a : ast) : outcome nat :=
  map_outcome (fun r => List.length (snd r)) (dependency_graphs (fun l => l) a).
Lemma scheduler_errors_of_examples :
  scheduler_errors depth_to_value = Val 0 /\ scheduler_errors value_to_depth = Val 0 /\
  scheduler_errors both_ways = Val 2 /\ scheduler_errors value_to_value = Val 0.
Proof. vm_compute. repeat split; reflexivity. Qed.
