(** Instances for the evaluation of attributes (C44). *)

From Coq Require Import String.
From Coq Require Import List Ascii Bool Arith.
From Verif Require Import Base.Outcome Palm.StrModel Front.Syntax Front.SetsModel Front.SetsSpec Front.SetsInst Front.ExampleInst
  Front.PropagateModel Front.PropagateInst Front.NodesetPassesModel Front.NodesetPassesProof
  Front.ProductRulesModel Front.ProductRulesInst
  Sched.ScheduleModel Sched.PartitionModel Sched.FrontendModel Sched.ScheduleInst Sched.VisitModel Sched.VisitInst
  Gen.EvalVariantsModel Gen.EvalVariantsInst Sched.CycleProof Gen.EvaluateModel Gen.EvaluateCheck.
Import ListNotations.
Local Open Scope string_scope.
Local Open Scope list_scope.
Local Open Scope outcome_scope.

(** The compiler up to the visit functions. *)
Definition generated (a : ast) : outcome (list (list function)) :=
  let! r := before_scheduling a in
  let! v := visit_sequences a in
  DGVSast (a_nodes a) (fst r) (snd v) (fun l => l).

(** Values: which function was called with which values. *)
Inductive term := Term (f : string) (args : list term).
Definition apply_function (f : cstring) (args : list term) : term := Term (string_of_list_ascii f) args.
Definition node (i : nat) (kids : list (option (tree term))) : tree term := Node i (fun x => Term (string_of_list_ascii x) []) kids.
(** What CCNevaluateAttributes stores, the last one first. *)
Definition stored (a : ast) (t : tree term) : outcome (list (path * string * term)) :=
  let! r := before_scheduling a in
  let! f := generated a in
  map_outcome (map (fun e => (fst (fst e), string_of_list_ascii (snd (fst e)), snd e)))
    (CCNevaluateAttributes (a_nodes a) (fst r) apply_function f t).

(** prog with an add as body, whose left child is a num and whose right child
    is absent (for the specification value_to_depth). *)
Definition sum_of_one : tree term := node 0 [Some (node 1 [Some (node 2 []); None])].

(** An equation that reads an inherited attribute of a child:
    top: c.i = f(), s = g(c.i). *)
Definition child_input : ast := spec
  [ mk_node (nm "top") true [ch "leaf" "c"] [syn_attr "s" AT_int]
      [mk_equation (of_ "c" "i") []; mk_equation (this_ "s") [of_ "c" "i"]] [];
    mk_node (nm "leaf") false [] [inh_attr "i" AT_int] [] [] ] [].

(** An equation that reads the attribute it computes. *)
Definition own_input : ast := spec
  [ mk_node (nm "top") true [] [syn_attr "s" AT_int] [mk_equation (this_ "s") [this_ "s"]] [] ] [].

(** Two mandatory children of one type with two synthesized attributes. *)
Definition two_mandatory : ast := spec
  [ mk_node (nm "top") true [must "leaf" "x"; must "leaf" "y"] [] [] [];
    mk_node (nm "leaf") false [] [syn_attr "s" AT_int; syn_attr "t" AT_int] [mk_equation (this_ "s") []; mk_equation (this_ "t") []] [] ] [].

(** The attribute b_c of the child a and the attribute c of the child a_b. *)
Definition same_variable : ast := spec
  [ mk_node (nm "top") true [ch "leaf" "a"; ch "twig" "a_b"] [] [] [];
    mk_node (nm "leaf") false [] [syn_attr "b_c" AT_int] [mk_equation (this_ "b_c") []] [];
    mk_node (nm "twig") false [] [syn_attr "c" AT_int] [mk_equation (this_ "c") []] [] ] [].

(** A nodeset {num, val} with an inherited attribute; only val has a
    synthesized attribute. *)
Definition first_silent : ast := spec
  [ mk_node (nm "top") true [ch "expr" "x"] [] [mk_equation (of_ "x" "i") []] [];
    mk_node (nm "num") false [] [] [] [];
    mk_node (nm "val") false [] [syn_attr "s" AT_int] [mk_equation (this_ "s") []] [] ]
  [ mk_nodeset (nm "expr") (lit ["num"; "val"]) [inh_attr "i" AT_int] ].

(** The conditions of C44, computed. *)
Definition conditions (a : ast) : outcome bool :=
  let! r := before_scheduling a in
  let! v := visit_sequences a in
  let! f := generated a in
  Val (agree_check (a_nodes a) (a_nodesets a) (fst r) (snd r) (fst v) && once_check (fst r) &&
       no_read_check (a_nodes a) (a_nodesets a) (fst r) && plain_check (a_nodes a) && no_self_check a (fst r) && compiles f).
