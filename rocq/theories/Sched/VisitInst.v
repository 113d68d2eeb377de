(** Instances for the visit sequences (C34). *)

From Coq Require Import String.
From Coq Require Import List Ascii Bool Arith.
From Verif Require Import Base.Outcome Front.Syntax Front.SetsModel Front.SetsSpec Front.SetsInst Front.ExampleInst
  Front.PropagateModel Front.PropagateInst Front.NodesetPassesModel Front.NodesetPassesProof
  Front.ProductRulesModel Front.ProductRulesInst
  Sched.GraphModel Sched.ScheduleModel Sched.PartitionModel Sched.PartitionGrammar Sched.FrontendModel Sched.ScheduleInst Sched.VisitModel Sched.VisitSpec Sched.VisitProof.
Import ListNotations.
Local Open Scope string_scope.
Local Open Scope list_scope.
Local Open Scope outcome_scope.

(** The passes up to scheduleAttributeVisits and the pass itself, with the
    default ag_scheduler_max_iter (commandline.c:15). *)
Definition visit_sequences (a : ast) : outcome (visits_table * list (list (visit * list entry))) :=
  let! r := before_scheduling a in
  let! g := dependency_graphs (fun l => l) a in
  match snd g with
  | _ :: _ => Exited
  | [] => SAVvisits (a_nodes a) (a_nodesets a) (fst r) (snd r) 1000 (fst g)
  end.
Definition sequences_in (a : ast) : outcome (list (list (list (action occurrence aptr)))) :=
  map_outcome (fun r => map (map (fun v => map action_of (snd v))) (snd r)) (visit_sequences a).
Definition visits_for (a : ast) (t : target) : outcome (option (list (list aptr * list aptr))) :=
  map_outcome (fun r => option_map (map attributes_only) (visits_of (fst r) t)) (visit_sequences a).

Definition spec (nodes : list inode) (sets : list inodeset) : ast :=
  mk_ast [ mk_phase (nm "main") None None [] true false ] [] [] nodes sets [].
Lemma spec_parsed : forall nodes sets, (forall n, In n sets -> exists ids, ns_expr n = lit ids) -> parsed_ast (spec nodes sets).
Proof.
  intros nodes sets H. split.
  - intros n I. destruct (H n I) as (ids & ->). apply parsed_lit.
  - intros t e [].
Qed.

(** Two children that each need what the other delivers, though what they
    deliver needs nothing: top has the children x and y of type leaf,
    x.i = f(y.s), y.i = f(x.s); leaf.s = f(). *)
Definition crossed : ast := spec
  [ mk_node (nm "top") true [ch "leaf" "x"; ch "leaf" "y"] []
      [mk_equation (of_ "x" "i") [of_ "y" "s"]; mk_equation (of_ "y" "i") [of_ "x" "s"]] [];
    mk_node (nm "leaf") false [] [inh_attr "i" AT_int; syn_attr "s" AT_int] [mk_equation (this_ "s") []] [] ]
  [].

(** A child visit that takes an attribute of a later visit of the node:
    top: a.a2 = f(a.s0); mid: s0 = f(), c.b = f(a2), s1 = f(c.y); leaf: y = f(). *)
Definition early : ast := spec
  [ mk_node (nm "top") true [ch "mid" "a"] [] [mk_equation (of_ "a" "a2") [of_ "a" "s0"]] [];
    mk_node (nm "mid") false [ch "leaf" "c"] [inh_attr "a2" AT_int; syn_attr "s0" AT_int; syn_attr "s1" AT_int]
      [mk_equation (this_ "s0") []; mk_equation (of_ "c" "b") [this_ "a2"]; mk_equation (this_ "s1") [of_ "c" "y"]] [];
    mk_node (nm "leaf") false [] [inh_attr "b" AT_int; syn_attr "y" AT_int] [mk_equation (this_ "y") []] [] ]
  [].

(** A nodeset without attributes, whose first member has none either:
    expr = {num, val}; only val has an attribute. *)
Definition dummy_first : ast := spec
  [ mk_node (nm "top") true [ch "expr" "x"; ch "expr" "y"] [] [] [];
    mk_node (nm "num") false [] [] [] [];
    mk_node (nm "val") false [] [syn_attr "s" AT_int] [mk_equation (this_ "s") []] [] ]
  [ mk_nodeset (nm "expr") (lit ["num"; "val"]) [] ].
(** The same with the members the other way round. *)
Definition dummy_last : ast := spec
  [ mk_node (nm "top") true [ch "expr" "x"; ch "expr" "y"] [] [] [];
    mk_node (nm "num") false [] [] [] [];
    mk_node (nm "val") false [] [syn_attr "s" AT_int] [mk_equation (this_ "s") []] [] ]
  [ mk_nodeset (nm "expr") (lit ["val"; "num"]) [] ].

(** A member that is visited differently from its nodeset: expr = {num} takes
    i and delivers s; num has also t, and where it is used itself i is computed
    from t. *)
Definition uneven : ast := spec
  [ mk_node (nm "top") true [ch "expr" "body"; ch "num" "extra"] []
      [mk_equation (of_ "body" "i") []; mk_equation (of_ "extra" "i") [of_ "extra" "t"]] [];
    mk_node (nm "num") false [] [syn_attr "t" AT_int] [mk_equation (this_ "t") []; mk_equation (this_ "s") [this_ "i"]] [] ]
  [ mk_nodeset (nm "expr") (lit ["num"]) [inh_attr "i" AT_int; syn_attr "s" AT_int] ].
