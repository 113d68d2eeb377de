(** When code is generated for a plan (C58). *)

From Coq Require Import String.
From Coq Require Import List Arith.
From Verif Require Import Front.Syntax Front.SetsSpec Front.PropagateModel Front.NodesetTableModel Sched.GraphSpec Sched.ScheduleModel Sched.ScheduleSpec
  Sched.PartitionModel Sched.PartitionGrammar Sched.VisitModel Sched.VisitSpec Sched.VisitGrammar Sched.FrontendModel Gen.EvalVariantsModel Gen.EvaluateGrammar.
From Verif Require Import Front.NodesetPassesProof Palm.StrModel.
Import ListNotations.

(** The code for a child whose type is a nodeset uses the results of the first
    member: if a visit of another member has a result, so has the same visit of
    the first. *)
Definition leading_delivers (a : ast) (s : pra) (lits : list literal) (ty : occurrence -> option target) (vt : visits_table) (o : occurrence) : Prop :=
  forall j l r rest m, ty o = Some (TSet j) -> nth_error lits j = Some l -> listed l = r :: rest ->
  has_name (a_nodes a) (a_nodesets a) (TNode m) r ->
  forall m' k, member_of a j m' -> k < visit_count vt (TSet j) -> delivered s vt (TNode m') k <> [] -> delivered s vt (TNode m) k <> [].

(** No child is called "this". *)
Definition no_child_this (a : ast) : Prop :=
  forall n c, In n (a_nodes a) -> In c (nd_children n) -> ID_LWR (ch_name c) <> text "this"%string.
