(** The semantic passes up to the attribute scheduler, one after the other
    (cocogen/main.ccn:30-60). *)

From Coq Require Import List Ascii Bool.
From Verif Require Import Base.Outcome Front.Syntax Front.SetsModel Front.NodesetTableModel
  Front.PropagateModel Front.NodesetPassesModel Front.CheckAttributesModel Front.ProductRulesModel
  Sched.GraphModel Sched.ScheduleModel.
Import ListNotations.
Local Open Scope outcome_scope.

(** After the passes of NodesetPassesModel.v: checkAttributes,
    checkProductRules.  An action that called CCNerrorAction ends the
    compilation (C17).  Here every error of checkAttributes does, though most
    of them end it only after the scheduler: see [passes] in
    Gen/CompileModel.v.  The results of nodesetChildTable and unwrapSetExpr are
    still in the AST; here they are computed again.  [reachability] only
    writes its own fields. *)
Definition before_scheduling (a : ast) : outcome (pra * list literal) :=
  let! s := nodeset_passes a in
  let! t := NCTast (a_nodesets a) in
  let! u := unwrap a in
  match CHAast (combine (a_nodes a) (p_nodes s))
               (combine (combine (a_nodesets a) (n_illegal t)) (p_sets s)) with
  | _ :: _ => Exited
  | [] =>
      let! r := CPRast (a_nodes a) (a_nodesets a) s in
      match c_errors r with
      | _ :: _ => Exited
      | [] => Val (s, snd u)
      end
  end.

(** ... and scheduleAttributeVisits up to the test of [errors]: the graphs and
    the errors. *)
Definition dependency_graphs (shuffle : list (graph_key * ag_graph) -> list (graph_key * ag_graph)) (a : ast) :
    outcome (list (graph_key * ag_graph) * list ag_error) :=
  let! r := before_scheduling a in
  SAVgraphs (a_nodes a) (a_nodesets a) (fst r) (snd r) shuffle.
