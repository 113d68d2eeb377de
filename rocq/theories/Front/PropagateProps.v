(** C31: nodeset attributes reach every member; conflicts are reported. *)

From Coq Require Import String.
From Coq Require Import List Ascii Bool Arith.
From Verif Require Import Base.Outcome Front.Syntax Front.SetsModel Front.SetsSpec Front.SetsInst
  Front.NodesetTableModel Front.PropagateModel Front.PropagateSpec Front.PropagateWalk
  Front.NodesetPassesModel Front.NodesetPassesProof Front.PropagateInst.
Import ListNotations.

(** For a specification that passes the checks up to here: a node has its own
    attributes; for every attribute of a nodeset it is a member of, it has a
    copy or an allowed redeclaration; it has nothing else and no name twice. *)
Theorem C31_attributes_reach_members :
  forall a s, parsed_ast a -> unmarked a -> nodeset_passes a = Val s ->
  forall i n, nth_error (a_nodes a) i = Some n ->
  (forall o, In o (nd_attributes n) -> In o (nth i (p_nodes s) [])) /\
  (forall m x S, In m (a_nodesets a) -> In x (ns_attributes m) ->
     denotes (a_nodesets a) (ns_expr m) S -> S (ID_LWR (nd_name n)) ->
     exists y, In y (nth i (p_nodes s) []) /\ same_id (at_name y) (at_name x) /\
       (copy_of x y \/ may_redeclare x y)) /\
  (forall y, In y (nth i (p_nodes s) []) ->
     In y (nd_attributes n) \/
     exists m x S, In m (a_nodesets a) /\ In x (ns_attributes m) /\
       denotes (a_nodesets a) (ns_expr m) S /\ S (ID_LWR (nd_name n)) /\ copy_of x y) /\
  NoDup (map (fun y => ID_LWR (at_name y)) (nth i (p_nodes s) [])).
Proof. exact passes_reach. Qed.
Print Assumptions C31_attributes_reach_members.

Example C31_reach_instance :
  parsed_ast attr_ast /\ unmarked attr_ast /\
  (exists s, nodeset_passes attr_ast = Val s /\
    map (map at_name) (p_nodes s) =
    [ [nm "file"]; [nm "depth"; nm "line"; nm "file"]; [nm "depth"; nm "file"; nm "Line"; nm "value"] ]) /\
  exists m x S, In m (a_nodesets attr_ast) /\ In x (ns_attributes m) /\
    denotes (a_nodesets attr_ast) (ns_expr m) S /\ S (ID_LWR (nm "num")).
Proof. exact (conj attr_parsed (conj attr_unmarked (conj attr_run num_is_expr))). Qed.

(** An error is reported exactly when the attributes that reach a node or a
    nodeset conflict; otherwise nodes and nodesets carry what reaches them. *)
Theorem C31_conflicts_reported :
  forall nodes sets l, propagation_input nodes sets l ->
  exists s, PRAast nodes sets l = Val s /\
    (p_errors s = [] <->
     (forall n, In n nodes -> node_agrees (nd_children n) (nd_attributes n) (to_node sets l n)) /\
     (forall k m, nth_error sets k = Some m -> nodeset_agrees (ns_attributes m) (to_nodeset sets l k))) /\
    (p_errors s = [] ->
     (forall i n, nth_error nodes i = Some n ->
        carries (nd_attributes n) (to_node sets l n) (nth i (p_nodes s) [])) /\
     (forall k m, nth_error sets k = Some m ->
        carries (ns_attributes m) (to_nodeset sets l k) (nth k (p_sets s) []))).
Proof. exact PRAast_right. Qed.
Print Assumptions C31_conflicts_reported.

Example C31_conflicts_instance :
  (exists l, propagation_input (a_nodes attr_ast) (a_nodesets attr_ast) l /\ List.length l = 2) /\
  nodeset_passes clash_ast = Exited /\ nodeset_passes twice_ast = Exited.
Proof. exact (conj attr_input (conj clash_run twice_run)). Qed.
