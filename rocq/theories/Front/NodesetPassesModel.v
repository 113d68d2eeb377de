(** The semantic passes about names and nodesets one after the other
    (cocogen/main.ccn:30-60). *)

From Coq Require Import List Ascii Bool.
From Verif Require Import Base.Outcome Front.Syntax Front.SetsModel Front.SymbolTableModel
  Front.CheckExistanceModel Front.NodesetTableModel Front.PropagateModel.
Import ListNotations.
Local Open Scope outcome_scope.

(** buildSymbolTable, checkExistance, nodesetChildTable, unwrapSetExpr,
    propagateAttributes.  An action that called CCNerrorAction ends the
    compilation when it is finished (copra/src/phase_driver.c:101-106, C17). *)
Definition nodeset_passes (a : ast) : outcome pra :=
  let! _ := check_names a in
  let! t := NCTast (a_nodesets a) in
  match n_errors t with
  | _ :: _ => Exited
  | [] =>
      let! r := unwrap a in
      let! s := PRAast (a_nodes a) (a_nodesets a) (combine (n_tables t) (snd r)) in
      match p_errors s with
      | _ :: _ => Exited
      | [] => Val s
      end
  end.
