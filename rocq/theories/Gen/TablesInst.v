(** Instances for the theorems about the generated tables. *)

From Coq Require Import String.
From Coq Require Import List Ascii Bool Arith.
From Verif Require Import Base.Outcome Palm.StrModel Front.Syntax Front.SetsModel Front.SetsInst
  Front.ExampleInst Front.SymbolTableModel Front.SymbolTableSpec Front.SymbolTableInst
  Front.CheckExistanceModel Front.CheckExistanceSpec Front.LifetimesSpec Front.ReachModel
  Copra.PhaseDriverModel Gen.TablesModel Gen.TablesSpec Gen.TablesProof.
Import ListNotations.
Local Open Scope string_scope.
Local Open Scope list_scope.

(** The reachability of [calc]'s traversal [fold]: it handles [add], walks
    through [prog] and leaves [num] alone. *)
Definition calc_reach (t : itraversal) (n : inode) : code :=
  if list_eq_dec ascii_dec (nd_name n) (nm "add") then RUser
  else if list_eq_dec ascii_dec (nd_name n) (nm "prog") then RTrav else RZero.

Definition calc_root : inode := mk_node (nm "prog") true [ch "expr" "body"] [] [] [].
Definition calc_main : iphase :=
  mk_phase (nm "main") (Some (nm "MN")) None [nm "parse"; nm "Fold"; nm "opt"] true false.
Definition calc_opt : iphase := mk_phase (nm "opt") None None [nm "fold"] false true.
Definition calc_fold : itraversal := hd (mk_traversal [] None None []) (a_traversals calc).
Definition calc_parse : ipass := mk_pass (nm "parse") (Some (nm "PRS")) (Some (nm "doParse")).

Lemma calc_usable : usable_names calc.
Proof.
  split.
  - intros id I. cbn in I. repeat destruct I as [<-|I]; try discriminate. destruct I.
  - intros t s [<-|[]] I. cbn in I. repeat destruct I as [<-|I]; try discriminate. destruct I.
  - intros p [<-|[<-|[]]]; discriminate.
Qed.

Lemma calc_uids : uids_present calc.
Proof. intros t [<-|[]]. discriminate. Qed.

Lemma calc_by_name : actions_by_name calc.
Proof.
  intros p id [<-|[<-|[]]] I; cbn in I; repeat destruct I as [<-|I]; try destruct I;
    unfold names_action.
  - exists (nm "fold"). split; [cbn; tauto|reflexivity].
  - exists (nm "parse"). split; [cbn; tauto|reflexivity].
  - exists (nm "fold"). split; [cbn; tauto|reflexivity].
  - exists (nm "opt"). split; [cbn; tauto|reflexivity].
Qed.

Definition calc_plan : plan :=
  Plan (DPhase calc_main)
    [Plan (DPass calc_parse) []; Plan (DTraversal calc_fold) [];
     Plan (DPhase calc_opt) [Plan (DTraversal calc_fold) []]].

Ltac calc_name k := split; [cbn; tauto|exists (nm k); split; [cbn; tauto|reflexivity]].

Lemma calc_compiler : compiler calc calc_plan.
Proof.
  apply Compiler; [cbn; tauto|reflexivity|].
  apply Forall2_cons; [apply UOther; [calc_name "parse"|intros p; discriminate]|].
  apply Forall2_cons; [apply UOther; [calc_name "fold"|intros p; discriminate]|].
  apply Forall2_cons; [|apply Forall2_nil].
  apply UPhase; [calc_name "opt"|].
  apply Forall2_cons; [apply UOther; [calc_name "fold"|intros p; discriminate]|apply Forall2_nil].
Qed.

(** The action tree of [calc], as found in the generated tables. *)
Definition calc_tree : action leaf cstring :=
  APhase (nm "main") None false
    [ALeaf (nm "parse") (LPass 1); ALeaf (nm "fold") (LTraversal 1);
     APhase (nm "opt") None true [ALeaf (nm "fold") (LTraversal 1)]].

(** [calc] with the traversal in [main] referred to by its uid. *)
Definition calc_by_uid : ast :=
  mk_ast [calc_opt; mk_phase (nm "main") (Some (nm "MN")) None [nm "parse"; nm "FD"; nm "opt"] true false]
    (a_traversals calc) (a_passes calc) (a_nodes calc) (a_nodesets calc) (a_enums calc).
Definition uid_main : iphase :=
  mk_phase (nm "main") (Some (nm "MN")) None [nm "parse"; nm "FD"; nm "opt"] true false.

(** [calc] with one more node type, called [null]. *)
Definition calc_null : ast :=
  mk_ast (a_phases calc) (a_traversals calc) (a_passes calc)
    (mk_node (nm "null") false [] [] [] [] :: a_nodes calc) (a_nodesets calc) (a_enums calc).
