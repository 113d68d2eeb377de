(** C29: the rules for attributes. *)

From Coq Require Import String.
From Coq Require Import List Ascii Bool Arith.
From Verif Require Import Base.Outcome Front.Syntax Front.SetsInst Front.ExampleInst
  Front.CheckAttributesModel Front.CheckAttributesSpec Front.CheckAttributesProof.
Import ListNotations.
Local Open Scope string_scope.
Local Open Scope list_scope.

(** The full property: a specification is accepted exactly when every
    attribute of every node and nodeset obeys the rules and no nodeset built
    with "&" or "-" has attributes.  Proved for lists of at most one
    attribute; in general only the first attribute is looked at. *)
Theorem C29_rules_checked_partial :
  forall nodes sets,
  (forall n l, In (n, l) nodes -> length l <= 1) ->
  (forall m ill l, In (m, ill, l) sets -> length l <= 1) ->
  (CHAast nodes sets = [] <->
   (forall n l x, In (n, l) nodes -> In x l -> node_attribute_rule n x) /\
   (forall m ill l, In (m, ill, l) sets ->
      (ill = true -> l = []) /\ forall x, In x l -> nodeset_attribute_rule x)).
Proof. exact CHAast_accepts_short. Qed.
Print Assumptions C29_rules_checked_partial.

(** What is checked in general: the first attribute of each list, and the
    operators of nodesets with attributes. *)
Theorem C29_first_checked_partial :
  forall nodes sets,
  CHAast nodes sets = [] <->
  (forall n l, In (n, l) nodes -> forall x l', l = x :: l' -> node_attribute_rule n x) /\
  (forall m ill l, In (m, ill, l) sets ->
     (ill = true -> l = []) /\ forall x l', l = x :: l' -> nodeset_attribute_rule x).
Proof. exact CHAast_accepts. Qed.
Print Assumptions C29_first_checked_partial.

Definition root_of (l : list attribute) : inode := mk_node (nm "prog") true [] l [] [].

Example C29_instance :
  CHAast [(root_of [inh_attr "env" AT_int], [inh_attr "env" AT_int])] [] = [RootInherited (nm "env")] /\
  CHAast [(root_of [syn_attr "env" AT_int], [syn_attr "env" AT_int])] [] = [].
Proof. split; vm_compute; reflexivity. Qed.

(** The full property is false: a root node with an inherited attribute in
    second place is accepted. *)
Theorem C29_every_attribute_checked_refuted :
  ~ forall nodes sets, CHAast nodes sets = [] ->
    forall n l x, In (n, l) nodes -> In x l -> node_attribute_rule n x.
Proof.
  intros H.
  set (l := [syn_attr "type" AT_int; inh_attr "env" AT_int]).
  destruct (H [(root_of l, l)] [] eq_refl (root_of l) l (inh_attr "env" AT_int)) as [C _].
  - left. reflexivity.
  - right. left. reflexivity.
  - apply C. split; reflexivity.
Qed.
Print Assumptions C29_every_attribute_checked_refuted.
