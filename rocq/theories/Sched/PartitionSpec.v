(** What the partition numbers of the attributes of a type have to satisfy. *)

From Coq Require Import List Bool Arith.
From Verif Require Import Front.Syntax Front.PropagateModel Sched.GraphSpec Sched.ScheduleModel Sched.ScheduleSpec.
Import ListNotations.

Section Spec.
  Context {A : Type}.
  (** the attributes, which are synthesized, and [needs x y]: [x] is needed to
      compute [y] *)
  Variable attribute : A -> Prop.
  Variable synthesized : A -> Prop.
  Variable needs : A -> A -> Prop.

  (** Class 2 and up; inherited attributes in even classes, synthesized ones in
      odd classes; nothing in an earlier class than something it needs. *)
  Record partitioning (number : A -> nat) : Prop := {
    pt_start : forall x, attribute x -> 2 <= number x;
    pt_synthesized : forall x, attribute x -> synthesized x -> Nat.Odd (number x);
    pt_inherited : forall x, attribute x -> ~ synthesized x -> Nat.Even (number x);
    pt_order : forall x y, attribute x -> attribute y -> needs x y -> number x <= number y }.

  (** ... with every number as small as possible. *)
  Definition least_partitioning (number : A -> nat) : Prop :=
    partitioning number /\
    forall other, partitioning other -> forall x, attribute x -> number x <= other x.

  (** The visits of a type, as the attributes they take and deliver: visit [k]
      takes what is inherited of the classes [2k+2] and [2k+3] and delivers
      the rest of them; every attribute once, and no visits at the end without
      attributes. *)
  Variable inherited : A -> Prop.
  Definition class_pair (number : A -> nat) (k : nat) (x : A) : Prop := number x = 2 * k + 2 \/ number x = 2 * k + 3.
  Record visiting (number : A -> nat) (visits : list (list A * list A)) : Prop := {
    vi_inputs : forall k inputs outputs, nth_error visits k = Some (inputs, outputs) ->
      NoDup inputs /\ forall x, In x inputs <-> attribute x /\ inherited x /\ class_pair number k x;
    vi_outputs : forall k inputs outputs, nth_error visits k = Some (inputs, outputs) ->
      NoDup outputs /\ forall x, In x outputs <-> attribute x /\ ~ inherited x /\ class_pair number k x;
    vi_all : forall x, attribute x -> exists k, k < length visits /\ class_pair number k x;
    vi_last : visits <> [] -> exists x, attribute x /\ class_pair number (length visits - 1) x }.
End Spec.

(** [needs b c]: somewhere attribute [b] of an occurrence is needed to compute
    attribute [c] of the same occurrence. *)
Definition needs {O A T} (ty : O -> T) (ps : list (production O A)) (b c : A) : Prop :=
  exists p o, depends_on ty ps p (o, b) (o, c).
(** The inherited and synthesized attributes of a node or nodeset. *)
Definition attribute_of_type (attributes : target -> list attribute) (t : target) (b : aptr) : Prop :=
  fst b = t /\ of_grammar attributes b.
(** All nodes, and the nodesets that have members. *)
Definition has_production (ps : list (production occurrence aptr)) (t : target) : Prop :=
  exists p, In p ps /\ p_root p = OType t.
