(** What a generated compiler does about trees that break its
    specification. *)

From Coq Require Import List NArith.
From Verif Require Import Front.Syntax Front.SetsModel Front.LifetimesSpec Gen.CheckSpec Gen.CheckModel
  Gen.AccessModel Gen.CompileModel Gen.TablesModel Gen.TablesSpec Copra.TravModel Copra.PhaseDriverModel Copra.PhaseDriverSpec.
Import ListNotations.

(** The specification, its nodes having all their attributes: those of their
    nodesets as well (C48). *)
Definition spec_of (a : ast) (x : analysis) : ast :=
  mk_ast (a_phases a) (a_traversals a) (a_passes a) (a_nodes (finished a (an_attributes x) (an_members x))) (a_nodesets a) (a_enums a).

(** The action of the specification that has number [i] is a traversal or
    pass, and [l] is what the driver runs for it. *)
Definition is_action (a : ast) (whole : plan) (i : N) (l : leaf) : Prop :=
  exists q n, In (i, q) (numbered 1 whole) /\ runs a q (ALeaf n l).

Section Guard.
  Context {G W T : Type}.
  (** The part of the state of the compiler that is its tree. *)
  Variable tree_in : T -> option ctree.

  (** What has been run, whether or not the run came to its end. *)
  Definition run_log (r : result leaf G W T) : list (event leaf G W T) :=
    match r with Cont z => log z | Halt _ z => log z end.

  (** A run of the compiler of specification [s]: every action that is run is
      one of the specification, and finds a tree that is consistent with it.
      If the check stops the run, the tree was not. *)
  Record guarded_run (a s : ast) (whole : plan) (enforced : list ilifetime -> list ilifetime)
         (r : result leaf G W T) : Prop := {
    gr_runs : forall i l w v, In (EvRun i l w v) (run_log r) -> is_action a whole i l;
    gr_before : forall i l w v t, In (EvRun i l w v) (run_log r) -> tree_in v = Some t ->
      consistent s whole enforced i t;
    gr_stops : forall z, r = Halt HCheckFailed z ->
      exists t, tree_in (node z) = Some t /\ ~ consistent s whole enforced (action_id (drv z)) t }.

  (** User code: it builds trees with the slots of their declarations, and
      does not switch off the check. *)
  Record keeps_shape (s : ast) (leaf_fun : leaf -> N -> W -> T -> option (W * T * list signal)) : Prop := {
    ks_shape : forall l i w v w' v' xs, (forall t, tree_in v = Some t -> shaped s t) -> leaf_fun l i w v = Some (w', v', xs) ->
      forall t, tree_in v' = Some t -> shaped s t;
    ks_check : forall l i w v w' v' xs, leaf_fun l i w v = Some (w', v', xs) -> ~ In (SSetCheck false) xs }.
End Guard.
