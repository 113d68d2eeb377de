(** C12: the traversal stack; C13: TRAVchildren; C14: traversal tables skip
    only what has no target below it. *)

From Coq Require Import List Arith Bool.
From Verif Require Import Base.Outcome Copra.TravModel Copra.TravSpec Copra.TravProof Copra.TravInst.
From Verif Require Import Front.ReachModel Front.ReachSpec Front.ReachProof.
Import ListNotations.

(** C12: whatever the user functions do, a finished [TRAVstart] leaves the
    stack of traversals as it found it; the init and free calls it caused are
    properly nested and matched, and each user function called belongs to the
    innermost traversal started and not yet freed. *)
Theorem C12_start_is_balanced :
  forall (A W : Type) (vtable : nat -> nat -> entry) (user : nat -> W -> tree A -> prog A W)
         fuel (s : tstate A) w t trav s' w' r,
    TRAVstart vtable user fuel s w t trav = Val (s', w', r) ->
    stack s' = stack s /\
    exists new, tlog s' = new ++ tlog s /\ balanced (innermost s) (rev new).
Proof. exact @TRAVstart_keeps. Qed.
Print Assumptions C12_start_is_balanced.

(** The error exit of [TRAVpop] is never taken. *)
Theorem C12_pop_never_fails :
  forall (A W : Type) (vtable : nat -> nat -> entry) (user : nat -> W -> tree A -> prog A W)
         fuel (s : tstate A) w t trav,
    TRAVstart vtable user fuel s w t trav <> Exited.
Proof. exact @TRAVstart_no_exit. Qed.
Print Assumptions C12_pop_never_fails.

(** A user function asking for the current traversal gets its own. *)
Theorem C12_user_sees_own_traversal :
  forall (A W : Type) (vtable : nat -> nat -> entry) (user : nat -> W -> tree A -> prog A W)
         fuel (s : tstate A) w t trav st,
    stack s = trav :: st -> vtable trav (node_type t) = EUser ->
    forall k, user trav w t = PCurrent k ->
    TRAVdo vtable user (S fuel) s w t =
    run_prog (TRAVdo vtable user fuel) (k (Some trav)) (tlogged (TUser trav t) s).
Proof. exact @user_sees_current. Qed.
Print Assumptions C12_user_sees_own_traversal.

(** C13: [TRAVchildren] calls the traversal for exactly the non-NULL children,
    in order, each call starting from the state the previous one left; the
    result is the node with the results in the slots of the children and
    everything else unchanged. *)
Theorem C13_children_in_order :
  forall (A W : Type) (visit : tstate A -> W -> tree A -> tres A W) s w ty a kids s' w' r,
    TRAVchildren visit s w (Node ty a kids) = Val (s', w', r) <->
    exists kids',
      in_order (fun s w c s' w' c' => visit s w c = Val (s', w', c')) s w kids s' w' kids' /\
      r = Some (Node ty a kids').
Proof. exact @TRAVchildren_order. Qed.
Print Assumptions C13_children_in_order.

(** C14: with the tables generated for any specification whose names resolve,
    a traversal does exactly what it does with the reference tables, in which
    every node that is not a target has all its children walked: same user
    calls, in the same order (they are part of the state), same user state,
    same resulting tree.  [TRAVdo_typed] says that the trees traversed respect
    the declared child types.  The second half needs more fuel, because the
    reference goes deeper. *)
Theorem C14_pruning_invisible :
  forall (A W : Type) (sp : spec) (user : nat -> W -> tree A -> prog A W),
    resolved sp ->
    exists rows,
      rcb_rows sp (S (length (inodes sp))) (itravs sp) = Val rows /\
      forall (s : tstate A) w t x,
        (forall fuel, TRAVdo_typed (declared sp) (reference sp) user fuel s w t = Val x ->
           TRAVdo (gen_vtable sp rows) user fuel s w t = Val x) /\
        (forall fuel, TRAVdo_typed (declared sp) (gen_vtable sp rows) user fuel s w t = Val x ->
           exists fuel', TRAVdo (reference sp) user fuel' s w t = Val x).
Proof. exact @pruning_invisible. Qed.
Print Assumptions C14_pruning_invisible.

(** The hypotheses hold of a real run: traversal 2 starts traversal 1 on part
    of the tree, and the leaf is doubled. *)
Example C12_case :
  match TRAVstart (gen_vtable sp0 rows0) user0 10 empty_state 0 (Some tree0) 2 with
  | Val (s', w', Some (Node _ _ [Some b; Some e])) =>
      w' = 7 /\ b = body (body (leaf 10)) /\ e = extra /\ stack s' = [] /\
      rev (tlog s') = [TInit 2; TUser 2 tree0; TInit 1; TUser 1 (leaf 5); TFree 1; TFree 2]
  | _ => False
  end.
Proof. vm_compute. repeat split. Qed.

Example C14_case : resolved sp0 /\ well_typed (declared sp0) tree0 = true /\
  (exists x, TRAVdo_typed (declared sp0) (reference sp0) user0 10
               (mk_tstate [3] []) 0 tree0 = Val x) /\
  (exists s w r, TRAVdo_typed (declared sp0) (reference sp0) user0 10
               (mk_tstate [1] []) 0 tree0 = Val (s, w, r) /\ w = 5) /\
  gen_vtable sp0 rows0 1 (nodetype sp0 3) = ENop /\
  gen_vtable sp0 rows0 1 (nodetype sp0 1) = EChildren /\
  gen_vtable sp0 rows0 1 (nodetype sp0 2) = EUser.
Proof.
  split; [exact sp0_resolved|]. split; [vm_compute; reflexivity|].
  split; [vm_compute; eexists; reflexivity|].
  split; [vm_compute; repeat eexists|]. vm_compute. repeat split.
Qed.
