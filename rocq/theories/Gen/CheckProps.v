(** C20, C21 and C22: lifetimes and the consistency check. *)

From Coq Require Import String.
From Coq Require Import List Ascii NArith Bool Lia Arith.
From Verif Require Import Base.Outcome Palm.StrModel Front.Syntax Front.SetsModel Front.SetsSpec
  Front.SymbolTableModel Front.CheckExistanceModel
  Front.LifetimesModel Front.LifetimesSpec Front.LifetimesProof
  Copra.PhaseDriverModel Copra.PhaseDriverSpec
  Copra.TravModel Copra.TravProof Gen.CheckModel Gen.CheckSpec Gen.CheckProof Gen.CheckWhole
  Gen.CheckTrees Gen.CheckInst.
Import ListNotations.
Local Open Scope list_scope.
Local Open Scope N_scope.

(** C20: the numbers used to express ranges are the numbers of the phase
    driver (C15). *)
Theorem C20_numbers_of_driver : forall a whole n p, compiler a whole ->
  (In (n, p) (numbered 1 whole) -> 1 <= n /\
     nth_error (preorder (action_of whole)) (N.to_nat (n - 1)) = Some (action_of p)) /\
  length (numbered 1 whole) = length (preorder (action_of whole)).
Proof. exact numbers_of_driver. Qed.
Print Assumptions C20_numbers_of_driver.

(** C20, full statement, relative to a condition [side] on the specification
    and the lifetime: the check generated for node [n] reports child [k],
    which has lifetime [l], at action [id] iff the lifetime is violated. *)
Definition children_enforced (side : ast -> plan -> ilifetime -> Prop) : Prop :=
  forall a ste whole fuel ms sets i n k c l rest id t m,
    check_names a = Val ste -> from_parser a -> compiler a whole -> (depth whole <= fuel)%nat ->
    unpack_lifetimes ste fuel a = Val ms ->
    side a whole l ->
    nth_error (a_nodes a) i = Some n -> nth_error ms i = Some m ->
    nth_error (nd_children n) k = Some c -> ch_lifetimes c = l :: rest ->
    (reports (SChild k) (block id t (DGCHTinode (a_nodes a) sets n m)) <->
     violated whole l id (has_child k t)).

(** It holds if the start phase comes before all other phases in the source,
    no phase is run from two places, and a range that ends with a whole phase
    ends with a phase whose last action is not a phase. *)
Theorem C20_child_lifetimes_partial :
  children_enforced (fun a whole l => start_first a /\ used_once whole /\ plain_targets whole l).
Proof.
  intros a ste whole fuel ms sets i n k c l rest id t m H1 H2 H3 H4 H5 (S1 & S2 & S3).
  intros. now apply (child_enforced a ste a H1 (same_refl a) H2 whole H3 S1 S2 fuel H4 ms (unpack_mapped _ _ _ _ H5) sets i n k c l rest).
Qed.
Print Assumptions C20_child_lifetimes_partial.

Theorem C20_attribute_lifetimes_partial :
  forall a ste whole fuel ms sets i n k x l rest id t m,
    check_names a = Val ste -> from_parser a -> compiler a whole -> (depth whole <= fuel)%nat ->
    unpack_lifetimes ste fuel a = Val ms ->
    start_first a -> used_once whole -> plain_targets whole l ->
    nth_error (a_nodes a) i = Some n -> nth_error ms i = Some m ->
    nth_error (nd_attributes n) k = Some x -> at_lifetimes x = l :: rest ->
    (reports (SAttribute k) (block id t (DGCHTinode (a_nodes a) sets n m)) <->
     violated whole l id (has_attribute k t)).
Proof.
  intros a ste whole fuel ms sets i n k c l rest id t m H1 H2 H3 H4 H5 S1 S2 S3.
  intros. now apply (attribute_enforced a ste a H1 (same_refl a) H2 whole H3 S1 S2 fuel H4 ms (unpack_mapped _ _ _ _ H5) sets i n k c l rest).
Qed.
Print Assumptions C20_attribute_lifetimes_partial.

Theorem C20_node_lifetimes_partial :
  forall a ste whole fuel ms sets i n l rest id t m,
    check_names a = Val ste -> from_parser a -> compiler a whole -> (depth whole <= fuel)%nat ->
    unpack_lifetimes ste fuel a = Val ms ->
    start_first a -> used_once whole -> plain_targets whole l ->
    nth_error (a_nodes a) i = Some n -> nth_error ms i = Some m -> nd_lifetimes n = l :: rest ->
    (In DisallowedNode (block id t (DGCHTinode (a_nodes a) sets n m)) <-> violated whole l id true).
Proof.
  intros a ste whole fuel ms sets i n l rest id t m H1 H2 H3 H4 H5 S1 S2 S3.
  intros. now apply (node_enforced a ste a H1 (same_refl a) H2 whole H3 S1 S2 fuel H4 ms (unpack_mapped _ _ _ _ H5) sets i n l rest).
Qed.
Print Assumptions C20_node_lifetimes_partial.

(** A node with number 2 whose second child breaks its first lifetime without
    a message. *)
Lemma refute : forall (side : ast -> plan -> ilifetime -> Prop) a n m c l rest id right,
  well_formed a -> side a (whole_of a) l ->
  nth_error (a_nodes a) 1 = Some n -> nth_error (ms_of a) 1 = Some m ->
  nth_error (nd_children n) 1 = Some c -> ch_lifetimes c = l :: rest ->
  violated (whole_of a) l id right -> add_messages a id right = [] ->
  ~ children_enforced side.
Proof.
  intros side a n m c l rest id right (F1 & F2 & F3 & F4 & F5) Sd Hn Hm Hc El V No H.
  set (t := Node 2 [true] [None; if right then Some (a_num false) else None]).
  specialize (H a _ _ _ _ (sets_of a) 1%nat n 1%nat c l rest id t m F1 F2 F3 F4 F5 Sd Hn Hm Hc El).
  destruct H as [_ H]. assert (Hr : has_child 1 t = right) by (destruct right; reflexivity).
  rewrite Hr in H. destruct (H V) as (x & Hx & _).
  unfold add_messages, check_bodies in No.
  rewrite (nth_error_nth _ _ [] (map_nth_error (fun p => DGCHTinode (a_nodes a) (sets_of a) (fst p) (snd p)) 1
     (combine (a_nodes a) (ms_of a)) (combine_nth_error _ _ _ _ _ _ _ Hn Hm))) in No.
  fold t in No. cbn [fst snd] in No. rewrite No in Hx. exact Hx.
Qed.

Ltac refuting a :=
  let n := eval vm_compute in (nth_error (a_nodes a) 1) in
  let m := eval vm_compute in (nth_error (ms_of a) 1) in
  match n with Some ?n => match m with Some ?m =>
    eapply (refute _ a n m); [ | | vm_compute; reflexivity | vm_compute; reflexivity
                             | vm_compute; reflexivity | vm_compute; reflexivity | |]
  end end.

(** None of the three conditions can be dropped: *)
Theorem C20_nested_last_phase_refuted :
  ~ children_enforced (fun a whole l => start_first a /\ used_once whole).
Proof.
  refuting nested; [exact nested_formed|exact (conj nested_first nested_once)|exact nested_violated|].
  apply wrong_messages.
Qed.
Print Assumptions C20_nested_last_phase_refuted.

Theorem C20_phase_run_twice_refuted :
  ~ children_enforced (fun a whole l => start_first a /\ plain_targets whole l).
Proof.
  refuting twice; [exact twice_formed|split; [exact twice_first|]|exact twice_violated|apply wrong_messages].
  apply (twice_plain _ []). vm_compute. tauto.
Qed.
Print Assumptions C20_phase_run_twice_refuted.

Theorem C20_start_phase_not_first_refuted :
  ~ children_enforced (fun a whole l => used_once whole /\ plain_targets whole l).
Proof.
  refuting early; [exact early_formed|split; [exact early_once|]|exact early_violated|apply wrong_messages].
  apply (early_plain _ []). vm_compute. tauto.
Qed.
Print Assumptions C20_start_phase_not_first_refuted.

(** C20: which lifetimes are accepted.  [good_lifetimes] asks that attributes
    with a lifetime are links or strings, that the first lifetime of each
    thing names actions that exist, and that a node only has `allowed' and
    `disallowed'. *)
Theorem C20_accepted_lifetimes_partial : forall a ste whole fuel,
  check_names a = Val ste -> from_parser a -> compiler a whole -> (depth whole <= fuel)%nat ->
  start_first a -> used_once whole ->
  (exists ms, unpack_lifetimes ste fuel a = Val ms) /\ good_lifetimes a whole \/
  unpack_lifetimes ste fuel a = Exited /\ ~ good_lifetimes a whole.
Proof. intros a ste whole fuel H1 H2 H3 H4 H5 H6. now apply (unpack_accepts a ste a H1 (same_refl a)). Qed.
Print Assumptions C20_accepted_lifetimes_partial.

(** The code for a lifetime calls the function CTIerror, which does not
    exist, iff it is an `allowed' lifetime with a range. *)
Theorem C20_allowed_range_needs_CTIerror : forall s l,
  existsb calls_CTIerror (LifetimeSlotGen s l) = true <->
  ml_type l = LT_allowed /\ (ml_begin l <> None \/ ml_end l <> None).
Proof.
  intros s [ty b e]. unfold LifetimeSlotGen. cbn [ml_begin ml_end ml_type].
  destruct b, e, ty; cbn; intuition congruence.
Qed.
Print Assumptions C20_allowed_range_needs_CTIerror.

(** The hypotheses are met by [timed]. *)
Example C20_instance :
  well_formed timed /\ start_first timed /\ used_once (whole_of timed) /\
  (forall l rest, In (l :: rest) (lifetime_lists timed) -> plain_targets (whole_of timed) l) /\
  good_lifetimes timed (whole_of timed).
Proof.
  assert (F := timed_formed). split; [exact F|]. destruct F as (F1 & F2 & F3 & F4 & F5).
  split; [exact timed_first|]. split; [exact timed_once|]. split; [exact timed_plain|].
  destruct (unpack_accepts timed (ste_of timed) timed F1 (same_refl timed) F2 (whole_of timed) F3 timed_first timed_once 9 F4)
    as [[_ G]|[E _]]; [exact G|]. rewrite F5 in E. discriminate.
Qed.

(** Child right is disallowed during actions 6 (prune) to 9 (report, the last
    of the phase late); 5 is fold in opt and 10 is done. *)
Example C20_case : map (fun id => add_messages timed id true) [3; 5; 6; 9; 10] =
  [[]; [Missing (SChild 0)]; [Missing (SChild 0); Disallowed (SChild 1)];
   [Missing (SChild 0); Disallowed (SChild 1)]; [Missing (SChild 0)]].
Proof. vm_compute. reflexivity. Qed.

(** C21, full statement: every lifetime of a child is enforced. *)
Definition all_lifetimes_enforced (enforced : list ilifetime -> list ilifetime) : Prop :=
  forall a ste whole fuel ms sets i n k c l id t m,
    check_names a = Val ste -> from_parser a -> compiler a whole -> (depth whole <= fuel)%nat ->
    unpack_lifetimes ste fuel a = Val ms ->
    start_first a -> used_once whole -> plain_targets whole l ->
    nth_error (a_nodes a) i = Some n -> nth_error ms i = Some m ->
    nth_error (nd_children n) k = Some c -> In l (enforced (ch_lifetimes c)) ->
    violated whole l id (has_child k t) ->
    reports (SChild k) (block id t (DGCHTinode (a_nodes a) sets n m)).

Theorem C21_every_lifetime_refuted : ~ all_lifetimes_enforced (fun l => l).
Proof.
  intros H. destruct two_formed as (F1 & F2 & F3 & F4 & F5).
  destruct (nth_error (a_nodes two) 1) as [n|] eqn:En; [|discriminate].
  destruct (nth_error (ms_of two) 1) as [m|] eqn:Em; [|vm_compute in Em; discriminate].
  injection En as En.
  set (t := Node 2 [true] [None; None]).
  specialize (H two _ _ _ _ (sets_of two) 1%nat n 1%nat
    (mk_child (SetsInst.nm "right") (SetsInst.nm "Expr") true [lt_right; lt_left]) lt_left 10 t m F1 F2 F3 F4 F5 two_first two_once).
  destruct H as (x & Hx & _).
  - plain_tac.
  - now rewrite <- En.
  - exact Em.
  - now rewrite <- En.
  - now right; left.
  - exact two_violated.
  - assert (No : add_messages two 10 false = []) by apply wrong_messages.
    unfold add_messages, check_bodies in No.
    assert (Hn : nth_error (a_nodes two) 1 = Some n) by now rewrite <- En.
    rewrite (nth_error_nth _ _ [] (map_nth_error (fun p => DGCHTinode (a_nodes two) (sets_of two) (fst p) (snd p)) 1
     (combine (a_nodes two) (ms_of two)) (combine_nth_error _ _ _ _ _ _ _ Hn Em))) in No.
    change (block 10 t (DGCHTinode (a_nodes two) (sets_of two) n m) = []) in No.
    rewrite No in Hx. exact Hx.
Qed.
Print Assumptions C21_every_lifetime_refuted.

(** Only the first one is. *)
Theorem C21_first_lifetime_partial : all_lifetimes_enforced (firstn 1).
Proof.
  intros a ste whole fuel ms sets i n k c l id t m H1 H2 H3 H4 H5 S1 S2 S3 Hn Hm Hk Hl V.
  apply in_first_one in Hl. destruct Hl as (rest & El).
  now apply (child_enforced a ste a H1 (same_refl a) H2 whole H3 S1 S2 fuel H4 ms (unpack_mapped _ _ _ _ H5) sets i n k c l rest).
Qed.
Print Assumptions C21_first_lifetime_partial.

(** C22: the check leaves the tree and the stack of traversals as they are,
    and is silent exactly on the trees that are consistent with the
    specification, provided that nothing has more than one lifetime. *)
Theorem C22_accepts_consistent_partial :
  forall a ste ts ls whole fuel ms id t f s trav,
    check_names a = Val ste -> from_parser a -> parsed_ast a -> unwrap a = Val (ts, ls) ->
    compiler a whole -> (depth whole <= fuel)%nat -> unpack_lifetimes ste fuel a = Val ms ->
    start_first a -> used_once whole ->
    (forall l rest, In (l :: rest) (lifetime_lists a) -> plain_targets whole l) ->
    (forall l, In l (lifetime_lists a) -> (length l <= 1)%nat) ->
    shaped a t -> (height t <= f)%nat ->
    exists s' w,
      check_tree (check_bodies a (evaluated_sets a ls) ms) f trav id s (Some t) = Val (s', w, Some t) /\
      stack s' = stack s /\ (w = [] <-> consistent a whole (fun l => l) id t).
Proof.
  intros a ste ts ls whole fuel ms id t f s trav H1 H2 H3 H4 H5 H6 H7 S1 S2 S3 One Sh Hf.
  destruct (check_right a ste a H1 (same_refl a) H2 H3 ts ls H4 whole H5 S1 S2 fuel H6 ms (unpack_mapped _ _ _ _ H7) S3 id t f s trav Sh Hf)
    as (s' & w & E & K & C).
  exists s', w. split; [exact E|]. split; [exact K|]. rewrite C. now apply check_all.
Qed.
Print Assumptions C22_accepts_consistent_partial.

(** With more lifetimes, the first of each thing counts. *)
Theorem C22_accepts_first_lifetimes_partial :
  forall a ste ts ls whole fuel ms id t f s trav,
    check_names a = Val ste -> from_parser a -> parsed_ast a -> unwrap a = Val (ts, ls) ->
    compiler a whole -> (depth whole <= fuel)%nat -> unpack_lifetimes ste fuel a = Val ms ->
    start_first a -> used_once whole ->
    (forall l rest, In (l :: rest) (lifetime_lists a) -> plain_targets whole l) ->
    shaped a t -> (height t <= f)%nat ->
    exists s' w,
      check_tree (check_bodies a (evaluated_sets a ls) ms) f trav id s (Some t) = Val (s', w, Some t) /\
      stack s' = stack s /\ (w = [] <-> consistent a whole (firstn 1) id t).
Proof.
  intros a ste ts ls whole fuel ms id t f s trav H1 H2 H3 H4 H5 H6 H7 S1 S2 S3 Sh Hf.
  now apply (check_right a ste a H1 (same_refl a) H2 H3 ts ls H4 whole H5 S1 S2 fuel H6 ms (unpack_mapped _ _ _ _ H7) S3).
Qed.
Print Assumptions C22_accepts_first_lifetimes_partial.

Example C22_instance : forall l r, 
  well_formed timed /\ start_first timed /\ used_once (whole_of timed) /\ parsed_ast timed /\
  unwrap timed = Val (val ([], []) (unwrap timed)) /\
  (forall l, In l (lifetime_lists timed) -> (length l <= 1)%nat) /\
  shaped timed (a_prog (option_map a_num l) (option_map a_num r)).
Proof.
  intros l r. split; [exact timed_formed|]. split; [exact timed_first|]. split; [exact timed_once|].
  split; [apply timed_sets|]. split; [apply timed_sets|]. split; [exact timed_single|].
  apply a_prog_shaped.
Qed.

Definition timed_check (id : N) (t : ctree) : option (list message) :=
  match check_tree (check_bodies timed (sets_of timed) (ms_of timed)) 9 7 id (mk_tstate [4%nat] []) (Some t) with
  | Val (_, w, _) => Some w
  | _ => None
  end.
Example C22_case :
  timed_check 6 (a_prog (Some (a_num false)) None) = Some [] /\
  timed_check 7 (a_prog (Some (a_num false)) None) = Some [DisallowedNode] /\
  timed_check 6 (a_prog None None) = Some [Missing (SChild 0)] /\
  timed_check 1 (a_prog (Some (Node 3 [] [None])) None) = Some [DisallowedType 0].
Proof. vm_compute. auto. Qed.
