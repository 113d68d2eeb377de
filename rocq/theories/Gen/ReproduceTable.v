(** The orders of iteration of C62 are those of the hash tables of palm. *)

From Coq Require Import List NArith Bool Arith Lia Permutation ListDec.
From Verif Require Import Base.Outcome Palm.HashTableModel Palm.HashTableSpec Palm.HashTableProof Palm.HashTableProps Gen.ReproduceSpec.
Import ListNotations.
Local Open Scope outcome_scope.

Section Table.
  Context {A : Type}.
  Variable dec : forall x y : A, {x = y} + {x <> y}.
  Variable address : A -> N.

  (** HTnew_Ptr (100), one HTinsert for each element of [l], and the elements
      in the order of HTiterate and HTiterateNext (gen_visit_source.c:26, 270-294,
      325, gen_equation_functions.c:142-150, gen_user_equations.c:143-151,
      schedule_attribute_visits.c:497-523, 536) *)
  Definition iterated (l : list A) : outcome (list A) :=
    let! r := run PtrHash N.eqb (HTnew 100) (map (fun x => OpInsert (address x) (Some x)) l) in
    let! es := iterate_all (HTelementCount (fst r)) (fst r) in
    Val (flat_map (fun e => match snd e with Some x => [x] | None => [] end) es).

  Hypothesis injective : forall x y, address x = address y -> x = y.

  Lemma latest_inserts : forall l k v, latest N.eqb (map (fun x => OpInsert (address x) (Some x)) l) k = Some v <->
    exists x, In x l /\ address x = k /\ v = Some x.
  Proof.
    induction l as [|x l IH]; intros k v; cbn [map latest].
    - split; [discriminate|]. intros (x & [] & _).
    - destruct (N.eqb_spec (address x) k) as [E|E].
      + split.
        * intros H. injection H as <-. exists x. split; [left; reflexivity|auto].
        * intros (y & _ & Ey & ->). f_equal. f_equal. apply injective. congruence.
      + rewrite IH. split.
        * intros (y & I & Q). exists y. split; [right; exact I|exact Q].
        * intros (y & [->|I] & Ey & Q); [congruence|]. exists y. auto.
  Qed.

  Lemma iterated_right : forall l, NoDup l -> exists m, iterated l = Val m /\ Permutation m l.
  Proof.
    intros l Nd. set (os := map (fun x => OpInsert (address x) (Some x)) l).
    assert (D : forall h os', (forall o, In o os' -> exists x, o = OpInsert (address x) (Some x)) -> all_removes_defined N.eqb PtrHash 100 h os').
    { intros h os'. revert h. induction os' as [|o os' IH]; intros h H; cbn [all_removes_defined]; [exact I|].
      destruct (H o (or_introl eq_refl)) as (x & ->). split; [exact I|]. apply IH. intros o' Io. apply H. right. exact Io. }
    assert (Ho : forall o, In o os -> exists x, o = @OpInsert N A (address x) (Some x)).
    { intros o Io. apply in_map_iff in Io. destruct Io as (x & <- & _). eauto. }
    destruct (C01_history_refines_map_partial N A PtrHash N.eqb C01_pointer_keys 100 ltac:(lia) os (D [] os Ho)) as (t & R).
    assert (Re : reaches PtrHash N.eqb 100 os t) by (eexists; exact R).
    assert (Nc : no_clear os) by (intros Ic; destruct (Ho _ Ic) as (x & E); discriminate).
    destruct (C03_iteration_partial N A PtrHash N.eqb C01_pointer_keys 100 ltac:(lia) os t (HTelementCount t) Re Nc (le_n _)) as (es & E & Kd & Lc).
    unfold iterated. fold os. rewrite R. cbn [bind fst]. rewrite E. cbn [bind]. eexists. split; [reflexivity|].
    assert (Le : forall k v, latest N.eqb (rev os) k = Some v <-> exists x, In x l /\ address x = k /\ v = Some x).
    { intros k v. unfold os. rewrite <- map_rev, latest_inserts. split; intros (x & I & Q); exists x; (split; [|exact Q]); [apply in_rev, I|apply in_rev; rewrite rev_involutive; exact I]. }
    assert (Ex : forall k v, In (k, v) es <-> exists x, In x l /\ address x = k /\ v = Some x).
    { intros k v. rewrite <- Le, Lc. split; [intros I; exists k; split; [exact I|apply N.eqb_refl]|]. intros (k' & I & Q). apply N.eqb_eq in Q. subst k'. exact I. }
    assert (Shape : forall e, In e es -> exists x, e = (address x, Some x)).
    { intros [k v] I. apply Ex in I. destruct I as (x & _ & <- & ->). eauto. }
    apply NoDup_Permutation.
    - clear -Kd Shape. induction es as [|e es IH]; [constructor|]. destruct (Shape e (or_introl eq_refl)) as (x & ->). cbn [flat_map snd app]. constructor.
      + intros I. apply in_flat_map in I. destruct I as (e & Ie & Iv). destruct (Shape e (or_intror Ie)) as (y & ->). cbn [snd] in Iv. destruct Iv as [->|[]].
        apply In_nth_error in Ie. destruct Ie as (j & Hj). assert (X := Kd 0 (S j) _ _ eq_refl Hj (N.eqb_refl _)). discriminate X.
      + apply IH; [|intros e I; apply Shape; right; exact I]. intros i j a b Hi Hj Q. assert (X := Kd (S i) (S j) a b Hi Hj Q). congruence.
    - exact Nd.
    - intros x. rewrite in_flat_map. split.
      + intros ([k v] & I & Iv). cbn [snd] in Iv. apply Ex in I. destruct I as (y & Iy & _ & ->). destruct Iv as [->|[]]. exact Iy.
      + intros I. exists (address x, Some x). split; [|left; reflexivity]. apply Ex. eauto.
  Qed.

  (** An order of iteration for all lists. *)
  Definition order_of (l : list A) : list A :=
    if NoDup_dec dec l then match iterated l with Val m => m | _ => l end else l.
  Lemma order_iterates : iterates order_of.
  Proof.
    intros l. unfold order_of. destruct (NoDup_dec dec l) as [Nd|_]; [|apply Permutation_refl].
    destruct (iterated_right l Nd) as (m & -> & Pm). exact Pm.
  Qed.
  Lemma order_right : forall l, NoDup l -> iterated l = Val (order_of l).
  Proof.
    intros l Nd. unfold order_of. destruct (NoDup_dec dec l) as [_|C]; [|contradiction]. destruct (iterated_right l Nd) as (m & -> & _). reflexivity.
  Qed.

  (** Elements of [B] in tables by their key: HTiterate gives the keys, and
      the value of a key is the list of its elements
      (schedule_attribute_visits.c:536-541). *)
  Context {B : Type}.
  Variable key : B -> A.
  Definition of_key (l : list B) (k : A) : list B := filter (fun x => if dec (key x) k then true else false) l.
  Definition grouped (l : list B) (ks : list A) : list B := flat_map (of_key l) ks.

  Lemma grouped_cons : forall l x ks, NoDup ks -> In (key x) ks -> Permutation (grouped (x :: l) ks) (x :: grouped l ks).
  Proof.
    intros l x. unfold grouped. induction ks as [|k ks IH]; intros N I; [destruct I|]. apply NoDup_cons_iff in N. destruct N as [Nk N]. cbn [flat_map].
    assert (Skip : ~ In (key x) ks -> flat_map (of_key (x :: l)) ks = flat_map (of_key l) ks).
    { clear. induction ks as [|k ks IH]; intros H; [reflexivity|]. cbn [flat_map]. rewrite IH by (intros C; apply H; right; exact C). f_equal.
      unfold of_key. cbn [filter]. destruct (dec (key x) k) as [E|E]; [|reflexivity]. destruct H. left. symmetry. exact E. }
    unfold of_key at 1. cbn [filter]. destruct (dec (key x) k) as [E|E].
    - rewrite Skip by congruence. reflexivity.
    - destruct I as [I|I]; [congruence|]. etransitivity; [apply Permutation_app_head, IH; assumption|].
      change (filter (fun y => if dec (key y) k then true else false) l) with (of_key l k). symmetry. apply Permutation_middle.
  Qed.

  Lemma grouped_right : forall l ks, NoDup ks -> (forall x, In x l -> In (key x) ks) -> Permutation (grouped l ks) l.
  Proof.
    intros l ks N. induction l as [|x l IH]; intros H.
    - unfold grouped. induction ks as [|k ks IHk]; [constructor|]. cbn [flat_map of_key filter app]. apply IHk; [|intros y []]. apply NoDup_cons_iff in N. apply N.
    - etransitivity; [apply grouped_cons; [exact N|apply H; left; reflexivity]|]. constructor. apply IH. intros y I. apply H. right. exact I.
  Qed.

  Definition group_order (l : list B) : list B := grouped l (order_of (nodup dec (map key l))).
  Lemma groups_iterate : iterates group_order.
  Proof.
    intros l. unfold group_order. assert (Pm := order_iterates (nodup dec (map key l))). apply grouped_right.
    - apply (Permutation_NoDup (Permutation_sym Pm)), NoDup_nodup.
    - intros x I. apply (Permutation_in _ (Permutation_sym Pm)). apply nodup_In. apply in_map. exact I.
  Qed.
  Lemma groups_right : forall l, exists ks, iterated (nodup dec (map key l)) = Val ks /\ group_order l = grouped l ks.
  Proof. intros l. eexists. split; [apply order_right, NoDup_nodup|reflexivity]. Qed.
End Table.
