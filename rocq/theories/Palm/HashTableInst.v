(** The key types of HTnew_String, HTnew_Ptr and HTnew_Int, and concrete
    histories used as witnesses. *)

From Coq Require Import List NArith ZArith Ascii Bool Lia.
From Verif Require Import Base.Outcome Palm.HashTableModel Palm.HashTableSpec
  Palm.HashTableProof Palm.StrModel Palm.StrProof.
Import ListNotations.

Lemma string_keys_good : good_key StringHash (fun a b => STReq (Some a) (Some b)).
Proof.
  split.
  - intros a. apply STReq_iff. reflexivity.
  - intros a b H. apply STReq_iff in H. apply STReq_iff. auto.
  - intros a b c H1 H2. apply STReq_iff in H1. apply STReq_iff in H2.
    apply STReq_iff. congruence.
  - intros a b H. apply STReq_iff in H. injection H as ->. reflexivity.
Qed.

Lemma ptr_keys_good : good_key PtrHash N.eqb.
Proof.
  split.
  - apply N.eqb_refl.
  - intros a b H. apply N.eqb_eq in H. subst. apply N.eqb_refl.
  - intros a b c H1 H2. apply N.eqb_eq in H1. apply N.eqb_eq in H2. subst. apply N.eqb_refl.
  - intros a b H. apply N.eqb_eq in H. subst. reflexivity.
Qed.

Lemma int_keys_good : good_key IntHash Z.eqb.
Proof.
  split.
  - apply Z.eqb_refl.
  - intros a b H. apply Z.eqb_eq in H. subst. apply Z.eqb_refl.
  - intros a b c H1 H2. apply Z.eqb_eq in H1. apply Z.eqb_eq in H2. subst. apply Z.eqb_refl.
  - intros a b H. apply Z.eqb_eq in H. subst. reflexivity.
Qed.

(** Two colliding keys (64 and 128 with two buckets), an overwrite, a removal
    in the middle of a chain and a removal of a missing key in a used bucket. *)
Definition ex_ops : list (@op N N) :=
  [OpInsert 32 (Some 1); OpInsert 64 (Some 2); OpInsert 128 (Some 3); OpInsert 192 (Some 5);
   OpInsert 32 (Some 9); OpRemove 128; OpLookup 192; OpRemove 64; OpRemove 256; OpLookup 64]%N.

Ltac defined_by k := exists k; split; [vm_compute; discriminate|vm_compute; reflexivity].

Lemma ex_ops_defined_and_run :
  all_removes_defined N.eqb PtrHash 2 [] ex_ops /\
  exists t, run PtrHash N.eqb (HTnew 2) ex_ops = Val (t, spec_outs N.eqb [] ex_ops).
Proof.
  split.
  - unfold ex_ops; cbn [all_removes_defined]; repeat split;
      defined_by 192%N.
  - eexists. vm_compute. reflexivity.
Qed.

Lemma ex_ops_reaches :
  exists t, reaches PtrHash N.eqb 2 ex_ops t /\ no_clear ex_ops /\ HTelementCount t = 2.
Proof.
  eexists. split; [eexists; vm_compute; reflexivity|]. split; [|reflexivity].
  unfold no_clear, ex_ops. simpl. intuition discriminate.
Qed.

Lemma ex_ops_copy : exists t t',
  reaches PtrHash N.eqb 2 ex_ops t /\ no_clear ex_ops /\
  HTcpy PtrHash N.eqb 2 t = Val t' /\ HTlookup PtrHash N.eqb t' 32%N = Val (Some 9%N).
Proof.
  eexists. eexists. split; [eexists; vm_compute; reflexivity|].
  split; [unfold no_clear, ex_ops; simpl; intuition discriminate|].
  split; vm_compute; reflexivity.
Qed.

Lemma ex_ops_fold : exists t, reaches PtrHash N.eqb 2 ex_ops t /\
  HTfold (fun a v => match v with Some x => (a + x)%N | None => a end) t 0%N = 14%N.
Proof.
  eexists. split; [eexists; vm_compute; reflexivity|]. vm_compute. reflexivity.
Qed.

Lemma remove_missing_witness :
  exists (os : list (@op N N)) (k : N) t rs,
    run PtrHash N.eqb (HTnew 8) os = Val (t, rs) /\
    latest N.eqb (rev os) k = None /\
    HTremove PtrHash N.eqb t k = Undef.
Proof.
  exists [OpInsert 32%N (Some 1%N)], 64%N. eexists. eexists.
  split; [vm_compute; reflexivity|]. split; vm_compute; reflexivity.
Qed.

Lemma count_after_clear_witness :
  exists (os : list (@op N N)) t, reaches PtrHash N.eqb 8 os t /\
    (forall k, latest N.eqb (rev os) k = None) /\ HTelementCount t = 1.
Proof.
  exists [OpInsert 32%N (Some 1%N); OpClear]. eexists.
  split; [eexists; vm_compute; reflexivity|]. split; [reflexivity|reflexivity].
Qed.

Lemma iterate_after_clear_witness :
  exists (os : list (@op N N)) t, reaches PtrHash N.eqb 8 os t /\
    forall fuel, iterate_all fuel t = Aborted.
Proof.
  exists [OpInsert 32%N (Some 1%N); OpClear]. eexists.
  split; [eexists; vm_compute; reflexivity|]. intros fuel. reflexivity.
Qed.

Lemma copy_correct :
  forall (K V : Type) (hash : K -> N) (eq : K -> K -> bool), good_key hash eq ->
  forall (n : nat), n > 0 ->
  forall (os : list (@op K V)) t fuel, reaches hash eq n os t -> no_clear os ->
  HTelementCount t <= fuel ->
  exists t', HTcpy hash eq fuel t = Val t' /\
    forall k, HTlookup hash eq t' k = HTlookup hash eq t k.
Proof.
  intros K V hash eq GK n Hn os t fuel Hr Hc Hf.
  destruct (deep_copy_correct hash eq GK n Hn os t fuel (fun k => k) (fun v => v) Hr Hc
              (gk_refl _ _ GK) Hf) as (t' & H1 & H2).
  exists t'. split; [exact H1|]. intros k. rewrite H2.
  destruct (reaches_inv hash eq GK n Hn os t Hr) as [I _].
  rewrite (lookup_inv hash eq n Hn t _ k I).
  reflexivity.
Qed.
