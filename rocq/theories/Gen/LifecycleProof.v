(** Programs on trees in memory. *)

From Coq Require Import List Ascii NArith ZArith Bool Lia Permutation.
From Verif Require Import Base.Outcome Base.Heap Palm.StrModel Front.Syntax
  Gen.NodesModel Gen.NodesSpec Gen.NodesProof Gen.NodesCopy Gen.NodesFree Gen.NodesBuild Gen.NodesProps
  Gen.LifecycleModel Gen.LifecycleSpec.
Import ListNotations.

(** ** Lists *)
Lemma set_at_length : forall A k (x : A) l, length (set_at k x l) = length l.
Proof. induction k; intros x [|y l]; cbn; auto. Qed.
Lemma set_at_same : forall A k (x : A) l, nth_error l k = Some x -> set_at k x l = l.
Proof. induction k; intros x [|y l] E; cbn in *; try discriminate; [congruence|]. f_equal. auto. Qed.
Lemma set_at_set_at : forall A k (x y : A) l, set_at k x (set_at k y l) = set_at k x l.
Proof. induction k; intros x y [|z l]; cbn; try reflexivity. f_equal. auto. Qed.
Lemma set_at_swap : forall A k j (x y : A) l, k <> j -> set_at k x (set_at j y l) = set_at j y (set_at k x l).
Proof.
  induction k; intros [|j] x y [|z l] N; cbn; try reflexivity; try lia. f_equal. apply IHk. lia.
Qed.
Lemma nth_set_at_same : forall A k (x y : A) l, nth_error l k = Some y -> nth_error (set_at k x l) k = Some x.
Proof. induction k; intros x y [|z l] E; cbn in *; try discriminate; eauto. Qed.
Lemma nth_set_at_other : forall A k j (x : A) l, k <> j -> nth_error (set_at k x l) j = nth_error l j.
Proof. induction k; intros [|j] x [|z l] N; cbn; try reflexivity; try lia. apply IHk. lia. Qed.
Lemma index_found : forall A (name : A -> ident) x l k, index_of name x l = Some k ->
  exists y, nth_error l k = Some y /\ ID_LWR (name y) = ID_LWR x.
Proof.
  induction l as [|y l IH]; intros k E; [discriminate|]. cbn [index_of] in E. destruct (name_eqb _ _) eqn:N.
  - injection E as <-. exists y. split; [reflexivity|]. apply name_eqb_true, N.
  - destruct (index_of name x l) as [j|]; [|discriminate]. injection E as <-. exact (IH j eq_refl).
Qed.
Lemma update_same : forall A n (v : A) l, assoc n l = Some v -> update n v l = l.
Proof.
  induction l as [|[x w] l IH]; intros E; [reflexivity|]. cbn [assoc update] in *. destruct (name_eqb x n) eqn:N; [congruence|].
  rewrite IH by exact E. reflexivity.
Qed.

Lemma nodup_app_l : forall A (l1 l2 : list A), NoDup (l1 ++ l2) -> NoDup l1.
Proof. induction l1 as [|x l1 IH]; intros l2 N; [constructor|]. inversion N; subst. constructor; [|eauto]. intros I. apply H1. apply in_or_app; auto. Qed.
Lemma nodup_app_r : forall A (l1 l2 : list A), NoDup (l1 ++ l2) -> NoDup l2.
Proof. induction l1 as [|x l1 IH]; intros l2 N; [exact N|]. inversion N; subst. eauto. Qed.
Lemma nodup_app_not : forall A (l1 l2 : list A) x, NoDup (l1 ++ l2) -> In x l1 -> ~ In x l2.
Proof.
  induction l1 as [|y l1 IH]; intros l2 x N I J; [destruct I|]. inversion N; subst. destruct I as [->|I]; [|eapply IH; eauto].
  apply H1. apply in_or_app; auto.
Qed.

(** ** Memory *)
Lemma grown_perm : forall h h' f1 f2, grown h h' f1 -> Permutation f1 f2 -> grown h h' f2.
Proof.
  intros h h' f1 f2 [A B] P. split.
  - intros x N. apply A. intros I. apply N. eapply Permutation_in; eassumption.
  - intros x I. apply B. eapply Permutation_in; [apply Permutation_sym|]; eassumption.
Qed.
Lemma grown_shrunk : forall h0 h h' fp rest, grown h0 h (fp ++ rest) -> NoDup (fp ++ rest) -> shrunk h h' fp -> grown h0 h' rest.
Proof.
  intros h0 h h' fp rest [A B] N [C D]. split.
  - intros x I. destruct (in_dec N.eq_dec x fp) as [J|J].
    + rewrite (D x J). symmetry. apply B. apply in_or_app; auto.
    + rewrite (C x J). apply A. intros K. apply in_app_or in K. tauto.
  - intros x I. assert (J : ~ In x fp) by (intros J; exact (nodup_app_not _ _ _ x N J I)).
    rewrite (C x J). apply B. apply in_or_app; auto.
Qed.
Lemma returns_val : forall A malloc (m : outcome A) Q, returns malloc m Q -> ok malloc m Q.
Proof. intros A malloc m Q [(r & -> & H)|[-> H]]; exact H. Qed.
Lemma grown_same : forall h h' fp x, grown h h' fp -> lookup h x <> None -> lookup h' x = lookup h x.
Proof. intros h h' fp x [A B] N. apply A. intros I. destruct (B x I). contradiction. Qed.

Section Rep.
  Variable nodes : list inode.

  Lemma rep_owned : forall h p t fp x, rep nodes h p t fp -> In x fp -> lookup h x <> None.
  Proof. intros h p t fp x R I. destruct (owned_both nodes h) as [O _]. exact (O p t fp R x I). Qed.
  Lemma rep_opt_owned : forall h v o fp x, rep_opt nodes h v o fp -> In x fp -> lookup h x <> None.
  Proof. intros h v o fp x R I. destruct R; [destruct I|eapply rep_owned; eassumption]. Qed.
  Lemma rep_vars_owned : forall h vs st fp x, rep_vars nodes h vs st fp -> In x fp -> lookup h x <> None.
  Proof.
    intros h vs st fp x R. induction R; intros I; [destruct I|]. apply in_app_or in I. destruct I; [eapply rep_opt_owned; eassumption|auto].
  Qed.
  Lemma rep_opt_frame : forall h h' v o fp, rep_opt nodes h v o fp -> same_on fp h h' -> rep_opt nodes h' v o fp.
  Proof. intros h h' v o fp R S. destruct R; constructor. eapply rep_frame; eassumption. Qed.
  Lemma rep_vars_frame : forall h h' vs st fp, rep_vars nodes h vs st fp -> same_on fp h h' -> rep_vars nodes h' vs st fp.
  Proof.
    intros h h' vs st fp R. induction R; intros S; constructor; apply same_on_app in S; destruct S; [eapply rep_opt_frame; eassumption|auto].
  Qed.

  (** One variable among the others *)
  Lemma vars_split : forall h vs st fps k o, rep_vars nodes h vs st fps -> nth_error st k = Some o ->
    exists v fp rest, nth_error vs k = Some v /\ rep_opt nodes h v o fp /\ Permutation fps (fp ++ rest) /\
      forall h' v' o' fp', rep_opt nodes h' v' o' fp' -> same_on rest h h' ->
        exists fps', rep_vars nodes h' (set_at k v' vs) (set_at k o' st) fps' /\ Permutation fps' (fp' ++ rest).
  Proof.
    intros h vs st fps k o R. revert k. induction R as [|v vs o1 st fp fps R1 R IH]; intros k E; [destruct k; discriminate|].
    destruct k as [|k].
    - injection E as ->. exists v, fp, fps. split; [reflexivity|]. split; [exact R1|]. split; [apply Permutation_refl|].
      intros h' v' o' fp' R' S. exists (fp' ++ fps). split; [|apply Permutation_refl]. constructor; [exact R'|]. eapply rep_vars_frame; eassumption.
    - destruct (IH k E) as (v0 & fp0 & rest & E0 & R0 & P0 & K). exists v0, fp0, (fp ++ rest). split; [exact E0|]. split; [exact R0|]. split.
      { rewrite P0. rewrite !app_assoc. apply Permutation_app_tail, Permutation_app_comm. }
      intros h' v' o' fp' R' S. apply same_on_app in S. destruct S as [S1 S2]. destruct (K h' v' o' fp' R' S2) as (fps' & R2 & P2).
      exists (fp ++ fps'). split; [constructor; [eapply rep_opt_frame; eassumption|exact R2]|].
      rewrite P2. rewrite !app_assoc. apply Permutation_app_tail, Permutation_app_comm.
  Qed.
  Lemma vars_app : forall h vs st fps v o fp, rep_vars nodes h vs st fps -> rep_opt nodes h v o fp ->
    rep_vars nodes h (vs ++ [v]) (st ++ [o]) (fps ++ fp).
  Proof.
    intros h vs st fps v o fp R R1. induction R as [|v0 vs o0 st fp0 fps R0 R IH]; cbn [app].
    - rewrite <- (app_nil_r fp). constructor; [exact R1|constructor].
    - rewrite <- app_assoc. constructor; assumption.
  Qed.

  (** One child among the others *)
  Lemma kids_split : forall h cs kvs ts fps k c o, rep_kids nodes h cs kvs ts fps -> NoDup (map (fun c => ID_LWR (ch_name c)) cs) ->
    nth_error cs k = Some c -> nth_error ts k = Some o ->
    exists v fp rest, assoc (ID_LWR (ch_name c)) kvs = Some v /\ rep_opt nodes h v o fp /\ Permutation fps (fp ++ rest) /\
      forall h' v' o' fp', rep_opt nodes h' v' o' fp' -> same_on rest h h' ->
        exists fps', rep_kids nodes h' cs (update (ID_LWR (ch_name c)) v' kvs) (set_at k o' ts) fps' /\ Permutation fps' (fp' ++ rest).
  Proof.
    intros h cs kvs ts fps k c o R. revert k. induction R as [|c1 cs kvs ts fps R IH|c1 cs p t fp kvs ts fps R1 R IH]; intros k ND Ec Eo;
      [destruct k; discriminate| |]; cbn [map] in ND; inversion ND as [|? ? N1 ND']; subst; cbn [assoc update].
    - destruct k as [|k].
      + injection Ec as ->. injection Eo as <-. rewrite name_eqb_refl. exists (Ptr None), [], fps. split; [reflexivity|]. split; [constructor|].
        split; [apply Permutation_refl|]. intros h' v' o' fp' R' S. exists (fp' ++ fps). split; [|apply Permutation_refl].
        destruct R'; cbn [set_at app]; constructor; try assumption; eapply rep_kids_frame; eassumption.
      + rewrite name_eqb_neq by (intros E; apply N1; rewrite E; apply in_map_iff; exists c; split; [reflexivity|eapply nth_error_In, Ec]).
        destruct (IH k ND' Ec Eo) as (v & fp & rest & Ea & Ro & Pm & K). exists v, fp, rest. split; [exact Ea|]. split; [exact Ro|]. split; [exact Pm|].
        intros h' v' o' fp' R' S. destruct (K h' v' o' fp' R' S) as (fps' & R2 & P2). exists fps'. split; [|exact P2]. cbn [set_at]. constructor. exact R2.
    - destruct k as [|k].
      + injection Ec as ->. injection Eo as <-. rewrite name_eqb_refl. exists (Ptr (Some p)), fp, fps. split; [reflexivity|]. split; [constructor; exact R1|].
        split; [apply Permutation_refl|]. intros h' v' o' fp' R' S. exists (fp' ++ fps). split; [|apply Permutation_refl].
        destruct R'; cbn [set_at app]; constructor; try assumption; eapply rep_kids_frame; eassumption.
      + rewrite name_eqb_neq by (intros E; apply N1; rewrite E; apply in_map_iff; exists c; split; [reflexivity|eapply nth_error_In, Ec]).
        destruct (IH k ND' Ec Eo) as (v & fp0 & rest & Ea & Ro & Pm & K). exists v, fp0, (fp ++ rest). split; [exact Ea|]. split; [exact Ro|]. split.
        { rewrite Pm. rewrite !app_assoc. apply Permutation_app_tail, Permutation_app_comm. }
        intros h' v' o' fp' R' S. apply same_on_app in S. destruct S as [S1 S2]. destruct (K h' v' o' fp' R' S2) as (fps' & R2 & P2).
        exists (fp ++ fps'). split; [|rewrite P2, !app_assoc; apply Permutation_app_tail, Permutation_app_comm].
        cbn [set_at]. constructor; [eapply rep_frame; eassumption|exact R2].
  Qed.

  (** One attribute among the others *)
  Lemma attributes_split : forall h ats fs cs fps k x o, rep_attributes h ats fs cs fps -> NoDup (map (fun x => ID_LWR (at_name x)) ats) ->
    nth_error ats k = Some x -> nth_error cs k = Some o ->
    exists f fp rest, assoc (ID_LWR (at_name x)) fs = Some f /\ rep_attribute h x f o fp /\ Permutation fps (fp ++ rest) /\
      forall h' f' o' fp', rep_attribute h' x f' o' fp' -> same_on rest h h' ->
        exists fps', rep_attributes h' ats (update (ID_LWR (at_name x)) f' fs) (set_at k o' cs) fps' /\ Permutation fps' (fp' ++ rest).
  Proof.
    intros h ats fs cs fps k x o R. revert k. induction R as [|x1 ats f fs c cs fp fps R1 R IH]; intros k ND Ex Eo;
      [destruct k; discriminate|]; cbn [map] in ND; inversion ND as [|? ? N1 ND']; subst; cbn [assoc update].
    destruct k as [|k].
    - injection Ex as ->. injection Eo as <-. rewrite name_eqb_refl. exists f, fp, fps. split; [reflexivity|]. split; [exact R1|].
      split; [apply Permutation_refl|]. intros h' f' o' fp' R' S. exists (fp' ++ fps). split; [|apply Permutation_refl].
      cbn [set_at]. constructor; [exact R'|]. eapply rep_attributes_frame; eassumption.
    - rewrite name_eqb_neq by (intros E; apply N1; rewrite E; apply in_map_iff; exists x; split; [reflexivity|eapply nth_error_In, Ex]).
      destruct (IH k ND' Ex Eo) as (v & fp0 & rest & Ea & Ro & Pm & K). exists v, fp0, (fp ++ rest). split; [exact Ea|]. split; [exact Ro|]. split.
      { rewrite Pm. rewrite !app_assoc. apply Permutation_app_tail, Permutation_app_comm. }
      intros h' v' o' fp' R' S. apply same_on_app in S. destruct S as [S1 S2]. destruct (K h' v' o' fp' R' S2) as (fps' & R2 & P2).
      exists (fp ++ fps'). split; [|rewrite P2, !app_assoc; apply Permutation_app_tail, Permutation_app_comm].
      cbn [set_at]. constructor; [eapply rep_attribute_frame; eassumption|exact R2].
  Qed.
End Rep.
