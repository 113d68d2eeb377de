(** The functions on whole tables, in memory. *)

From Coq Require Import List NArith Arith Lia Bool.
From Verif Require Import Base.Outcome Base.Heap Palm.HashTableModel Palm.HashTableSpec
  Palm.HashTableProof Palm.TableMemoryModel Palm.TableMemorySpec Palm.TableMemoryChains
  Palm.TableMemoryTables.
Import ListNotations.
Local Open Scope outcome_scope.

Section Ops.
  Context {K V : Type}.
  Variable hash : K -> N.
  Variable eq : K -> K -> bool.
  Hypothesis GK : good_key hash eq.
  Notation memory := (@memory K V).
  Notation table := (htable K V).
  Variable alloc : memory -> addr.
  Hypothesis alloc_free : forall h, lookup h (alloc h) = None.
  Notation wf := (@wf K V hash eq).

  Lemma nth_at {A} (l1 l2 : list A) y i : length l1 = i -> nth_error (l1 ++ y :: l2) i = Some y.
  Proof. intros <-. apply nth_mid. Qed.

  Lemma lookup_right h a arr al (t : table) k v :
    rep h a arr al t -> HashTableModel.HTlookup hash eq t k = Val v ->
    HTlookup hash eq h a k = Val v.
  Proof.
    intros R. unfold HashTableModel.HTlookup, HTlookup. rewrite (index_rep hash _ _ _ _ _ k R).
    destruct (HashTableModel.index hash t k) as [i| | | |] eqn:Ei; try discriminate. cbn [bind].
    destruct (index_bucket hash t k i Ei) as (Ek & b & Eb). unfold bucket. rewrite Eb. cbn [bind].
    destruct (take_bucket _ _ _ _ _ _ _ R Eb) as (ps1 & ps2 & p & al1 & al2 & l & bs1 & bs2 & B).
    rewrite (read_bucket_at _ _ _ _ _ _ _ _ _ _ _ _ _ _ _ R B). cbn [bind].
    assert (Al := bucket_alloc _ _ _ _ _ _ _ _ _ _ _ _ _ _ _ B).
    destruct B as [Bl Bb Ba Lp Ll Lb C C1 C2 Nl [Na Nr]].
    intros Q. injection Q as <-. apply (lookup_along_right eq k l); [exact C|now apply fits].
  Qed.

  Lemma count_right h a arr al (t : table) : rep h a arr al t -> HTelementCount h a = Val (elements t).
  Proof. intros R. unfold HTelementCount. now rewrite (read_table_rep _ _ _ _ _ R). Qed.

  Lemma remove_right h a arr al (t : table) k t' v :
    rep h a arr al t -> wf t -> HashTableModel.HTremove hash eq t k = Val (t', v) ->
    wf t' /\ exists h', HTremove hash eq h a k = Val (h', v) /\
                        changed h a arr al t h' t' (fun q => eq q k).
  Proof.
    intros R W. unfold HashTableModel.HTremove, HTremove. rewrite (index_rep hash _ _ _ _ _ k R).
    destruct (HashTableModel.index hash t k) as [i| | | |] eqn:Ei; try discriminate. cbn [bind].
    destruct (index_bucket hash t k i Ei) as (Ek & b & Eb). unfold bucket. rewrite Eb. cbn [bind].
    destruct (take_bucket _ _ _ _ _ _ _ R Eb) as (ps1 & ps2 & p & al1 & al2 & l & bs1 & bs2 & B).
    rewrite (read_bucket_at _ _ _ _ _ _ _ _ _ _ _ _ _ _ _ R B). cbn [bind].
    assert (Al := bucket_alloc _ _ _ _ _ _ _ _ _ _ _ _ _ _ _ B).
    assert (B' := B). destruct B' as [Bl Bb Ba Lp Ll Lb C C1 C2 Nl [Na Nr]].
    assert (Rt := r_table _ _ _ _ _ R).
    assert (Nar : a <> arr).
    { intros ->. assert (N := r_nodup _ _ _ _ _ R). inversion N; subst. cbn in *. tauto. }
    assert (Put := put_bucket h a arr al t i ps1 ps2 p al1 al2 l bs1 bs2 b).
    assert (Wb : forall b' el, (forall e, In e b' -> In e b) -> distinct eq b' ->
                 wf (mk_htable (bs1 ++ b' :: bs2) el)).
    { intros b' el I D. destruct t as [bs el0]. cbn [entries elements] in *. subst bs.
      apply (wf_put hash eq bs1 b bs2 b' el0); [exact W| |exact D].
      intros e Ie. rewrite Lb. exact (wf_hash _ _ _ W i b e Eb (I e Ie)). }
    assert (Db := wf_distinct _ _ _ W i b Eb).
    destruct b as [|[k0 v0] b0]; [discriminate|].
    destruct l as [|e l]; [destruct C|].
    assert (C' := C). destruct C' as (-> & nx & Le & C0). cbn [not_null bind].
    rewrite (read_entry_at _ _ _ _ _ Le). cbn [bind].
    assert (Nc := Nl). apply NoDup_cons_iff in Nc. destruct Nc as [Ne Nl'].
    destruct (eq k0 k) eqn:E.
    - intros Q. injection Q as <- <-. rewrite Bb, (set_mid bs1 bs2 b0 _ i Lb).
      split. { apply Wb; [intros; now right|]. now destruct Db. }
      assert (Nae : a <> e) by (intros ->; apply Na; now left).
      assert (Nre : arr <> e) by (intros ->; apply Nr; now left).
      unfold write_bucket. rewrite (read_table_rep _ _ _ _ _ R). cbn [bind not_null].
      unfold read_array. rewrite Ba. cbn [bind]. rewrite (nth_at _ _ _ _ Lp).
      rewrite (set_mid ps1 ps2 _ _ i Lp). cbn [bind].
      set (h1 := store h arr (BArray (ps1 ++ nx :: ps2))).
      assert (Le1 : lookup h1 e = lookup h e).
      { unfold h1. rewrite lookup_store. destruct (N.eqb_spec e arr); congruence. }
      unfold DeleteEntry, MEMfree. rewrite Le1, Le. cbn [bind].
      set (h2 := remove h1 e).
      assert (La2 : lookup h2 a = lookup h a).
      { unfold h2. rewrite lookup_remove. destruct (N.eqb_spec a e); [contradiction|].
        unfold h1. rewrite lookup_store. destruct (N.eqb_spec a arr); congruence. }
      unfold write_elements, read_table. rewrite La2, Rt. cbn [bind].
      eexists. split; [reflexivity|].
      destruct (Put (remove h e) nx l b0
                    (store h2 a (BTable (Some arr) (length (entries t)) (pred (elements t))))
                    (pred (elements t)) R B) as [R2 M2].
      + apply (chain_ext h); [|exact C0]. intros x I. rewrite lookup_remove.
        destruct (N.eqb_spec x e); [subst; contradiction|reflexivity].
      + exact Nl'.
      + apply moves_free; [exact Ne|]. intros x I. apply Al. now right.
      + now rewrite lookup_store, N.eqb_refl.
      + rewrite lookup_store. destruct (N.eqb_spec arr a); [congruence|].
        unfold h2. rewrite lookup_remove. destruct (N.eqb_spec arr e); [congruence|].
        unfold h1. now rewrite lookup_store, N.eqb_refl.
      + intros x Nx Nx'. rewrite lookup_store. destruct (N.eqb_spec x a); [contradiction|].
        unfold h2, h1. rewrite !lookup_remove, lookup_store.
        destruct (N.eqb_spec x arr); [contradiction|]. now destruct (x =? e)%N.
      + exists (al1 ++ l :: al2). split; [exact R2|]. split; [exact M2|].
        intros j x q. rewrite Bl, Bb. revert j x q.
        apply (put_spot al1 al2 (e :: l) l bs1 bs2 _ b0 i); [exact Ll|exact Lb|].
        intros x q I P. unfold spots in I. cbn [map fst combine] in I.
        destruct I as [I|I]; [|exact I]. injection I as <- <-. congruence.
    - assert (Rm := remove_along_right eq k a l (length h) h e nx b0 k0 v0 (Some arr)
                      (length (entries t)) (elements t) C Nl Le).
      assert (Fu : length l <= length h).
      { apply fits; [exact Nl'|]. intros x I. apply Al. now right. }
      specialize (Rm Fu Na Rt).
      assert (Cs := chain_remove_spec hash eq GK b0 k).
      destruct (chain_remove eq b0 k) as [b1 [v1|]] eqn:Er.
      + intros Q. injection Q as <- <-. rewrite Bb, (set_mid bs1 bs2 _ _ i Lb).
        destruct Rm as (h1 & l' & R1 & C' & N' & M & I). rewrite R1.
        destruct Db as [Db1 Db2].
        destruct (Cs _ _ eq_refl Db2) as (_ & _ & D1 & I1 & _).
        split.
        { apply Wb.
          - intros e0 [<-|I0]; [now left|]. right. auto.
          - split; [|exact D1]. intros e0 I0. auto. }
        eexists. split; [reflexivity|].
        assert (Nar1 : lookup h1 arr = lookup h arr) by (apply (moves_kept _ _ _ _ _ M Nr); congruence).
        destruct (Put h1 (Some e) (e :: l') ((k0, v0) :: b1)
                    (store h1 a (BTable (Some arr) (length (entries t)) (pred (elements t))))
                    (pred (elements t)) R B C' N' M) as [R2 M2].
        * now rewrite lookup_store, N.eqb_refl.
        * rewrite lookup_store. destruct (N.eqb_spec arr a); congruence.
        * intros x Nx Nx'. rewrite lookup_store. destruct (N.eqb_spec x a); [contradiction|reflexivity].
        * exists (al1 ++ (e :: l') :: al2). split; [exact R2|]. split; [exact M2|].
          intros j x q. rewrite Bl, Bb. revert j x q.
          apply (put_spot al1 al2 (e :: l) (e :: l') bs1 bs2 _ _ i); [exact Ll|exact Lb|].
          intros x q Iq P. unfold spots in *. cbn [map fst combine] in *.
          destruct Iq as [Iq|Iq]; [now left|]. right. auto.
      + intros Q. injection Q as <- <-. rewrite Rm. split; [exact W|].
        eexists. split; [reflexivity|]. exists al. split; [exact R|]. split; [|auto].
        apply moves_refl. exact (rep_alloc _ _ _ _ _ R).
  Qed.

  (** Loops over all buckets: the first buckets are done, [bs2] are not. *)
  Lemma fold_buckets_right h a arr al (t : table) : rep h a arr al t ->
    forall bs2 bs1, entries t = bs1 ++ bs2 ->
    fold_buckets (length bs2) h a (length bs1) = Val (map snd (concat bs2)).
  Proof.
    intros R. induction bs2 as [|b bs2 IH]; intros bs1 Eb; [reflexivity|].
    assert (En : nth_error (entries t) (length bs1) = Some b) by (rewrite Eb; apply nth_mid).
    destruct (take_bucket _ _ _ _ _ _ _ R En) as (ps1 & ps2 & p & al1 & al2 & l & bs1' & bs2' & B).
    cbn [length fold_buckets]. rewrite (read_bucket_at _ _ _ _ _ _ _ _ _ _ _ _ _ _ _ R B). cbn [bind].
    assert (Al := bucket_alloc _ _ _ _ _ _ _ _ _ _ _ _ _ _ _ B).
    rewrite (fold_along_right l (length h) h p b);
      [|exact (b_chain _ _ _ _ _ _ _ _ _ _ _ _ _ _ _ B)
       |apply fits; [exact (b_nodup _ _ _ _ _ _ _ _ _ _ _ _ _ _ _ B)|exact Al]].
    cbn [bind]. specialize (IH (bs1 ++ [b])). rewrite app_length in IH. cbn [length] in IH.
    rewrite Nat.add_1_r in IH. rewrite IH by (rewrite <- app_assoc; exact Eb).
    cbn [bind concat]. now rewrite map_app.
  Qed.
  Lemma fold_right_ h a arr al (t : table) : rep h a arr al t ->
    HTfold h a = Val (map snd (contents t)).
  Proof.
    intros R. unfold HTfold. rewrite (read_table_rep _ _ _ _ _ R). cbn [bind].
    exact (fold_buckets_right h a arr al t R (entries t) [] eq_refl).
  Qed.

  Lemma clear_buckets_right a arr : forall bs2 h al (t : table) bs1,
    rep h a arr al t -> entries t = bs1 ++ bs2 ->
    exists h' al', clear_buckets (length bs2) h a (length bs1) = Val h' /\
      rep h' a arr al' (mk_htable (bs1 ++ map (fun _ => []) bs2) (elements t)) /\
      moves h (foot a arr al) h' (foot a arr al') .
  Proof.
    induction bs2 as [|b bs2 IH]; intros h al t bs1 R Eb.
    { exists h, al. split; [reflexivity|]. cbn [map]. rewrite <- Eb.
      split; [now destruct t|]. apply moves_refl. exact (rep_alloc _ _ _ _ _ R). }
    assert (En : nth_error (entries t) (length bs1) = Some b) by (rewrite Eb; apply nth_mid).
    destruct (take_bucket _ _ _ _ _ _ _ R En) as (ps1 & ps2 & p & al1 & al2 & l & bs1' & bs2' & B).
    cbn [length clear_buckets]. rewrite (read_bucket_at _ _ _ _ _ _ _ _ _ _ _ _ _ _ _ R B). cbn [bind].
    assert (Al := bucket_alloc _ _ _ _ _ _ _ _ _ _ _ _ _ _ _ B).
    assert (B' := B). destruct B' as [Bl Bb Ba Lp Ll Lb C C1 C2 Nl [Na Nr]].
    assert (Rt := r_table _ _ _ _ _ R).
    assert (Nar : a <> arr).
    { intros ->. assert (N := r_nodup _ _ _ _ _ R). inversion N; subst. cbn in *. tauto. }
    rewrite Eb in Bb.
    assert (Es : bs1' = bs1 /\ bs2' = bs2).
    { clear - Bb Lb. revert bs1' Lb Bb. induction bs1 as [|x bs1 IH]; intros [|y bs1'] L E; try discriminate L.
      - now injection E as <-.
      - injection E as <- E. injection L as L. destruct (IH _ L E). now subst. }
    destruct Es as [-> ->].
    destruct (clear_along_right l (length h) h p b C Nl (fits h l Nl Al)) as (h1 & R1 & M1).
    rewrite R1. cbn [bind].
    assert (La1 : lookup h1 a = lookup h a) by (apply (moves_kept _ _ _ _ _ M1 Na); congruence).
    assert (Lr1 : lookup h1 arr = lookup h arr) by (apply (moves_kept _ _ _ _ _ M1 Nr); congruence).
    unfold write_bucket, read_table. rewrite La1, Rt. cbn [bind not_null].
    unfold read_array. rewrite Lr1, Ba. cbn [bind]. rewrite (nth_at _ _ _ _ Lp).
    rewrite (set_mid ps1 ps2 _ _ _ Lp). cbn [bind].
    set (h2 := store h1 arr (BArray (ps1 ++ None :: ps2))).
    destruct (put_bucket h a arr al t (length bs1) ps1 ps2 p al1 al2 l bs1 bs2 b h1 None [] [] h2
                (elements t) R B) as [R2 M2].
    - reflexivity.
    - constructor.
    - exact M1.
    - unfold h2. rewrite lookup_store. destruct (N.eqb_spec a arr); congruence.
    - unfold h2. now rewrite lookup_store, N.eqb_refl.
    - intros x Nx Nx'. unfold h2. rewrite lookup_store. destruct (N.eqb_spec x arr); [contradiction|reflexivity].
    - destruct (IH h2 (al1 ++ [] :: al2) (mk_htable (bs1 ++ [] :: bs2) (elements t)) (bs1 ++ [[]]) R2)
        as (h' & al' & E' & R' & M').
      + cbn [entries]. now rewrite <- app_assoc.
      + rewrite app_length in E'. cbn [length] in E'. rewrite Nat.add_1_r in E'.
        exists h', al'. split; [exact E'|]. split.
        * cbn [elements] in R'. rewrite <- app_assoc in R'. exact R'.
        * exact (moves_trans _ _ _ _ _ _ M2 M').
  Qed.
  Lemma clear_right h a arr al (t : table) : rep h a arr al t ->
    exists h', HTclear h a = Val h' /\ changed h a arr al t h' (HashTableModel.HTclear t) (fun _ => true).
  Proof.
    intros R. unfold HTclear. rewrite (read_table_rep _ _ _ _ _ R). cbn [bind].
    destruct (clear_buckets_right a arr (entries t) h al t [] R eq_refl) as (h' & al' & E & R' & M).
    exists h'. split; [exact E|]. exists al'. split; [exact R'|]. split; [exact M|]. discriminate.
  Qed.

  Lemma cleared_empty h a arr al (t : table) : rep h a arr al (HashTableModel.HTclear t) -> concat al = [].
  Proof.
    intros [_ (ps & _ & C) _]. cbn [entries HashTableModel.HTclear] in C. revert ps al C.
    induction (entries t) as [|b bs IH]; intros [|p ps] [|l al] C; try (exfalso; exact C); [reflexivity|].
    destruct C as [C1 C]. cbn [concat]. rewrite (IH _ _ C).
    destruct l; [reflexivity|destruct C1].
  Qed.
  Lemma delete_right h a arr al (t : table) : rep h a arr al t ->
    exists h', HTdelete h a = Val h' /\ moves h (foot a arr al) h' [].
  Proof.
    intros R. destruct (clear_right h a arr al t R) as (h1 & E1 & al1 & R1 & M1 & _).
    unfold HTdelete. rewrite E1. cbn [bind]. rewrite (read_table_rep _ _ _ _ _ R1). cbn [bind].
    assert (Ec := cleared_empty _ _ _ _ _ R1).
    destruct R1 as [Rt (ps & Ra & _) N]. unfold foot in *. rewrite Ec in *.
    assert (Nar : a <> arr) by (intros ->; inversion N; subst; cbn in *; tauto).
    unfold MEMfree. rewrite Ra. cbn [bind]. rewrite lookup_remove.
    destruct (N.eqb_spec a arr); [contradiction|]. rewrite Rt.
    eexists. split; [reflexivity|].
    apply (moves_trans _ _ _ _ _ _ M1). apply (moves_trans _ _ (remove h1 arr) [a]).
    - apply (moves_same _ (arr :: [a]) _ [a]).
      + apply moves_free; [intros [X|[]]; congruence|]. intros x [<-|[]]. congruence.
      + intros x. cbn. tauto.
      + intros x. reflexivity.
    - apply moves_free; [intros []|intros x []].
  Qed.

  Lemma map_buckets_right f a arr : forall bs2 h al (t : table) bs1,
    rep h a arr al t -> entries t = bs1 ++ bs2 ->
    exists h', map_buckets (length bs2) f h a (length bs1) = Val h' /\
      rep h' a arr al (mk_htable (bs1 ++ map (map (fun e : entry K V => (fst e, f (fst e) (snd e)))) bs2) (elements t)) /\
      moves h (foot a arr al) h' (foot a arr al).
  Proof.
    induction bs2 as [|b bs2 IH]; intros h al t bs1 R Eb.
    { exists h. split; [reflexivity|]. cbn [map].
      assert (Z : t = mk_htable (bs1 ++ []) (elements t)) by (rewrite <- Eb; now destruct t).
      split; [now rewrite Z in R|]. apply moves_refl. exact (rep_alloc _ _ _ _ _ R). }
    assert (En : nth_error (entries t) (length bs1) = Some b) by (rewrite Eb; apply nth_mid).
    destruct (take_bucket _ _ _ _ _ _ _ R En) as (ps1 & ps2 & p & al1 & al2 & l & bs1' & bs2' & B).
    cbn [length map_buckets]. rewrite (read_bucket_at _ _ _ _ _ _ _ _ _ _ _ _ _ _ _ R B). cbn [bind].
    assert (Al := bucket_alloc _ _ _ _ _ _ _ _ _ _ _ _ _ _ _ B).
    assert (B' := B). destruct B' as [Bl Bb Ba Lp Ll Lb C C1 C2 Nl [Na Nr]].
    assert (Rt := r_table _ _ _ _ _ R).
    rewrite Eb in Bb.
    assert (Es : bs1' = bs1 /\ bs2' = bs2).
    { clear - Bb Lb. revert bs1' Lb Bb. induction bs1 as [|x bs1 IH]; intros [|y bs1'] L E; try discriminate L.
      - now injection E as <-.
      - injection E as <- E. injection L as L. destruct (IH _ L E). now subst. }
    destruct Es as [-> ->].
    destruct (map_along_right eq f l (length h) h p b C Nl (fits h l Nl Al)) as (h1 & R1 & M1 & C').
    rewrite R1. cbn [bind].
    assert (La1 : lookup h1 a = lookup h a) by (apply (moves_kept _ _ _ _ _ M1 Na); congruence).
    assert (Lr1 : lookup h1 arr = lookup h arr) by (apply (moves_kept _ _ _ _ _ M1 Nr); congruence).
    destruct (put_bucket h a arr al t (length bs1) ps1 ps2 p al1 al2 l bs1 bs2 b h1 p l _ h1
                (elements t) R B C' Nl M1) as [R2 M2]; [congruence|congruence|reflexivity|].
    rewrite <- Bl in R2, M2.
    destruct (IH h1 al _ (bs1 ++ [map (fun e : entry K V => (fst e, f (fst e) (snd e))) b]) R2)
      as (h' & E' & R' & M').
    - cbn [entries]. now rewrite <- app_assoc.
    - rewrite app_length in E'. cbn [length] in E'. rewrite Nat.add_1_r in E'.
      exists h'. split; [exact E'|]. split.
      + cbn [elements] in R'. rewrite <- app_assoc in R'. exact R'.
      + exact (moves_trans _ _ _ _ _ _ M2 M').
  Qed.
  Lemma map_right f h a arr al (t : table) : rep h a arr al t ->
    exists h', HTmapWithKey f h a = Val h' /\ changed h a arr al t h' (mapped f t) (fun _ => false).
  Proof.
    intros R. unfold HTmapWithKey. rewrite (read_table_rep _ _ _ _ _ R). cbn [bind].
    destruct (map_buckets_right f a arr (entries t) h al t [] R eq_refl) as (h' & E & R' & M).
    exists h'. split; [exact E|]. exists al. split; [exact R'|]. split; [exact M|].
    intros i x q (l & b & E1 & E2 & I) _. exists l. eexists. split; [exact E1|]. split.
    - cbn [entries mapped]. rewrite nth_error_map, E2. reflexivity.
    - unfold spots in *. rewrite map_map. exact I.
  Qed.

  Lemma new_right (h : memory) n : exists h' arr,
    let a := snd (HTnew alloc h n) in
    fst (HTnew alloc h n) = h' /\
    rep h' a arr (repeat [] n) (HashTableModel.HTnew n) /\ moves h [] h' (foot a arr (repeat [] n)).
  Proof.
    unfold HTnew. cbn [fst snd]. set (a := alloc h). assert (La : lookup h a = None) by apply alloc_free.
    set (h1 := store h a (BTable None n 0)). set (arr := alloc h1).
    assert (Lr : lookup h1 arr = None) by apply alloc_free.
    assert (Nar : arr <> a).
    { intros E. rewrite E in Lr. unfold h1 in Lr. rewrite lookup_store, N.eqb_refl in Lr. discriminate. }
    set (h2 := store h1 arr (BArray (repeat None n))).
    eexists _, arr. split; [reflexivity|].
    assert (Ec : concat (repeat [] n) = ([] : list addr)) by (clear; induction n as [|n' IH]; [reflexivity|exact IH]).
    split; [split|].
    - cbn [entries elements HashTableModel.HTnew]. rewrite lookup_store, N.eqb_refl, repeat_length. reflexivity.
    - exists (repeat None n). split.
      + rewrite lookup_store. destruct (N.eqb_spec arr a); [contradiction|].
        unfold h2. now rewrite lookup_store, N.eqb_refl.
      + cbn [entries HashTableModel.HTnew]. generalize (store h2 a (BTable (Some arr) n 0)). clear. intros h0. induction n as [|n IH]; [exact I|]. split; [reflexivity|exact IH].
    - unfold foot. rewrite Ec. repeat constructor; cbn; intuition congruence.
    - unfold foot. rewrite Ec. apply (moves_trans _ _ h1 [a]).
      { apply moves_alloc; [exact La|intros x []]. }
      assert (La1 : lookup h1 a <> None) by (unfold h1; rewrite lookup_store, N.eqb_refl; discriminate).
      apply (moves_trans _ _ h2 (arr :: [a])).
      { apply moves_alloc; [exact Lr|]. intros x [<-|[]]. exact La1. }
      apply (moves_same _ (arr :: [a]) _ (arr :: [a])).
      + apply moves_write; [right; now left|]. intros x [<-|[<-|[]]]; unfold h2; rewrite lookup_store.
        * rewrite N.eqb_refl. discriminate.
        * destruct (N.eqb_spec a arr); [discriminate|exact La1].
      + intros x. reflexivity.
      + intros x. cbn. tauto.
  Qed.

  (** Iterators. *)
  Lemma first_bucket_right h a arr al (t : table) : rep h a arr al t ->
    forall bs2 bs1, entries t = bs1 ++ bs2 ->
    match concat bs2 with
    | [] => first_bucket (length bs2) h a (length bs1) = Val None
    | (k, _) :: _ => exists i e, first_bucket (length bs2) h a (length bs1) = Val (Some (i, e)) /\
                                 spot al (entries t) i e k
    end.
  Proof.
    intros R. induction bs2 as [|b bs2 IH]; intros bs1 Eb; [reflexivity|].
    assert (En : nth_error (entries t) (length bs1) = Some b) by (rewrite Eb; apply nth_mid).
    destruct (take_bucket _ _ _ _ _ _ _ R En) as (ps1 & ps2 & p & al1 & al2 & l & bs1' & bs2' & B).
    cbn [length first_bucket]. rewrite (read_bucket_at _ _ _ _ _ _ _ _ _ _ _ _ _ _ _ R B). cbn [bind].
    destruct B as [Bl Bb Ba Lp Ll Lb C C1 C2 Nl [Na Nr]].
    destruct b as [|[k v] b], l as [|e l]; try (exfalso; exact C).
    - cbn in C. subst p. cbn [concat app].
      specialize (IH (bs1 ++ [[]])). rewrite app_length in IH. cbn [length] in IH.
      rewrite Nat.add_1_r in IH. apply IH. now rewrite <- app_assoc.
    - destruct C as (-> & nx & Le & C). cbn [concat app]. exists (length bs1), e. split; [reflexivity|].
      exists (e :: l), ((k, v) :: b). split; [|split; [exact En|now left]].
      rewrite Bl, <- Ll. apply nth_mid.
  Qed.

  (** The entry an iterator stands on. *)
  Lemma chain_at (h : memory) : forall l p b x q, chain h p l b -> In (x, q) (spots l b) ->
    exists v nx l2 b1 b2, lookup h x = Some (BEntry q v nx) /\ chain h nx l2 b2 /\
      b = b1 ++ (q, v) :: b2 /\ incl (spots l2 b2) (spots l b).
  Proof.
    induction l as [|a l IH]; intros p [|[k v] b] x q C I; try (exfalso; exact C); [destruct I|].
    destruct C as (-> & nx & L & C). unfold spots in I. cbn [map fst combine] in I.
    destruct I as [I|I].
    - injection I as <- <-. exists v, nx, l, [], b. split; [exact L|]. split; [exact C|].
      split; [reflexivity|]. intros y J. right. exact J.
    - destruct (IH _ _ _ _ C I) as (v' & nx' & l2 & b1 & b2 & L' & C' & -> & J).
      exists v', nx', l2, ((k, v) :: b1), b2. split; [exact L'|]. split; [exact C'|].
      split; [reflexivity|]. intros y Iy. right. now apply J.
  Qed.

  Lemma after_skip k l m : (forall e : entry K V, In e l -> eq (fst e) k = false) ->
    after eq k (l ++ m) = after eq k m.
  Proof.
    induction l as [|[k' v'] l IH]; intros A; [reflexivity|]. cbn [app after].
    rewrite (A (k', v') (or_introl Logic.eq_refl) : eq k' k = false). apply IH. intros e I. apply A. now right.
  Qed.
  Lemma distinct_before b1 b2 q (v : ptr V) : distinct eq (b1 ++ (q, v) :: b2) ->
    forall e, In e b1 -> eq (fst e) q = false.
  Proof.
    induction b1 as [|[k v1] b1 IH]; intros D e I; [destruct I|]. cbn [app distinct] in D.
    destruct D as [D1 D2]. destruct I as [<-|I].
    - cbn [fst]. apply (D1 (q, v)). apply in_or_app. right. now left.
    - exact (IH D2 e I).
  Qed.

  Lemma spot_facts h a arr al (t : table) i x q : rep h a arr al t -> wf t -> spot al (entries t) i x q ->
    exists v nx l2 b1 b2 bs1 bs2,
      lookup h x = Some (BEntry q v nx) /\ chain h nx l2 b2 /\
      entries t = bs1 ++ (b1 ++ (q, v) :: b2) :: bs2 /\ length bs1 = i /\
      (forall y r, In (y, r) (spots l2 b2) -> spot al (entries t) i y r) /\
      after eq q (contents t) = Some (b2 ++ concat bs2) /\
      HashTableModel.HTlookup hash eq t q = Val v /\ In x (foot a arr al).
  Proof.
    intros R W (l & b & El & Eb & I).
    destruct (take_bucket _ _ _ _ _ _ _ R Eb) as (ps1 & ps2 & p & al1 & al2 & l' & bs1 & bs2 & B).
    destruct B as [Bl Bb Ba Lp Ll Lb C C1 C2 Nl [Na Nr]].
    assert (Q : l' = l). { rewrite Bl, <- Ll, nth_mid in El. congruence. } subst l'.
    destruct (chain_at h l p b x q C I) as (v & nx & l2 & b1 & b2 & Lx & C' & Eq & J). subst b.
    assert (Db := wf_distinct _ _ _ W i _ Eb).
    assert (Ek : idx hash (length (entries t)) q = i).
    { apply (wf_hash _ _ _ W i _ (q, v) Eb). apply in_or_app. right. now left. }
    exists v, nx, l2, b1, b2, bs1, bs2. split; [exact Lx|]. split; [exact C'|]. split; [exact Bb|].
    split; [exact Lb|]. split.
    { intros y r Iy. exists l, (b1 ++ (q, v) :: b2). split; [exact El|]. split; [exact Eb|]. now apply J. }
    split; [|split].
    - unfold contents. rewrite Bb, concat_app. cbn [concat]. rewrite after_skip.
      + rewrite <- app_assoc. rewrite after_skip.
        * cbn [app after]. rewrite (gk_refl _ _ GK). reflexivity.
        * exact (distinct_before b1 b2 q v Db).
      + intros e Ie. destruct (eq (fst e) q) eqn:E; [|reflexivity]. exfalso.
        apply in_concat in Ie. destruct Ie as (b0 & I0 & Ie). apply In_nth_error in I0.
        destruct I0 as (j & Ej).
        assert (Lj : j < length bs1) by (apply nth_error_Some; congruence).
        assert (Ej' : nth_error (entries t) j = Some b0) by (rewrite Bb, nth_error_app1; [exact Ej|exact Lj]).
        assert (Ij := wf_hash _ _ _ W j b0 e Ej' Ie).
        rewrite (idx_eq hash eq GK _ _ _ E) in Ij. lia.
    - unfold HashTableModel.HTlookup, HashTableModel.index, size.
      destruct (length (entries t)) as [|n] eqn:En.
      { rewrite Bb, app_length in En. cbn in En. lia. }
      rewrite <- En. cbn [bind]. change (N.to_nat (hash q mod N.of_nat (length (entries t))))
        with (idx hash (length (entries t)) q). rewrite En, Ek. unfold bucket. rewrite Eb. cbn [bind].
      f_equal. clear - Db GK. revert Db. induction b1 as [|[k w] b1 IH]; intros D; cbn [app chain_lookup].
      + now rewrite (gk_refl _ _ GK).
      + destruct D as [D1 D2]. rewrite (D1 (q, v) : (_ -> eq k q = false)); [auto|]. apply in_or_app. right. now left.
    - right. right. rewrite Bl, concat_app. apply in_or_app. right. cbn [concat]. apply in_or_app. left.
      unfold spots in I. exact (in_combine_l _ _ _ _ I).
  Qed.

  (** Setting the value of the entry an iterator stands on is an insertion. *)
  Lemma set_right h a arr al (t : table) i x q v t' r : rep h a arr al t -> wf t ->
    spot al (entries t) i x q -> HashTableModel.HTinsert hash eq t q v = Val (t', r) ->
    wf t' /\ exists h', write_value h x v = Val h' /\ changed h a arr al t h' t' (fun _ => false).
  Proof.
    intros R W S E. destruct (insert_right hash eq GK alloc alloc_free h a arr al t q v t' r R W E) as [W' _].
    split; [exact W'|]. clear W'.
    destruct (spot_facts h a arr al t i x q R W S)
      as (v0 & nx & l2 & b1 & b2 & bs1 & bs2 & Lx & _ & Eb & Lb & _ & _ & _ & Ix).
    destruct S as (l & b & El & Eb' & I).
    assert (Q : b = b1 ++ (q, v0) :: b2). { rewrite Eb, <- Lb, nth_mid in Eb'. congruence. } subst b.
    destruct (take_bucket _ _ _ _ _ _ _ R Eb') as (ps1 & ps2 & p & al1 & al2 & l' & bs1' & bs2' & B).
    assert (B' := B). destruct B' as [Bl Bb Ba Lp Ll Lb' C C1 C2 Nl [Na Nr]].
    assert (Ql : l' = l). { rewrite Bl, <- Ll, nth_mid in El. congruence. } subst l'.
    assert (Db := wf_distinct _ _ _ W i _ Eb').
    assert (Ek : idx hash (length (entries t)) q = i).
    { apply (wf_hash _ _ _ W i _ (q, v0) Eb'). apply in_or_app. right. now left. }
    assert (Et : t' = mk_htable (bs1' ++ (b1 ++ (q, v) :: b2) :: bs2') (elements t)).
    { revert E. unfold HashTableModel.HTinsert, HashTableModel.index, size.
      destruct (length (entries t)) as [|n] eqn:En; [discriminate|].
      rewrite <- En. cbn [bind]. change (N.to_nat (hash q mod N.of_nat (length (entries t))))
        with (idx hash (length (entries t)) q). rewrite En, Ek. unfold bucket. rewrite Eb'. cbn [bind].
      assert (Qc : chain_insert eq (b1 ++ (q, v0) :: b2) q v = (b1 ++ (q, v) :: b2, false)).
      { clear - Db GK. revert Db. induction b1 as [|[k w] b1 IH]; intros D; cbn [app chain_insert].
        - now rewrite (gk_refl _ _ GK).
        - destruct D as [D1 D2]. rewrite (D1 (q, v0) : (_ -> eq k q = false));
            [now rewrite (IH D2)|]. apply in_or_app. right. now left. }
      rewrite Qc. rewrite Bb, (set_mid bs1' bs2' _ _ i Lb'). intros Z. now injection Z as <- _. }
    subst t'. unfold write_value. rewrite (read_entry_at _ _ _ _ _ Lx). cbn [bind].
    eexists. split; [reflexivity|]. set (h1 := store h x (BEntry q v nx)).
    assert (Al := bucket_alloc _ _ _ _ _ _ _ _ _ _ _ _ _ _ _ B).
    assert (Il : In x l) by exact (in_combine_l _ _ _ _ I).
    assert (M : moves h l h1 l) by (apply moves_write; [exact Il|exact Al]).
    assert (Cn : chain h1 p l (b1 ++ (q, v) :: b2)).
    { clear - C I Nl Lx Db GK. subst h1. revert p b1 C I Nl Db.
      induction l as [|y l IH]; intros p b1 C I Nl Db; [destruct I|].
      inversion Nl as [|? ? Ny Nl']; subst.
      destruct b1 as [|[k w] b1]; cbn [app] in *.
      - destruct C as (-> & n & Ly & C). unfold spots in I. cbn [map fst combine] in I.
        assert (x = y).
        { destruct I as [I|I]; [congruence|]. exfalso. apply in_combine_r in I.
          destruct Db as [D1 _]. apply in_map_iff in I. destruct I as (e & Ee & Ie).
          specialize (D1 e Ie). rewrite Ee, (gk_refl _ _ GK) in D1. discriminate. }
        subst y. split; [reflexivity|]. exists nx. rewrite lookup_store, N.eqb_refl.
        split; [reflexivity|]. rewrite Lx in Ly. injection Ly as <-.
        apply (chain_ext h); [|exact C]. intros z Iz. rewrite lookup_store.
        destruct (N.eqb_spec z x); [subst; contradiction|reflexivity].
      - destruct C as (-> & n & Ly & C). destruct Db as [D1 D2].
        unfold spots in I. cbn [map fst combine] in I.
        assert (I' : In (x, q) (spots l (b1 ++ (q, v0) :: b2))).
        { destruct I as [I|I]; [|exact I]. injection I as -> ->. exfalso.
          assert (Z := D1 (q, v0)). cbn [fst] in Z. rewrite (gk_refl _ _ GK) in Z.
          discriminate Z. apply in_or_app. right. now left. }
        assert (Nxy : y <> x).
        { intros ->. apply Ny. exact (in_combine_l _ _ _ _ I'). }
        split; [reflexivity|]. exists n. split.
        + rewrite lookup_store. destruct (N.eqb_spec y x); [contradiction|exact Ly].
        + exact (IH n b1 C I' Nl' D2). }
    assert (Nax : a <> x) by (intros ->; contradiction).
    assert (Nrx : arr <> x) by (intros ->; contradiction).
    destruct (put_bucket h a arr al t i ps1 ps2 p al1 al2 l bs1' bs2' _ h1 p l (b1 ++ (q, v) :: b2) h1
                (elements t) R B Cn Nl M) as [R2 M2].
    - unfold h1. rewrite lookup_store. destruct (N.eqb_spec a x); [contradiction|].
      exact (r_table _ _ _ _ _ R).
    - unfold h1. rewrite lookup_store. destruct (N.eqb_spec arr x); [contradiction|exact Ba].
    - reflexivity.
    - exists (al1 ++ l :: al2). split; [exact R2|]. split; [exact M2|].
      intros j y s. rewrite Bl, Bb. revert j y s.
      apply (put_spot al1 al2 l l bs1' bs2' _ _ i); [exact Ll|exact Lb'|].
      intros y s Iy _. unfold spots in *. rewrite map_app in *. exact Iy.
  Qed.
End Ops.
