(** Iterators and copies, in memory. *)

From Coq Require Import List NArith Arith Lia Bool.
From Verif Require Import Base.Outcome Base.Heap Palm.HashTableModel Palm.HashTableSpec
  Palm.HashTableProof Palm.TableMemoryModel Palm.TableMemorySpec Palm.TableMemoryChains
  Palm.TableMemoryTables Palm.TableMemoryOps.
Import ListNotations.
Local Open Scope outcome_scope.

Section Iters.
  Context {K V : Type}.
  Variable hash : K -> N.
  Variable eq : K -> K -> bool.
  Hypothesis GK : good_key hash eq.
  Notation memory := (@memory K V).
  Notation table := (htable K V).
  Variable alloc : memory -> addr.
  Hypothesis alloc_free : forall h, lookup h (alloc h) = None.
  Notation wf := (@wf K V hash eq).

  Lemma iterate_right h a arr al (t : table) : rep h a arr al t ->
    match first_key t with
    | Val (Some k) =>
        exists it i e, HTiterate alloc h a = Val (store (store h it (BIter a 0 None)) it (BIter a i (Some e)), Some it) /\
          lookup h it = None /\ spot al (entries t) i e k
    | Val None => HTiterate alloc h a = Val (h, None)
    | Aborted => HTiterate alloc h a = Aborted
    | _ => True
    end.
  Proof.
    intros R. unfold first_key, HTiterate. rewrite (read_table_rep _ _ _ _ _ R). cbn [bind].
    destruct (elements t) as [|m]; [reflexivity|].
    set (it := alloc h). assert (Li : lookup h it = None) by apply alloc_free.
    set (h1 := store h it (BIter a 0 None)).
    assert (R1 : rep h1 a arr al t).
    { apply (rep_ext h); [|exact R]. intros x I. unfold h1. rewrite lookup_store.
      destruct (N.eqb_spec x it); [|reflexivity]. subst x. exfalso.
      exact (rep_alloc _ _ _ _ _ R it I Li). }
    assert (F := first_bucket_right h1 a arr al t R1 (entries t) [] eq_refl). cbn [length] in F.
    unfold contents. revert F. destruct (concat (entries t)) as [|[k v] l]; intros F.
    - rewrite F. reflexivity.
    - destruct F as (i & e & E & S). rewrite E. cbn [bind]. exists it, i, e. auto.
  Qed.

  Lemma distinct_app (l m : list (entry K V)) : distinct eq l -> distinct eq m ->
    (forall e f, In e l -> In f m -> eq (fst e) (fst f) = false) -> distinct eq (l ++ m).
  Proof.
    induction l as [|[k v] l IH]; intros D Dm X; [exact Dm|]. destruct D as [D1 D2]. split.
    - intros e I. apply in_app_or in I. destruct I as [I|I]; [auto|].
      exact (X (k, v) e (or_introl Logic.eq_refl) I).
    - apply IH; auto. intros e f I J. apply X; [now right|exact J].
  Qed.
  Lemma concat_distinct n : forall (bs : list (list (entry K V))) off,
    (forall i b e, nth_error bs i = Some b -> In e b -> idx hash n (fst e) = off + i) ->
    (forall i b, nth_error bs i = Some b -> distinct eq b) -> distinct eq (concat bs).
  Proof.
    induction bs as [|b bs IH]; intros off H D; [exact I|]. cbn [concat]. apply distinct_app.
    - exact (D 0 b Logic.eq_refl).
    - apply (IH (S off)).
      + intros i b0 e E J. rewrite (H (S i) b0 e E J). lia.
      + intros i b0 E. exact (D (S i) b0 E).
    - intros e f Ie If. destruct (eq (fst e) (fst f)) eqn:E; [|reflexivity]. exfalso.
      apply in_concat in If. destruct If as (b0 & I0 & If). apply In_nth_error in I0.
      destruct I0 as (j & Ej). assert (X := H (S j) b0 f Ej If).
      assert (Y := H 0 b e Logic.eq_refl Ie). rewrite (idx_eq hash eq GK _ _ _ E) in Y. lia.
  Qed.
  Lemma contents_distinct t : wf t -> distinct eq (contents t).
  Proof. intros [H D]. exact (concat_distinct _ (entries t) 0 H D). Qed.

  Lemma contents_at p q (v : ptr V) l : distinct eq (p ++ (q, v) :: l) ->
    after eq q (p ++ (q, v) :: l) = Some l /\ chain_lookup eq (p ++ (q, v) :: l) q = v.
  Proof.
    induction p as [|[k w] p IH]; intros D; cbn [app after chain_lookup].
    - now rewrite (gk_refl _ _ GK).
    - destruct D as [D1 D2]. rewrite (D1 (q, v) : (_ -> eq k q = false)); [auto|].
      apply in_or_app. right. now left.
  Qed.

  (** The key and value at the address an iterator stands on, and the rest of
      the iteration. *)
  Lemma spot_contents h a arr al (t : table) i e q p v l :
    rep h a arr al t -> wf t -> spot al (entries t) i e q -> contents t = p ++ (q, v) :: l ->
    exists nx, lookup h e = Some (BEntry q v nx) /\ after eq q (contents t) = Some l.
  Proof.
    intros R W S E. assert (D := contents_distinct t W).
    destruct (spot_facts hash eq GK h a arr al t i e q R W S)
      as (v0 & nx & l2 & b1 & b2 & bs1 & bs2 & Le & _ & Eb & _ & _ & A & _ & _).
    exists nx. rewrite E in D. destruct (contents_at p q v l D) as [A1 B1].
    assert (E0 : contents t = (concat bs1 ++ b1) ++ (q, v0) :: (b2 ++ concat bs2)).
    { unfold contents. rewrite Eb, concat_app. cbn [concat]. now rewrite <- !app_assoc. }
    assert (D0 := contents_distinct t W). rewrite E0 in D0.
    destruct (contents_at _ q v0 _ D0) as [_ B0]. rewrite <- E0, E, B1 in B0. subst v0.
    split; [exact Le|]. now rewrite E.
  Qed.

  Lemma next_right h a arr al (t : table) it i e q l :
    rep h a arr al t -> wf t -> lookup h it = Some (BIter a i (Some e)) ->
    spot al (entries t) i e q -> after eq q (contents t) = Some l ->
    match l with
    | (k, _) :: _ => exists i' e', HTiterateNext h it = Val (store h it (BIter a i' (Some e')), Some it) /\
                                   spot al (entries t) i' e' k
    | [] => HTiterateNext h it = Val (remove h it, None)
    end.
  Proof.
    intros R W Li S A.
    destruct (spot_facts hash eq GK h a arr al t i e q R W S)
      as (v & nx & l2 & b1 & b2 & bs1 & bs2 & Le & C & Eb & Lb & Sp & A' & _ & _).
    rewrite A' in A. injection A as <-.
    unfold HTiterateNext, read_iter. rewrite Li. cbn [bind not_null].
    rewrite (read_entry_at _ _ _ _ _ Le). cbn [bind].
    destruct b2 as [|[k w] b2].
    - destruct l2 as [|? l2]; [|destruct C]. cbn in C. subst nx. cbn [app].
      rewrite (read_table_rep _ _ _ _ _ R). cbn [bind].
      assert (F := first_bucket_right h a arr al t R bs2 (bs1 ++ [b1 ++ [(q, v)]])).
      rewrite app_length in F. cbn [length] in F. rewrite Nat.add_1_r, Lb in F.
      assert (El : length (entries t) - Datatypes.S i = length bs2).
      { rewrite Eb, app_length. cbn [length]. lia. }
      rewrite El.
      assert (X : entries t = (bs1 ++ [b1 ++ [(q, v)]]) ++ bs2) by (rewrite <- app_assoc; exact Eb).
      specialize (F X). revert F. unfold entry. destruct (concat bs2) as [|[k w] r]; intros F.
      + rewrite F. cbn [bind]. unfold MEMfree. rewrite Li. reflexivity.
      + destruct F as (i' & e' & F & S'). rewrite F. cbn [bind]. eauto.
    - destruct l2 as [|e' l2]; [destruct C|]. destruct C as (-> & n' & Le' & C).
      cbn [app]. exists i, e'. split; [reflexivity|]. apply Sp. now left.
  Qed.

  Lemma current_at (h : memory) it a i e : lookup h it = Some (BIter a i (Some e)) ->
    current h it = Val e.
  Proof. intros E. unfold current, read_iter. now rewrite E. Qed.

  Lemma copy_along_right kc vc a arr al (t : table) a2 arr2 it : wf t ->
    forall l fuel h al2 t2 p q v i e t',
    contents t = p ++ (q, v) :: l ->
    rep h a arr al t -> rep h a2 arr2 al2 t2 -> wf t2 ->
    lookup h it = Some (BIter a i (Some e)) -> spot al (entries t) i e q ->
    ~ In it (foot a arr al) -> ~ In it (foot a2 arr2 al2) ->
    (forall x, In x (foot a arr al) -> ~ In x (foot a2 arr2 al2)) ->
    insert_all hash eq t2 (map (fun e => (kc (fst e), vc (snd e))) ((q, v) :: l)) = Val t' ->
    S (length l) <= fuel ->
    exists h' al2', copy_along hash eq alloc fuel kc vc h a2 (Some it) = Val h' /\
      rep h' a2 arr2 al2' t' /\ wf t' /\
      moves h (it :: foot a2 arr2 al2) h' (foot a2 arr2 al2').
  Proof.
    intros W. induction l as [|[q' v'] l IH];
      intros fuel h al2 t2 p q v i e t' Ec R R2 W2 Li S Ni Ni2 Dj Ins F;
      (destruct fuel as [|fuel]; [lia|]); cbn [copy_along].
    all: destruct (spot_contents h a arr al t i e q p v _ R W S Ec) as (nx & Le & Af).
    all: unfold HTiterKey, HTiterValue; rewrite (current_at _ _ _ _ _ Li); cbn [bind].
    all: rewrite (read_entry_at _ _ _ _ _ Le); cbn [bind].
    all: cbn [map fst snd insert_all] in Ins.
    all: destruct (HashTableModel.HTinsert hash eq t2 (kc q) (vc v)) as [[t3 r]| | | |] eqn:E3;
      try discriminate Ins; cbn [bind] in Ins.
    all: destruct (insert_right hash eq GK alloc alloc_free h a2 arr2 al2 t2 _ _ t3 r R2 W2 E3)
      as (W3 & h3 & I3 & al3 & R3 & M3 & _); rewrite I3; cbn [bind].
    all: assert (Kp : forall x, In x (it :: foot a arr al) -> lookup h3 x = lookup h x /\ ~ In x (foot a2 arr2 al3))
      by (intros x [<-|I]; apply (proj1 M3); [exact Ni2|congruence|now apply Dj|exact (rep_alloc _ _ _ _ _ R x I)]).
    all: assert (Ra : rep h3 a arr al t)
      by (apply (rep_ext h); [|exact R]; intros x I; apply Kp; now right).
    all: assert (Li3 : lookup h3 it = Some (BIter a i (Some e))) by (rewrite (proj1 (Kp it (or_introl Logic.eq_refl))); exact Li).
    all: assert (N := next_right h3 a arr al t it i e q _ Ra W Li3 S Af); cbn iota in N.
    all: assert (M4 : moves h (it :: foot a2 arr2 al2) h3 (it :: foot a2 arr2 al3)).
    1, 3: apply (moves_same _ (foot a2 arr2 al2 ++ [it]) _ (foot a2 arr2 al3 ++ [it]));
      [apply moves_more; [exact M3|]; intros x [<-|[]]; split; [exact Ni2|congruence]
      |intros x; rewrite in_app_iff; cbn; tauto|intros x; rewrite in_app_iff; cbn; tauto].
    all: assert (Ni3 : ~ In it (foot a2 arr2 al3)) by (apply Kp; now left).
    - rewrite N. cbn [bind]. injection Ins as <-.
      exists (remove h3 it), al3. split; [now destruct fuel|].
      assert (M5 : moves h3 (it :: foot a2 arr2 al3) (remove h3 it) (foot a2 arr2 al3)).
      { apply moves_free; [exact Ni3|]. exact (rep_alloc _ _ _ _ _ R3). }
      split; [|split; [exact W3|exact (moves_trans _ _ _ _ _ _ M4 M5)]].
      apply (rep_ext h3); [|exact R3]. intros x I. rewrite lookup_remove.
      destruct (N.eqb_spec x it); [subst; contradiction|reflexivity].
    - destruct N as (i' & e' & N & S'). rewrite N. cbn [bind].
      set (h4 := store h3 it (BIter a i' (Some e'))).
      assert (Ra4 : rep h4 a arr al t).
      { apply (rep_ext h3); [|exact Ra]. intros x I. unfold h4. rewrite lookup_store.
        destruct (N.eqb_spec x it); [subst; contradiction|reflexivity]. }
      assert (R4 : rep h4 a2 arr2 al3 t3).
      { apply (rep_ext h3); [|exact R3]. intros x I. unfold h4. rewrite lookup_store.
        destruct (N.eqb_spec x it); [subst; contradiction|reflexivity]. }
      destruct (IH fuel h4 al3 t3 (p ++ [(q, v)]) q' v' i' e' t') as (h' & al' & Ex & R' & W' & M').
      + rewrite <- app_assoc. exact Ec.
      + exact Ra4.
      + exact R4.
      + exact W3.
      + unfold h4. now rewrite lookup_store, N.eqb_refl.
      + exact S'.
      + exact Ni.
      + exact Ni3.
      + intros x I. apply Kp. now right.
      + exact Ins.
      + cbn [length] in F. lia.
      + exists h', al'. split; [exact Ex|]. split; [exact R'|]. split; [exact W'|].
        apply (moves_trans _ _ _ _ _ _ M4). apply (moves_trans _ _ h4 (it :: foot a2 arr2 al3)); [|exact M'].
        apply moves_write; [now left|]. intros x [<-|I]; [congruence|].
        exact (rep_alloc _ _ _ _ _ R3 x I).
  Qed.

  Lemma contents_length h a arr al (t : table) : rep h a arr al t -> length (contents t) = length (concat al).
  Proof.
    intros [_ (ps & _ & C) _]. unfold contents. revert ps al C.
    induction (entries t) as [|b bs IH]; intros [|p ps] [|l al] C; try (exfalso; exact C); [reflexivity|].
    destruct C as [C1 C]. cbn [concat]. rewrite !app_length, (IH _ _ C), (chain_len _ _ _ _ C1). reflexivity.
  Qed.

  Lemma insert_all_outcome : forall es (t : table), insert_all hash eq t es <> Aborted.
  Proof.
    induction es as [|[k v] es IH]; intros t; cbn [insert_all]; [discriminate|].
    unfold HashTableModel.HTinsert, HashTableModel.index, bucket.
    destruct (size t) eqn:Es; cbn [bind]; [discriminate|].
    destruct (nth_error _ _) as [b|]; cbn [bind]; [|discriminate].
    destruct (chain_insert eq b k v). cbn [bind]. apply IH.
  Qed.

  Lemma copy_right kc vc h a arr al (t : table) : rep h a arr al t -> wf t ->
    match copied hash eq kc vc t with
    | Val t' => exists h' a2 arr2 al2, HTdeep_copy hash eq alloc h a kc vc = Val (h', a2) /\
        rep h' a2 arr2 al2 t' /\ wf t' /\ moves h [] h' (foot a2 arr2 al2)
    | Aborted => HTdeep_copy hash eq alloc h a kc vc = Aborted
    | _ => True
    end.
  Proof.
    intros R W. unfold HTdeep_copy. rewrite (read_table_rep _ _ _ _ _ R). cbn [bind].
    destruct (new_right alloc alloc_free h (length (entries t))) as (h1 & arr2 & E1 & R1 & M1).
    destruct (HTnew alloc h (length (entries t))) as [h1' a2] eqn:En. cbn [fst snd] in *. subst h1'.
    set (al2 := repeat [] (length (entries t))) in *.
    assert (Kp : forall x, In x (foot a arr al) -> lookup h1 x = lookup h x /\ ~ In x (foot a2 arr2 al2)).
    { intros x I. apply (proj1 M1); [intros []|exact (rep_alloc _ _ _ _ _ R x I)]. }
    assert (Ra : rep h1 a arr al t) by (apply (rep_ext h); [|exact R]; intros x I; now apply Kp).
    assert (It := iterate_right h1 a arr al t Ra). unfold copied.
    assert (Fk : first_key t = match elements t with 0 => Val None | S _ =>
       match contents t with (k, _) :: _ => Val (Some k) | [] => Aborted end end) by reflexivity.
    destruct (elements t) as [|m] eqn:Em.
    { rewrite Fk in *. rewrite It. cbn [bind map insert_all copy_along].
      exists h1, a2, arr2, al2. split; [now destruct (length h)|]. split; [exact R1|]. split; [apply wf_new|exact M1]. }
    destruct (contents t) as [|[q v] l] eqn:Ec.
    { rewrite Fk in *. rewrite It. reflexivity. }
    rewrite Fk in *. destruct It as (it & i & e & It & Lit & S). rewrite It. cbn [bind].
    assert (Na := insert_all_outcome (map (fun e => (kc (fst e), vc (snd e))) ((q, v) :: l)) (HashTableModel.HTnew (size t))).
    destruct (insert_all hash eq _ _) as [t'| | | |] eqn:Ei; try exact I; [|now destruct Na].
    set (h2 := store h1 it (BIter a 0 None)). set (h3 := store h2 it (BIter a i (Some e))).
    assert (Out : forall x, x <> it -> lookup h3 x = lookup h1 x).
    { intros x Nx. unfold h3, h2. rewrite !lookup_store. destruct (N.eqb_spec x it); [contradiction|reflexivity]. }
    assert (Ni : ~ In it (foot a arr al)) by (intros I; exact (rep_alloc _ _ _ _ _ Ra it I Lit)).
    assert (Ni2 : ~ In it (foot a2 arr2 al2)) by (intros I; exact (rep_alloc _ _ _ _ _ R1 it I Lit)).
    destruct (copy_along_right kc vc a arr al t a2 arr2 it W l (length h) h3 al2
                (HashTableModel.HTnew (size t)) [] q v i e t') as (h' & al' & Ex & R' & W' & M').
    - exact Ec.
    - apply (rep_ext h1); [|exact Ra]. intros x I. apply Out. intros ->. contradiction.
    - apply (rep_ext h1); [|exact R1]. intros x I. apply Out. intros ->. contradiction.
    - apply wf_new.
    - unfold h3. now rewrite lookup_store, N.eqb_refl.
    - exact S.
    - exact Ni.
    - exact Ni2.
    - intros x I. apply Kp. exact I.
    - exact Ei.
    - assert (X := contents_length h a arr al t R). rewrite Ec in X. cbn [length] in X. refine (Nat.le_trans _ _ _ (Nat.eq_le_incl _ _ X) _).
      apply fits.
      + assert (N := r_nodup _ _ _ _ _ R). unfold foot in N. inversion N; subst. now inversion H2.
      + intros x I. apply (rep_alloc _ _ _ _ _ R). right. now right.
    - rewrite Ex. cbn [bind]. exists h', a2, arr2, al'. split; [reflexivity|]. split; [exact R'|].
      split; [exact W'|]. apply (moves_trans _ _ _ _ _ _ M1).
      apply (moves_trans _ _ h2 (it :: foot a2 arr2 al2)).
      { apply moves_alloc; [exact Lit|exact (rep_alloc _ _ _ _ _ R1)]. }
      apply (moves_trans _ _ h3 (it :: foot a2 arr2 al2)); [|exact M'].
      apply moves_write; [now left|]. intros x [<-|I]; unfold h2; rewrite lookup_store.
      + rewrite N.eqb_refl. discriminate.
      + destruct (N.eqb_spec x it); [discriminate|]. exact (rep_alloc _ _ _ _ _ R1 x I).
  Qed.
End Iters.
