(** Tables in memory: every function does on the blocks of its table what the
    function of HashTableModel.v does on lists, and touches nothing else. *)

From Coq Require Import List NArith Arith Lia Bool.
From Verif Require Import Base.Outcome Base.Heap Palm.HashTableModel Palm.HashTableSpec
  Palm.HashTableProof Palm.TableMemoryModel Palm.TableMemorySpec Palm.TableMemoryChains.
Import ListNotations.
Local Open Scope outcome_scope.

Section Tables.
  Context {K V : Type}.
  Variable hash : K -> N.
  Variable eq : K -> K -> bool.
  Hypothesis GK : good_key hash eq.
  Notation memory := (@memory K V).
  Notation table := (htable K V).
  Variable alloc : memory -> addr.
  Hypothesis alloc_free : forall h, lookup h (alloc h) = None.

  Fixpoint chains (h : memory) (ps : list pointer) (al : list (list addr))
           (bs : list (list (entry K V))) : Prop :=
    match ps, al, bs with
    | [], [], [] => True
    | p :: ps, l :: al, b :: bs => chain h p l b /\ chains h ps al bs
    | _, _, _ => False
    end.

  Lemma chains_len h : forall ps al bs, chains h ps al bs ->
    length ps = length bs /\ length al = length bs.
  Proof.
    induction ps as [|p ps IH]; intros [|l al] [|b bs] C; try (exfalso; exact C); [now split|].
    destruct C as [_ C]. destruct (IH _ _ C). cbn. split; congruence.
  Qed.
  Lemma chains_ext h h' : forall ps al bs,
    (forall x, In x (concat al) -> lookup h' x = lookup h x) ->
    chains h ps al bs -> chains h' ps al bs.
  Proof.
    induction ps as [|p ps IH]; intros [|l al] [|b bs] E C; try exact C.
    destruct C as [C1 C]. split.
    - apply (chain_ext h); [|exact C1]. intros x I. apply E. cbn. apply in_or_app. now left.
    - apply IH; [|exact C]. intros x I. apply E. cbn. apply in_or_app. now right.
  Qed.
  Lemma chains_alloc h : forall ps al bs, chains h ps al bs ->
    forall x, In x (concat al) -> lookup h x <> None.
  Proof.
    induction ps as [|p ps IH]; intros [|l al] [|b bs] C x I; try (exfalso; exact C); [destruct I|].
    destruct C as [C1 C]. cbn in I. apply in_app_or in I. destruct I as [I|I].
    - exact (chain_alloc h _ _ _ C1 x I).
    - exact (IH _ _ C x I).
  Qed.
  Lemma chains_join h : forall ps1 al1 bs1 ps2 al2 bs2,
    chains h ps1 al1 bs1 -> chains h ps2 al2 bs2 ->
    chains h (ps1 ++ ps2) (al1 ++ al2) (bs1 ++ bs2).
  Proof.
    induction ps1 as [|p ps IH]; intros [|l al] [|b bs] ps2 al2 bs2 C D; try (exfalso; exact C).
    - exact D.
    - destruct C as [C1 C]. split; [exact C1|]. now apply IH.
  Qed.
  Lemma chains_split h : forall bs1 ps al bs2,
    chains h ps al (bs1 ++ bs2) ->
    exists ps1 ps2 al1 al2, ps = ps1 ++ ps2 /\ al = al1 ++ al2 /\
      length ps1 = length bs1 /\ length al1 = length bs1 /\
      chains h ps1 al1 bs1 /\ chains h ps2 al2 bs2.
  Proof.
    induction bs1 as [|b bs1 IH]; intros ps al bs2 C.
    - exists [], ps, [], al. repeat split; auto.
    - destruct ps as [|p ps], al as [|l al]; try (exfalso; exact C).
      destruct C as [C1 C]. destruct (IH _ _ _ C) as (ps1 & ps2 & al1 & al2 & -> & -> & L1 & L2 & C2 & C3).
      exists (p :: ps1), ps2, (l :: al1), al2. cbn. repeat split; auto.
  Qed.

  (** Table [t] at address [a], its array at [arr], the entries of its buckets
      at [al]. *)
  Definition foot (a arr : addr) (al : list (list addr)) : list addr := a :: arr :: concat al.
  Record rep (h : memory) (a arr : addr) (al : list (list addr)) (t : table) : Prop := {
    r_table : lookup h a = Some (BTable (Some arr) (length (entries t)) (elements t));
    r_array : exists ps, lookup h arr = Some (BArray ps) /\ chains h ps al (entries t);
    r_nodup : NoDup (foot a arr al)
  }.

  Lemma rep_alloc h a arr al t : rep h a arr al t -> forall x, In x (foot a arr al) -> lookup h x <> None.
  Proof.
    intros [R (ps & A & C) _] x [<-|[<-|I]]; [congruence|congruence|].
    exact (chains_alloc h _ _ _ C x I).
  Qed.
  Lemma rep_ext h h' a arr al t :
    (forall x, In x (foot a arr al) -> lookup h' x = lookup h x) ->
    rep h a arr al t -> rep h' a arr al t.
  Proof.
    intros E [R (ps & A & C) N]. split; [|exists ps; split|exact N].
    - rewrite E; [exact R|now left].
    - rewrite E; [exact A|right; now left].
    - apply (chains_ext h); [|exact C]. intros x I. apply E. right. now right.
  Qed.

  (** Address [x] is that of the entry with key [q] in bucket [i]. *)
  Definition spot (al : list (list addr)) (bs : list (list (entry K V))) (i : nat) (x : addr) (q : K)
    : Prop :=
    exists l b, nth_error al i = Some l /\ nth_error bs i = Some b /\ In (x, q) (spots l b).

  Lemma nth_mid {A} (l1 l2 : list A) y : nth_error (l1 ++ y :: l2) (length l1) = Some y.
  Proof. rewrite nth_error_app2; [|lia]. now rewrite Nat.sub_diag. Qed.
  Lemma set_mid {A} (l1 l2 : list A) x y i :
    length l1 = i -> set_nth i x (l1 ++ y :: l2) = l1 ++ x :: l2.
  Proof. intros <-. induction l1 as [|z l1 IH]; cbn; [reflexivity|]. now rewrite IH. Qed.
  Lemma nth_mid_other {A} (l1 l2 : list A) x y j : j <> length l1 ->
    nth_error (l1 ++ x :: l2) j = nth_error (l1 ++ y :: l2) j.
  Proof.
    intros N. destruct (Nat.lt_ge_cases j (length l1)) as [L|L].
    - rewrite !nth_error_app1 by lia. reflexivity.
    - rewrite !nth_error_app2 by lia. destruct (j - length l1) eqn:E; [lia|reflexivity].
  Qed.

  (** One bucket of a table. *)
  Record bucket_of (h : memory) (a arr : addr) (al : list (list addr)) (t : table) (i : nat)
         (ps1 ps2 : list pointer) (p : pointer) (al1 al2 : list (list addr)) (l : list addr)
         (bs1 bs2 : list (list (entry K V))) (b : list (entry K V)) : Prop := {
    b_al : al = al1 ++ l :: al2;
    b_bs : entries t = bs1 ++ b :: bs2;
    b_array : lookup h arr = Some (BArray (ps1 ++ p :: ps2));
    b_ps : length ps1 = i;
    b_al1 : length al1 = i;
    b_bs1 : length bs1 = i;
    b_chain : chain h p l b;
    b_chains1 : chains h ps1 al1 bs1;
    b_chains2 : chains h ps2 al2 bs2;
    b_nodup : NoDup l;
    b_notin : ~ In a l /\ ~ In arr l
  }.

  Lemma take_bucket h a arr al t i b :
    rep h a arr al t -> nth_error (entries t) i = Some b ->
    exists ps1 ps2 p al1 al2 l bs1 bs2,
      bucket_of h a arr al t i ps1 ps2 p al1 al2 l bs1 bs2 b.
  Proof.
    intros [R (ps & A & C) N] Hb.
    destruct (nth_error_split _ _ Hb) as (bs1 & bs2 & Eb & Lb). rewrite Eb in C.
    destruct (chains_split h bs1 ps al _ C) as (ps1 & ps2 & al1 & al2 & -> & -> & L1 & L2 & C1 & C2).
    destruct ps2 as [|p ps2], al2 as [|l al2]; try (exfalso; exact C2). destruct C2 as [C2 C3].
    exists ps1, ps2, p, al1, al2, l, bs1, bs2. unfold foot in N.
    inversion N as [|? ? Na N2]; subst. inversion N2 as [|? ? Nr N3]; subst.
    rewrite concat_app in *. cbn [concat] in *. cbn in Na. rewrite !in_app_iff in *.
    destruct (app_nodup_inv _ _ N3) as (_ & N4 & _). destruct (app_nodup_inv _ _ N4) as (N5 & _).
    split; auto; try congruence. tauto.
  Qed.

  (** A new content of one bucket. *)
  Lemma put_bucket h a arr al t i ps1 ps2 p al1 al2 l bs1 bs2 b h1 p' l' b' h2 el' :
    rep h a arr al t -> bucket_of h a arr al t i ps1 ps2 p al1 al2 l bs1 bs2 b ->
    chain h1 p' l' b' -> NoDup l' -> moves h l h1 l' ->
    lookup h2 a = Some (BTable (Some arr) (length (entries t)) el') ->
    lookup h2 arr = Some (BArray (ps1 ++ p' :: ps2)) ->
    (forall x, x <> a -> x <> arr -> lookup h2 x = lookup h1 x) ->
    rep h2 a arr (al1 ++ l' :: al2) (mk_htable (bs1 ++ b' :: bs2) el') /\
    moves h (foot a arr al) h2 (foot a arr (al1 ++ l' :: al2)).
  Proof.
    intros R B C' N' M La Lr E. assert (Al := rep_alloc _ _ _ _ _ R).
    destruct R as [Rt _ N].
    destruct B as [-> Eb Ba Lp Ll Lb C C1 C2 Nl [Na Nr]].
    unfold foot in *. rewrite !concat_app in *. cbn [concat] in *.
    set (X := a :: arr :: concat al1). set (Y := concat al2).
    change (NoDup (X ++ l ++ Y)) in N.
    change (forall x, In x (X ++ l ++ Y) -> lookup h x <> None) in Al.
    assert (AXY : forall x, In x (X ++ Y) -> lookup h x <> None).
    { intros x I. apply Al. rewrite !in_app_iff in *. tauto. }
    assert (N2 := swap_nodup h l h1 l' X Y N N' M AXY).
    assert (M2 := swap_moves h l h1 l' X Y N M AXY).
    destruct (app_nodup_inv _ _ N) as (_ & NlY & DX).
    destruct (app_nodup_inv _ _ NlY) as (_ & _ & DY).
    assert (NX : forall x, In x (X ++ Y) -> ~ In x l).
    { intros x I Il. rewrite in_app_iff in I. destruct I as [I|I].
      - apply (DX x I). apply in_or_app. now left.
      - exact (DY x Il I). }
    assert (K1 : forall x, In x (X ++ Y) -> lookup h1 x = lookup h x).
    { intros x I. apply (moves_kept _ _ _ _ _ M); auto. }
    change (a :: arr :: concat al1 ++ l' ++ concat al2) with (X ++ l' ++ Y).
    change (a :: arr :: concat al1 ++ l ++ concat al2) with (X ++ l ++ Y).
    assert (Na2 : forall x, In x (concat al1 ++ l' ++ Y) -> x <> a /\ x <> arr).
    { intros x I. unfold X in N2. inversion N2 as [|? ? Q1 N3]; subst.
      inversion N3 as [|? ? Q2 N4]; subst. split; intros ->.
      - apply Q1. now right.
      - exact (Q2 I). }
    split; [split|].
    - cbn [entries elements]. rewrite La, Eb, !app_length. reflexivity.
    - exists (ps1 ++ p' :: ps2). split; [exact Lr|]. cbn [entries].
      assert (E2 : forall x, In x (concat al1 ++ l' ++ Y) -> lookup h2 x = lookup h1 x).
      { intros x I. destruct (Na2 x I). auto. }
      apply chains_join; [|split].
      + apply (chains_ext h); [|exact C1]. intros x I. rewrite E2; [apply K1|].
        * unfold X. rewrite in_app_iff. cbn. tauto.
        * rewrite !in_app_iff. tauto.
      + apply (chain_ext h1); [|exact C']. intros x I. apply E2. rewrite !in_app_iff. tauto.
      + apply (chains_ext h); [|exact C2]. intros x I. rewrite E2; [apply K1|].
        * rewrite in_app_iff. tauto.
        * rewrite !in_app_iff. tauto.
    - unfold foot. rewrite concat_app. exact N2.
    - destruct M2 as [A B]. split.
      + intros x Nx L. destruct (A x Nx L) as [E1 Nx']. split; [|exact Nx'].
        rewrite E; [exact E1| |]; intros ->; apply Nx; [now left|right; now left].
      + intros x Nx D. rewrite E; [auto| |]; intros ->; apply Nx; [now left|right; now left].
  Qed.

  Lemma put_spot al1 al2 l l' bs1 bs2 b b' i (P : K -> bool) :
    length al1 = i -> length bs1 = i ->
    (forall x q, In (x, q) (spots l b) -> P q = false -> In (x, q) (spots l' b')) ->
    forall j x q, spot (al1 ++ l :: al2) (bs1 ++ b :: bs2) j x q -> P q = false ->
                  spot (al1 ++ l' :: al2) (bs1 ++ b' :: bs2) j x q.
  Proof.
    intros La Lb I j x q (l0 & b0 & E1 & E2 & J) Pq.
    destruct (Nat.eq_dec j i) as [->|Ne].
    - rewrite <- La in E1 at 1. rewrite nth_mid in E1. rewrite <- Lb in E2 at 1. rewrite nth_mid in E2.
      injection E1 as <-. injection E2 as <-. exists l', b'. split; [|split].
      + rewrite <- La at 1. apply nth_mid.
      + rewrite <- Lb at 1. apply nth_mid.
      + auto.
    - exists l0, b0. split; [|split; [|exact J]].
      + rewrite <- E1. apply nth_mid_other. congruence.
      + rewrite <- E2. apply nth_mid_other. congruence.
  Qed.

  (** Keys are in the bucket of their hash, once. *)
  Record wf (t : table) : Prop := {
    wf_hash : forall i b e, nth_error (entries t) i = Some b -> In e b ->
              idx hash (length (entries t)) (fst e) = i;
    wf_distinct : forall i b, nth_error (entries t) i = Some b -> distinct eq b
  }.

  Lemma wf_put bs1 b bs2 b' el el' :
    wf (mk_htable (bs1 ++ b :: bs2) el) ->
    (forall e, In e b' -> idx hash (length (bs1 ++ b :: bs2)) (fst e) = length bs1) ->
    distinct eq b' -> wf (mk_htable (bs1 ++ b' :: bs2) el').
  Proof.
    intros [H D] H' D'. cbn [entries] in *.
    assert (Q : length (bs1 ++ b' :: bs2) = length (bs1 ++ b :: bs2)) by (rewrite !app_length; reflexivity).
    split; cbn [entries].
    - intros i b0 e E I. rewrite Q. destruct (Nat.eq_dec i (length bs1)) as [->|Ne].
      + rewrite nth_mid in E. injection E as <-. auto.
      + rewrite (nth_mid_other _ _ b' b i Ne) in E. exact (H i b0 e E I).
    - intros i b0 E. destruct (Nat.eq_dec i (length bs1)) as [->|Ne].
      + rewrite nth_mid in E. injection E as <-. auto.
      + rewrite (nth_mid_other _ _ b' b i Ne) in E. exact (D i b0 E).
  Qed.

  Lemma wf_new n : wf (HashTableModel.HTnew n).
  Proof.
    assert (Q : forall i (b : list (entry K V)), nth_error (repeat [] n) i = Some b -> b = []).
    { intros i b E. apply nth_error_In in E. now apply repeat_spec in E. }
    split; cbn [entries HashTableModel.HTnew].
    - intros i b e E I. rewrite (Q i b E) in I. destruct I.
    - intros i b E. now rewrite (Q i b E).
  Qed.

  Lemma wf_clear t : wf (HashTableModel.HTclear t).
  Proof.
    assert (Q : forall i (b : list (entry K V)),
              nth_error (map (fun _ => []) (entries t)) i = Some b -> b = []).
    { intros i b E. rewrite nth_error_map in E. destruct (nth_error (entries t) i); [|discriminate].
      now injection E as <-. }
    split; cbn [entries HashTableModel.HTclear].
    - intros i b e E I. rewrite (Q i b E) in I. destruct I.
    - intros i b E. now rewrite (Q i b E).
  Qed.

  Lemma distinct_map (g : entry K V -> entry K V) b : (forall e, fst (g e) = fst e) ->
    distinct eq b -> distinct eq (map g b).
  Proof.
    intros G. induction b as [|[k v] b IH]; [auto|]. cbn [map distinct].
    destruct (g (k, v)) as [k' v'] eqn:E. specialize (G (k, v)) as G1. rewrite E in G1. cbn in G1. subst k'.
    intros [D1 D2]. split; [|auto]. intros e I. apply in_map_iff in I. destruct I as (e0 & <- & I).
    rewrite G. auto.
  Qed.
  Lemma wf_mapped f t : wf t -> wf (mapped f t).
  Proof.
    intros [H D]. split; cbn [entries mapped]; rewrite ?map_length.
    - intros i b e E I. rewrite nth_error_map in E.
      destruct (nth_error (entries t) i) as [b0|] eqn:E0; [|discriminate E]. injection E as <-.
      apply in_map_iff in I. destruct I as (e0 & <- & I). cbn [fst]. exact (H i b0 e0 E0 I).
    - intros i b E. rewrite nth_error_map in E.
      destruct (nth_error (entries t) i) as [b0|] eqn:E0; [|discriminate]. injection E as <-.
      apply distinct_map; [reflexivity|]. exact (D i b0 E0).
  Qed.

  (** Reading. *)
  Lemma read_table_rep h a arr al t : rep h a arr al t ->
    read_table h a = Val (Some arr, length (entries t), elements t).
  Proof. intros [R _ _]. unfold read_table. now rewrite R. Qed.
  Lemma read_bucket_at h a arr al t i ps1 ps2 p al1 al2 l bs1 bs2 b :
    rep h a arr al t -> bucket_of h a arr al t i ps1 ps2 p al1 al2 l bs1 bs2 b ->
    read_bucket h a i = Val p.
  Proof.
    intros R B. unfold read_bucket. rewrite (read_table_rep _ _ _ _ _ R). cbn [bind].
    unfold read_array. rewrite (b_array _ _ _ _ _ _ _ _ _ _ _ _ _ _ _ B). cbn [bind].
    rewrite <- (b_ps _ _ _ _ _ _ _ _ _ _ _ _ _ _ _ B). now rewrite nth_mid.
  Qed.
  Lemma index_rep h a arr al t k : rep h a arr al t ->
    index hash h a k = HashTableModel.index hash t k.
  Proof.
    intros R. unfold index, HashTableModel.index, size. rewrite (read_table_rep _ _ _ _ _ R).
    cbn [bind]. reflexivity.
  Qed.
  Lemma index_bucket (t : table) k i : HashTableModel.index hash t k = Val i ->
    idx hash (length (entries t)) k = i /\ exists b, nth_error (entries t) i = Some b.
  Proof.
    unfold HashTableModel.index, size, idx. destruct (length (entries t)) as [|n] eqn:E; [discriminate|].
    intros Q. injection Q as <-. split; [reflexivity|].
    destruct (nth_error (entries t) (N.to_nat (hash k mod N.of_nat (S n)))) as [b|] eqn:Eb; [eauto|].
    exfalso. apply nth_error_None in Eb.
    assert (hash k mod N.of_nat (S n) < N.of_nat (S n))%N by (apply N.mod_lt; lia). lia.
  Qed.

  Lemma bucket_alloc h a arr al t i ps1 ps2 p al1 al2 l bs1 bs2 b :
    bucket_of h a arr al t i ps1 ps2 p al1 al2 l bs1 bs2 b ->
    forall x, In x l -> lookup h x <> None.
  Proof. intros B. exact (chain_alloc h _ _ _ (b_chain _ _ _ _ _ _ _ _ _ _ _ _ _ _ _ B)). Qed.

  (** What a function that changes table [t] into [t'] does to memory. *)
  Definition changed (h : memory) (a arr : addr) (al : list (list addr)) (t : table)
             (h' : memory) (t' : table) (gone : K -> bool) : Prop :=
    exists al', rep h' a arr al' t' /\ moves h (foot a arr al) h' (foot a arr al') /\
      forall i x q, spot al (entries t) i x q -> gone q = false -> spot al' (entries t') i x q.

  Lemma insert_right h a arr al t k v t' r :
    rep h a arr al t -> wf t -> HashTableModel.HTinsert hash eq t k v = Val (t', r) ->
    wf t' /\ exists h', HTinsert hash eq alloc h a k v = Val (h', r) /\
                        changed h a arr al t h' t' (fun _ => false).
  Proof.
    intros R W. unfold HashTableModel.HTinsert, HTinsert. rewrite (index_rep _ _ _ _ _ k R).
    destruct (HashTableModel.index hash t k) as [i| | | |] eqn:Ei; try discriminate. cbn [bind].
    destruct (index_bucket t k i Ei) as (Ek & b & Eb). unfold bucket. rewrite Eb. cbn [bind].
    destruct (take_bucket _ _ _ _ _ _ _ R Eb) as (ps1 & ps2 & p & al1 & al2 & l & bs1 & bs2 & B).
    rewrite (read_bucket_at _ _ _ _ _ _ _ _ _ _ _ _ _ _ _ R B). cbn [bind].
    destruct (chain_insert eq b k v) as [b' fresh] eqn:Ec. intros Q.
    injection Q as <- <-.
    assert (Al := bucket_alloc _ _ _ _ _ _ _ _ _ _ _ _ _ _ _ B).
    assert (Bb := b_bs _ _ _ _ _ _ _ _ _ _ _ _ _ _ _ B).
    assert (Bl := b_al _ _ _ _ _ _ _ _ _ _ _ _ _ _ _ B).
    assert (Lb := b_bs1 _ _ _ _ _ _ _ _ _ _ _ _ _ _ _ B).
    assert (Ll := b_al1 _ _ _ _ _ _ _ _ _ _ _ _ _ _ _ B).
    assert (Lp := b_ps _ _ _ _ _ _ _ _ _ _ _ _ _ _ _ B).
    assert (C := b_chain _ _ _ _ _ _ _ _ _ _ _ _ _ _ _ B).
    assert (Nl := b_nodup _ _ _ _ _ _ _ _ _ _ _ _ _ _ _ B).
    destruct (b_notin _ _ _ _ _ _ _ _ _ _ _ _ _ _ _ B) as [Na Nr].
    assert (Ba := b_array _ _ _ _ _ _ _ _ _ _ _ _ _ _ _ B).
    assert (Rt := r_table _ _ _ _ _ R).
    assert (Nar : a <> arr).
    { intros ->. assert (N := r_nodup _ _ _ _ _ R). inversion N; subst. cbn in *. tauto. }
    rewrite Bb. rewrite (set_mid bs1 bs2 b' b i Lb).
    split.
    { destruct t as [bs el]. cbn [entries elements] in *. subst bs.
      apply (wf_put bs1 b bs2 b' el); [exact W| |].
      - intros e I. rewrite Lb. rewrite <- Ek.
        apply (chain_insert_hash hash eq GK b k v b' fresh
                 (fun n => N.to_nat (n mod N.of_nat (length (bs1 ++ b :: bs2))) =
                           idx hash (length (bs1 ++ b :: bs2)) k) Ec);
          [reflexivity| |exact I].
        intros e0 I0. rewrite Ek. exact (wf_hash _ W i b e0 Eb I0).
      - apply (chain_insert_distinct hash eq GK b k v b' fresh Ec).
        exact (wf_distinct _ W i b Eb). }
    (* the chain *)
    assert (Step : exists h1 p' l',
      match p with
      | None => let (h, e) := NewEntry alloc h k v in
                let! h := write_bucket h a i (Some e) in Val (h, true)
      | Some last => insert_along eq alloc (length h) h last k v
      end = Val ((if fresh then match p with None => store h1 arr (BArray (ps1 ++ p' :: ps2)) | _ => h1 end else h1), fresh) /\
      (p <> None -> p' = p) /\ (p = None -> fresh = true) /\
      chain h1 p' l' b' /\ NoDup l' /\ moves h l h1 l' /\ incl (spots l b) (spots l' b')).
    { destruct p as [last|].
      - destruct (insert_along_right eq alloc alloc_free k v l (length h) h last b C Nl
                    (fits h l Nl Al)) as (h1 & l' & E1 & C1 & N1 & M1 & I1).
        rewrite Ec in *. cbn [fst snd] in *.
        exists h1, (Some last), l'. rewrite E1. split; [now destruct fresh|].
        split; [reflexivity|]. split; [discriminate|]. auto.
      - destruct l as [|x l]; [|destruct b as [|[? ?] ?]; destruct C as (C & _) || destruct C; discriminate C].
        destruct b as [|e0 b]; [|destruct C]. cbn in Ec. injection Ec as <- <-.
        unfold NewEntry. set (e := alloc h). assert (Le : lookup h e = None) by apply alloc_free.
        set (h1 := store h e (BEntry k v None)).
        assert (Nae : a <> e) by (intros ->; congruence).
        assert (Nre : arr <> e) by (intros ->; congruence).
        assert (La : lookup h1 a = lookup h a).
        { unfold h1. rewrite lookup_store. destruct (N.eqb_spec a e); congruence. }
        assert (Lr : lookup h1 arr = lookup h arr).
        { unfold h1. rewrite lookup_store. destruct (N.eqb_spec arr e); congruence. }
        exists h1, (Some e), [e]. unfold write_bucket, read_table. rewrite La, Rt. cbn [bind not_null].
        unfold read_array. rewrite Lr, Ba. cbn [bind]. rewrite <- Lp at 1. rewrite nth_mid.
        rewrite (set_mid ps1 ps2 _ _ i Lp). split; [reflexivity|].
        split; [congruence|]. split; [reflexivity|]. split.
        { split; [reflexivity|]. exists None. unfold h1. rewrite lookup_store, N.eqb_refl. now split. }
        split; [repeat constructor; intros []|]. split; [|intros x []].
        apply moves_alloc; [exact Le|intros x []]. }
    destruct Step as (h1 & p' & l' & E1 & Sp & Sf & C1 & N1 & M1 & I1).
    rewrite E1. cbn [bind].
    assert (La1 : lookup h1 a = lookup h a) by (apply (moves_kept _ _ _ _ _ M1 Na); congruence).
    assert (Lr1 : lookup h1 arr = lookup h arr) by (apply (moves_kept _ _ _ _ _ M1 Nr); congruence).
    assert (Put := put_bucket h a arr al t i ps1 ps2 p al1 al2 l bs1 bs2 b h1 p' l' b').
    assert (Sp' : forall i x q, spot al (entries t) i x q -> (fun _ : K => false) q = false ->
                  spot (al1 ++ l' :: al2) (bs1 ++ b' :: bs2) i x q).
    { rewrite Bl, Bb. apply (put_spot al1 al2 l l' bs1 bs2 b b' i); auto. }
    destruct fresh.
    - set (h2 := match p with None => _ | Some _ => h1 end).
      assert (L2 : lookup h2 a = lookup h a /\ lookup h2 arr = Some (BArray (ps1 ++ p' :: ps2)) /\
                   forall x, x <> arr -> lookup h2 x = lookup h1 x).
      { unfold h2. destruct p as [q|].
        - rewrite Sp by discriminate. rewrite La1, Lr1. auto.
        - rewrite !lookup_store, N.eqb_refl. destruct (N.eqb_spec a arr); [contradiction|].
          split; [exact La1|]. split; [reflexivity|]. intros x Nx. rewrite lookup_store.
          destruct (N.eqb_spec x arr); [contradiction|reflexivity]. }
      destruct L2 as (La2 & Lr2 & E2). unfold write_elements, read_table. rewrite La2, Rt. cbn [bind].
      eexists. split; [reflexivity|].
      destruct (Put (store h2 a (BTable (Some arr) (length (entries t)) (S (elements t)))) (S (elements t))
                    R B C1 N1 M1) as [R2 M2].
      + now rewrite lookup_store, N.eqb_refl.
      + rewrite lookup_store. destruct (N.eqb_spec arr a); [congruence|exact Lr2].
      + intros x Nx Nx'. rewrite lookup_store. destruct (N.eqb_spec x a); [contradiction|auto].
      + exists (al1 ++ l' :: al2). split; [exact R2|]. split; [exact M2|exact Sp'].
    - eexists. split; [reflexivity|].
      destruct (Put h1 (elements t) R B C1 N1 M1) as [R2 M2].
      + now rewrite La1.
      + rewrite Lr1, Ba. destruct p; [rewrite Sp by discriminate; reflexivity|].
        specialize (Sf eq_refl). discriminate.
      + reflexivity.
      + exists (al1 ++ l' :: al2). split; [exact R2|]. split; [exact M2|exact Sp'].
  Qed.
End Tables.
