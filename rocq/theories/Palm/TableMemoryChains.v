(** Chains of entries in memory. *)

From Coq Require Import List NArith Arith Lia Bool.
From Verif Require Import Base.Outcome Base.Heap Palm.HashTableModel Palm.HashTableSpec
  Palm.HashTableProof Palm.TableMemoryModel Palm.TableMemorySpec.
Import ListNotations.
Local Open Scope outcome_scope.

Section Chains.
  Context {K V : Type}.
  Variable eq : K -> K -> bool.
  Notation memory := (@memory K V).
  Variable alloc : memory -> addr.
  Hypothesis alloc_free : forall h, lookup h (alloc h) = None.

  (** From [h], where a structure has the addresses [F], to [h'], where it has
      the addresses [F']: memory of others stays as it is, memory that is not
      used any more is free. *)
  Definition moves (h : memory) (F : list addr) (h' : memory) (F' : list addr) : Prop :=
    (forall x, ~ In x F -> lookup h x <> None -> lookup h' x = lookup h x /\ ~ In x F') /\
    (forall x, ~ In x F' -> In x F \/ lookup h x = None -> lookup h' x = None).

  Lemma moves_refl h F : (forall x, In x F -> lookup h x <> None) -> moves h F h F.
  Proof. intros A. split; [now auto|]. intros x N [I|E]; [contradiction|exact E]. Qed.

  Lemma moves_trans h F h1 F1 h2 F2 : moves h F h1 F1 -> moves h1 F1 h2 F2 -> moves h F h2 F2.
  Proof.
    intros [A B] [A1 B1]. split.
    - intros x N L. destruct (A x N L) as [E N1]. rewrite <- E in L.
      destruct (A1 x N1 L) as [E1 N2]. split; [congruence|exact N2].
    - intros x N C. destruct (in_dec N.eq_dec x F1) as [I|N1].
      + apply B1; auto.
      + apply B1; auto.
  Qed.

  Lemma moves_same h F h' F' G G' :
    moves h F h' F' -> (forall x, In x F <-> In x G) -> (forall x, In x F' <-> In x G') ->
    moves h G h' G'.
  Proof.
    intros [A B] E E'. split.
    - intros x N L. rewrite <- E in N. rewrite <- E'. auto.
    - intros x N C. rewrite <- E' in N. apply B; [exact N|]. rewrite E. exact C.
  Qed.

  Lemma moves_more h F h' F' G :
    moves h F h' F' -> (forall x, In x G -> ~ In x F /\ lookup h x <> None) ->
    moves h (F ++ G) h' (F' ++ G).
  Proof.
    intros [A B] D. split.
    - intros x N L. rewrite in_app_iff in *. destruct (A x) as [E N']; [tauto|exact L|]. tauto.
    - intros x N C. rewrite in_app_iff in *. apply B; [tauto|]. destruct C as [[I|I]|E]; tauto.
  Qed.

  Lemma moves_write h F a b : In a F -> (forall x, In x F -> lookup h x <> None) ->
    moves h F (store h a b) F.
  Proof.
    intros I A. split.
    - intros x N L. split; [|exact N]. rewrite lookup_store.
      destruct (N.eqb_spec x a); [subst; contradiction|reflexivity].
    - intros x N [I'|E]; [contradiction|]. rewrite lookup_store.
      destruct (N.eqb_spec x a); [subst; contradiction|exact E].
  Qed.

  Lemma moves_alloc h F a b : lookup h a = None -> (forall x, In x F -> lookup h x <> None) ->
    moves h F (store h a b) (a :: F).
  Proof.
    intros E A. split.
    - intros x N L. rewrite lookup_store. destruct (N.eqb_spec x a); [subst; contradiction|].
      split; [reflexivity|]. intros [<-|I]; contradiction.
    - intros x N C. rewrite lookup_store. destruct (N.eqb_spec x a) as [->|Ne].
      + exfalso. apply N. now left.
      + destruct C as [I|C]; [|exact C]. exfalso. apply N. now right.
  Qed.

  Lemma moves_free h F a : ~ In a F -> (forall x, In x F -> lookup h x <> None) ->
    moves h (a :: F) (remove h a) F.
  Proof.
    intros N A. split.
    - intros x Nx L. rewrite lookup_remove. destruct (N.eqb_spec x a) as [->|Ne].
      + exfalso. apply Nx. now left.
      + split; [reflexivity|]. intros I. apply Nx. now right.
    - intros x Nx C. rewrite lookup_remove. destruct (N.eqb_spec x a) as [->|Ne]; [reflexivity|].
      destruct C as [[->|I]|E]; [now destruct Ne|contradiction|exact E].
  Qed.

  Lemma moves_fresh h F h' F' x :
    moves h F h' F' -> In x F' -> ~ In x F -> lookup h x = None.
  Proof.
    intros [A _] I N. destruct (lookup h x) eqn:E; [|reflexivity].
    destruct (A x N) as [_ N']; [congruence|contradiction].
  Qed.

  Lemma moves_kept h F h' F' x :
    moves h F h' F' -> ~ In x F -> lookup h x <> None -> lookup h' x = lookup h x.
  Proof. intros [A _] N L. now apply A. Qed.

  Lemma app_nodup {A} (l m : list A) :
    NoDup l -> NoDup m -> (forall x, In x l -> ~ In x m) -> NoDup (l ++ m).
  Proof.
    intros Nl Nm D. induction l as [|x l IH]; [exact Nm|]. cbn.
    inversion Nl; subst. constructor.
    - rewrite in_app_iff. intros [I|I]; [contradiction|]. exact (D x (or_introl eq_refl) I).
    - apply IH; [assumption|]. intros y I. apply D. now right.
  Qed.
  Lemma app_nodup_inv {A} (l m : list A) :
    NoDup (l ++ m) -> NoDup l /\ NoDup m /\ (forall x, In x l -> ~ In x m).
  Proof.
    induction l as [|x l IH]; cbn; intros N.
    - split; [constructor|]. split; [exact N|]. intros x [].
    - inversion N; subst. destruct (IH H2) as (Nl & Nm & D). rewrite in_app_iff in H1.
      split; [constructor; tauto|]. split; [exact Nm|].
      intros y [<-|I]; [tauto|auto].
  Qed.

  (** Exchanging a part of a list of addresses. *)
  Lemma swap_nodup h l h' l' X Y :
    NoDup (X ++ l ++ Y) -> NoDup l' -> moves h l h' l' ->
    (forall x, In x (X ++ Y) -> lookup h x <> None) -> NoDup (X ++ l' ++ Y).
  Proof.
    intros N N' [A _] L. destruct (app_nodup_inv _ _ N) as (NX & NlY & DX).
    destruct (app_nodup_inv _ _ NlY) as (Nl & NY & DY).
    assert (D : forall x, In x (X ++ Y) -> ~ In x l').
    { intros x I. apply (A x); [|auto]. rewrite in_app_iff in I. intros Il. destruct I as [I|I].
      - apply (DX x I). apply in_or_app. now left.
      - exact (DY x Il I). }
    apply app_nodup; [exact NX| |].
    - apply app_nodup; [exact N'|exact NY|]. intros x I I'.
      apply (D x); [apply in_or_app; now right|exact I].
    - intros x I. rewrite in_app_iff. intros [I'|I'].
      + apply (D x); [apply in_or_app; now left|exact I'].
      + apply (DX x I). apply in_or_app. now right.
  Qed.
  Lemma swap_moves h l h' l' X Y :
    NoDup (X ++ l ++ Y) -> moves h l h' l' ->
    (forall x, In x (X ++ Y) -> lookup h x <> None) ->
    moves h (X ++ l ++ Y) h' (X ++ l' ++ Y).
  Proof.
    intros N M L. destruct (app_nodup_inv _ _ N) as (NX & NlY & DX).
    destruct (app_nodup_inv _ _ NlY) as (Nl & NY & DY).
    apply (moves_same h (l ++ (X ++ Y)) h' (l' ++ (X ++ Y))).
    - apply moves_more; [exact M|]. intros x I. split; [|auto]. intros Il.
      rewrite in_app_iff in I. destruct I as [I|I].
      + apply (DX x I). apply in_or_app. now left.
      + exact (DY x Il I).
    - intros x. rewrite !in_app_iff. tauto.
    - intros x. rewrite !in_app_iff. tauto.
  Qed.

  (** [p] points to the first of the entries [b], which are at the addresses
      [l] and linked with each other. *)
  Fixpoint chain (h : memory) (p : pointer) (l : list addr) (b : list (entry K V)) : Prop :=
    match l, b with
    | [], [] => p = None
    | a :: l, (k, v) :: b =>
        p = Some a /\ exists n, lookup h a = Some (BEntry k v n) /\ chain h n l b
    | _, _ => False
    end.

  Lemma chain_ext h h' l : forall p b,
    (forall x, In x l -> lookup h' x = lookup h x) -> chain h p l b -> chain h' p l b.
  Proof.
    induction l as [|a l IH]; intros p [|[k v] b] E C; try exact C.
    destruct C as (-> & n & L & C). split; [reflexivity|]. exists n. split.
    - rewrite E; [exact L|now left].
    - apply IH; [|exact C]. intros x I. apply E. now right.
  Qed.
  Lemma chain_len h l : forall p b, chain h p l b -> length l = length b.
  Proof.
    induction l as [|a l IH]; intros p [|[k v] b] C; try (exfalso; exact C); [reflexivity|].
    destruct C as (_ & n & _ & C). cbn. f_equal. exact (IH _ _ C).
  Qed.
  Lemma chain_alloc h l : forall p b, chain h p l b -> forall x, In x l -> lookup h x <> None.
  Proof.
    induction l as [|a l IH]; intros p [|[k v] b] C x I; try (exfalso; exact C); [destruct I|].
    destruct C as (_ & n & L & C). destruct I as [<-|I]; [congruence|]. exact (IH _ _ C x I).
  Qed.

  Lemma alloc_in (h : memory) x : lookup h x <> None -> In x (map fst h).
  Proof.
    induction h as [|[y b] h IH]; cbn; [congruence|].
    destruct (N.eqb_spec y x); [now left|]. intros L. right. exact (IH L).
  Qed.
  Lemma fits (h : memory) l :
    NoDup l -> (forall x, In x l -> lookup h x <> None) -> length l <= length h.
  Proof.
    intros N A. rewrite <- (map_length fst h). apply NoDup_incl_length; [exact N|].
    intros x I. apply alloc_in. auto.
  Qed.

  Lemma read_entry_at (h : memory) a k v n : lookup h a = Some (BEntry k v n) -> read_entry h a = Val (k, v, n).
  Proof. intros E. unfold read_entry. now rewrite E. Qed.

  (** The addresses and keys of a chain. *)
  Definition spots (l : list addr) (b : list (entry K V)) : list (addr * K) :=
    combine l (map fst b).

  Lemma insert_along_right k v : forall l fuel h a b,
    chain h (Some a) l b -> NoDup l -> length l <= fuel ->
    exists h' l',
      insert_along eq alloc fuel h a k v = Val (h', snd (chain_insert eq b k v)) /\
      chain h' (Some a) l' (fst (chain_insert eq b k v)) /\
      NoDup l' /\ moves h l h' l' /\
      incl (spots l b) (spots l' (fst (chain_insert eq b k v))).
  Proof.
    induction l as [|a0 l IH]; intros fuel h a [|[k' v'] b] C N F; try (exfalso; exact C).
    { discriminate C. }
    assert (Al := chain_alloc h _ _ _ C).
    destruct C as (Ea & n & L & C). injection Ea as <-.
    destruct fuel as [|fuel]; [cbn in F; lia|].
    inversion N as [|? ? Na Nl]; subst.
    cbn [insert_along chain_insert]. rewrite (read_entry_at _ _ _ _ _ L). cbn [bind].
    assert (Write : exists h' l',
              write_value h a v = Val h' /\ chain h' (Some a) l' ((k', v) :: b) /\ NoDup l' /\
              moves h (a :: l) h' l' /\ incl (spots (a :: l) ((k', v') :: b)) (spots l' ((k', v) :: b))).
    { exists (store h a (BEntry k' v n)), (a :: l). unfold write_value.
      rewrite (read_entry_at _ _ _ _ _ L). cbn [bind]. split; [reflexivity|]. split.
      - split; [reflexivity|]. exists n. rewrite lookup_store, N.eqb_refl. split; [reflexivity|].
        apply (chain_ext h); [|exact C]. intros x I. rewrite lookup_store.
        destruct (N.eqb_spec x a); [subst; contradiction|reflexivity].
      - split; [exact N|]. split; [|apply incl_refl]. apply moves_write; [now left|exact Al]. }
    destruct (eq k' k) eqn:E.
    { destruct Write as (h' & l' & W & C' & N' & M & I). exists h', l'. rewrite W.
      split; [now destruct n|]. cbn [fst]. auto. }
    clear Write. destruct n as [n|].
    - destruct (IH fuel h n b C Nl) as (h' & l' & R & C' & N' & M & I); [cbn in F; lia|].
      rewrite R. destruct (chain_insert eq b k v) as [b' fresh] eqn:Ei. cbn [fst snd] in *.
      assert (La : lookup h' a = lookup h a) by (apply (moves_kept _ _ _ _ _ M Na); congruence).
      exists h', (a :: l'). split; [reflexivity|]. split.
      { split; [reflexivity|]. exists (Some n). now rewrite La. }
      split.
      { constructor; [|exact N']. apply (proj1 M a Na). congruence. }
      split.
      + apply (moves_same h (l ++ [a]) h' (l' ++ [a])).
        * apply moves_more; [exact M|]. intros x [<-|[]]. split; [exact Na|congruence].
        * intros x. rewrite in_app_iff. cbn. tauto.
        * intros x. rewrite in_app_iff. cbn. tauto.
      + intros x Ix. unfold spots in *. cbn [map combine fst] in *.
        destruct Ix as [<-|Ix]; [now left|]. right. auto.
    - destruct l as [|? l]; [|now destruct b as [|[? ?] b]; destruct C as (C & _) || destruct C].
      destruct b as [|? b]; [|destruct C]. cbn [chain_insert fst snd].
      unfold NewEntry. set (e := alloc h).
      assert (Le : lookup h e = None) by apply alloc_free.
      assert (Ne : a <> e) by (intros ->; congruence).
      unfold write_next, read_entry. rewrite lookup_store.
      destruct (N.eqb_spec a e) as [X|_]; [contradiction|]. rewrite L. cbn [bind].
      eexists _, [a; e]. split; [reflexivity|]. split.
      { split; [reflexivity|]. exists (Some e). rewrite lookup_store, N.eqb_refl.
        split; [reflexivity|]. split; [reflexivity|]. exists None.
        rewrite !lookup_store, N.eqb_refl.
        destruct (N.eqb_spec e a); [congruence|]. now split. }
      split; [repeat constructor; cbn; intuition congruence|]. split.
      + apply (moves_trans _ _ (store h e (BEntry k v None)) (e :: [a])).
        * apply moves_alloc; [exact Le|exact Al].
        * apply (moves_same _ (e :: [a]) _ (e :: [a])).
          -- apply moves_write; [right; now left|]. intros x [<-|[<-|[]]].
             ++ now rewrite lookup_store, N.eqb_refl.
             ++ rewrite lookup_store. destruct (N.eqb_spec a e); congruence.
          -- intros x. reflexivity.
          -- intros x. cbn. tauto.
      + intros x [<-|[]]. now left.
  Qed.

  Lemma lookup_along_right k : forall l fuel h p b,
    chain h p l b -> length l <= fuel -> lookup_along eq fuel h p k = Val (chain_lookup eq b k).
  Proof.
    induction l as [|a l IH]; intros fuel h p [|[k' v'] b] C F; try (exfalso; exact C).
    - cbn in C. subst p. destruct fuel; reflexivity.
    - destruct C as (-> & n & L & C). destruct fuel as [|fuel]; [cbn in F; lia|].
      cbn [lookup_along chain_lookup]. rewrite (read_entry_at _ _ _ _ _ L). cbn [bind].
      destruct (eq k' k); [reflexivity|]. apply IH; [exact C|cbn in F; lia].
  Qed.

  Lemma fold_along_right : forall l fuel h p b,
    chain h p l b -> length l <= fuel -> fold_along fuel h p = Val (map snd b).
  Proof.
    induction l as [|a l IH]; intros fuel h p [|[k' v'] b] C F; try (exfalso; exact C).
    - cbn in C. subst p. destruct fuel; reflexivity.
    - destruct C as (-> & n & L & C). destruct fuel as [|fuel]; [cbn in F; lia|].
      cbn [fold_along map snd]. rewrite (read_entry_at _ _ _ _ _ L). cbn [bind].
      rewrite (IH fuel h n b C); [reflexivity|cbn in F; lia].
  Qed.

  Lemma clear_along_right : forall l fuel h p b,
    chain h p l b -> NoDup l -> length l <= fuel ->
    exists h', clear_along fuel h p = Val h' /\ moves h l h' [].
  Proof.
    induction l as [|a l IH]; intros fuel h p [|[k' v'] b] C N F; try (exfalso; exact C).
    - cbn in C. subst p. exists h. split; [now destruct fuel|]. apply moves_refl. intros x [].
    - assert (Al := chain_alloc h _ _ _ C).
      destruct C as (-> & n & L & C). destruct fuel as [|fuel]; [cbn in F; lia|].
      inversion N as [|? ? Na Nl]; subst.
      cbn [clear_along]. rewrite (read_entry_at _ _ _ _ _ L). cbn [bind].
      unfold DeleteEntry, MEMfree. rewrite L. cbn [bind].
      assert (M : moves h (a :: l) (remove h a) l).
      { apply moves_free; [exact Na|]. intros x I. apply Al. now right. }
      destruct (IH fuel (remove h a) n b) as (h' & R & M'); [|exact Nl|cbn in F; lia|].
      + apply (chain_ext h); [|exact C]. intros x I. rewrite lookup_remove.
        destruct (N.eqb_spec x a); [subst; contradiction|reflexivity].
      + exists h'. split; [exact R|]. exact (moves_trans _ _ _ _ _ _ M M').
  Qed.

  Lemma map_along_right f : forall l fuel h p b,
    chain h p l b -> NoDup l -> length l <= fuel ->
    exists h', map_along fuel f h p = Val h' /\ moves h l h' l /\
      chain h' p l (map (fun e : entry K V => (fst e, f (fst e) (snd e))) b).
  Proof.
    induction l as [|a l IH]; intros fuel h p [|[k' v'] b] C N F; try (exfalso; exact C).
    - cbn in C. subst p. exists h. split; [now destruct fuel|].
      split; [|reflexivity]. apply moves_refl. intros x [].
    - assert (Al := chain_alloc h _ _ _ C).
      destruct C as (-> & n & L & C). destruct fuel as [|fuel]; [cbn in F; lia|].
      inversion N as [|? ? Na Nl]; subst.
      cbn [map_along]. unfold write_value. rewrite !(read_entry_at _ _ _ _ _ L). cbn [bind].
      set (h1 := store h a (BEntry k' (f k' v') n)).
      assert (L1 : lookup h1 a = Some (BEntry k' (f k' v') n)).
      { unfold h1. now rewrite lookup_store, N.eqb_refl. }
      rewrite (read_entry_at _ _ _ _ _ L1). cbn [bind].
      assert (M : moves h (a :: l) h1 (a :: l)) by (apply moves_write; [now left|exact Al]).
      assert (C1 : chain h1 n l b).
      { apply (chain_ext h); [|exact C]. intros x I. unfold h1. rewrite lookup_store.
        destruct (N.eqb_spec x a); [subst; contradiction|reflexivity]. }
      destruct (IH fuel h1 n b) as (h' & R & M' & C'); [exact C1|exact Nl|cbn in F; lia|].
      exists h'. split; [exact R|].
      assert (La : lookup h' a = lookup h1 a) by (apply (moves_kept _ _ _ _ _ M' Na); congruence).
      split.
      + apply (moves_trans _ _ _ _ _ _ M).
        apply (moves_same h1 (l ++ [a]) h' (l ++ [a])).
        * apply moves_more; [exact M'|]. intros x [<-|[]]. split; [exact Na|congruence].
        * intros x. rewrite in_app_iff. cbn. tauto.
        * intros x. rewrite in_app_iff. cbn. tauto.
      + cbn [map fst snd]. split; [reflexivity|]. exists n. rewrite La. auto.
  Qed.

  (** Removal below [prev]; the table block is written after the chain. *)
  Lemma remove_along_right k t : forall l fuel h prev e b k0 v0 es n el,
    chain h (Some prev) (prev :: l) ((k0, v0) :: b) -> NoDup (prev :: l) ->
    lookup h prev = Some (BEntry k0 v0 e) ->
    length l <= fuel -> ~ In t (prev :: l) -> lookup h t = Some (BTable es n el) ->
    match chain_remove eq b k with
    | (b', Some v) =>
        exists h1 l', remove_along eq fuel h t prev e k
                      = Val (store h1 t (BTable es n (pred el)), v) /\
          chain h1 (Some prev) (prev :: l') ((k0, v0) :: b') /\ NoDup (prev :: l') /\
          moves h (prev :: l) h1 (prev :: l') /\
          (forall a q, In (a, q) (spots l b) -> eq q k = false -> In (a, q) (spots l' b'))
    | (_, None) => remove_along eq fuel h t prev e k = Val (h, None)
    end.
  Proof.
    induction l as [|a l IH]; intros fuel h prev e b k0 v0 es n el C N Lp F Nt Lt;
      destruct b as [|[k' v'] b]; try (destruct C as (_ & ? & _ & C); exfalso; exact C).
    - destruct C as (_ & m & L & C). cbn in C. subst m. rewrite L in Lp. injection Lp as <-.
      cbn [chain_remove]. now destruct fuel.
    - assert (Al := chain_alloc h _ _ _ C).
      destruct C as (_ & m & L & Ee & m' & La & C). rewrite L in Lp. injection Lp as <-. subst m.
      destruct fuel as [|fuel]; [cbn in F; lia|].
      inversion N as [|? ? Np Nal]; subst. inversion Nal as [|? ? Na Nl]; subst.
      cbn [remove_along chain_remove]. rewrite (read_entry_at _ _ _ _ _ La). cbn [bind].
      destruct (eq k' k) eqn:E.
      + unfold write_next. rewrite (read_entry_at _ _ _ _ _ L). cbn [bind].
        set (h1 := store h prev (BEntry k0 v0 m')).
        assert (Npa : a <> prev) by (intros ->; apply Np; now left).
        assert (La1 : lookup h1 a = lookup h a).
        { unfold h1. rewrite lookup_store. destruct (N.eqb_spec a prev); congruence. }
        unfold DeleteEntry, MEMfree. rewrite La1, La. cbn [bind].
        assert (Lt2 : lookup (remove h1 a) t = Some (BTable es n el)).
        { rewrite lookup_remove. destruct (N.eqb_spec t a) as [->|_].
          - exfalso. apply Nt. right. now left.
          - unfold h1. rewrite lookup_store. destruct (N.eqb_spec t prev) as [->|_]; [|exact Lt].
            exfalso. apply Nt. now left. }
        unfold write_elements, read_table. rewrite Lt2. cbn [bind].
        exists (remove h1 a), l. split; [reflexivity|]. split.
        { split; [reflexivity|]. exists m'. split.
          - rewrite lookup_remove. destruct (N.eqb_spec prev a); [congruence|].
            unfold h1. now rewrite lookup_store, N.eqb_refl.
          - apply (chain_ext h); [|exact C]. intros x I. rewrite lookup_remove.
            destruct (N.eqb_spec x a); [subst; contradiction|]. unfold h1. rewrite lookup_store.
            destruct (N.eqb_spec x prev); [|reflexivity]. subst. exfalso. apply Np. now right. }
        split; [constructor; [intros I; apply Np; now right|exact Nl]|]. split.
        * apply (moves_trans _ _ h1 (prev :: a :: l)).
          { apply moves_write; [now left|exact Al]. }
          apply (moves_same _ (a :: prev :: l) _ (prev :: l)).
          -- apply moves_free; [intros [X|X]; congruence|].
             intros x I. unfold h1. rewrite lookup_store.
             destruct (N.eqb_spec x prev); [congruence|]. apply Al.
             destruct I as [I|I]; [now left|]. right. now right.
          -- intros x. cbn. tauto.
          -- intros x. reflexivity.
        * intros x q I Eq. unfold spots in *. cbn [map fst combine] in I.
          destruct I as [I|I]; [|exact I]. injection I as <- <-. congruence.
      + assert (C2 : chain h (Some a) (a :: l) ((k', v') :: b)).
        { split; [reflexivity|]. exists m'. now split. }
        specialize (IH fuel h a m' b k' v' es n el C2 Nal La).
        destruct (chain_remove eq b k) as [b' [v|]].
        * destruct IH as (h1 & l' & R & C' & N' & M & I); [cbn in F; lia| |exact Lt|].
          { intros X. apply Nt. now right. }
          assert (Lp : lookup h1 prev = lookup h prev).
          { apply (moves_kept _ _ _ _ _ M Np). congruence. }
          exists h1, (a :: l'). split; [exact R|]. split.
          { split; [reflexivity|]. exists (Some a). rewrite Lp. now split. }
          split.
          { constructor; [|exact N']. apply (proj1 M prev Np). congruence. }
          split.
          -- apply (moves_same h ((a :: l) ++ [prev]) h1 ((a :: l') ++ [prev])).
             ++ apply moves_more; [exact M|]. intros x [<-|[]]. split; [exact Np|congruence].
             ++ intros x. rewrite in_app_iff. cbn. tauto.
             ++ intros x. rewrite in_app_iff. cbn. tauto.
          -- intros x q Iq Eq. unfold spots in *. cbn [map fst combine] in *.
             destruct Iq as [Iq|Iq]; [now left|]. right. auto.
        * apply IH; [cbn in F; lia| |exact Lt]. intros X. apply Nt. now right.
  Qed.
End Chains.
