(** Proofs about the allocation wrappers. *)

From Coq Require Import List Arith NArith Ascii Bool Lia.
From Verif Require Import Base.Outcome Base.Heap Palm.MemModel Palm.MemSpec.
Import ListNotations.
Local Open Scope N_scope.

Section Proofs.
  Variable lib : allocator.
  Hypothesis std : standard lib.

  Lemma malloc_right : forall size h,
    match MEMmalloc lib size h with
    | Val (None, h') => size = 0 /\ h' = h
    | Val (Some a, h') => 0 < size /\ exists b, length b = N.to_nat size /\ new_block h h' a b
    | Exited => 0 < size /\ al_malloc lib h size = None
    | _ => False
    end.
  Proof.
    intros size h. unfold MEMmalloc. destruct (N.ltb_spec 0 size) as [L|L].
    - destruct (al_malloc lib h size) as [a|] eqn:E; [|auto]. split; [exact L|].
      exists (repeat None (N.to_nat size)). split; [apply repeat_length|].
      split; [exact (proj1 std _ _ _ E)|]. split.
      + now rewrite lookup_store, N.eqb_refl.
      + intros x Ne. rewrite lookup_store. destruct (N.eqb_spec x a); congruence.
    - split; [lia|reflexivity].
  Qed.

  Lemma free_right : forall a h b, lookup h a = Some b ->
    exists h', MEMfree (Some a) h = Val (None, h') /\ without_block h h' a.
  Proof.
    intros a h b E. cbn [MEMfree]. rewrite E. eexists. split; [reflexivity|]. split.
    - now rewrite lookup_remove, N.eqb_refl.
    - intros x Ne. rewrite lookup_remove. destruct (N.eqb_spec x a); congruence.
  Qed.

  Lemma realloc_null : forall size h, MEMrealloc lib None size h = MEMmalloc lib size h.
  Proof. reflexivity. Qed.

  Lemma realloc_zero : forall a h b, lookup h a = Some b ->
    exists h', MEMrealloc lib (Some a) 0 h = Val (None, h') /\ without_block h h' a.
  Proof.
    intros a h b E. destruct (free_right a h b E) as (h' & Ef & W).
    exists h'. split; [|exact W]. unfold MEMrealloc. cbn [N.ltb N.compare]. rewrite Ef. reflexivity.
  Qed.

  Lemma realloc_right : forall a size h old, lookup h a = Some old -> 0 < size ->
    match MEMrealloc lib (Some a) size h with
    | Val (Some a', h') => exists b, lookup h' a' = Some b /\ length b = N.to_nat size /\
        (forall i, (i < N.to_nat size)%nat -> (i < length old)%nat -> nth_error b i = nth_error old i) /\
        (a' = a \/ lookup h a' = None /\ lookup h' a = None) /\
        (forall x, x <> a -> x <> a' -> lookup h' x = lookup h x)
    | Exited => al_realloc lib h a size = None
    | _ => False
    end.
  Proof.
    intros a size h old E L. unfold MEMrealloc. destruct (N.ltb_spec 0 size); [|lia]. rewrite E.
    destruct (al_realloc lib h a size) as [a'|] eqn:Ea; [|reflexivity]. cbv zeta.
    set (n := N.to_nat size). exists (firstn n old ++ repeat None (n - length old)).
    split; [now rewrite lookup_store, N.eqb_refl|]. split.
    { rewrite app_length, firstn_length, repeat_length. lia. }
    split; [|split].
    - intros i Hi Ho. rewrite nth_error_app1 by (rewrite firstn_length; lia).
      clear - Hi. revert i old Hi. induction n as [|n IH]; intros i old Hi; [lia|].
      destruct old as [|o old], i as [|i]; try reflexivity. cbn. apply IH. lia.
    - destruct (proj2 std _ _ _ _ Ea) as [->|F]; [now left|]. right. split; [exact F|].
      rewrite lookup_store, lookup_remove, N.eqb_refl.
      destruct (N.eqb_spec a a'); [subst; congruence|reflexivity].
    - intros x N1 N2. rewrite lookup_store, lookup_remove.
      destruct (N.eqb_spec x a'), (N.eqb_spec x a); congruence.
  Qed.

  Lemma copy_right : forall size s h bs, lookup h s = Some bs -> 0 < size ->
    (N.to_nat size <= length bs)%nat ->
    match MEMcopy lib size (Some s) h with
    | Val (Some a, h') => new_block h h' a (firstn (N.to_nat size) bs)
    | Exited => al_malloc lib h size = None
    | _ => False
    end.
  Proof.
    intros size s h bs E L Len. unfold MEMcopy, MEMmalloc.
    destruct (N.ltb_spec 0 size); [|lia].
    destruct (al_malloc lib h size) as [a|] eqn:Ea; [|reflexivity].
    assert (F := proj1 std _ _ _ Ea). cbn [bind fst snd memcpy].
    rewrite !lookup_store, N.eqb_refl. destruct (N.eqb_spec s a) as [->|Ns]; [congruence|]. rewrite E.
    cbv zeta. rewrite repeat_length.
    destruct (Nat.leb_spec (N.to_nat size) (N.to_nat size)); [|lia].
    destruct (Nat.leb_spec (N.to_nat size) (length bs)); [|lia]. cbn [andb].
    split; [exact F|]. split.
    - rewrite lookup_store, N.eqb_refl. f_equal. rewrite skipn_all2; [apply app_nil_r|].
      rewrite repeat_length. lia.
    - intros x Nx. rewrite !lookup_store. destruct (N.eqb_spec x a); congruence.
  Qed.
End Proofs.

Lemma copy_zero : forall lib mem h, MEMcopy lib 0 mem h = Undef.
Proof. reflexivity. Qed.
