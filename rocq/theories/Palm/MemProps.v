(** C40: allocation wrappers. *)

From Coq Require Import List Arith NArith Ascii Bool Lia.
From Verif Require Import Base.Outcome Base.Heap Palm.MemModel Palm.MemSpec Palm.MemProof.
Import ListNotations.
Local Open Scope N_scope.

(** MEMmalloc answers NULL for size 0 only; for a positive size it yields a
    new block of that size or ends the program, the latter only if there is
    no memory. *)
Theorem C40_malloc : forall lib, standard lib -> forall size h,
  match MEMmalloc lib size h with
  | Val (None, h') => size = 0 /\ h' = h
  | Val (Some a, h') => 0 < size /\ exists b, length b = N.to_nat size /\ new_block h h' a b
  | Exited => 0 < size /\ al_malloc lib h size = None
  | _ => False
  end.
Proof. exact malloc_right. Qed.
Print Assumptions C40_malloc.

(** MEMfree gives back the block and nothing else, and answers NULL. *)
Theorem C40_free : forall a h b, lookup h a = Some b ->
  exists h', MEMfree (Some a) h = Val (None, h') /\ without_block h h' a.
Proof. exact free_right. Qed.
Print Assumptions C40_free.

Theorem C40_realloc_null_is_malloc : forall lib size h, MEMrealloc lib None size h = MEMmalloc lib size h.
Proof. exact realloc_null. Qed.
Print Assumptions C40_realloc_null_is_malloc.

Theorem C40_realloc_zero_frees : forall lib a h b, lookup h a = Some b ->
  exists h', MEMrealloc lib (Some a) 0 h = Val (None, h') /\ without_block h h' a.
Proof. exact realloc_zero. Qed.
Print Assumptions C40_realloc_zero_frees.

(** Otherwise the bytes that both sizes have are kept, the old block is gone
    unless it was enlarged in place, and the rest of memory is untouched. *)
Theorem C40_realloc_keeps_prefix : forall lib, standard lib ->
  forall a size h old, lookup h a = Some old -> 0 < size ->
  match MEMrealloc lib (Some a) size h with
  | Val (Some a', h') => exists b, lookup h' a' = Some b /\ length b = N.to_nat size /\
      (forall i, (i < N.to_nat size)%nat -> (i < length old)%nat -> nth_error b i = nth_error old i) /\
      (a' = a \/ lookup h a' = None /\ lookup h' a = None) /\
      (forall x, x <> a -> x <> a' -> lookup h' x = lookup h x)
  | Exited => al_realloc lib h a size = None
  | _ => False
  end.
Proof. exact realloc_right. Qed.
Print Assumptions C40_realloc_keeps_prefix.

Theorem C40_copy_partial : forall lib, standard lib ->
  forall size s h bs, lookup h s = Some bs -> 0 < size -> (N.to_nat size <= length bs)%nat ->
  match MEMcopy lib size (Some s) h with
  | Val (Some a, h') => new_block h h' a (firstn (N.to_nat size) bs)
  | Exited => al_malloc lib h size = None
  | _ => False
  end.
Proof. exact copy_right. Qed.
Print Assumptions C40_copy_partial.

(** MEMcopy of nothing calls memcpy with a null pointer. *)
Theorem C40_copy_nothing_refuted : forall lib mem h, MEMcopy lib 0 mem h = Undef.
Proof. exact copy_zero. Qed.
Print Assumptions C40_copy_nothing_refuted.

(** An allocator that always moves blocks, with room for three of them. *)
Definition small_lib : allocator :=
  mk_allocator (fun h _ => if (length h <? 3)%nat then Some (unused h) else None)
               (fun h _ _ => Some (unused h)).
Example C40_instance : standard small_lib.
Proof.
  split.
  - intros h n a E. change ((if (length h <? 3)%nat then Some (unused h) else None) = Some a) in E.
    destruct (length h <? 3)%nat; [|discriminate]. replace a with (unused h) by congruence.
    apply unused_free.
  - intros h a n a' E. assert (a' = unused h) as -> by (change (Some (unused h) = Some a') in E; congruence). right. apply unused_free.
Qed.

Definition abc : mheap := [(1, [Some "a"%char; Some "b"%char; Some "c"%char])].
Example C40_case :
  MEMcopy small_lib 2 (Some 1) abc = Val (Some 2, [(2, [Some "a"%char; Some "b"%char]);
    (1, [Some "a"%char; Some "b"%char; Some "c"%char])]) /\
  MEMrealloc small_lib (Some 1) 4 abc =
    Val (Some 2, [(2, [Some "a"%char; Some "b"%char; Some "c"%char; None])]) /\
  MEMmalloc small_lib 5 (abc ++ abc ++ abc) = Exited.
Proof. vm_compute. auto. Qed.
