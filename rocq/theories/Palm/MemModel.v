(** Model of palm/src/memory.c.

    The C library's allocator is a parameter: an answer for every heap and
    size, NULL ([None]) meaning that there is no memory left.  A block is a
    list of bytes, [None] being a byte that has not been written.  Pointers
    point to the beginning of a block; int sizes are size_t, so the
    assertions "size >= 0" (lines 20, 54) always hold. *)

From Coq Require Import List Arith NArith Ascii Bool.
From Verif Require Import Base.Outcome Base.Heap.
Import ListNotations.
Local Open Scope N_scope.
Local Open Scope outcome_scope.

Definition byte := option ascii.
Definition mheap := heap (list byte).

Record allocator := mk_allocator {
  al_malloc : mheap -> N -> option addr;
  al_realloc : mheap -> addr -> N -> option addr }.

Section Mem.
  Variable lib : allocator.

  (** palm/src/memory.c:16-38 [MEMmalloc]; CTIabortOutOfMemory
      (palm/src/ctinfo.c) ends the program. *)
  Definition MEMmalloc (size : N) (h : mheap) : outcome (option addr * mheap) :=
    if 0 <? size then
      match al_malloc lib h size with
      | None => Exited
      | Some a => Val (Some a, store h a (repeat None (N.to_nat size)))
      end
    else Val (None, h).

  (** palm/src/memory.c:81-89 [MEMfree]; free of a pointer that is not
      allocated is undefined. *)
  Definition MEMfree (address : option addr) (h : mheap) : outcome (option addr * mheap) :=
    match address with
    | None => Val (None, h)
    | Some a => match lookup h a with
                | None => Undef
                | Some _ => Val (None, remove h a)
                end
    end.

  (** palm/src/memory.c:48-75 [MEMrealloc] *)
  Definition MEMrealloc (address : option addr) (size : N) (h : mheap) : outcome (option addr * mheap) :=
    match address with
    | None => MEMmalloc size h
    | Some a =>
        if 0 <? size then
          match lookup h a with
          | None => Undef
          | Some old =>
              match al_realloc lib h a size with
              | None => Exited
              | Some a' =>
                  let n := N.to_nat size in
                  Val (Some a', store (remove h a) a' (firstn n old ++ repeat None (n - length old)))
              end
          end
        else
          let! r := MEMfree (Some a) h in Val (None, snd r)
    end.

  (** memcpy: undefined for invalid pointers, even if there is nothing to
      copy (C11 7.24.1), and for blocks that are too short *)
  Definition memcpy (dest src : option addr) (size : N) (h : mheap) : outcome (option addr * mheap) :=
    match dest, src with
    | Some d, Some s =>
        match lookup h d, lookup h s with
        | Some bd, Some bs =>
            let n := N.to_nat size in
            if (n <=? length bd)%nat && (n <=? length bs)%nat
            then Val (Some d, store h d (firstn n bs ++ skipn n bd))
            else Undef
        | _, _ => Undef
        end
    | _, _ => Undef
    end.

  (** palm/src/memory.c:91-99 [MEMcopy] *)
  Definition MEMcopy (size : N) (mem : option addr) (h : mheap) : outcome (option addr * mheap) :=
    let! r := MEMmalloc size h in
    memcpy (fst r) mem size (snd r).
End Mem.
