(** What the C standard says about the allocator, and how heaps differ. *)

From Coq Require Import List NArith Ascii.
From Verif Require Import Base.Heap Palm.MemModel.
Import ListNotations.
Local Open Scope N_scope.

(** malloc and realloc never hand out memory that is in use for something
    else. *)
Definition standard (lib : allocator) : Prop :=
  (forall h n a, al_malloc lib h n = Some a -> lookup h a = None) /\
  (forall h a n a', al_realloc lib h a n = Some a' -> a' = a \/ lookup h a' = None).

(** [h'] is [h] with a new block [b] at [a]. *)
Definition new_block (h h' : mheap) (a : addr) (b : list byte) : Prop :=
  lookup h a = None /\ lookup h' a = Some b /\ (forall x, x <> a -> lookup h' x = lookup h x).

(** [h'] is [h] without the block at [a]. *)
Definition without_block (h h' : mheap) (a : addr) : Prop :=
  lookup h' a = None /\ (forall x, x <> a -> lookup h' x = lookup h x).
