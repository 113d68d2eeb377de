(** Model of cocogen/frontend/attribute_scheduler/queue.c: a linked list on the
    heap with pointers to both ends.  The counter [size] is unbounded here;
    2^64 items do not fit in memory. *)

From Coq Require Import List NArith Bool.
From Verif Require Import Base.Outcome Base.Heap.
Import ListNotations.
Local Open Scope outcome_scope.

Section Queue.
  (** Items are pointers to [A]; [None] is NULL. *)
  Context {A : Type}.

  (** queue.h:5-14; [Other] is memory that has nothing to do with queues. *)
  Inductive qblock :=
  | Queue (top back : option addr) (size : N)
  | Item (item : option A) (next : option addr)
  | Other (contents : N).
  Definition qheap := heap qblock.

  (** MEMmalloc: an unused address, or the program is stopped (C40). *)
  Variable malloc : qheap -> option addr.

  Definition allocate (b : qblock) (h : qheap) : outcome (addr * qheap) :=
    match malloc h with Some a => Val (a, store h a b) | None => Aborted end.
  (** MEMfree of something that is not allocated is undefined. *)
  Definition free (a : addr) (h : qheap) : outcome qheap :=
    match lookup h a with Some _ => Val (remove h a) | None => Undef end.

  Definition read_queue (q : addr) (h : qheap) : outcome (option addr * option addr * N) :=
    match lookup h q with Some (Queue t b n) => Val (t, b, n) | _ => Undef end.
  Definition read_item (a : option addr) (h : qheap) : outcome (addr * (option A * option addr)) :=
    match a with
    | Some a => match lookup h a with Some (Item x n) => Val (a, (x, n)) | _ => Undef end
    | None => Undef
    end.

  (** queue.c:4-11 *)
  Definition QUcreate (h : qheap) : outcome (addr * qheap) := allocate (Queue None None 0) h.

  (** queue.c:21-35 *)
  Definition QUinsert (q : addr) (item : option A) (h : qheap) : outcome qheap :=
    let! r := allocate (Item item None) h in
    let '(queue_item, h) := r in
    let! r := read_queue q h in
    let '(top, back, size) := r in
    if (size =? 0)%N then Val (store h q (Queue (Some queue_item) (Some queue_item) (size + 1)))
    else
      let! b := read_item back h in
      let '(ba, (x, _)) := b in
      let h := store h ba (Item x (Some queue_item)) in
      Val (store h q (Queue top (Some queue_item) (size + 1))).

  (** queue.c:37-39: the address of the first entry, not its item *)
  Definition QUpeek (q : addr) (h : qheap) : outcome (option addr) :=
    let! r := read_queue q h in
    let '(top, _, _) := r in Val top.

  (** queue.c:41-58 *)
  Definition QUpop (q : addr) (h : qheap) : outcome (option A * qheap) :=
    let! r := read_queue q h in
    let '(top, back, size) := r in
    if (size =? 0)%N then Val (None, h)
    else
      let! i := read_item top h in
      let '(a, (x, next)) := i in
      let h := if (size =? 1)%N then store h q (Queue None None (size - 1))
               else store h q (Queue next back (size - 1)) in
      let! h := free a h in
      Val (x, h).

  (** queue.c:13-19: [item->next] is read after [item] has been freed *)
  Definition QUdelete (q : addr) (h : qheap) : outcome qheap :=
    let! r := read_queue q h in
    let '(top, _, _) := r in
    match top with
    | None => free q h
    | Some a =>
        let! h := free a h in
        let! i := read_item (Some a) h in
        Undef (* not reached: the read above is already undefined *)
    end.

  (** A history of operations on one queue. *)
  Inductive qop := Insert (x : option A) | Pop | Peek.
  Inductive qout := Done | Popped (x : option A) | Peeked (nonempty : bool).
  Definition step (q : addr) (o : qop) (h : qheap) : outcome (qout * qheap) :=
    match o with
    | Insert x => let! h := QUinsert q x h in Val (Done, h)
    | Pop => let! r := QUpop q h in Val (Popped (fst r), snd r)
    | Peek => let! p := QUpeek q h in Val (Peeked (match p with Some _ => true | None => false end), h)
    end.
  Fixpoint run (q : addr) (os : list qop) (h : qheap) : outcome (list qout * qheap) :=
    match os with
    | [] => Val ([], h)
    | o :: os =>
        let! r := step q o h in
        let! s := run q os (snd r) in
        Val (fst r :: fst s, snd s)
    end.
End Queue.
Arguments qblock : clear implicits.
Arguments qheap : clear implicits.
Arguments qop : clear implicits.
Arguments qout : clear implicits.
