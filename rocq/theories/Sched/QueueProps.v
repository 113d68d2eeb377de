(** C39: the scheduler's queue is first in, first out. *)

From Coq Require Import List NArith Bool Lia.
From Verif Require Import Base.Outcome Base.Heap Sched.QueueModel Sched.QueueSpec Sched.QueueProof.
Import ListNotations.
Local Open Scope outcome_scope.

(** For every history of insertions, pops and peeks on a new queue, every
    operation returns what it returns on a list of waiting items: pop gives
    the oldest and NULL when there is none, peek is not NULL iff something is
    waiting.  No memory that was in use before is touched, and no memory
    outside the queue is leaked. *)
Theorem C39_fifo :
  forall A (malloc : qheap A -> option addr), standard malloc ->
  forall h0 q h1 os rs h2, QUcreate malloc h0 = Val (q, h1) -> run malloc q os h1 = Val (rs, h2) ->
  rs = fst (fifo [] os) /\
  exists xs, length xs = length (snd (fifo [] os)) /\
    (forall a, In a (q :: xs) -> lookup h0 a = None) /\
    (forall a, ~ In a (q :: xs) -> lookup h2 a = lookup h0 a).
Proof.
  intros A malloc M h0 q h1 os rs h2 C R. destruct (create_holds malloc M _ _ _ C) as (H & L & F).
  destruct (run_fifo malloc M os h0 h1 q [] [] rs h2 H) as (E & xs & H2 & R1 & R2).
  - split; [intros a [<-|[]]; exact L|]. intros a Na. apply F. intros ->. apply Na. left. reflexivity.
  - exact R.
  - split; [exact E|]. exists xs. split; [exact (linked_length _ _ _ (h_items _ _ _ _ H2))|]. auto.
Qed.
Print Assumptions C39_fifo.

(** The operations have defined behaviour; they only stop the program when
    there is no memory left. *)
Theorem C39_defined :
  forall A (malloc : qheap A -> option addr), standard malloc ->
  forall h0 q h1 os, QUcreate malloc h0 = Val (q, h1) ->
  ((exists rs h2, run malloc q os h1 = Val (rs, h2)) \/ run malloc q os h1 = Aborted) /\
  (unlimited malloc -> exists rs h2, run malloc q os h1 = Val (rs, h2)).
Proof.
  intros A malloc M h0 q h1 os C. destruct (create_holds malloc M _ _ _ C) as (H & _).
  split; [exact (run_safe malloc M os h1 q [] [] H)|].
  intros U. exact (run_defined malloc M os h1 q [] [] U H).
Qed.
Print Assumptions C39_defined.

(** The same without the list of waiting items: the non-NULL items popped, in
    the order they are popped, are the first of those inserted, in the order
    they were inserted, and the others are the ones still waiting. *)
Theorem C39_insertion_order :
  forall A (os : list (qop A)),
  exists n, n <= length (inserted os) /\
    filter (fun x => match x with Some _ => true | None => false end) (popped (fst (fifo [] os))) =
    filter (fun x => match x with Some _ => true | None => false end) (firstn n (inserted os)) /\
    snd (fifo [] os) = skipn n (inserted os).
Proof. intros A os. exact (fifo_order os []). Qed.
Print Assumptions C39_insertion_order.

(** Deleting an empty queue gives all memory back; deleting a queue in which
    items are waiting reads freed memory. *)
Theorem C39_delete :
  forall A (malloc : qheap A -> option addr), standard malloc ->
  forall h0 q h1 os rs h2, QUcreate malloc h0 = Val (q, h1) -> run malloc q os h1 = Val (rs, h2) ->
  (snd (fifo [] os) = [] -> exists h3, QUdelete q h2 = Val h3 /\ forall a, lookup h3 a = lookup h0 a) /\
  (snd (fifo [] os) <> [] -> QUdelete q h2 = Undef).
Proof.
  intros A malloc M h0 q h1 os rs h2 C R. destruct (create_holds malloc M _ _ _ C) as (H & L & F).
  destruct (run_fifo malloc M os h0 h1 q [] [] rs h2 H) as (E & xs & H2 & R1 & R2).
  - split; [intros a [<-|[]]; exact L|]. intros a Na. apply F. intros ->. apply Na. left. reflexivity.
  - exact R.
  - split.
    + intros Z. rewrite Z in H2. assert (xs = []) as -> by (destruct xs; [reflexivity|destruct (h_items _ _ _ _ H2)]).
      destruct (delete_empty _ _ H2) as (h3 & E3 & Lq & F3). exists h3. split; [exact E3|]. intros a.
      destruct (N.eqb_spec a q) as [->|Na]; [rewrite Lq; symmetry; exact L|].
      rewrite F3 by exact Na. apply R2. intros [<-|[]]. apply Na. reflexivity.
    + intros Z. destruct (snd (fifo [] os)) as [|x l]; [congruence|]. exact (delete_nonempty _ _ _ _ _ H2).
Qed.
Print Assumptions C39_delete.

(** An instance: interleaved insertions and pops, emptying and refilling. *)
Definition plenty (h : qheap nat) : option addr := Some (unused h).
Lemma plenty_standard : standard plenty.
Proof. intros h a [= <-]. apply unused_free. Qed.
Definition history : list (qop nat) :=
  [Peek; Pop; Insert (Some 1); Insert (Some 2); Pop; Insert (Some 3); Peek; Pop; Pop; Pop; Insert (Some 4); Insert None].
Example C39_instance :
  exists q h1 h2, QUcreate plenty [(7%N, Other 5)] = Val (q, h1) /\
    run plenty q history h1 =
      Val ([Peeked false; Popped None; Done; Done; Popped (Some 1); Done; Peeked true; Popped (Some 2);
            Popped (Some 3); Popped None; Done; Done], h2) /\
    lookup h2 7%N = Some (Other 5) /\ QUdelete q h2 = Undef.
Proof. eexists _, _, _. split; [reflexivity|]. split; [vm_compute; reflexivity|]. split; reflexivity. Qed.
