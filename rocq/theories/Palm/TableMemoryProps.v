(** Property C64: the memory of hash tables and iterators
    (palm/src/hash_table.c). *)

From Coq Require Import List NArith Arith Lia.
From Verif Require Import Base.Outcome Base.Heap Palm.HashTableModel Palm.HashTableSpec
  Palm.HashTableInst Palm.TableMemoryModel Palm.TableMemorySpec Palm.TableMemoryProof
  Palm.TableMemoryWalk Palm.TableMemoryInst.
Import ListNotations.

(** C64.  A history of calls on tables and iterators that uses no table after
    its deletion, and no iterator after its end or after its entry was taken
    out ([history] is defined), accesses only allocated memory and answers what
    the specification says.  It holds for every allocator that hands out free
    addresses and for every memory [h0] before.  Partial: removal of a key of
    which the bucket is empty is undefined behaviour (C01), and the header does
    not say that the entry an iterator stands on must stay. *)
Theorem C64_memory_partial :
  forall (K V : Type) (hash : K -> N) (eq : K -> K -> bool), good_key hash eq ->
  forall alloc : @memory K V -> addr, (forall h, lookup h (alloc h) = None) ->
  forall (h0 : memory) (cs : list call),
  match history hash eq nothing cs with
  | Val (w, rs) => exists s, execs hash eq alloc (mk_process h0 [ ] [ ]) cs = Val (s, rs)
  | Aborted => execs hash eq alloc (mk_process h0 [ ] [ ]) cs = Aborted
  | _ => True
  end.
Proof.
  intros K V hash eq GK alloc Al h0 cs.
  assert (R := history_right hash eq GK alloc Al h0 cs nothing _ (start_related hash eq h0)).
  destruct (history hash eq nothing cs) as [[w rs]| | | |]; try exact I; [|exact R].
  destruct R as (s & E & _). now exists s.
Qed.
Print Assumptions C64_memory_partial.

(** C64.  After such a history the memory of others is as it was, and the
    blocks in use besides it are two for every table that is not deleted, one
    for each of its entries and one for every iterator that is neither at its
    end nor cancelled. *)
Theorem C64_blocks :
  forall (K V : Type) (hash : K -> N) (eq : K -> K -> bool), good_key hash eq ->
  forall alloc : @memory K V -> addr, (forall h, lookup h (alloc h) = None) ->
  forall (h0 : memory) (cs : list call) w rs s,
  history hash eq nothing cs = Val (w, rs) ->
  execs hash eq alloc (mk_process h0 [ ] [ ]) cs = Val (s, rs) ->
  (forall y, lookup h0 y <> None -> lookup (p_memory s) y = lookup h0 y) /\
  exists used, NoDup used /\ length used = blocks w /\
    forall y, In y used <-> lookup (p_memory s) y <> None /\ lookup h0 y = None.
Proof.
  intros K V hash eq GK alloc Al h0 cs w rs s E X.
  assert (R := history_right hash eq GK alloc Al h0 cs nothing _ (start_related hash eq h0)).
  rewrite E in R. destruct R as (s' & E' & R). rewrite X in E'. injection E' as <-.
  exact (memory_blocks hash eq h0 w s R).
Qed.
Print Assumptions C64_blocks.

(** C64.  If in the end all tables are deleted and all iterators came to their
    end or were cancelled, nothing is leaked. *)
Theorem C64_released :
  forall (K V : Type) (hash : K -> N) (eq : K -> K -> bool), good_key hash eq ->
  forall alloc : @memory K V -> addr, (forall h, lookup h (alloc h) = None) ->
  forall (h0 : memory) (cs : list call) w rs s,
  history hash eq nothing cs = Val (w, rs) -> all_released w ->
  execs hash eq alloc (mk_process h0 [ ] [ ]) cs = Val (s, rs) ->
  forall y, lookup (p_memory s) y = lookup h0 y.
Proof.
  intros K V hash eq GK alloc Al h0 cs w rs s E A X.
  assert (R := history_right hash eq GK alloc Al h0 cs nothing _ (start_related hash eq h0)).
  rewrite E in R. destruct R as (s' & E' & R). rewrite X in E'. injection E' as <-.
  exact (released_memory hash eq h0 w s R A).
Qed.
Print Assumptions C64_released.

(** C64.  While a table is iterated other calls may insert, overwrite and
    remove: a key that stays in the table from the start of the iteration to
    its end is passed exactly once. *)
Theorem C64_passed_once :
  forall (K V : Type) (hash : K -> N) (eq : K -> K -> bool), good_key hash eq ->
  forall cs0 (w : @world K V) rs0 x t q w1 cs w2 rs,
  history hash eq nothing cs0 = Val (w, rs0) ->
  the_table w x = Val t -> stored eq q t ->
  does hash eq w (CIterate x) = Val (w1, AMore true) ->
  history hash eq w1 cs = Val (w2, rs) ->
  Forall (keeps eq x q (length (w_iters w))) cs ->
  nth_error (w_iters w2) (length (w_iters w)) = Some IGone ->
  exists k, filter (eq q) (here (length (w_iters w)) w1 ++ stood hash eq (length (w_iters w)) w1 cs) = [k].
Proof. exact (@passed_once). Qed.
Print Assumptions C64_passed_once.

(** C64.  "HTremove may be called while iterating": taking out the entry the
    iterator stands on makes the next [HTiterateNext] read freed memory. *)
Theorem C64_remove_current_refuted :
  let cs := [CNew 8; CInsert 0 32%N (Some 1%N); CInsert 0 64%N (Some 2%N); CIterate 0; CKey 0;
             CRemove 0 32%N] in
  (exists s rs, execs PtrHash N.eqb unused (mk_process ex_before [ ] [ ]) cs = Val (s, rs)) /\
  execs PtrHash N.eqb unused (mk_process ex_before [ ] [ ]) (cs ++ [CNext 0]) = Undef.
Proof.
  cbn zeta. split; [|vm_compute; reflexivity]. eexists. eexists. vm_compute. reflexivity.
Qed.
Print Assumptions C64_remove_current_refuted.

(** C64.  "Leaving a loop early needs no call": an iterator that is neither
    cancelled nor at its end is left in memory. *)
Theorem C64_left_early_refuted :
  exists (cs : list (@call N N)) s rs, ~ In (CCancel 0) cs /\
    execs PtrHash N.eqb unused (mk_process ex_before [ ] [ ]) (cs ++ [CDelete 0]) = Val (s, rs) /\
    exists y, lookup (p_memory s) y <> None /\ lookup ex_before y = None.
Proof.
  exists [CNew 8; CInsert 0 32%N (Some 1%N); CIterate 0; CKey 0]. eexists. eexists.
  split; [intros H; repeat destruct H as [H|H]; try discriminate; exact H|].
  split; [vm_compute; reflexivity|]. exists 5%N. split; [vm_compute; discriminate|reflexivity].
Qed.
Print Assumptions C64_left_early_refuted.

(** Instances. *)
Example C64_example :
  exists w rs, history PtrHash N.eqb nothing ex_calls = Val (w, rs) /\ all_released w /\ length rs = 31 /\
  exists s, execs PtrHash N.eqb unused (mk_process ex_before [ ] [ ]) ex_calls = Val (s, rs) /\
    forall y, lookup (p_memory s) y = lookup ex_before y.
Proof.
  destruct ex_history as (w & rs & E & A & Lr). exists w, rs. split; [exact E|]. split; [exact A|]. split; [exact Lr|].
  assert (M := C64_memory_partial N N PtrHash N.eqb ptr_keys_good unused unused_free ex_before ex_calls).
  rewrite E in M. destruct M as (s & Es). exists s. split; [exact Es|].
  exact (C64_released N N PtrHash N.eqb ptr_keys_good unused unused_free ex_before ex_calls w rs s E A Es).
Qed.

Example C64_blocks_example :
  exists w rs, history PtrHash N.eqb nothing (firstn 23 ex_calls) = Val (w, rs) /\ blocks w = 11.
Proof. eexists. eexists. split; [vm_compute; reflexivity|]. vm_compute. reflexivity. Qed.

(** Key 96 stays while 32 goes and 128 comes. *)
Example C64_passed_example :
  exists w rs0 w1 w2 rs t,
    history PtrHash N.eqb nothing (firstn 4 ex_calls) = Val (w, rs0) /\ the_table w 0 = Val t /\
    stored N.eqb 96%N t /\ does PtrHash N.eqb w (CIterate 0) = Val (w1, AMore true) /\
    history PtrHash N.eqb w1 (firstn 10 (skipn 5 ex_calls)) = Val (w2, rs) /\
    Forall (keeps N.eqb 0 96%N 0) (firstn 10 (skipn 5 ex_calls)) /\
    nth_error (w_iters w2) 0 = Some IGone /\
    here 0 w1 ++ stood PtrHash N.eqb 0 w1 (firstn 10 (skipn 5 ex_calls)) = [64; 128; 96]%N.
Proof.
  do 6 eexists. split; [vm_compute; reflexivity|]. split; [vm_compute; reflexivity|].
  split; [exists (96%N, None); split; [vm_compute; auto|reflexivity]|].
  split; [vm_compute; reflexivity|]. split; [vm_compute; reflexivity|].
  split; [repeat constructor; cbn; congruence|]. split; vm_compute; reflexivity.
Qed.
