(** Concrete histories for C64. *)

From Coq Require Import List NArith Arith Lia.
From Verif Require Import Base.Outcome Base.Heap Palm.HashTableModel Palm.TableMemoryModel
  Palm.TableMemorySpec.
Import ListNotations.

(** Two tables, three iterators; entries come and go while they are iterated. *)
Definition ex_calls : list (@call N N) :=
  [ CNew 2; CInsert 0 32%N (Some 1%N); CInsert 0 64%N (Some 2%N); CInsert 0 96%N None;
    CIterate 0; CKey 0; CValue 0; CInsert 0 128%N (Some 4%N); CNext 0; CKey 0;
    CSet 0 (Some 9%N); CRemove 0 32%N; CNext 0; CKey 0; CNext 0;
    CCount 0; CCopy 0 (fun k => k) (fun v => v); CMap 1 (fun k _ => Some k); CFold 1; CFold 0;
    CIterate 1; CIterate 1; CRemove 1 128%N; CCancel 1; CNext 2; CLookup 1 64%N; CDelete 0;
    CClear 1; CCancel 2; CInsert 1 7%N (Some 7%N); CDelete 1 ].

(** A block of somebody else. *)
Definition ex_before : @memory N N := [(1%N, BOther 7%N)].

Definition released_b {K V} (w : @world K V) : bool :=
  andb (forallb (fun o => match o with None => true | _ => false end) (w_tables w))
       (forallb (fun i => match i with IGone => true | _ => false end) (w_iters w)).

Lemma released_b_right {K V} (w : @world K V) : released_b w = true -> all_released w.
Proof.
  unfold released_b. intros E. apply andb_prop in E. destruct E as [E1 E2].
  rewrite forallb_forall in E1, E2. split.
  - intros x t E. apply nth_error_In in E. specialize (E1 _ E). discriminate.
  - intros j i E. apply nth_error_In in E. specialize (E2 _ E). now destruct i.
Qed.

Definition ex_outcome : outcome (@world N N * list (@answer N N)) :=
  Eval vm_compute in history PtrHash N.eqb nothing ex_calls.
Lemma ex_outcome_right : history PtrHash N.eqb nothing ex_calls = ex_outcome.
Proof. vm_compute. reflexivity. Qed.
Lemma ex_history : exists w rs,
  history PtrHash N.eqb nothing ex_calls = Val (w, rs) /\ all_released w /\ length rs = 31.
Proof.
  rewrite ex_outcome_right. unfold ex_outcome. eexists. eexists. split; [reflexivity|].
  split; [now apply released_b_right|reflexivity].
Qed.
