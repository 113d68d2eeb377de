(** Properties C01-C04 of the hash table (palm/src/hash_table.c). *)

From Coq Require Import List NArith ZArith Ascii Bool Lia.
From Verif Require Import Base.Outcome Palm.HashTableModel Palm.HashTableSpec
  Palm.HashTableProof Palm.StrModel Palm.StrProof Palm.HashTableInst.
Import ListNotations.

(** C01.  Every history of calls on a new table answers what the specification
    [spec_outs] (latest stored value, NULL if none) says, as long as no
    [HTremove] is called for a key whose bucket is empty. *)
Theorem C01_history_refines_map_partial :
  forall (K V : Type) (hash : K -> N) (eq : K -> K -> bool), good_key hash eq ->
  forall (n : nat), n > 0 ->
  forall os : list (@op K V), all_removes_defined eq hash n [] os ->
  exists t, run hash eq (HTnew n) os = Val (t, spec_outs eq [] os).
Proof. exact (@map_refinement). Qed.
Print Assumptions C01_history_refines_map_partial.

Example C01_history_example :
  all_removes_defined N.eqb PtrHash 2 [] ex_ops /\
  exists t, run PtrHash N.eqb (HTnew 2) ex_ops = Val (t, spec_outs N.eqb [] ex_ops).
Proof. exact ex_ops_defined_and_run. Qed.

(** C01.  [HTremove] is undefined behaviour exactly when no stored key falls
    into the bucket of the given key. *)
Theorem C01_remove_undefined_iff :
  forall (K V : Type) (hash : K -> N) (eq : K -> K -> bool), good_key hash eq ->
  forall (n : nat), n > 0 ->
  forall (os : list (@op K V)) k t rs,
  run hash eq (HTnew n) os = Val (t, rs) ->
  (run hash eq t [OpRemove k] = Undef <-> ~ remove_defined eq hash n (rev os) k).
Proof. exact (@remove_undefined). Qed.
Print Assumptions C01_remove_undefined_iff.

(** C01, documented claim "NULL if key is not found" for [HTremove]: false. *)
Theorem C01_remove_missing_refuted :
  exists (os : list (@op N N)) (k : N) t rs,
    run PtrHash N.eqb (HTnew 8) os = Val (t, rs) /\
    latest N.eqb (rev os) k = None /\
    HTremove PtrHash N.eqb t k = Undef.
Proof. exact remove_missing_witness. Qed.
Print Assumptions C01_remove_missing_refuted.

(** The three kinds of table the library offers meet the contract on keys. *)
Theorem C01_string_keys : good_key StringHash (fun a b => STReq (Some a) (Some b)).
Proof. exact string_keys_good. Qed.
Print Assumptions C01_string_keys.

Theorem C01_pointer_keys : good_key PtrHash N.eqb.
Proof. exact ptr_keys_good. Qed.
Print Assumptions C01_pointer_keys.

Theorem C01_int_keys : good_key IntHash Z.eqb.
Proof. exact int_keys_good. Qed.
Print Assumptions C01_int_keys.

(** C02.  Without [HTclear] the element count is the number of stored keys. *)
Theorem C02_count_partial :
  forall (K V : Type) (hash : K -> N) (eq : K -> K -> bool), good_key hash eq ->
  forall (n : nat), n > 0 ->
  forall (os : list (@op K V)) t, reaches hash eq n os t -> no_clear os ->
  exists l, lists_contents eq (rev os) l /\ HTelementCount t = length l.
Proof. exact (@count_correct). Qed.
Print Assumptions C02_count_partial.

Example C02_count_example :
  exists t, reaches PtrHash N.eqb 2 ex_ops t /\ no_clear ex_ops /\ HTelementCount t = 2.
Proof. exact ex_ops_reaches. Qed.

(** C02 with [HTclear]: false, the count is stale after a clear. *)
Theorem C02_count_after_clear_refuted :
  exists (os : list (@op N N)) t, reaches PtrHash N.eqb 8 os t /\
    (forall k, latest N.eqb (rev os) k = None) /\ HTelementCount t = 1.
Proof. exact count_after_clear_witness. Qed.
Print Assumptions C02_count_after_clear_refuted.

(** C03.  The iteration loop ends and visits exactly the stored entries. *)
Theorem C03_iteration_partial :
  forall (K V : Type) (hash : K -> N) (eq : K -> K -> bool), good_key hash eq ->
  forall (n : nat), n > 0 ->
  forall (os : list (@op K V)) t fuel, reaches hash eq n os t -> no_clear os ->
  HTelementCount t <= fuel ->
  exists l, iterate_all fuel t = Val l /\ lists_contents eq (rev os) l.
Proof. exact (@iterate_correct). Qed.
Print Assumptions C03_iteration_partial.

(** C03.  A deep copy maps copied keys to copied values ([HTcpy] is the case of
    identity copy functions). *)
Theorem C03_deep_copy_partial :
  forall (K V : Type) (hash : K -> N) (eq : K -> K -> bool), good_key hash eq ->
  forall (n : nat), n > 0 ->
  forall (os : list (@op K V)) t fuel kc vc, reaches hash eq n os t -> no_clear os ->
  (forall a, eq (kc a) a = true) -> HTelementCount t <= fuel ->
  exists t', HTdeep_copy hash eq kc vc fuel t = Val t' /\
    forall k, HTlookup hash eq t' k =
              Val (match latest eq (rev os) k with Some v => vc v | None => None end).
Proof. exact (@deep_copy_correct). Qed.
Print Assumptions C03_deep_copy_partial.

Theorem C03_copy_partial :
  forall (K V : Type) (hash : K -> N) (eq : K -> K -> bool), good_key hash eq ->
  forall (n : nat), n > 0 ->
  forall (os : list (@op K V)) t fuel, reaches hash eq n os t -> no_clear os ->
  HTelementCount t <= fuel ->
  exists t', HTcpy hash eq fuel t = Val t' /\
    forall k, HTlookup hash eq t' k = HTlookup hash eq t k.
Proof. exact (@copy_correct). Qed.
Print Assumptions C03_copy_partial.

Example C03_example : exists t t',
  reaches PtrHash N.eqb 2 ex_ops t /\ no_clear ex_ops /\
  HTcpy PtrHash N.eqb 2 t = Val t' /\ HTlookup PtrHash N.eqb t' 32%N = Val (Some 9%N).
Proof. exact ex_ops_copy. Qed.

(** C03 after [HTclear]: false, starting an iteration fails an assertion. *)
Theorem C03_iterate_after_clear_refuted :
  exists (os : list (@op N N)) t, reaches PtrHash N.eqb 8 os t /\
    forall fuel, iterate_all fuel t = Aborted.
Proof. exact iterate_after_clear_witness. Qed.
Print Assumptions C03_iterate_after_clear_refuted.

(** C04.  The map functions call [f] once per stored entry, in one pass, store
    the results under the same keys and keep the count. *)
Theorem C04_map :
  forall (K V : Type) (hash : K -> N) (eq : K -> K -> bool), good_key hash eq ->
  forall (n : nat), n > 0 ->
  forall (S : Type) (f : S -> K -> ptr V -> S * ptr V) (os : list (@op K V)) t s s' t',
  reaches hash eq n os t -> HTmapWithDataAndKey f t s = (s', t') ->
  exists l l', lists_contents eq (rev os) l /\
    calls f s l = (s', l') /\
    HTelementCount t' = HTelementCount t /\
    (forall k v, In (k, v) l' -> HTlookup hash eq t' k = Val v) /\
    (forall k, latest eq (rev os) k = None -> HTlookup hash eq t' k = Val None).
Proof. exact (@map_correct). Qed.
Print Assumptions C04_map.

(** C04.  [HTfold] calls its function once per stored value. *)
Theorem C04_fold :
  forall (K V : Type) (hash : K -> N) (eq : K -> K -> bool), good_key hash eq ->
  forall (n : nat), n > 0 ->
  forall (A : Type) (f : A -> ptr V -> A) (os : list (@op K V)) t acc,
  reaches hash eq n os t ->
  exists l, lists_contents eq (rev os) l /\ HTfold f t acc = fold_left f (map snd l) acc.
Proof. exact (@fold_correct). Qed.
Print Assumptions C04_fold.

Example C04_example : exists t, reaches PtrHash N.eqb 2 ex_ops t /\
  HTfold (fun a v => match v with Some x => (a + x)%N | None => a end) t 0%N = 14%N.
Proof. exact ex_ops_fold. Qed.
