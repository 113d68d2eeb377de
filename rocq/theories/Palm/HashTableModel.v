(** Model of palm/src/hash_table.c.

    A bucket is the list of its entries in chain order ([next] pointers);
    the table is the array of buckets plus the [elements] counter.
    Keys are modelled by their content ([K]) together with the hash function
    and the equality function the table was created with (both are
    arbitrary parameters).  A [void *] value is [option V]; [None] is NULL.
    Simplification: heap addresses of entries are not modelled, only the
    chains; [MEMmalloc] of an entry is assumed to succeed (on failure it ends
    the process, palm/src/memory.c:22-37). *)

From Coq Require Import List NArith ZArith Arith Ascii.
From Verif Require Import Base.Outcome.
Import ListNotations.
Local Open Scope outcome_scope.

Definition ptr (V : Type) : Type := option V.

(** hash_table.c:13-17 [struct htable_entry] (without [next]) *)
Definition entry (K V : Type) : Type := (K * ptr V)%type.

(** hash_table.c:19-25 [struct htable]; [size] is the length of [entries]. *)
Record htable (K V : Type) : Type := mk_htable {
  entries : list (list (entry K V));
  elements : nat
}.
Arguments mk_htable {K V} entries elements.
Arguments entries {K V} h.
Arguments elements {K V} h.

Section Model.
  Context {K V : Type}.
  Variable hash_f : K -> N.
  Variable is_equal_f : K -> K -> bool.

  Definition size (t : htable K V) : nat := length (entries t).

  (** hash_table.c:41-51 [HTnew] ([calloc] gives NULL buckets). *)
  Definition HTnew (n : nat) : htable K V := mk_htable (repeat [] n) 0.

  (** hash_table.c:103, 142, 182: [hash_f(key) % size]; modulo zero is UB. *)
  Definition index (t : htable K V) (k : K) : outcome nat :=
    match size t with
    | 0 => Undef
    | S _ => Val (N.to_nat (hash_f k mod N.of_nat (size t))%N)
    end.

  (** [table->entries[i]]; reading outside of the array is UB. *)
  Definition bucket (t : htable K V) (i : nat) : outcome (list (entry K V)) :=
    match nth_error (entries t) i with
    | Some b => Val b
    | None => Undef
    end.

  Fixpoint set_nth {A} (i : nat) (x : A) (l : list A) : list A :=
    match l, i with
    | [], _ => []
    | _ :: l', 0 => x :: l'
    | y :: l', S i' => y :: set_nth i' x l'
    end.

  (** hash_table.c:105-123: walk the chain; overwrite the value of the first
      entry with an equal key (the old key is kept) or append a new entry.
      The boolean says whether an entry was appended. *)
  Fixpoint chain_insert (b : list (entry K V)) (k : K) (v : ptr V)
    : list (entry K V) * bool :=
    match b with
    | [] => ([(k, v)], true)
    | (k', v') :: b' =>
        if is_equal_f k' k then ((k', v) :: b', false)
        else let (r, fresh) := chain_insert b' k v in ((k', v') :: r, fresh)
    end.

  (** hash_table.c:98-133 [Insert]/[HTinsert]. *)
  Definition HTinsert (t : htable K V) (k : K) (v : ptr V)
    : outcome (htable K V * bool) :=
    let! i := index t k in
    let! b := bucket t i in
    let (b', fresh) := chain_insert b k v in
    Val (mk_htable (set_nth i b' (entries t))
                   (if fresh then S (elements t) else elements t), true).

  (** hash_table.c:160-174: the search below the head of the chain. *)
  Fixpoint chain_remove (b : list (entry K V)) (k : K)
    : list (entry K V) * option (ptr V) :=
    match b with
    | [] => ([], None)
    | (k', v') :: b' =>
        if is_equal_f k' k then (b', Some v')
        else let (r, o) := chain_remove b' k in ((k', v') :: r, o)
    end.

  (** hash_table.c:140-175 [HTremove].  When the bucket is empty, line 158
      evaluates [entry->next] with [entry == NULL]: UB.  [elements--] is
      [Nat.pred]; that it never runs on 0 is proved in HashTableProof.v. *)
  Definition HTremove (t : htable K V) (k : K)
    : outcome (htable K V * ptr V) :=
    let! i := index t k in
    let! b := bucket t i in
    match b with
    | [] => Undef
    | (k0, v0) :: b0 =>
        if is_equal_f k0 k then
          Val (mk_htable (set_nth i b0 (entries t)) (pred (elements t)), v0)
        else
          match chain_remove b0 k with
          | (b1, Some v) =>
              Val (mk_htable (set_nth i ((k0, v0) :: b1) (entries t))
                             (pred (elements t)), v)
          | (_, None) => Val (t, None)
          end
    end.

  (** hash_table.c:184-189 *)
  Fixpoint chain_lookup (b : list (entry K V)) (k : K) : ptr V :=
    match b with
    | [] => None
    | (k', v') :: b' => if is_equal_f k' k then v' else chain_lookup b' k
    end.

  (** hash_table.c:180-192 [HTlookup] *)
  Definition HTlookup (t : htable K V) (k : K) : outcome (ptr V) :=
    let! i := index t k in
    let! b := bucket t i in
    Val (chain_lookup b k).

  (** hash_table.c:198-209 [HTclear]: all buckets become NULL; [elements] is
      not written. *)
  Definition HTclear (t : htable K V) : htable K V :=
    mk_htable (map (fun _ => []) (entries t)) (elements t).

  (** hash_table.c:222-225 *)
  Definition HTelementCount (t : htable K V) : nat := elements t.

  (** hash_table.c:227-236 [HTfold]: calls [fun(init_acc, value)] for every
      entry; [init_acc] points to the accumulator, which is the state [acc]
      here. *)
  Definition HTfold {A} (f : A -> ptr V -> A) (t : htable K V) (acc : A) : A :=
    fold_left (fun a b => fold_left (fun a' e => f a' (snd e)) b a) (entries t) acc.

  (** hash_table.c:265-274 [HTmapWithDataAndKey], with the state the user
      function may change threaded through ([S]); [HTmap] (239-248) and
      [HTmapWithKey] (250-259) are the instances that ignore some arguments. *)
  Fixpoint chain_map {S} (f : S -> K -> ptr V -> S * ptr V) (s : S)
           (b : list (entry K V)) : S * list (entry K V) :=
    match b with
    | [] => (s, [])
    | (k, v) :: b' =>
        let (s1, v1) := f s k v in
        let (s2, b2) := chain_map f s1 b' in
        (s2, (k, v1) :: b2)
    end.

  Fixpoint buckets_map {S} (f : S -> K -> ptr V -> S * ptr V) (s : S)
           (bs : list (list (entry K V))) : S * list (list (entry K V)) :=
    match bs with
    | [] => (s, [])
    | b :: bs' =>
        let (s1, b1) := chain_map f s b in
        let (s2, bs2) := buckets_map f s1 bs' in
        (s2, b1 :: bs2)
    end.

  Definition HTmapWithDataAndKey {S} (f : S -> K -> ptr V -> S * ptr V)
             (t : htable K V) (s : S) : S * htable K V :=
    let (s', bs) := buckets_map f s (entries t) in
    (s', mk_htable bs (elements t)).

  (** hash_table.c:27-31 [struct htable_iter]: [it_entry] is the entry that
      [current_entry] points to together with the rest of its chain. *)
  Record iter : Type := mk_iter {
    it_element : nat;
    it_entry : entry K V;
    it_chain : list (entry K V)
  }.

  (** hash_table.c:288-294 and 309-315: first non-empty bucket at or after
      index [i]. *)
  Fixpoint first_from (i : nat) (bs : list (list (entry K V))) : option iter :=
    match bs with
    | [] => None
    | [] :: bs' => first_from (S i) bs'
    | (e :: c) :: _ => Some (mk_iter i e c)
    end.

  (** hash_table.c:280-299 [HTiterate]; the [assert] on line 297 fails when
      no bucket has an entry although [elements] is not 0. *)
  Definition HTiterate (t : htable K V) : outcome (option iter) :=
    match elements t with
    | 0 => Val None
    | S _ => match first_from 0 (entries t) with
             | Some it => Val (Some it)
             | None => Aborted
             end
    end.

  (** hash_table.c:302-320 [HTiterateNext] *)
  Definition HTiterateNext (t : htable K V) (it : iter) : option iter :=
    match it_chain it with
    | e :: c => Some (mk_iter (it_element it) e c)
    | [] => first_from (S (it_element it)) (skipn (S (it_element it)) (entries t))
    end.

  (** hash_table.c:328-343 *)
  Definition HTiterKey (it : iter) : K := fst (it_entry it).
  Definition HTiterValue (it : iter) : ptr V := snd (it_entry it).

  (** The loop of palm/hash_table.h (and of HTcpy, hash_table.c:58-61)
      [for (it = HTiterate(t); it; it = HTiterateNext(it)) body], as the list
      of entries on which the body runs. *)
  Fixpoint iter_loop (fuel : nat) (t : htable K V) (it : option iter)
    : outcome (list (entry K V)) :=
    match it with
    | None => Val []
    | Some i =>
        match fuel with
        | 0 => NoFuel
        | S fuel' =>
            let! r := iter_loop fuel' t (HTiterateNext t i) in
            Val (it_entry i :: r)
        end
    end.

  Definition iterate_all (fuel : nat) (t : htable K V)
    : outcome (list (entry K V)) :=
    let! it := HTiterate t in iter_loop fuel t it.

  Fixpoint insert_all (t : htable K V) (es : list (entry K V))
    : outcome (htable K V) :=
    match es with
    | [] => Val t
    | (k, v) :: es' => let! (t', _) := HTinsert t k v in insert_all t' es'
    end.

  (** hash_table.c:66-79 [HTdeep_copy] with pure copy functions; [HTcpy]
      (53-64) is the instance with the identity. *)
  Definition HTdeep_copy (key_copy : K -> K) (val_copy : ptr V -> ptr V)
             (fuel : nat) (t : htable K V) : outcome (htable K V) :=
    let! es := iterate_all fuel t in
    insert_all (HTnew (size t))
               (map (fun e => (key_copy (fst e), val_copy (snd e))) es).

  Definition HTcpy (fuel : nat) (t : htable K V) : outcome (htable K V) :=
    HTdeep_copy (fun k => k) (fun v => v) fuel t.

  (** One API call, and what the caller sees of it. *)
  Inductive op : Type :=
  | OpInsert (k : K) (v : ptr V)
  | OpRemove (k : K)
  | OpLookup (k : K)
  | OpClear.

  Inductive out : Type :=
  | OutBool (b : bool)
  | OutPtr (v : ptr V)
  | OutUnit.

  Definition step (t : htable K V) (o : op) : outcome (htable K V * out) :=
    match o with
    | OpInsert k v => let! (t', b) := HTinsert t k v in Val (t', OutBool b)
    | OpRemove k => let! (t', v) := HTremove t k in Val (t', OutPtr v)
    | OpLookup k => let! v := HTlookup t k in Val (t, OutPtr v)
    | OpClear => Val (HTclear t, OutUnit)
    end.

  Fixpoint run (t : htable K V) (os : list op)
    : outcome (htable K V * list out) :=
    match os with
    | [] => Val (t, [])
    | o :: os' =>
        let! (t1, r) := step t o in
        let! (t2, rs) := run t1 os' in
        Val (t2, r :: rs)
    end.
End Model.

(** hash_table.c:349-363 [StringHash] on the bytes of a string (djb2).  [char]
    is signed on the supported platforms, so a byte >= 128 contributes
    c - 256 modulo 2^64. *)
Definition StringHash (s : list ascii) : N :=
  fold_left (fun h a =>
     let c := N_of_ascii a in
     ((h * 33) + (if (c <? 128)%N then c else 2 ^ 64 - (256 - c)))%N mod 2 ^ 64)%N
    s 5381%N.

(** hash_table.c:376-381 [PtrHash] on an address *)
Definition PtrHash (p : N) : N := N.land (N.shiftr p 5) 31.

(** hash_table.c:400-403 [IntHash]: [(size_t)(int)] *)
Definition IntHash (z : Z) : N := Z.to_N (z mod 2 ^ 64)%Z.
