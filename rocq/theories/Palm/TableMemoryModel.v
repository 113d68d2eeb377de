(** Model of palm/src/hash_table.c with the memory it uses: the table, its
    array of buckets, one block for every entry, one block for every iterator.
    Reading or freeing a block that is not allocated is undefined behaviour,
    and so is reading a block as something it is not.  The functions of
    HashTableModel.v are the same functions on lists instead of pointers;
    TableMemoryProof.v connects the two.

    Simplifications: keys are given by what they hold, values are pointers
    that are only stored (as in HashTableModel.v).  Allocation succeeds
    (MEMmalloc ends the process otherwise, palm/src/memory.c:22-37; the
    [calloc] of hash_table.c:46 is not checked by the code) and gives the
    address [alloc h], of which only is assumed that nothing is allocated
    there.  All tables have the same hash and equality function.  Loops along
    chains have as fuel the number of blocks in memory. *)

From Coq Require Import List NArith Arith.
From Verif Require Import Base.Outcome Base.Heap Palm.HashTableModel.
Import ListNotations.
Local Open Scope outcome_scope.

Section Memory.
  Context {K V : Type}.
  Variable hash_f : K -> N.
  Variable is_equal_f : K -> K -> bool.

  (** A pointer; [None] is NULL. *)
  Definition pointer : Type := option addr.

  (** hash_table.c:13-17 [struct htable_entry], 19-25 [struct htable]
      (without the two functions), 27-31 [struct htable_iter], the array
      [entries], and memory of others. *)
  Inductive block : Type :=
  | BTable (entries : pointer) (size elements : nat)
  | BArray (buckets : list pointer)
  | BEntry (key : K) (value : ptr V) (next : pointer)
  | BIter (table : addr) (current_element : nat) (current_entry : pointer)
  | BOther (content : N).

  Definition memory : Type := heap block.
  Variable alloc : memory -> addr.

  Definition read_table (h : memory) (t : addr) : outcome (pointer * nat * nat) :=
    match lookup h t with
    | Some (BTable es n el) => Val (es, n, el)
    | _ => Undef
    end.
  Definition read_array (h : memory) (p : pointer) : outcome (list pointer) :=
    match p with
    | Some a => match lookup h a with Some (BArray ps) => Val ps | _ => Undef end
    | None => Undef
    end.
  Definition read_entry (h : memory) (e : addr) : outcome (K * ptr V * pointer) :=
    match lookup h e with
    | Some (BEntry k v n) => Val (k, v, n)
    | _ => Undef
    end.
  Definition read_iter (h : memory) (i : addr) : outcome (addr * nat * pointer) :=
    match lookup h i with
    | Some (BIter t el e) => Val (t, el, e)
    | _ => Undef
    end.
  Definition not_null (p : pointer) : outcome addr :=
    match p with Some a => Val a | None => Undef end.

  (** palm/src/memory.c:83-91 [MEMfree] *)
  Definition MEMfree (h : memory) (p : pointer) : outcome memory :=
    match p with
    | None => Val h
    | Some a => match lookup h a with Some _ => Val (remove h a) | None => Undef end
    end.

  (** [table->entries[i]] *)
  Definition read_bucket (h : memory) (t : addr) (i : nat) : outcome pointer :=
    let! (es, _, _) := read_table h t in
    let! ps := read_array h es in
    match nth_error ps i with Some p => Val p | None => Undef end.
  (** [table->entries[i] = p] *)
  Definition write_bucket (h : memory) (t : addr) (i : nat) (p : pointer) : outcome memory :=
    let! (es, _, _) := read_table h t in
    let! a := not_null es in
    let! ps := read_array h es in
    match nth_error ps i with
    | Some _ => Val (store h a (BArray (set_nth i p ps)))
    | None => Undef
    end.
  Definition write_value (h : memory) (e : addr) (v : ptr V) : outcome memory :=
    let! (k, _, n) := read_entry h e in Val (store h e (BEntry k v n)).
  Definition write_next (h : memory) (e : addr) (n : pointer) : outcome memory :=
    let! (k, v, _) := read_entry h e in Val (store h e (BEntry k v n)).
  (** [table->elements = g(table->elements)] *)
  Definition write_elements (h : memory) (t : addr) (g : nat -> nat) : outcome memory :=
    let! (es, n, el) := read_table h t in Val (store h t (BTable es n (g el))).

  (** hash_table.c:41-51 *)
  Definition HTnew (h : memory) (n : nat) : memory * addr :=
    let t := alloc h in
    let h := store h t (BTable None n 0) in
    let a := alloc h in
    let h := store h a (BArray (repeat None n)) in
    (store h t (BTable (Some a) n 0), t).

  (** hash_table.c:81-90 *)
  Definition NewEntry (h : memory) (k : K) (v : ptr V) : memory * addr :=
    let e := alloc h in (store h e (BEntry k v None), e).

  (** hash_table.c:92-96 *)
  Definition DeleteEntry (h : memory) (e : addr) : outcome memory := MEMfree h (Some e).

  (** [table->hash_f(key) % table->size] *)
  Definition index (h : memory) (t : addr) (k : K) : outcome nat :=
    let! (_, n, _) := read_table h t in
    match n with
    | 0 => Undef
    | S _ => Val (N.to_nat (hash_f k mod N.of_nat n)%N)
    end.

  (** hash_table.c:108-125: along the chain.  The boolean says whether an
      entry was added. *)
  Fixpoint insert_along (fuel : nat) (h : memory) (last : addr) (k : K) (v : ptr V)
    : outcome (memory * bool) :=
    match fuel with
    | 0 => NoFuel
    | S fuel =>
        let! (k', _, next) := read_entry h last in
        match next with
        | Some n =>
            if is_equal_f k' k then let! h := write_value h last v in Val (h, false)
            else insert_along fuel h n k v
        | None =>
            if is_equal_f k' k then let! h := write_value h last v in Val (h, false)
            else let (h, e) := NewEntry h k v in
                 let! h := write_next h last (Some e) in Val (h, true)
        end
    end.

  (** hash_table.c:98-133 [Insert], [HTinsert]; both return [true]. *)
  Definition HTinsert (h : memory) (t : addr) (k : K) (v : ptr V) : outcome (memory * bool) :=
    let! i := index h t k in
    let! p := read_bucket h t i in
    let! (h, added) :=
      match p with
      | None => let (h, e) := NewEntry h k v in
                let! h := write_bucket h t i (Some e) in Val (h, true)
      | Some last => insert_along (length h) h last k v
      end in
    if added then let! h := write_elements h t S in Val (h, true) else Val (h, true).

  (** hash_table.c:160-172: [previous] and [entry] go along the chain. *)
  Fixpoint remove_along (fuel : nat) (h : memory) (t previous : addr) (entry : pointer) (k : K)
    : outcome (memory * ptr V) :=
    match entry with
    | None => Val (h, None)
    | Some e =>
        match fuel with
        | 0 => NoFuel
        | S fuel =>
            let! (k', v', next) := read_entry h e in
            if is_equal_f k' k then
              let! h := write_next h previous next in
              let! h := DeleteEntry h e in
              let! h := write_elements h t pred in
              Val (h, v')
            else remove_along fuel h t e next k
        end
    end.

  (** hash_table.c:140-175 [HTremove]; line 158 reads [entry->next] also when
      [entry] is NULL. *)
  Definition HTremove (h : memory) (t : addr) (k : K) : outcome (memory * ptr V) :=
    let! i := index h t k in
    let! p := read_bucket h t i in
    let! e := not_null p in
    let! (k', v', next) := read_entry h e in
    if is_equal_f k' k then
      let! h := write_bucket h t i next in
      let! h := DeleteEntry h e in
      let! h := write_elements h t pred in
      Val (h, v')
    else remove_along (length h) h t e next k.

  (** hash_table.c:184-189 *)
  Fixpoint lookup_along (fuel : nat) (h : memory) (p : pointer) (k : K) : outcome (ptr V) :=
    match p with
    | None => Val None
    | Some e =>
        match fuel with
        | 0 => NoFuel
        | S fuel =>
            let! (k', v', next) := read_entry h e in
            if is_equal_f k' k then Val v' else lookup_along fuel h next k
        end
    end.

  (** hash_table.c:180-192 *)
  Definition HTlookup (h : memory) (t : addr) (k : K) : outcome (ptr V) :=
    let! i := index h t k in
    let! p := read_bucket h t i in
    lookup_along (length h) h p k.

  (** hash_table.c:202-206 *)
  Fixpoint clear_along (fuel : nat) (h : memory) (p : pointer) : outcome memory :=
    match p with
    | None => Val h
    | Some e =>
        match fuel with
        | 0 => NoFuel
        | S fuel =>
            let! (_, _, next) := read_entry h e in
            let! h := DeleteEntry h e in
            clear_along fuel h next
        end
    end.

  (** The loop of hash_table.c:200-208 over the buckets [i .. i + m - 1]. *)
  Fixpoint clear_buckets (m : nat) (h : memory) (t : addr) (i : nat) : outcome memory :=
    match m with
    | 0 => Val h
    | S m =>
        let! p := read_bucket h t i in
        let! h := clear_along (length h) h p in
        let! h := write_bucket h t i None in
        clear_buckets m h t (S i)
    end.

  (** hash_table.c:198-209 *)
  Definition HTclear (h : memory) (t : addr) : outcome memory :=
    let! (_, n, _) := read_table h t in clear_buckets n h t 0.

  (** hash_table.c:215-220 *)
  Definition HTdelete (h : memory) (t : addr) : outcome memory :=
    let! h := HTclear h t in
    let! (es, _, _) := read_table h t in
    let! h := MEMfree h es in
    MEMfree h (Some t).

  (** hash_table.c:222-225 *)
  Definition HTelementCount (h : memory) (t : addr) : outcome nat :=
    let! (_, _, el) := read_table h t in Val el.

  (** hash_table.c:227-236 [HTfold]: the values the function is called with,
      in this order. *)
  Fixpoint fold_along (fuel : nat) (h : memory) (p : pointer) : outcome (list (ptr V)) :=
    match p with
    | None => Val []
    | Some e =>
        match fuel with
        | 0 => NoFuel
        | S fuel =>
            let! (_, v, next) := read_entry h e in
            let! vs := fold_along fuel h next in
            Val (v :: vs)
        end
    end.
  Fixpoint fold_buckets (m : nat) (h : memory) (t : addr) (i : nat) : outcome (list (ptr V)) :=
    match m with
    | 0 => Val []
    | S m =>
        let! p := read_bucket h t i in
        let! vs := fold_along (length h) h p in
        let! ws := fold_buckets m h t (S i) in
        Val (vs ++ ws)
    end.
  Definition HTfold (h : memory) (t : addr) : outcome (list (ptr V)) :=
    let! (_, n, _) := read_table h t in fold_buckets n h t 0.

  (** hash_table.c:239-274 [HTmapWithKey] (and [HTmap], [HTmapWithDataAndKey])
      with a function that only computes. *)
  Fixpoint map_along (fuel : nat) (f : K -> ptr V -> ptr V) (h : memory) (p : pointer)
    : outcome memory :=
    match p with
    | None => Val h
    | Some e =>
        match fuel with
        | 0 => NoFuel
        | S fuel =>
            let! (k, v, _) := read_entry h e in
            let! h := write_value h e (f k v) in
            let! (_, _, next) := read_entry h e in
            map_along fuel f h next
        end
    end.
  Fixpoint map_buckets (m : nat) (f : K -> ptr V -> ptr V) (h : memory) (t : addr) (i : nat)
    : outcome memory :=
    match m with
    | 0 => Val h
    | S m =>
        let! p := read_bucket h t i in
        let! h := map_along (length h) f h p in
        map_buckets m f h t (S i)
    end.
  Definition HTmapWithKey (f : K -> ptr V -> ptr V) (h : memory) (t : addr) : outcome memory :=
    let! (_, n, _) := read_table h t in map_buckets n f h t 0.

  (** hash_table.c:288-294, 309-315: the first bucket with an entry among
      [i .. i + m - 1]. *)
  Fixpoint first_bucket (m : nat) (h : memory) (t : addr) (i : nat)
    : outcome (option (nat * addr)) :=
    match m with
    | 0 => Val None
    | S m =>
        let! p := read_bucket h t i in
        match p with
        | Some e => Val (Some (i, e))
        | None => first_bucket m h t (S i)
        end
    end.

  (** hash_table.c:280-299; [current_element] stays uninitialised when there
      is no entry, but then the assertion fails. *)
  Definition HTiterate (h : memory) (t : addr) : outcome (memory * pointer) :=
    let! (_, n, el) := read_table h t in
    match el with
    | 0 => Val (h, None)
    | S _ =>
        let it := alloc h in
        let h := store h it (BIter t 0 None) in
        let! o := first_bucket n h t 0 in
        match o with
        | Some (i, e) => Val (store h it (BIter t i (Some e)), Some it)
        | None => Aborted
        end
    end.

  (** hash_table.c:302-320 *)
  Definition HTiterateNext (h : memory) (it : addr) : outcome (memory * pointer) :=
    let! (t, i, cur) := read_iter h it in
    let! e := not_null cur in
    let! (_, _, next) := read_entry h e in
    match next with
    | Some n => Val (store h it (BIter t i (Some n)), Some it)
    | None =>
        let! (_, n, _) := read_table h t in
        let! o := first_bucket (n - S i) h t (S i) in
        match o with
        | Some (i', e') => Val (store h it (BIter t i' (Some e')), Some it)
        | None => let! h := MEMfree h (Some it) in Val (h, None)
        end
    end.

  (** hash_table.c:323-325 *)
  Definition HTiterateCancel (h : memory) (it : addr) : outcome memory := MEMfree h (Some it).

  (** hash_table.c:328-343; the assertions fail on NULL. *)
  Definition current (h : memory) (it : addr) : outcome addr :=
    let! (_, _, cur) := read_iter h it in
    match cur with Some e => Val e | None => Aborted end.
  Definition HTiterValue (h : memory) (it : addr) : outcome (ptr V) :=
    let! e := current h it in let! (_, v, _) := read_entry h e in Val v.
  Definition HTiterSetValue (h : memory) (it : addr) (v : ptr V) : outcome memory :=
    let! e := current h it in write_value h e v.
  Definition HTiterKey (h : memory) (it : addr) : outcome K :=
    let! e := current h it in let! (k, _, _) := read_entry h e in Val k.

  (** hash_table.c:66-79 [HTdeep_copy] with functions that only compute;
      [HTcpy] (53-64) is the instance with the identity. *)
  Fixpoint copy_along (fuel : nat) (kc : K -> K) (vc : ptr V -> ptr V)
           (h : memory) (new : addr) (it : pointer) : outcome memory :=
    match it with
    | None => Val h
    | Some i =>
        match fuel with
        | 0 => NoFuel
        | S fuel =>
            let! k := HTiterKey h i in
            let! v := HTiterValue h i in
            let! (h, _) := HTinsert h new (kc k) (vc v) in
            let! (h, it) := HTiterateNext h i in
            copy_along fuel kc vc h new it
        end
    end.
  Definition HTdeep_copy (h : memory) (t : addr) (kc : K -> K) (vc : ptr V -> ptr V)
    : outcome (memory * addr) :=
    let! (_, n, _) := read_table h t in
    let fuel := length h in
    let (h, new) := HTnew h n in
    let! (h, it) := HTiterate h t in
    let! h := copy_along fuel kc vc h new it in
    Val (h, new).

  (** A call of the interface.  Tables and iterators are named by the order in
      which they are made. *)
  Inductive call : Type :=
  | CNew (n : nat)
  | CInsert (x : nat) (k : K) (v : ptr V)
  | CRemove (x : nat) (k : K)
  | CLookup (x : nat) (k : K)
  | CClear (x : nat)
  | CDelete (x : nat)
  | CCount (x : nat)
  | CMap (x : nat) (f : K -> ptr V -> ptr V)
  | CFold (x : nat)
  | CCopy (x : nat) (kc : K -> K) (vc : ptr V -> ptr V)
  | CIterate (x : nat)
  | CNext (j : nat)
  | CKey (j : nat)
  | CValue (j : nat)
  | CSet (j : nat) (v : ptr V)
  | CCancel (j : nat).

  (** What the caller gets.  [AMore b]: the iterator is not NULL. *)
  Inductive answer : Type :=
  | AUnit
  | ABool (b : bool)
  | APtr (v : ptr V)
  | AKey (k : K)
  | ACount (n : nat)
  | AMore (b : bool)
  | AValues (vs : list (ptr V)).

  (** A process that uses the interface: its memory, the pointers to tables
      it got from HTnew and copies, and the pointers to iterators it got last
      from HTiterate and HTiterateNext. *)
  Record process : Type := mk_process {
    p_memory : memory;
    p_tables : list addr;
    p_iters : list pointer
  }.
  Definition table_of (s : process) (x : nat) : outcome addr :=
    match nth_error (p_tables s) x with Some t => Val t | None => Undef end.
  Definition iter_of (s : process) (j : nat) : outcome addr :=
    match nth_error (p_iters s) j with Some (Some i) => Val i | _ => Undef end.
  Definition with_memory (s : process) (h : memory) : process :=
    mk_process h (p_tables s) (p_iters s).
  Definition is_some {A} (o : option A) : bool := match o with Some _ => true | None => false end.

  Definition exec (s : process) (c : call) : outcome (process * answer) :=
    let h := p_memory s in
    match c with
    | CNew n => let (h, t) := HTnew h n in
                Val (mk_process h (p_tables s ++ [t]) (p_iters s), AUnit)
    | CInsert x k v => let! t := table_of s x in
                       let! (h, b) := HTinsert h t k v in Val (with_memory s h, ABool b)
    | CRemove x k => let! t := table_of s x in
                     let! (h, v) := HTremove h t k in Val (with_memory s h, APtr v)
    | CLookup x k => let! t := table_of s x in
                     let! v := HTlookup h t k in Val (s, APtr v)
    | CClear x => let! t := table_of s x in
                  let! h := HTclear h t in Val (with_memory s h, AUnit)
    | CDelete x => let! t := table_of s x in
                   let! h := HTdelete h t in Val (with_memory s h, AUnit)
    | CCount x => let! t := table_of s x in
                  let! n := HTelementCount h t in Val (s, ACount n)
    | CMap x f => let! t := table_of s x in
                  let! h := HTmapWithKey f h t in Val (with_memory s h, AUnit)
    | CFold x => let! t := table_of s x in
                 let! vs := HTfold h t in Val (s, AValues vs)
    | CCopy x kc vc => let! t := table_of s x in
                       let! (h, t') := HTdeep_copy h t kc vc in
                       Val (mk_process h (p_tables s ++ [t']) (p_iters s), AUnit)
    | CIterate x => let! t := table_of s x in
                    let! (h, i) := HTiterate h t in
                    Val (mk_process h (p_tables s) (p_iters s ++ [i]), AMore (is_some i))
    | CNext j => let! i := iter_of s j in
                 let! (h, i') := HTiterateNext h i in
                 Val (mk_process h (p_tables s) (set_nth j i' (p_iters s)), AMore (is_some i'))
    | CKey j => let! i := iter_of s j in let! k := HTiterKey h i in Val (s, AKey k)
    | CValue j => let! i := iter_of s j in let! v := HTiterValue h i in Val (s, APtr v)
    | CSet j v => let! i := iter_of s j in
                  let! h := HTiterSetValue h i v in Val (with_memory s h, AUnit)
    | CCancel j => let! i := iter_of s j in
                   let! h := HTiterateCancel h i in
                   Val (mk_process h (p_tables s) (set_nth j None (p_iters s)), AUnit)
    end.

  Fixpoint execs (s : process) (cs : list call) : outcome (process * list answer) :=
    match cs with
    | [] => Val (s, [])
    | c :: cs =>
        let! (s, r) := exec s c in
        let! (s, rs) := execs s cs in
        Val (s, r :: rs)
    end.
End Memory.
