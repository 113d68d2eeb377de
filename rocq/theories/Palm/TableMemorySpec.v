(** What the functions on hash tables and iterators do, without memory.  A
    table is a table of HashTableModel.v, of which C01-C04 say that it is the
    map its history gives.  An iterator stands on a key of a table. *)

From Coq Require Import List NArith Arith.
From Verif Require Import Base.Outcome Base.Heap Palm.HashTableModel Palm.TableMemoryModel.
Import ListNotations.
Local Open Scope outcome_scope.

Section Spec.
  Context {K V : Type}.
  Variable hash : K -> N.
  Variable eq : K -> K -> bool.
  Notation table := (htable K V).
  Notation call := (@call K V).
  Notation answer := (@answer K V).

  (** The entries in the order in which they are iterated. *)
  Definition contents (t : table) : list (entry K V) := concat (entries t).

  (** The entries behind the one with key [k]. *)
  Fixpoint after (k : K) (l : list (entry K V)) : option (list (entry K V)) :=
    match l with
    | [] => None
    | (k', _) :: l => if eq k' k then Some l else after k l
    end.

  Definition first_key (t : table) : outcome (option K) :=
    match elements t with
    | 0 => Val None
    | S _ => match contents t with
             | (k, _) :: _ => Val (Some k)
             | [] => Aborted                       (* the assertion, after HTclear *)
             end
    end.

  Definition copied (kc : K -> K) (vc : ptr V -> ptr V) (t : table) : outcome table :=
    let! _ := first_key t in
    insert_all hash eq (HashTableModel.HTnew (size t))
               (map (fun e => (kc (fst e), vc (snd e)))
                    (match elements t with 0 => [] | S _ => contents t end)).

  Definition mapped (f : K -> ptr V -> ptr V) (t : table) : table :=
    mk_htable (map (map (fun e : entry K V => (fst e, f (fst e) (snd e)))) (entries t)) (elements t).

  (** An iterator: [IAt x k] stands on key [k] of table [x]; [ILost]: the entry
      it stood on is gone, it can only be cancelled; [IGone]: NULL was
      returned or it was cancelled. *)
  Inductive place : Type := IAt (x : nat) (k : K) | ILost | IGone.

  (** All tables made so far ([None] when deleted) and all iterators. *)
  Record world : Type := mk_world {
    w_tables : list (option table);
    w_iters : list place
  }.

  Definition the_table (w : world) (x : nat) : outcome table :=
    match nth_error (w_tables w) x with Some (Some t) => Val t | _ => Undef end.
  Definition the_place (w : world) (j : nat) : outcome (nat * K) :=
    match nth_error (w_iters w) j with Some (IAt x k) => Val (x, k) | _ => Undef end.
  Definition set_table (w : world) (x : nat) (t : option table) : list (option table) :=
    set_nth x t (w_tables w).

  (** The iterators on entries of table [x] that [gone] chooses lose their
      place. *)
  Definition lose (x : nat) (gone : K -> bool) (l : list place) : list place :=
    map (fun i => match i with
                  | IAt y k => if Nat.eqb x y then if gone k then ILost else i else i
                  | _ => i
                  end) l.

  Definition does (w : world) (c : call) : outcome (world * answer) :=
    match c with
    | CNew n => Val (mk_world (w_tables w ++ [Some (HashTableModel.HTnew n)]) (w_iters w), AUnit)
    | CInsert x k v =>
        let! t := the_table w x in
        let! (t, b) := HashTableModel.HTinsert hash eq t k v in
        Val (mk_world (set_table w x (Some t)) (w_iters w), ABool b)
    | CRemove x k =>
        let! t := the_table w x in
        let! (t, v) := HashTableModel.HTremove hash eq t k in
        Val (mk_world (set_table w x (Some t)) (lose x (fun k' => eq k' k) (w_iters w)), APtr v)
    | CLookup x k =>
        let! t := the_table w x in
        let! v := HashTableModel.HTlookup hash eq t k in Val (w, APtr v)
    | CClear x =>
        let! t := the_table w x in
        Val (mk_world (set_table w x (Some (HashTableModel.HTclear t)))
                      (lose x (fun _ => true) (w_iters w)), AUnit)
    | CDelete x =>
        let! _ := the_table w x in
        Val (mk_world (set_table w x None) (lose x (fun _ => true) (w_iters w)), AUnit)
    | CCount x => let! t := the_table w x in Val (w, ACount (elements t))
    | CMap x f =>
        let! t := the_table w x in
        Val (mk_world (set_table w x (Some (mapped f t))) (w_iters w), AUnit)
    | CFold x => let! t := the_table w x in Val (w, AValues (map snd (contents t)))
    | CCopy x kc vc =>
        let! t := the_table w x in
        let! t' := copied kc vc t in
        Val (mk_world (w_tables w ++ [Some t']) (w_iters w), AUnit)
    | CIterate x =>
        let! t := the_table w x in
        let! o := first_key t in
        match o with
        | Some k => Val (mk_world (w_tables w) (w_iters w ++ [IAt x k]), AMore true)
        | None => Val (mk_world (w_tables w) (w_iters w ++ [IGone]), AMore false)
        end
    | CNext j =>
        let! (x, k) := the_place w j in
        let! t := the_table w x in
        match after k (contents t) with
        | Some ((k', _) :: _) =>
            Val (mk_world (w_tables w) (set_nth j (IAt x k') (w_iters w)), AMore true)
        | Some [] => Val (mk_world (w_tables w) (set_nth j IGone (w_iters w)), AMore false)
        | None => Undef
        end
    | CKey j => let! (_, k) := the_place w j in Val (w, AKey k)
    | CValue j =>
        let! (x, k) := the_place w j in
        let! t := the_table w x in
        let! v := HashTableModel.HTlookup hash eq t k in Val (w, APtr v)
    | CSet j v =>
        let! (x, k) := the_place w j in
        let! t := the_table w x in
        let! (t, _) := HashTableModel.HTinsert hash eq t k v in
        Val (mk_world (set_table w x (Some t)) (w_iters w), AUnit)
    | CCancel j =>
        match nth_error (w_iters w) j with
        | Some (IAt _ _) | Some ILost =>
            Val (mk_world (w_tables w) (set_nth j IGone (w_iters w)), AUnit)
        | _ => Undef
        end
    end.

  Fixpoint history (w : world) (cs : list call) : outcome (world * list answer) :=
    match cs with
    | [] => Val (w, [])
    | c :: cs =>
        let! (w, r) := does w c in
        let! (w, rs) := history w cs in
        Val (w, r :: rs)
    end.

  Definition nothing : world := mk_world [] [].

  (** Nothing is left: every table is deleted, every iterator came to its end
      or was cancelled. *)
  Definition all_released (w : world) : Prop :=
    (forall x t, nth_error (w_tables w) x <> Some (Some t)) /\
    (forall j i, nth_error (w_iters w) j = Some i -> i = IGone).

  (** How many blocks of memory are in use: two for a table, one for every
      entry, one for every iterator. *)
  Definition blocks (w : world) : nat :=
    list_sum (map (fun o => match o with
                            | Some t => 2 + length (contents t)
                            | None => 0
                            end) (w_tables w)) +
    length (filter (fun i => match i with IGone => false | _ => true end) (w_iters w)).

  (** The key iterator [j] stands on. *)
  Definition here (j : nat) (w : world) : list K :=
    match nth_error (w_iters w) j with Some (IAt _ k) => [k] | _ => [] end.
  (** The keys iterator [j] comes to in a history. *)
  Fixpoint stood (j : nat) (w : world) (cs : list call) : list K :=
    match cs with
    | [] => []
    | c :: cs =>
        match does w c with
        | Val (w', _) =>
            (match c with
             | CNext j' => if Nat.eqb j' j then here j w' else []
             | _ => []
             end) ++ stood j w' cs
        | _ => []
        end
    end.
  (** A call that takes key [q] not out of table [x], nor frees iterator [j]
      before its end. *)
  Definition keeps (x : nat) (q : K) (j : nat) (c : call) : Prop :=
    match c with
    | CRemove y k => y = x -> eq q k = false
    | CClear y | CDelete y => y <> x
    | CCancel j' => j' <> j
    | _ => True
    end.
  (** Key [q] is stored in [t]. *)
  Definition stored (q : K) (t : table) : Prop := exists e, In e (contents t) /\ eq q (fst e) = true.
End Spec.
Arguments IAt {K} x k.
Arguments ILost {K}.
Arguments IGone {K}.
