(** Specification of a hash table by its history of calls: no buckets, no
    chains.  [h] is the list of calls made so far, newest first. *)

From Coq Require Import List NArith.
From Verif Require Import Palm.HashTableModel.
Import ListNotations.

Section Spec.
  Context {K V : Type}.
  Variable eq : K -> K -> bool.

  (** The value most recently stored under [k] and not removed since;
      [None] if there is none. *)
  Fixpoint latest (h : list (@op K V)) (k : K) : option (ptr V) :=
    match h with
    | [] => None
    | OpInsert k' v :: h' => if eq k' k then Some v else latest h' k
    | OpRemove k' :: h' => if eq k' k then None else latest h' k
    | OpClear :: _ => None
    | OpLookup _ :: h' => latest h' k
    end.

  Definition stored (h : list (@op K V)) (k : K) : Prop := latest h k <> None.

  (** NULL when nothing is stored. *)
  Definition answer (o : option (ptr V)) : ptr V :=
    match o with Some v => v | None => None end.

  (** What a caller must see of a call made after history [h]. *)
  Definition spec_out (h : list (@op K V)) (o : @op K V) : @out V :=
    match o with
    | OpInsert _ _ => OutBool true
    | OpRemove k => OutPtr (answer (latest h k))
    | OpLookup k => OutPtr (answer (latest h k))
    | OpClear => OutUnit
    end.

  Fixpoint spec_outs (h : list (@op K V)) (os : list (@op K V)) : list (@out V) :=
    match os with
    | [] => []
    | o :: os' => spec_out h o :: spec_outs (o :: h) os'
    end.

  (** The call [HTremove(k)] is only defined when some stored key falls into
      the bucket of [k]. *)
  Definition remove_defined (hash : K -> N) (n : nat) (h : list (@op K V)) (k : K) : Prop :=
    exists k', stored h k' /\ (hash k' mod N.of_nat n = hash k mod N.of_nat n)%N.

  Fixpoint all_removes_defined (hash : K -> N) (n : nat)
           (h : list (@op K V)) (os : list (@op K V)) : Prop :=
    match os with
    | [] => True
    | o :: os' =>
        match o with OpRemove k => remove_defined hash n h k | _ => True end
        /\ all_removes_defined hash n (o :: h) os'
    end.

  (** The entries of an association list seen as a set of keys: pairwise
      different up to [eq]. *)
  Definition keys_distinct (l : list (entry K V)) : Prop :=
    forall i j a b, nth_error l i = Some a -> nth_error l j = Some b ->
                    eq (fst a) (fst b) = true -> i = j.

  (** [l] lists what is stored after history [h]: every stored key once, with
      its latest value, and nothing else. *)
  Definition lists_contents (h : list (@op K V)) (l : list (entry K V)) : Prop :=
    keys_distinct l /\
    forall k v, latest h k = Some v <-> exists k', In (k', v) l /\ eq k' k = true.

  (** [f] applied to the entries one after the other, with its state. *)
  Fixpoint calls {S} (f : S -> K -> ptr V -> S * ptr V) (s : S)
           (l : list (entry K V)) : S * list (entry K V) :=
    match l with
    | [] => (s, [])
    | (k, v) :: l' =>
        let (s1, v1) := f s k v in
        let (s2, l2) := calls f s1 l' in
        (s2, (k, v1) :: l2)
    end.

  Definition no_clear (os : list (@op K V)) : Prop := ~ In OpClear os.
End Spec.

(** [hash] and [eq] fit together, as the documentation of [HTnew] requires. *)
Record good_key {K} (hash : K -> N) (eq : K -> K -> bool) : Prop := {
  gk_refl : forall a, eq a a = true;
  gk_sym : forall a b, eq a b = true -> eq b a = true;
  gk_trans : forall a b c, eq a b = true -> eq b c = true -> eq a c = true;
  gk_hash : forall a b, eq a b = true -> hash a = hash b
}.
