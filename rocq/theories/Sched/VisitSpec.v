(** What the visit sequences of a node have to satisfy. *)

From Coq Require Import List.
Import ListNotations.

Section Spec.
  Context {O A : Type}.

  (** A visit of a node does two things: it computes an attribute, of the node
      or of a child, or it visits a child, for the [k]th time from 0. *)
  Inductive action := Evaluate (x : O * A) | Visit (o : O) (k : nat).

  (** The node and its children; the attributes that each visit of the node or
      of a child takes (first) and delivers (second); [needs x y]: [x] is
      needed to compute [y]. *)
  Variable root : O.
  Variable kids : list O.
  Variable visits : O -> list (list A * list A).
  Variable needs : O * A -> O * A -> Prop.

  (** In visit [k] of the node, after the actions [done], those of earlier
      visits included, attribute [x] has a value: it is an input of this visit
      or of an earlier one, it has been computed, or a visit of the child has
      delivered it. *)
  Definition available (k : nat) (done : list action) (x : O * A) : Prop :=
    (exists j v, j <= k /\ nth_error (visits root) j = Some v /\ fst x = root /\ In (snd x) (fst v)) \/
    In (Evaluate x) done \/
    (exists j v, In (Visit (fst x) j) done /\ nth_error (visits (fst x)) j = Some v /\ In (snd x) (snd v)).

  (** In visit [k], after the actions [done], the action [a] follows. *)
  Definition performed (seqs : list (list action)) (k : nat) (done : list action) (a : action) : Prop :=
    exists before after, nth_error seqs k = Some (before ++ a :: after) /\ done = concat (firstn k seqs) ++ before.

  Record schedule (seqs : list (list action)) : Prop := {
    (** one sequence for each visit *)
    sc_length : length seqs = length (visits root);
    (** nothing twice *)
    sc_once : NoDup (concat seqs);
    (** an attribute is computed when all it needs has a value and it has none *)
    sc_evaluate : forall k done x, performed seqs k done (Evaluate x) ->
      (forall y, needs y x -> available k done y) /\ ~ available k done x;
    (** a child is visited when all that the visit takes has a value, and the
        earlier visits of the child have been made *)
    sc_visit : forall k done o i, performed seqs k done (Visit o i) ->
      In o kids /\ (forall j, j < i -> In (Visit o j) done) /\
      exists v, nth_error (visits o) i = Some v /\ forall b, In b (fst v) -> available k done (o, b);
    (** what a visit of the node delivers is computed in it, or earlier *)
    sc_outputs : forall k v b, nth_error (visits root) k = Some v -> In b (snd v) ->
      In (Evaluate (root, b)) (concat (firstn (S k) seqs));
    (** after the last visit all visits of all children have been made *)
    sc_complete : seqs <> [] -> forall o i, In o kids -> i < length (visits o) -> In (Visit o i) (concat seqs) }.

  (** What gives attribute [x] its value: a visit of the child that delivers
      it, otherwise an evaluation. *)
  Definition source (x : O * A) (a : action) : Prop :=
    (exists k v, fst x <> root /\ nth_error (visits (fst x)) k = Some v /\ In (snd x) (snd v) /\ a = Visit (fst x) k) \/
    ((fst x = root \/ forall v, In v (visits (fst x)) -> ~ In (snd x) (snd v)) /\ a = Evaluate x).
  (** An order of all actions in which each comes after what it needs. *)
  Record order (rank : action -> nat) : Prop := {
    or_evaluate : forall x y a, needs x y -> source x a -> rank a < rank (Evaluate y);
    or_visit : forall o k v b a, In o kids -> nth_error (visits o) k = Some v -> In b (fst v) -> source (o, b) a ->
      rank a < rank (Visit o k);
    or_previous : forall o j k, In o kids -> j < k -> k < length (visits o) -> rank (Visit o j) < rank (Visit o k) }.
  (** ... and in which what a later visit of the node takes comes after what an
      earlier one delivers. *)
  Definition own_order (rank : action -> nat) : Prop := forall j k v w b c, j < k ->
    nth_error (visits root) j = Some v -> nth_error (visits root) k = Some w -> In b (snd v) -> In c (fst w) ->
    rank (Evaluate (root, b)) < rank (Evaluate (root, c)).
End Spec.
Arguments action : clear implicits.
