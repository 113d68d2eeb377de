(** First in, first out. *)

From Coq Require Import List NArith Bool.
From Verif Require Import Base.Heap Sched.QueueModel.
Import ListNotations.

Section Spec.
  Context {A : Type}.

  (** What the n-th operation returns: with [l] the items waiting, oldest
      first. *)
  Fixpoint fifo (l : list (option A)) (os : list (qop A)) : list (qout A) * list (option A) :=
    match os with
    | [] => ([], l)
    | Insert x :: os => let r := fifo (l ++ [x]) os in (Done :: fst r, snd r)
    | Pop :: os =>
        match l with
        | [] => let r := fifo [] os in (Popped None :: fst r, snd r)
        | x :: l => let r := fifo l os in (Popped x :: fst r, snd r)
        end
    | Peek :: os => let r := fifo l os in (Peeked (match l with [] => false | _ => true end) :: fst r, snd r)
    end.

  Definition inserted (os : list (qop A)) : list (option A) :=
    flat_map (fun o => match o with Insert x => [x] | _ => [] end) os.
  Definition popped (rs : list (qout A)) : list (option A) :=
    flat_map (fun r => match r with Popped x => [x] | _ => [] end) rs.

  (** malloc returns unused memory or fails. *)
  Definition standard (malloc : qheap A -> option addr) : Prop :=
    forall h a, malloc h = Some a -> lookup h a = None.
  Definition unlimited (malloc : qheap A -> option addr) : Prop := forall h, malloc h <> None.
End Spec.
