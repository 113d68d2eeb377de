(** Traversal data as a user has it in mind: each traversal that has been
    started and has not ended has its own fields. *)

From Coq Require Import List Arith NArith Bool.
From Verif Require Import Base.Outcome Base.Heap Palm.StrModel Copra.TravModel Copra.TravDataModel.
Import ListNotations.
Local Open Scope outcome_scope.

Section Spec.
  Context {V : Type}.
  Variable fields : nat -> option (list (cstring * V)).

  (** The traversals that have been started, the innermost one first, each with
      the values of its fields, if it has any. *)
  Definition traversals : Type := list (nat * option (list (cstring * V))).

  (** A pointer to the data of a traversal: how many traversals had been
      started before it. *)
  Fixpoint nth_started (l : nat) (s : traversals) : option (list (cstring * V)) :=
    match s with
    | [] => None
    | x :: s => if Nat.eqb l (length s) then snd x else nth_started l s
    end.
  Fixpoint update (l : nat) (r : list (cstring * V)) (s : traversals) : traversals :=
    match s with
    | [] => []
    | x :: s => if Nat.eqb l (length s) then (fst x, Some r) :: s else x :: update l r s
    end.

  Definition s_current (s : traversals) : outcome nat := match s with [] => Undef | x :: _ => Val (fst x) end.
  (** A new traversal starts with the default values. *)
  Definition s_enter (trav : nat) (s : traversals) : outcome traversals := Val ((trav, fields trav) :: s).
  (** The data is that of the current traversal, whose type must be as asked. *)
  Definition s_data (trav : nat) (s : traversals) : outcome nat :=
    match s with
    | (ty, Some _) :: s => if Nat.eqb ty trav then Val (length s) else Undef
    | _ => Undef
    end.
  Definition s_load (l : nat) (f : cstring) (s : traversals) : outcome V :=
    match nth_started l s with
    | Some r => match get_field r f with Some v => Val v | None => Undef end
    | None => Undef
    end.
  Definition s_store (l : nat) (f : cstring) (v : V) (s : traversals) : outcome traversals :=
    match nth_started l s with
    | Some r => match get_field r f with Some _ => Val (update l (set_field r f v) s) | None => Undef end
    | None => Undef
    end.
  Definition s_closing (s : traversals) : outcome (unit * nat) := match s with [] => Aborted | x :: _ => Val (tt, fst x) end.
  Definition s_leave (c : unit * nat) (s : traversals) : outcome traversals := Val (tl s).

  Definition s_machine : machine V := mk_machine traversals nat unit s_current s_enter s_data s_load s_store s_closing s_leave.
End Spec.

(** Two runs with the same outcome: both give a result, and the results are
    related by [R], or both end in the same other way. *)
Definition sim {X Y} (R : X -> Y -> Prop) (c : outcome X) (a : outcome Y) : Prop :=
  match c, a with
  | Val x, Val y => R x y
  | Undef, Undef | Aborted, Aborted | Exited, Exited | NoFuel, NoFuel => True
  | _, _ => False
  end.

(** Programs that use the data of their own traversal, and only fields that it
    has: [trav] is the current traversal, [vars x] tells of which traversal the
    data is that variable [x] points to. *)
Section Fine.
  Context {A W V : Type}.
  Variable fields : nat -> option (list (cstring * V)).
  Definition has_field (trav : nat) (f : cstring) : Prop := exists fs, fields trav = Some fs /\ In f (map fst fs).
  Inductive fine : nat -> (nat -> option nat) -> prog A W V -> Prop :=
  | fine_return : forall trav vars w t, fine trav vars (PRet w t)
  | fine_do : forall trav vars w t k, (forall w r, fine trav vars (k w r)) -> fine trav vars (PDo w (Some t) k)
  | fine_opt : forall trav vars w t k, (forall w r, fine trav vars (k w r)) -> fine trav vars (POpt w t k)
  | fine_children : forall trav vars w t k, (forall w r, fine trav vars (k w r)) -> fine trav vars (PChildren w (Some t) k)
  | fine_start : forall trav vars w x t k, (forall w r, fine trav vars (k w r)) -> fine trav vars (PStart w x t k)
  | fine_with : forall trav vars w x body k, (forall w, fine x vars (body w)) -> (forall w r, fine trav vars (k w r)) ->
      fine trav vars (PWith w x body k)
  | fine_data : forall trav vars var k, fields trav <> None ->
      fine trav (fun x => if Nat.eqb x var then Some trav else vars x) k -> fine trav vars (PData var trav k)
  | fine_load : forall trav vars var x f k, vars var = Some x -> has_field x f -> (forall v, fine trav vars (k v)) ->
      fine trav vars (PLoad var f k)
  | fine_store : forall trav vars var x f v k, vars var = Some x -> has_field x f -> fine trav vars k ->
      fine trav vars (PStore var f v k).
End Fine.

(** A memory that holds the traversals [F]: the frames and data of the
    traversals are at the addresses [ads], linked from the current one down;
    everything else in memory is [h0]. *)
Section Holds.
  Context {V : Type}.
  Variable fields : nat -> option (list (cstring * V)).
  Definition top (ads : list (addr * option addr)) : option addr :=
    match ads with [] => None | (a, _) :: _ => Some a end.
  Definition initialised (r : list (cstring * V)) : list (cstring * option V) := map (fun f => (fst f, Some (snd f))) r.
  Fixpoint layout (ads : list (addr * option addr)) (F : @traversals V) : heap (block V) :=
    match ads, F with
    | (a, Some d) :: ads, (ty, Some r) :: F =>
        (a, BFrame (top ads) ty (Some (ty, d))) :: (d, BData (initialised r)) :: layout ads F
    | (a, None) :: ads, (ty, None) :: F => (a, BFrame (top ads) ty None) :: layout ads F
    | _, _ => []
    end.
  (** Each traversal has data if and only if its travdata is declared. *)
  Definition proper (ads : list (addr * option addr)) (F : @traversals V) : Prop :=
    Forall2 (fun a f => (snd a = None <-> fields (fst f) = None) /\ (snd a = None <-> snd f = None)) ads F.
  Record holds (h0 : heap (block V)) (ads : list (addr * option addr)) (s : memory V) (F : @traversals V) : Prop := {
    holds_current : current_traversal s = top ads;
    holds_proper : proper ads F;
    holds_distinct : NoDup (map fst (layout ads F));
    holds_apart : forall x, In x (map fst (layout ads F)) -> lookup h0 x = None;
    holds_mem : forall x, lookup (mem s) x = match lookup (layout ads F) x with Some b => Some b | None => lookup h0 x end }.
End Holds.
