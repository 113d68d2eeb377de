(** How nodesets contain each other. *)

From Coq Require Import List Ascii Relations.
From Verif Require Import Front.Syntax Front.SetsSpec.
Import ListNotations.

(** The expression of the [i]th nodeset mentions the [j]th. *)
Definition refers (sets : list inodeset) (i j : nat) : Prop :=
  exists n m id,
    nth_error sets i = Some n /\ nth_error sets j = Some m /\
    In id (references (ns_expr n)) /\ ID_LWR (ns_name m) = ID_LWR id.

(** ... directly or through other nodesets. *)
Definition built_from (sets : list inodeset) : nat -> nat -> Prop :=
  clos_trans nat (refers sets).

(** Some nodeset is defined in terms of itself. *)
Definition recursive (sets : list inodeset) : Prop :=
  exists i, built_from sets i i.

(** The expression uses "&" or "-". *)
Fixpoint not_only_unions (e : setexpr) : Prop :=
  match e with
  | ELiteral _ | EReference _ => False
  | EOperation SO_iunion a b => not_only_unions a \/ not_only_unions b
  | EOperation _ _ _ => True
  end.
