(** What a lifetime means: the compiler as a tree of actions, numbered in the
    order in which they are met, and the actions a range covers. *)

From Coq Require Import List Ascii NArith Bool.
From Verif Require Import Front.Syntax Front.SymbolTableModel Front.SymbolTableSpec
  Front.CheckExistanceSpec.
Import ListNotations.
Local Open Scope N_scope.

(** An action with the actions inside it. *)
Inductive plan := Plan (d : decl) (inner : list plan).

Definition plan_decl (p : plan) : decl := let 'Plan d _ := p in d.
Definition plan_inner (p : plan) : list plan := let 'Plan _ l := p in l.

Fixpoint plan_size (p : plan) : N :=
  let 'Plan _ l := p in 1 + fold_right (fun q n => plan_size q + n) 0 l.

(** The tree of a specification: a name in the list of actions of a phase
    stands for the action declared with that name or uid. *)
Inductive unfolds (a : ast) : ident -> plan -> Prop :=
| UPhase : forall id p l, names a id (DPhase p) -> Forall2 (unfolds a) (ph_actions p) l ->
    unfolds a id (Plan (DPhase p) l)
| UOther : forall id d, names a id d -> (forall p, d <> DPhase p) -> unfolds a id (Plan d []).

Inductive compiler (a : ast) : plan -> Prop :=
| Compiler : forall p l, In p (a_phases a) -> ph_is_start p = true ->
    Forall2 (unfolds a) (ph_actions p) l -> compiler a (Plan (DPhase p) l).

(** All actions of a tree with their numbers, the whole tree being number
    [n], each phase before its contents. *)
Fixpoint numbered (n : N) (p : plan) : list (N * plan) :=
  let 'Plan _ l := p in
  (n, p) ::
  (fix go (n : N) (l : list plan) : list (N * plan) :=
     match l with [] => [] | q :: l => numbered n q ++ go (n + plan_size q) l end) (n + 1) l.

(** The numbered actions strictly inside. *)
Definition inside (e : N * plan) : list (N * plan) := tl (numbered (fst e) (snd e)).

(** [id] is the name or the uid of an action. *)
Definition called (id : ident) (e : N * plan) : bool :=
  match plan_decl (snd e) with
  | DPhase _ | DTraversal _ | DPass _ =>
      existsb (fun k => if list_eq_dec ascii_dec (ID_LWR k) (ID_LWR id) then true else false)
        (names_of (plan_decl (snd e)))
  | _ => false
  end.

(** The action a path of names denotes: the first action with the first name,
    in it the first action with the second name, and so on. *)
Fixpoint denotes (path : list ident) (e : N * plan) : option (N * plan) :=
  match path with
  | [] => Some e
  | x :: path =>
      match find (called x) (inside e) with
      | Some e => denotes path e
      | None => None
      end
  end.

(** The ends of a range, relative to the whole compiler. *)
Definition after_begin (whole : plan) (r : option lifetime_range) (n : N) : Prop :=
  match r with
  | None => True
  | Some r => exists m p, denotes (lr_target r) (1, whole) = Some (m, p) /\
      if lr_inclusive r then m <= n else m + plan_size p <= n
  end.
Definition before_end (whole : plan) (r : option lifetime_range) (n : N) : Prop :=
  match r with
  | None => True
  | Some r => exists m p, denotes (lr_target r) (1, whole) = Some (m, p) /\
      if lr_inclusive r then n < m + plan_size p else n < m
  end.

(** Action number [n] is in the range of the lifetime. *)
Definition covers (whole : plan) (l : ilifetime) (n : N) : Prop :=
  after_begin whole (lt_begin l) n /\ before_end whole (lt_end l) n.

(** A lifetime is violated at action number [n] by something that is there
    ([present]) or not. *)
Definition violated (whole : plan) (l : ilifetime) (n : N) (present : bool) : Prop :=
  match lt_type l with
  | LT_disallowed => covers whole l n /\ present = true
  | LT_allowed => ~ covers whole l n /\ present = true
  | LT_mandatory => covers whole l n /\ present = false
  | LT_optional => ~ covers whole l n /\ present = false
  end.

(** Every path of the lifetime denotes an action. *)
Definition well_targeted (whole : plan) (l : ilifetime) : Prop :=
  forall r, lt_begin l = Some r \/ lt_end l = Some r ->
    lr_target r <> [] /\ denotes (lr_target r) (1, whole) <> None.

(** The phases of a tree. *)
Definition phases_in (p : plan) : list ident :=
  flat_map (fun e => match plan_decl (snd e) with DPhase q => [ph_name q] | _ => [] end)
    (numbered 1 p).

(** No phase is run from two places. *)
Definition used_once (p : plan) : Prop := distinct_names (phases_in p).

(** The last thing an action does is not a phase. *)
Definition ends_plainly (p : plan) : Prop :=
  forall q, last (map Some (plan_inner p)) None = Some q -> plan_inner q = [].
