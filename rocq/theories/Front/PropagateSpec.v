(** Which attributes a node has to have. *)

From Coq Require Import List Ascii Bool Arith.
From Verif Require Import Front.Syntax Front.SetsSpec.
Import ListNotations.

(** Inherited and synthesized attributes belong to the attribute grammar, the
    others are "classic". *)
Definition classic (x : attribute) : Prop := at_is_inherited x = false /\ at_is_synthesized x = false.

(** Types named by a reference are the same if the reference is. *)
Definition same_type (x y : attribute) : Prop :=
  at_type x = at_type y /\
  (In (at_type x) [AT_user; AT_link; AT_link_or_enum] -> at_type_reference x = at_type_reference y).

Definition same_id (a b : ident) : Prop := ID_LWR a = ID_LWR b.

(** A node may declare a classic attribute of its nodesets again, with the
    same type, to add the constructor keyword. *)
Definition may_redeclare (old new : attribute) : Prop :=
  classic old /\ classic new /\ at_in_constructor new = true /\ same_type old new.

(** The copy of a nodeset attribute. *)
Definition copy_of (x y : attribute) : Prop :=
  at_name y = at_name x /\ at_type y = at_type x /\ at_type_reference y = at_type_reference x /\
  at_in_constructor y = at_in_constructor x /\ at_is_inherited y = at_is_inherited x /\
  at_is_synthesized y = at_is_synthesized x /\ at_lifetimes y = at_lifetimes x /\
  at_is_propagated y = true.

(** [o] is the first attribute of the list with the name [id]. *)
Definition first_named (l : list attribute) (id : ident) (o : attribute) : Prop :=
  exists l1 l2, l = l1 ++ o :: l2 /\ same_id (at_name o) id /\
    forall a, In a l1 -> ~ same_id (at_name a) id.

(** The attributes [own] of a node and those that reach it from nodesets,
    [from], do not conflict: one that comes later may only be there when the
    first one with that name is allowed as a redeclaration; and a new one may
    not have the name of a child. *)
Definition node_agrees (children : list child) (own from : list attribute) : Prop :=
  forall before x after, from = before ++ x :: after ->
    (forall o, first_named (own ++ before) (at_name x) o -> may_redeclare x o) /\
    ((forall o, In o (own ++ before) -> ~ same_id (at_name o) (at_name x)) ->
     forall c, In c children -> ~ same_id (ch_name c) (at_name x)).

(** In nodesets nothing may be declared twice. *)
Definition nodeset_agrees (own from : list attribute) : Prop :=
  NoDup (map (fun x => ID_LWR (at_name x)) (own ++ from)).

Section Members.
  Variable sets : list inodeset.
  (** for every nodeset: the nodesets it is built from (C30) and its members
      (C26) *)
  Variable l : list (list nat * literal).

  (** The nodesets in order with their number, parts and members. *)
  Definition numbered : list (inodeset * (list nat * literal)) := combine sets l.

  Definition member (n : inode) (lit : literal) : bool :=
    if in_dec (list_eq_dec Ascii.ascii_dec) (ID_LWR (nd_name n)) (map ID_LWR (listed lit))
    then true else false.

  (** The attributes of all nodesets that have [n] as a member. *)
  Definition to_node (n : inode) : list attribute :=
    flat_map (fun p => if member n (snd (snd p)) then ns_attributes (fst p) else []) numbered.

  (** The attributes of all nodesets that are built from the [k]th one. *)
  Definition to_nodeset (k : nat) : list attribute :=
    flat_map (fun p => if in_dec Nat.eq_dec k (fst (snd p)) then ns_attributes (fst p) else []) numbered.
End Members.

(** The attributes [L] a node ends up with: its own ones, and for each one
    that reaches it ([from]) a copy or an allowed redeclaration; nothing else,
    and no name twice. *)
Record carries (own from L : list attribute) : Prop := {
  ca_own : forall o, In o own -> In o L;
  ca_reach : forall x, In x from -> exists y, In y L /\ same_id (at_name y) (at_name x) /\
                                     (copy_of x y \/ may_redeclare x y);
  ca_only : forall y, In y L -> In y own \/ exists x, In x from /\ copy_of x y;
  ca_distinct : NoDup (map (fun x => ID_LWR (at_name x)) L) }.

(** What the passes before guarantee. *)
Record propagation_input (nodes : list inode) (sets : list inodeset) (l : list (list nat * literal)) : Prop := {
  pi_length : length l = length sets;
  pi_nodes : NoDup (map (fun n => ID_LWR (nd_name n)) nodes);
  pi_tables : forall t lit, In (t, lit) l -> NoDup t /\ forall k, In k t -> k < length sets;
  pi_members : forall t lit, In (t, lit) l -> no_member_twice lit /\
     forall id, In id (listed lit) -> exists n, In n nodes /\ same_id (nd_name n) id;
  pi_node_attributes : forall n, In n nodes -> NoDup (map (fun x => ID_LWR (at_name x)) (nd_attributes n));
  pi_set_attributes : forall m, In m sets -> NoDup (map (fun x => ID_LWR (at_name x)) (ns_attributes m));
  pi_unmarked : forall m x, In m sets -> In x (ns_attributes m) -> at_is_propagated x = false }.
