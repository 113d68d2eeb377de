(** When a tree is consistent with the specification. *)

From Coq Require Import List Ascii NArith Bool.
From Verif Require Import Front.Syntax Front.SetsSpec Front.LifetimesSpec Copra.TravModel.
Import ListNotations.
Local Open Scope N_scope.

(** Attributes of a run-time node: are they there (not NULL)? *)
Definition has_child {A} (k : nat) (t : tree A) : bool :=
  match t with Node _ _ kids => match nth_error kids k with Some (Some _) => true | _ => false end end.
Definition has_attribute (k : nat) (t : tree (list bool)) : bool :=
  match t with Node _ attrs _ => match nth_error attrs k with Some true => true | _ => false end end.

(** [u] is a node of the tree [t]. *)
Inductive within {A} (u : tree A) : tree A -> Prop :=
| in_root : within u u
| in_child : forall ty x kids k, In (Some k) kids -> within u k -> within u (Node ty x kids).

(** Node types are numbered from 1 in the order of the declarations. *)
Definition declared_as (a : ast) {A} (t : tree A) (n : inode) : Prop :=
  exists i, node_type t = S i /\ nth_error (a_nodes a) i = Some n.

(** A node has the slots of its declaration. *)
Definition shaped (a : ast) (t : tree (list bool)) : Prop :=
  forall ty attrs kids, within (Node ty attrs kids) t ->
    exists n, declared_as a (Node ty attrs kids) n /\
      length kids = length (nd_children n) /\ length attrs = length (nd_attributes n).

(** A child may be of the declared node type or of a member of the declared
    nodeset. *)
Definition may_be (a : ast) (c : child) (n : inode) : Prop :=
  ID_LWR (nd_name n) = ID_LWR (ch_type c) \/
  exists m S, In m (a_nodesets a) /\ ID_LWR (ns_name m) = ID_LWR (ch_type c) /\
    SetsSpec.denotes (a_nodesets a) (ns_expr m) S /\ S (ID_LWR (nd_name n)).

(** Nothing is wrong with one node when action number [id] is about to start;
    [enforced] selects the lifetimes that are looked at. *)
Record fine (a : ast) (whole : plan) (enforced : list ilifetime -> list ilifetime) (id : N)
       (n : inode) (t : tree (list bool)) : Prop := {
  f_types : forall ty attrs kids k c u m, t = Node ty attrs kids ->
    nth_error (nd_children n) k = Some c -> nth_error kids k = Some (Some u) ->
    declared_as a u m -> may_be a c m;
  f_children : forall k c l, nth_error (nd_children n) k = Some c ->
    In l (enforced (ch_lifetimes c)) -> ~ violated whole l id (has_child k t);
  f_attributes : forall k x l, nth_error (nd_attributes n) k = Some x ->
    In l (enforced (at_lifetimes x)) -> ~ violated whole l id (has_attribute k t);
  f_node : forall l, In l (enforced (nd_lifetimes n)) -> ~ violated whole l id true }.

Definition consistent (a : ast) (whole : plan) (enforced : list ilifetime -> list ilifetime)
           (id : N) (t : tree (list bool)) : Prop :=
  forall u n, within u t -> declared_as a u n -> fine a whole enforced id n u.

(** The lifetimes of a specification. *)
Definition lifetime_lists (a : ast) : list (list ilifetime) :=
  flat_map (fun n => nd_lifetimes n :: map ch_lifetimes (nd_children n) ++
                     map at_lifetimes (nd_attributes n)) (a_nodes a).

(** The ends of the range that stand for the moment after an action belong to
    actions that do not end with a phase. *)
Definition plain_targets (whole : plan) (l : ilifetime) : Prop :=
  forall r m q,
    lt_begin l = Some r /\ lr_inclusive r = false \/ lt_end l = Some r /\ lr_inclusive r = true ->
    LifetimesSpec.denotes (lr_target r) (1, whole) = Some (m, q) -> ends_plainly q.

(** A path is never empty, and neither is a phase. *)
Definition from_parser (a : ast) : Prop :=
  (forall p, In p (a_phases a) -> ph_actions p <> []) /\
  (forall ls l r, In ls (lifetime_lists a) -> In l ls ->
     lt_begin l = Some r \/ lt_end l = Some r -> lr_target r <> []).
