(** Dependencies between attributes: inside productions, induced, and in
    trees. *)

From Coq Require Import List Bool.
From Verif Require Import Sched.GraphModel.
Import ListNotations.

Section Spec.
  Context {O A T : Type}.
  Variable get_node_type : O -> T.

  (** A production: the occurrence it is about, the occurrences below it,
      their attributes, and which attributes the rules read (first) to compute
      which others (second). *)
  Record production := mk_production {
    p_root : O;
    p_kids : list O;
    p_vertices : list (O * A);
    p_deps : list ((O * A) * (O * A)) }.
  Record good_production (p : production) : Prop := {
    gp_root : ~ In (p_root p) (p_kids p);
    gp_vertices : forall x, In x (p_vertices p) -> In (fst x) (p_root p :: p_kids p);
    gp_deps : forall x y, In (x, y) (p_deps p) -> In x (p_vertices p) /\ In y (p_vertices p) }.

  (** [depends_on p x y]: in some production [y] needs [x], directly, through
      other attributes, or because two attributes of an occurrence of the
      same type depend on each other in another production. *)
  Variable ps : list production.
  Inductive depends_on : production -> O * A -> O * A -> Prop :=
  | dep_direct : forall p x y, In p ps -> In (x, y) (p_deps p) -> depends_on p x y
  | dep_trans : forall p x y z, depends_on p x y -> depends_on p y z -> depends_on p x z
  | dep_induced : forall p p' o o' a b, In p ps -> depends_on p' (o', a) (o', b) ->
      get_node_type o' = get_node_type o ->
      In (o, a) (p_vertices p) -> In (o, b) (p_vertices p) -> depends_on p (o, a) (o, b).
  Definition circular : Prop := exists p x, depends_on p x x.

  (** ** Trees *)

  (** A production with trees for some of its occurrences. *)
  Inductive tree := Tree (p : production) (kids : list (O * tree)).
  Definition production_of (t : tree) : production := match t with Tree p _ => p end.
  Inductive good_tree : tree -> Prop :=
  | good_Tree : forall p kids, In p ps ->
      (forall c t, In (c, t) kids -> In c (p_kids p) /\
         get_node_type c = get_node_type (p_root (production_of t)) /\ good_tree t) ->
      good_tree (Tree p kids).

  (** The production used at an address, the path of occurrences from the root. *)
  Inductive at_address : tree -> list O -> production -> Prop :=
  | at_here : forall p kids, at_address (Tree p kids) [] p
  | at_kid : forall p kids c t q p', In (c, t) kids -> at_address t q p' ->
      at_address (Tree p kids) (c :: q) p'.
  (** At most one tree per occurrence. *)
  Definition deterministic (t : tree) : Prop :=
    forall q p p', at_address t q p -> at_address t q p' -> p = p'.

  (** Attribute [a] of the tree node at an address. *)
  Definition instance : Type := list O * A.
  Inductive occurs (q : list O) (p : production) : O * A -> instance -> Prop :=
  | occurs_root : forall a, occurs q p (p_root p, a) (q, a)
  | occurs_kid : forall c a, In c (p_kids p) -> occurs q p (c, a) (q ++ [c], a).

  (** To compute [v] a rule reads [u]. *)
  Inductive reads (t : tree) (u v : instance) : Prop :=
  | reads_rule : forall q p x y, at_address t q p -> In (x, y) (p_deps p) ->
      occurs q p x u -> occurs q p y v -> reads t u v.
  Definition is_attribute (t : tree) (u : instance) : Prop :=
    exists q p x, at_address t q p /\ In x (p_vertices p) /\ occurs q p x u.

  (** The attributes of the tree in an order in which they can be computed. *)
  Definition precedes {X} (l : list X) (u v : X) : Prop := exists l1 l2 l3, l = l1 ++ u :: l2 ++ v :: l3.
  Definition evaluation_order (t : tree) (l : list instance) : Prop :=
    NoDup l /\ (forall u, In u l <-> is_attribute t u) /\ forall u v, reads t u v -> precedes l u v.
End Spec.
Arguments production : clear implicits.
Arguments tree : clear implicits.
Arguments instance : clear implicits.
