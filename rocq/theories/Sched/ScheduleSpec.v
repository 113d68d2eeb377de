(** The productions of a specification: which attributes they have, and which
    are needed to compute which. *)

From Coq Require Import List Ascii Bool.
From Verif Require Import Front.Syntax Front.SetsSpec Front.PropagateModel Front.PropagateSpec
  Sched.GraphSpec Sched.ScheduleModel.
Import ListNotations.

Section Grammar.
  Variable nodes : list inode.
  Variable sets : list inodeset.
  (** the attributes of a node or nodeset *)
  Variable attributes : target -> list attribute.
  (** [member j m]: the [m]th node is in the [j]th nodeset *)
  Variable member : nat -> nat -> Prop.

  Definition has_name (t : target) (id : ident) : Prop :=
    match t with
    | TNode i => exists n, nth_error nodes i = Some n /\ same_id (nd_name n) id
    | TSet j => exists s, nth_error sets j = Some s /\ same_id (ns_name s) id
    end.

  (** Attributes: position [snd a] in the list of [fst a]. *)
  Definition attribute_is (a : aptr) (P : attribute -> Prop) : Prop :=
    exists x, nth_error (attributes (fst a)) (snd a) = Some x /\ P x.
  Definition inherited (a : aptr) : Prop := attribute_is a (fun x => at_is_inherited x = true).
  Definition synthesized (a : aptr) : Prop := attribute_is a (fun x => at_is_synthesized x = true).
  Definition of_grammar (a : aptr) : Prop := inherited a \/ synthesized a.
  Definition named (a : aptr) (id : ident) : Prop := attribute_is a (fun x => same_id (at_name x) id).

  (** The type of an occurrence: of a child it is the declared one. *)
  Definition typed (o : occurrence) (t : target) : Prop :=
    match o with
    | OType t' => t' = t
    | OChild i k => exists n c, nth_error nodes i = Some n /\ nth_error (nd_children n) k = Some c /\
        has_name t (ch_type c)
    end.
  Definition typing (ty : occurrence -> option target) : Prop := forall o t, ty o = Some t <-> typed o t.

  (** In an equation of the [i]th node, [n]: the attribute [r] stands for. *)
  Definition stands_for (i : nat) (n : inode) (r : attribute_reference) (x : occurrence * aptr) : Prop :=
    typed (fst x) (fst (snd x)) /\ named (snd x) (ar_attribute r) /\
    match ar_inode r with
    | None => fst x = OType (TNode i)
    | Some cn => exists k c, fst x = OChild i k /\ nth_error (nd_children n) k = Some c /\ same_id (ch_name c) cn
    end.

  (** A node: its own attributes and those of its children; the equations say
      which are read to compute which. *)
  Record node_production (i : nat) (n : inode) (p : production occurrence aptr) : Prop := {
    np_root : p_root p = OType (TNode i);
    np_kids : forall o, In o (p_kids p) <-> exists k, k < length (nd_children n) /\ o = OChild i k;
    np_vertices : forall x, In x (p_vertices p) <->
      In (fst x) (p_root p :: p_kids p) /\ typed (fst x) (fst (snd x)) /\ of_grammar (snd x);
    np_deps : forall x y, In (x, y) (p_deps p) <->
      exists e r, In e (nd_equations n) /\ In r (eq_args e) /\ stands_for i n (eq_rule e) y /\
        stands_for i n r x /\ of_grammar (snd x) }.

  (** A member of a nodeset: it gets the inherited attributes of the nodeset,
      and the nodeset gets the synthesized attributes of the member. *)
  Definition counterpart (j m : nat) (a b : aptr) : Prop :=
    fst a = TSet j /\ fst b = TNode m /\ of_grammar a /\
    attribute_is a (fun x => named b (at_name x)).
  Record member_production (j m : nat) (p : production occurrence aptr) : Prop := {
    mp_root : p_root p = OType (TSet j);
    mp_kids : p_kids p = [OType (TNode m)];
    mp_vertices : forall o a, In (o, a) (p_vertices p) <->
      (o = OType (TSet j) /\ fst a = TSet j /\ of_grammar a) \/
      (o = OType (TNode m) /\ exists b, counterpart j m b a);
    mp_deps : forall x y, In (x, y) (p_deps p) <-> exists a b, counterpart j m a b /\
      ((inherited a /\ x = (OType (TSet j), a) /\ y = (OType (TNode m), b)) \/
       (synthesized a /\ x = (OType (TNode m), b) /\ y = (OType (TSet j), a))) }.

  Definition is_production (p : production occurrence aptr) : Prop :=
    (exists i n, nth_error nodes i = Some n /\ node_production i n p) \/
    (exists j m, member j m /\ member_production j m p).
  Record productions (ps : list (production occurrence aptr)) : Prop := {
    pr_only : forall p, In p ps -> is_production p;
    pr_nodes : forall i n, nth_error nodes i = Some n -> exists p, In p ps /\ node_production i n p;
    pr_members : forall j m, member j m -> exists p, In p ps /\ member_production j m p }.

  (** No equation reads the attribute it computes. *)
  Definition no_self_dependency (ps : list (production occurrence aptr)) : Prop :=
    forall p x, In p ps -> ~ In (x, x) (p_deps p).
  (** Every member of a nodeset has the attributes of the nodeset. *)
  Definition members_covered : Prop := forall j m a, member j m -> fst a = TSet j -> of_grammar a ->
    exists b, counterpart j m a b.
End Grammar.

(** The members of a nodeset: the names its expression denotes. *)
Definition member_of (a : ast) (j m : nat) : Prop := exists st n S, nth_error (a_nodesets a) j = Some st /\
  nth_error (a_nodes a) m = Some n /\ denotes (a_nodesets a) (ns_expr st) S /\ S (ID_LWR (nd_name n)).
