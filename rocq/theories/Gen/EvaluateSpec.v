(** What it means that the attributes of a tree have the values that the
    equations define, independent of visits and of the generated code. *)

From Coq Require Import List Ascii Bool Arith.
From Verif Require Import Palm.StrModel Sched.ScheduleModel Sched.ScheduleSpec Front.PropagateModel Front.PropagateSpec Front.Syntax Gen.EvalVariantsSpec
  Gen.EvaluateModel.
Import ListNotations.

Section Spec.
  Variable nodes : list inode.
  Variable sets : list inodeset.
  (** the attributes of a node or nodeset *)
  Variable attributes : target -> list attribute.
  (** [member j m]: the [m]th node is in the [j]th nodeset *)
  Variable member : nat -> nat -> Prop.

  (** Child [c] of the [i]th node may be a node of type [m]. *)
  Definition may_be (i c m : nat) : Prop :=
    typed nodes sets (OChild i c) (TNode m) \/ exists j, typed nodes sets (OChild i c) (TSet j) /\ member j m.

  Context {V : Type}.
  (** the functions of the user *)
  Variable eval : cstring -> list V -> V.

  (** Trees: every node has the children of its type, each of a type it may
      have, and only optional children are absent. *)
  Inductive well_typed : tree V -> Prop :=
  | well_typed_node : forall i n fields kids, nth_error nodes i = Some n -> length kids = length (nd_children n) ->
      (forall c, nth_error kids c = Some None -> optional n c) ->
      (forall c u, nth_error kids c = Some (Some u) -> may_be i c (type_of u)) ->
      (forall c u, nth_error kids c = Some (Some u) -> well_typed u) ->
      well_typed (Node i fields kids).

  (** Node [u] of the tree [t] is reached by the path [p]. *)
  Inductive reached (t : tree V) : path -> tree V -> Prop :=
  | reached_root : reached t [] t
  | reached_child : forall p u c w, reached t p u -> nth_error (kids_of u) c = Some (Some w) -> reached t (p ++ [c]) w.

  (** The values of the inherited and synthesized attributes. *)
  Variable value : path -> cstring -> option V.

  (** Attribute [a] of node [t] has the value [v]. *)
  Definition has_value (p : path) (t : tree V) (a : ident) (v : V) : Prop :=
    exists x, In x (attributes (TNode (type_of t))) /\ same_id (at_name x) a /\
      ((at_is_inherited x = true \/ at_is_synthesized x = true) /\ value p (ID_LWR a) = Some v \/
       at_is_inherited x = false /\ at_is_synthesized x = false /\ fields_of t (ID_LWR a) = v).

  Section Node.
    (** A node [t] of type [n]. *)
    Variable n : inode.
    Variable p : path.
    Variable t : tree V.
    Definition absent (c : nat) : bool := match nth_error (kids_of t) c with Some None => true | _ => false end.
    Definition argument_value (r : attribute_reference) (v : V) : Prop :=
      (ar_inode r = None /\ has_value p t (ar_attribute r) v) \/
      (exists c u, reads_child n r c /\ nth_error (kids_of t) c = Some (Some u) /\ has_value (p ++ [c]) u (ar_attribute r) v).
    (** The equation defines the value [v]: what the function for the optional
        children that are absent makes of the arguments that can be read. *)
    Definition defines (e : equation) (v : V) : Prop :=
      exists children args vs, optional_children n (eq_args e) children /\ readable n absent (eq_args e) args /\
        Forall2 argument_value args vs /\
        v = eval (variant_name n (eq_rule e) (names n (filter absent children))) vs.
  End Node.

  (** Every synthesized attribute of a node has the value that an equation of
      the node for it defines; every inherited attribute of a child has the
      value that an equation of its parent for it defines. *)
  Record evaluated (t : tree V) : Prop := {
    ev_synthesized : forall p u n x, reached t p u -> nth_error nodes (type_of u) = Some n ->
      In x (attributes (TNode (type_of u))) -> at_is_synthesized x = true ->
      exists e v, In e (nd_equations n) /\ ar_inode (eq_rule e) = None /\ same_id (ar_attribute (eq_rule e)) (at_name x) /\
        value p (ID_LWR (at_name x)) = Some v /\ defines n p u e v;
    ev_inherited : forall p u n k c w x, reached t p u -> nth_error nodes (type_of u) = Some n ->
      nth_error (nd_children n) k = Some c -> nth_error (kids_of u) k = Some (Some w) ->
      In x (attributes (TNode (type_of w))) -> at_is_inherited x = true ->
      exists e cn v, In e (nd_equations n) /\ ar_inode (eq_rule e) = Some cn /\ same_id (ch_name c) cn /\
        same_id (ar_attribute (eq_rule e)) (at_name x) /\
        value (p ++ [k]) (ID_LWR (at_name x)) = Some v /\ defines n p u e v }.
End Spec.
