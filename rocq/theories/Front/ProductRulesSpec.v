(** Which equations a node must and may have. *)

From Coq Require Import List Ascii Bool.
From Verif Require Import Front.Syntax Front.PropagateSpec.
Import ListNotations.

Section Grammar.
  (** The nodes and the nodesets with all their attributes. *)
  Variable nodes : list (inode * list attribute).
  Variable sets : list (inodeset * list attribute).

  (** [id] is a node or nodeset with the attributes [l]. *)
  Definition has_attributes (id : ident) (l : list attribute) : Prop :=
    (exists n, In (n, l) nodes /\ same_id (nd_name n) id) \/
    (exists m, In (m, l) sets /\ same_id (ns_name m) id).

  (** In an equation of the node [n] with attributes [l], [r] stands for the
      attribute [x]: "this.x", or "c.x" where [c] is a child whose type has
      the attribute. *)
  Inductive refers_to (n : inode) (l : list attribute) (r : attribute_reference) (x : attribute) : Prop :=
  | refers_this : ar_inode r = None -> In x l -> same_id (at_name x) (ar_attribute r) ->
      refers_to n l r x
  | refers_child : forall cn c lc, ar_inode r = Some cn -> In c (nd_children n) -> same_id (ch_name c) cn ->
      has_attributes (ch_type c) lc -> In x lc -> same_id (at_name x) (ar_attribute r) ->
      refers_to n l r x.

  (** The node has an equation for attribute [id] of itself / of a child. *)
  Definition defines_this (n : inode) (id : ident) : Prop :=
    exists e, In e (nd_equations n) /\ ar_inode (eq_rule e) = None /\ same_id (ar_attribute (eq_rule e)) id.
  Definition defines_child (n : inode) (child id : ident) : Prop :=
    exists e cn, In e (nd_equations n) /\ ar_inode (eq_rule e) = Some cn /\ same_id cn child /\
      same_id (ar_attribute (eq_rule e)) id.

  Record good_equations (n : inode) (l : list attribute) : Prop := {
    g_synthesized : forall x, In x l -> at_is_synthesized x = true -> defines_this n (at_name x);
    g_inherited : forall c lc x, In c (nd_children n) -> has_attributes (ch_type c) lc -> In x lc ->
      at_is_inherited x = true -> defines_child n (ch_name c) (at_name x);
    g_rules : forall e, In e (nd_equations n) -> exists x, refers_to n l (eq_rule e) x /\
      (if ar_inode (eq_rule e) then at_is_inherited x = true else at_is_synthesized x = true);
    g_args : forall e r, In e (nd_equations n) -> In r (eq_args e) -> exists x, refers_to n l r x }.
End Grammar.
