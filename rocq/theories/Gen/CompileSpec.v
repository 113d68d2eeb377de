(** Which specifications the compiler has to accept, in terms of what is
    written in them. *)

From Coq Require Import List Ascii Bool Relations.
From Verif Require Import Front.Syntax Front.SetsSpec Front.SymbolTableSpec Front.CheckExistanceSpec
  Front.NodesetTableSpec Front.PropagateSpec Front.CheckAttributesSpec.
Import ListNotations.

(** The [i]th nodeset declares the attribute [x]. *)
Definition declares_attribute (a : ast) (i : nat) (x : attribute) : Prop :=
  exists m, nth_error (a_nodesets a) i = Some m /\ In x (ns_attributes m).

(** ... and has the node [n] as a member. *)
Definition given_by (a : ast) (n : inode) (i : nat) (x : attribute) : Prop :=
  exists m S, nth_error (a_nodesets a) i = Some m /\ In x (ns_attributes m) /\
    denotes (a_nodesets a) (ns_expr m) S /\ S (ID_LWR (nd_name n)).

(** The [k]th nodeset has the attribute [x] of the [i]th one: its own, or one
    of a nodeset that it is part of. *)
Definition set_given_by (a : ast) (k i : nat) (x : attribute) : Prop :=
  declares_attribute a i x /\ (i = k \/ built_from (a_nodesets a) i k).

(** The node does not declare an attribute with this name. *)
Definition not_own (n : inode) (id : ident) : Prop :=
  forall o, In o (nd_attributes n) -> ~ same_id (at_name o) id.

(** The attributes of a node: its own ones and those it is given. *)
Definition node_attribute (a : ast) (n : inode) (x : attribute) : Prop :=
  In x (nd_attributes n) \/ exists i, given_by a n i x /\ not_own n (at_name x).

(** The attributes of the node or nodeset called [id]. *)
Definition type_attribute (a : ast) (id : ident) (x : attribute) : Prop :=
  (exists n, In n (a_nodes a) /\ same_id (nd_name n) id /\ node_attribute a n x) \/
  (exists k m i, nth_error (a_nodesets a) k = Some m /\ same_id (ns_name m) id /\ set_given_by a k i x).

(** What "this.x" or "c.x" stands for in an equation of [n]. *)
Definition meant (a : ast) (n : inode) (r : attribute_reference) (x : attribute) : Prop :=
  same_id (at_name x) (ar_attribute r) /\
  match ar_inode r with
  | None => node_attribute a n x
  | Some cn => exists c, In c (nd_children n) /\ same_id (ch_name c) cn /\ type_attribute a (ch_type c) x
  end.

(** [e] is an equation for the attribute [id] of the child [c], or of the node
    itself. *)
Definition equation_for (e : equation) (c : option ident) (id : ident) : Prop :=
  same_id (ar_attribute (eq_rule e)) id /\
  match c, ar_inode (eq_rule e) with
  | None, None => True
  | Some c, Some cn => same_id cn c
  | _, _ => False
  end.

(** The rules for the attributes that are declared. *)
Record attribute_rules (a : ast) : Prop := {
  ar_nodes : forall n x, In n (a_nodes a) -> In x (nd_attributes n) -> grammar_rule x;
  ar_root : forall n x, In n (a_nodes a) -> nd_is_root n = true -> node_attribute a n x -> at_is_inherited x = false;
  ar_sets : forall i x, declares_attribute a i x -> at_in_constructor x = false /\ grammar_rule x }.

(** Nodesets with attributes are unions. *)
Definition attributes_on_unions (a : ast) : Prop :=
  forall k m i x, nth_error (a_nodesets a) k = Some m -> set_given_by a k i x -> ~ not_only_unions (ns_expr m).

(** The rules about nodesets and equations. *)
Record legal (a : ast) : Prop := {
  (* every name is declared once, and what is used is declared (C27, C28) *)
  l_names : distinct_names (all_names a);
  l_functions : distinct_names (pass_functions a);
  l_rules : obeys_rules a;
  (* no nodeset contains itself; those with attributes are unions (C29, C30) *)
  l_sets : ~ recursive (a_nodesets a);
  l_unions : attributes_on_unions a;
  (* an attribute is given once, and redeclared only for the constructor (C31) *)
  l_once : forall n i x j y, In n (a_nodes a) -> given_by a n i x -> given_by a n j y ->
    same_id (at_name x) (at_name y) -> not_own n (at_name x) -> i = j;
  l_redeclared : forall n i x o, In n (a_nodes a) -> given_by a n i x -> In o (nd_attributes n) ->
    same_id (at_name o) (at_name x) -> may_redeclare x o;
  l_children : forall n i x c, In n (a_nodes a) -> given_by a n i x -> In c (nd_children n) -> ~ same_id (ch_name c) (at_name x);
  l_set_once : forall k i x j y, k < length (a_nodesets a) -> set_given_by a k i x -> set_given_by a k j y ->
    same_id (at_name x) (at_name y) -> i = j;
  (* the equations of a node define all it has to define, and nothing else (C38) *)
  l_synthesized : forall n x, In n (a_nodes a) -> node_attribute a n x -> at_is_synthesized x = true ->
    exists e, In e (nd_equations n) /\ equation_for e None (at_name x);
  l_inherited : forall n c x, In n (a_nodes a) -> In c (nd_children n) -> type_attribute a (ch_type c) x ->
    at_is_inherited x = true -> exists e, In e (nd_equations n) /\ equation_for e (Some (ch_name c)) (at_name x);
  l_equations : forall n e, In n (a_nodes a) -> In e (nd_equations n) -> exists x, meant a n (eq_rule e) x /\
    (if ar_inode (eq_rule e) then at_is_inherited x = true else at_is_synthesized x = true);
  l_arguments : forall n e r, In n (a_nodes a) -> In e (nd_equations n) -> In r (eq_args e) -> exists x, meant a n r x }.
