(** The rules for attributes (docs/source: attributes, attribute grammars). *)

From Coq Require Import List Ascii Bool.
From Verif Require Import Front.Syntax.
Import ListNotations.

Definition of_grammar (x : attribute) : Prop := at_is_inherited x = true \/ at_is_synthesized x = true.

(** An attribute of the grammar is computed: it is not an argument of the
    constructor and has no lifetimes. *)
Definition grammar_rule (x : attribute) : Prop :=
  of_grammar x -> at_in_constructor x = false /\ at_lifetimes x = [].

(** The rules for an attribute of a node.  Copies from nodesets were checked
    in the nodeset. *)
Definition node_attribute_rule (n : inode) (x : attribute) : Prop :=
  ~ (nd_is_root n = true /\ at_is_inherited x = true) /\
  (at_is_propagated x = false -> grammar_rule x).

(** ... and of a nodeset, which cannot be in a constructor at all. *)
Definition nodeset_attribute_rule (x : attribute) : Prop :=
  at_is_propagated x = false -> at_in_constructor x = false /\ grammar_rule x.
