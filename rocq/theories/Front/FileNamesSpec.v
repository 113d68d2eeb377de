(** The names in the tree of a specification, and what C requires of a name. *)

From Coq Require Import String.
From Coq Require Import List Ascii.
From Verif Require Import Palm.StrModel Front.ScannerSpec Front.ScannerModel Front.Syntax Front.FileSpec.
Import ListNotations.
Local Open Scope string_scope.
Local Open Scope list_scope.

(** The names in the declarations of a tree, apart from those in expressions
    for sets of nodes (which the checks compare with declarations, C08) and the
    values of enums. *)
Definition tree_phase_names (p : iphase) : list ident := ph_name p :: opt (ph_uid p) ++ opt (ph_gate p) ++ ph_actions p.
Definition tree_traversal_names (t : itraversal) : list ident :=
  tv_name t :: opt (tv_uid t) ++ flat_map data_names (tv_data t).
Definition tree_pass_names (p : ipass) : list ident := ps_name p :: opt (ps_uid p) ++ opt (ps_func p).
Definition tree_node_names (n : inode) : list ident :=
  nd_name n :: flat_map child_names (nd_children n) ++ flat_map attribute_names (nd_attributes n) ++
    flat_map equation_names (nd_equations n) ++ flat_map lifetime_names (nd_lifetimes n).
Definition tree_nodeset_names (n : inodeset) : list ident := ns_name n :: flat_map attribute_names (ns_attributes n).
Definition tree_enum_names (e : ienum) : list ident := [en_name e; en_prefix e].
Definition tree_names (a : ast) : list ident :=
  flat_map tree_phase_names (a_phases a) ++ flat_map tree_traversal_names (a_traversals a) ++ flat_map tree_pass_names (a_passes a) ++
  flat_map tree_node_names (a_nodes a) ++ flat_map tree_nodeset_names (a_nodesets a) ++ flat_map tree_enum_names (a_enums a).

(** What can be a value of an enum. *)
Definition value_ok (i : ident) : Prop := identifier_ok i /\ str i <> "NULL" \/ i = txt "->".
