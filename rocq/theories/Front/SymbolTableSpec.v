(** Which names a specification declares. *)

From Coq Require Import List Ascii.
From Verif Require Import Front.Syntax Front.SymbolTableModel.
Import ListNotations.

Definition opt {A} (o : option A) : list A := match o with Some x => [x] | None => [] end.

(** The name and uid of a declaration. *)
Definition names_of (d : decl) : list ident :=
  match d with
  | DPhase p => ph_name p :: opt (ph_uid p)
  | DTraversal t => tv_name t :: opt (tv_uid t)
  | DPass p => ps_name p :: opt (ps_uid p)
  | DNode n => [nd_name n]
  | DNodeset n => [ns_name n]
  | DEnum e => [en_name e]
  end.

Definition declarations (a : ast) : list decl :=
  map DPhase (a_phases a) ++ map DTraversal (a_traversals a) ++ map DPass (a_passes a) ++
  map DNode (a_nodes a) ++ map DNodeset (a_nodesets a) ++ map DEnum (a_enums a).

Definition pass_functions (a : ast) : list ident :=
  flat_map (fun p => opt (ps_func p)) (a_passes a).

(** No two names are equal when upper and lower case are not distinguished. *)
Definition distinct_names (l : list ident) : Prop := NoDup (map ID_LWR l).

Definition all_names (a : ast) : list ident := flat_map names_of (declarations a).
