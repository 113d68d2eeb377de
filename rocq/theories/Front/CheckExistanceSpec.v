(** The rules a specification has to obey. *)

From Coq Require Import String.
From Coq Require Import List Ascii Bool.
From Verif Require Import Front.Syntax Front.SymbolTableModel Front.SymbolTableSpec Front.SetsSpec.
Import ListNotations.
Local Open Scope string_scope.
Local Open Scope list_scope.

(** [id] names the declaration [d], by its name or uid, in any case. *)
Definition names (a : ast) (id : ident) (d : decl) : Prop :=
  In d (declarations a) /\ exists k, In k (names_of d) /\ ID_LWR k = ID_LWR id.

Definition is_declared (a : ast) (id : ident) : Prop := exists d, names a id d.
Definition is_node (a : ast) (id : ident) : Prop := exists n, names a id (DNode n).
Definition is_nodeset (a : ast) (id : ident) : Prop := exists n, names a id (DNodeset n).
Definition is_enum (a : ast) (id : ident) : Prop := exists e, names a id (DEnum e).

Definition reserved_uid (id : ident) : Prop :=
  In (string_of_list_ascii (ID_UPR id)) ["TRAV"; "TRV"; "CCN"; "PASS"; "CPY"; "CHK"; "DEL"; "EVAL"].
Definition reserved_prefix (id : ident) : Prop :=
  In (string_of_list_ascii (ID_UPR id)) ["NT"; "NS"; "TRAV"; "PASS"; "CCN"].

(** The node types listed in the braces of a set expression. *)
Fixpoint members (e : setexpr) : list ident :=
  match e with
  | ELiteral l => listed l
  | EReference _ => []
  | EOperation _ a b => members a ++ members b
  end.
Definition good_setexpr (a : ast) (e : setexpr) : Prop :=
  (forall id, In id (references e) -> is_nodeset a id) /\
  (forall id, In id (members e) -> is_node a id).

(** A type written as a name is a node, a nodeset or an enum. *)
Definition good_type (a : ast) (t : attribute_type) (r : option ident) : Prop :=
  t = AT_link_or_enum -> exists id, r = Some id /\ (is_node a id \/ is_nodeset a id \/ is_enum a id).

Definition uids (a : ast) : list ident :=
  flat_map (fun p => opt (ph_uid p)) (a_phases a) ++
  flat_map (fun t => opt (tv_uid t)) (a_traversals a) ++
  flat_map (fun p => opt (ps_uid p)) (a_passes a).

Record obeys_rules (a : ast) : Prop := {
  r_actions : forall p id, In p (a_phases a) -> In id (ph_actions p) -> is_declared a id;
  r_uids : forall id, In id (uids a) -> ~ reserved_uid id;
  r_start : length (filter ph_is_start (a_phases a)) <= 1;
  r_root : length (filter nd_is_root (a_nodes a)) <= 1;
  r_trav_nodes : forall t e, In t (a_traversals a) -> tv_nodes t = Some e -> good_setexpr a e;
  r_trav_data : forall t, In t (a_traversals a) ->
     distinct_names (map td_name (tv_data t)) /\
     forall d, In d (tv_data t) -> good_type a (td_type d) (td_type_reference d);
  r_node_name : forall n, In n (a_nodes a) -> string_of_list_ascii (ID_LWR (nd_name n)) <> "node";
  r_node_members : forall n, In n (a_nodes a) ->
     distinct_names (map at_name (nd_attributes n) ++ map ch_name (nd_children n));
  r_children : forall n c, In n (a_nodes a) -> In c (nd_children n) ->
     is_node a (ch_type c) \/ is_nodeset a (ch_type c);
  r_attributes : forall n x, In n (a_nodes a) -> In x (nd_attributes n) ->
     good_type a (at_type x) (at_type_reference x);
  r_nodeset_exprs : forall n, In n (a_nodesets a) -> good_setexpr a (ns_expr n);
  r_nodeset_attributes : forall n, In n (a_nodesets a) ->
     distinct_names (map at_name (ns_attributes n)) /\
     forall x, In x (ns_attributes n) -> good_type a (at_type x) (at_type_reference x);
  r_prefixes : forall e, In e (a_enums a) -> ~ reserved_prefix (en_prefix e);
  r_distinct_prefixes : distinct_names (map en_prefix (a_enums a)) }.
