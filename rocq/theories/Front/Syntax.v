(** The abstract syntax tree of a specification, as the parser hands it to
    the semantic phases (cocogen/main.ccn:606-966, built by
    cocogen/frontend/scanAndParse/dsl-parser.y).

    An identifier node ([id], main.ccn:954-966) is its original spelling; the
    parser derives the lower and upper case spellings from it
    (dsl-parser.y:1243-1249), so they are functions here.  Linked lists
    ([next] children) are lists in AST order: the lists of declarations are in
    REVERSE source order because the parser prepends (dsl-parser.y:214-250,
    510-541), all inner lists are in source order (travdata: reversed).
    Not represented: positions, info strings, include files. *)

From Coq Require Import List Ascii NArith Bool.
From Verif Require Import Palm.StrModel.
Import ListNotations.

(** main.ccn:954-966 [id] *)
Definition ident := cstring.

(** palm STRlower / STRupper on the bytes an identifier can consist of
    ([A-Za-z][A-Za-z0-9_]*, dsl-lexer.l:166). *)
Definition lower_byte (c : ascii) : ascii :=
  let n := N_of_ascii c in
  if (65 <=? n)%N && (n <=? 90)%N then ascii_of_N (n + 32) else c.
Definition upper_byte (c : ascii) : ascii :=
  let n := N_of_ascii c in
  if (97 <=? n)%N && (n <=? 122)%N then ascii_of_N (n - 32) else c.

(** [ID_LWR], [ID_UPR] (dsl-parser.y:1245) *)
Definition ID_LWR (i : ident) : cstring := map lower_byte i.
Definition ID_UPR (i : ident) : cstring := map upper_byte i.
Arguments ID_LWR : simpl never.
Arguments ID_UPR : simpl never.

(** main.ccn:793-798 [setoperation_type] *)
Inductive setop := SO_iunion | SO_intersect | SO_difference.

(** main.ccn:810-816 [setliteral]: a node of the search tree that represents
    a set; the empty set is NULL. *)
Inductive literal :=
| LNull
| SetLiteral (reference : ident) (left right : literal).

(** main.ccn:800-831 [setexpr] *)
Inductive setexpr :=
| ELiteral (l : literal)
| EReference (reference : ident)
| EOperation (type : setop) (left right : setexpr).

(** main.ccn:786-791 [attribute_type] *)
Inductive attribute_type :=
  AT_user | AT_link | AT_link_or_enum | AT_int | AT_string | AT_bool
| AT_int8 | AT_int16 | AT_int32 | AT_int64 | AT_float | AT_double
| AT_uint | AT_uint8 | AT_uint16 | AT_uint32 | AT_uint64.

(** main.ccn:721-752 [lifetime_type], [lifetime_range], [ilifetime].  The
    target of a range is a path of identifiers (range_spec,
    dsl-parser.y:1093-1103). *)
Inductive lifetime_type := LT_disallowed | LT_mandatory | LT_optional | LT_allowed.
Record lifetime_range := mk_range { lr_target : list ident; lr_inclusive : bool }.
Record ilifetime := mk_lifetime {
  lt_type : lifetime_type;
  lt_begin : option lifetime_range;
  lt_end : option lifetime_range }.

(** main.ccn:761-774 [child] *)
Record child := mk_child {
  ch_name : ident;
  ch_type : ident;
  ch_in_constructor : bool;
  ch_lifetimes : list ilifetime }.

(** main.ccn:847-862 [attribute] *)
Record attribute := mk_attribute {
  at_name : ident;
  at_type : attribute_type;
  at_type_reference : option ident;
  at_in_constructor : bool;
  at_is_inherited : bool;
  at_is_synthesized : bool;
  at_is_propagated : bool;
  at_lifetimes : list ilifetime }.

(** main.ccn:864-890 [attribute_reference]: [None] is "this"; [equation] with
    its [equation_dependency] list *)
Record attribute_reference := mk_aref {
  ar_inode : option ident;
  ar_attribute : ident }.
Record equation := mk_equation {
  eq_rule : attribute_reference;
  eq_args : list attribute_reference }.

(** main.ccn:628-651 [iphase] *)
Record iphase := mk_phase {
  ph_name : ident;
  ph_uid : option ident;
  ph_gate : option ident;
  ph_actions : list ident;
  ph_is_start : bool;
  ph_is_cycle : bool }.

(** main.ccn:833-845 [itravdata], 653-665 [itraversal] *)
Record itravdata := mk_travdata {
  td_name : ident;
  td_type : attribute_type;
  td_type_reference : option ident }.
Record itraversal := mk_traversal {
  tv_name : ident;
  tv_uid : option ident;
  tv_nodes : option setexpr;
  tv_data : list itravdata }.

(** main.ccn:667-677 [ipass] *)
Record ipass := mk_pass {
  ps_name : ident;
  ps_uid : option ident;
  ps_func : option ident }.

(** main.ccn:679-695 [inode] *)
Record inode := mk_node {
  nd_name : ident;
  nd_is_root : bool;
  nd_children : list child;
  nd_attributes : list attribute;
  nd_equations : list equation;
  nd_lifetimes : list ilifetime }.

(** main.ccn:697-711 [inodeset] *)
Record inodeset := mk_nodeset {
  ns_name : ident;
  ns_expr : setexpr;
  ns_attributes : list attribute }.

(** main.ccn:941-952 [ienum] *)
Record ienum := mk_enum {
  en_name : ident;
  en_prefix : ident;
  en_values : list ident }.

(** main.ccn:606-623 [ast] *)
Record ast := mk_ast {
  a_phases : list iphase;
  a_traversals : list itraversal;
  a_passes : list ipass;
  a_nodes : list inode;
  a_nodesets : list inodeset;
  a_enums : list ienum }.
