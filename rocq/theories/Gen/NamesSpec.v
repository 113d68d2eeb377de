(** Names in a specification that do not get in the way of other names of the
    generated compiler. *)

From Coq Require Import String.
From Coq Require Import List Ascii Bool.
From Verif Require Import Palm.StrModel Front.Syntax Front.SymbolTableSpec Front.FileSpec Gen.TablesSpec Gen.AccessSpec Gen.StubsSpec Gen.NamesModel.
Import ListNotations.
Local Open Scope string_scope.
Local Open Scope list_scope.

Definition starts (w x : cstring) : Prop := exists r, x = w ++ r.
Definition ends (w x : cstring) : Prop := exists r, x = r ++ w.
Definition lower_case (c : ascii) : Prop := In c (str "abcdefghijklmnopqrstuvwxyz").
(** A function has the name <u><rest>, where <rest> starts with the first
    lower-case letter of the name. *)
Definition starts_lower (rest : cstring) : Prop := exists c r, rest = c :: r /\ lower_case c.
Definition split_name (f u rest : cstring) : Prop :=
  f = u ++ rest /\ (forall c, In c u -> ~ lower_case c) /\ starts_lower rest.

(** The uids that names of handlers start with *)
Definition prefix_uids (a : ast) : list ident := flat_map (fun t => opt (tv_uid t)) (a_traversals a).

(** For functions, tables, enumerators and type names.  [usable_names] is about
    the enums and tables, and [names_apart] about the functions of the user. *)
Record clear_names (a : ast) : Prop := {
  cn_tables : usable_names a;
  cn_functions : names_apart a;
  cn_fixed : forall file f b, stub a file f b -> ~ In f fixed_names;
  cn_uids : forall u, In u (prefix_uids a) ->
    ID_UPR u <> str "AST" /\ ~ starts (str "TRAV") (ID_UPR u) /\ ~ ends (str "_") u;
  cn_passes : forall p, In p (a_passes a) ->
    (exists u rest, split_name (pass_function p) u rest /\ ~ In u (map str ["AST"; "CPY"; "DEL"; "CHK"; "CCN"]) /\
       ~ starts (str "TRAV") u /\ ~ ends (str "_") u) /\
    ~ ends (str "_vtable") (pass_function p) /\ ~ ends (str "_ids_table") (pass_function p);
  cn_children : forall n c, In n (a_nodes a) -> In c (nd_children n) ->
    ~ In (str "TRAV" ++ ch_name c) fixed_names /\ ~ starts (str "dataInit") (ch_name c) /\ ~ starts (str "dataFree") (ch_name c);
  cn_prefixes : forall e, In e (a_enums a) -> plain (en_prefix e) /\ ~ starts (str "TRAV") (ID_UPR (en_prefix e));
  cn_values : forall e, In e (a_enums a) -> distinct_names (en_values e) /\ ~ In (str "->") (en_values e) }.

(** For structures, unions and enums. *)
Record clear_tags (a : ast) : Prop := {
  ct_enums : forall e, In e (a_enums a) -> ~ In (en_name e) fixed_tags /\
    forall w, In w ["NODE_"; "data_"; "CCNvisit_"] -> ~ starts (str w) (en_name e);
  ct_nodes : forall n, In n (a_nodes a) -> ID_UPR (nd_name n) <> str "CHILDREN" /\
    ~ starts (str "CHILDREN_") (ID_UPR (nd_name n)) /\ ~ ends (str "_STRUCT") (ID_UPR (nd_name n)) }.

(** For macros, in the tree with all attributes: no accessor <NODE>_<MEMBER> is
    called like another macro. *)
Definition owners (a : ast) : list ident := map nd_name (a_nodes a) ++ map ns_name (a_nodesets a).
Record clear_macros (a : ast) : Prop := {
  cm_data : forall x, In x (owners a) -> ID_UPR x <> str "DATA" /\ ~ starts (str "DATA_") (ID_UPR x);
  cm_fixed : forall x y c, In (x, y, c) (accessible a) -> ~ In (ID_UPR x ++ str "_" ++ ID_UPR y) fixed_macros }.

(** For members, in the tree with all attributes: attributes that are called like the member for all children,
    or like the mark of an attribute of the grammar. *)
Definition clear_members (a : ast) : Prop :=
  forall n, In n (a_nodes a) -> forall x, In x (nd_attributes n) ->
    ID_LWR (at_name x) <> ID_LWR (nd_name n) ++ str "_children" /\ ID_LWR (at_name x) <> str "ccn_val_set".
