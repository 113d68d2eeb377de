(** What set expressions mean.  Sets of node types are predicates on names in
    lower case (names are case-insensitive). *)

From Coq Require Import List Ascii.
From Verif Require Import Front.Syntax Front.SetsModel.
Import ListNotations.

Definition nameset := list ascii -> Prop.

(** [denotes sets e S]: in a specification with the nodesets [sets], the
    expression [e] denotes the set of names [S]. *)
Inductive denotes (sets : list inodeset) : setexpr -> nameset -> Prop :=
| den_literal ids (S : nameset) :
    (forall x, S x <-> In x (map ID_LWR ids)) ->
    denotes sets (ELiteral (parse_literal ids)) S
| den_reference n id S :
    In n sets -> ID_LWR (ns_name n) = ID_LWR id ->
    denotes sets (ns_expr n) S ->
    denotes sets (EReference id) S
| den_union a b A B (S : nameset) :
    denotes sets a A -> denotes sets b B ->
    (forall x, S x <-> A x \/ B x) ->
    denotes sets (EOperation SO_iunion a b) S
| den_intersect a b A B (S : nameset) :
    denotes sets a A -> denotes sets b B ->
    (forall x, S x <-> A x /\ B x) ->
    denotes sets (EOperation SO_intersect a b) S
| den_difference a b A B (S : nameset) :
    denotes sets a A -> denotes sets b B ->
    (forall x, S x <-> A x /\ ~ B x) ->
    denotes sets (EOperation SO_difference a b) S.

(** The identifiers listed in a set literal (a binary tree), and the set of
    names they are. *)
Fixpoint listed (l : literal) : list ident :=
  match l with
  | LNull => []
  | SetLiteral r a b => r :: listed a ++ listed b
  end.
Definition names_in (l : literal) : nameset := fun x => In x (map ID_LWR (listed l)).
Definition no_member_twice (l : literal) : Prop := NoDup (map ID_LWR (listed l)).

(** Every literal of the expression comes from the parser: "{id, id, ...}". *)
Fixpoint parsed (e : setexpr) : Prop :=
  match e with
  | ELiteral l => exists ids, l = parse_literal ids
  | EReference _ => True
  | EOperation _ a b => parsed a /\ parsed b
  end.
Definition parsed_ast (a : ast) : Prop :=
  (forall n, In n (a_nodesets a) -> parsed (ns_expr n)) /\
  (forall t e, In t (a_traversals a) -> tv_nodes t = Some e -> parsed e).

(** The names an expression refers to. *)
Fixpoint references (e : setexpr) : list ident :=
  match e with
  | ELiteral _ => []
  | EReference id => [id]
  | EOperation _ a b => references a ++ references b
  end.

Definition declares (sets : list inodeset) (id : ident) : Prop :=
  exists n, In n sets /\ ID_LWR (ns_name n) = ID_LWR id.

Definition names_unique (sets : list inodeset) : Prop :=
  NoDup (map (fun n => ID_LWR (ns_name n)) sets).

(** Every nodeset refers only to nodesets that are declared before it in the
    source text, i.e. after it in the list the parser builds. *)
Fixpoint declared_before_use (sets : list inodeset) : Prop :=
  match sets with
  | [] => True
  | n :: rest => (forall id, In id (references (ns_expr n)) -> declares rest id)
                 /\ declared_before_use rest
  end.

(** No nodeset contains itself, not even through others: [rank] decreases
    along references. *)
Definition not_recursive (sets : list inodeset) : Prop :=
  exists rank : list ascii -> nat,
    forall n id, In n sets -> In id (references (ns_expr n)) ->
      rank (ID_LWR id) < rank (ID_LWR (ns_name n)).

(** All references resolve to declared nodesets. *)
Definition sets_resolve (sets : list inodeset) : Prop :=
  forall n id, In n sets -> In id (references (ns_expr n)) -> declares sets id.
Definition traversals_resolve (a : ast) : Prop :=
  forall t e id, In t (a_traversals a) -> tv_nodes t = Some e ->
    In id (references e) -> declares (a_nodesets a) id.

(** A literal is right for an expression. *)
Definition right_set (sets : list inodeset) (e : setexpr) (l : literal) : Prop :=
  denotes sets e (names_in l) /\ no_member_twice l.
