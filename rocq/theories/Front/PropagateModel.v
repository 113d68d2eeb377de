(** Model of the traversal propagateAttributes
    (cocogen/frontend/nodesets/propagate_attributes.c), which copies the
    attributes of nodesets to the nodesets and nodes they contain.

    Nodes and nodesets are identified by their positions in the lists of the
    specification.  The input is what the passes before it produce: the
    children tables (NodesetTableModel.v) and the evaluated set literals
    (SetsModel.v).  CCNcopy of an attribute (C23) is the attribute itself.
    The types compared here were resolved by checkExistance before (AT_link
    instead of AT_link_or_enum for nodes); as equal references are resolved
    equally, the comparison gives the same result before that. *)

From Coq Require Import List Ascii Bool Arith.
From Verif Require Import Base.Outcome Palm.StrModel Front.Syntax Front.SetsSpec
  Front.NodesetTableModel.
Import ListNotations.
Local Open Scope outcome_scope.

Definition attribute_type_eqb (a b : attribute_type) : bool :=
  match a, b with
  | AT_user, AT_user | AT_link, AT_link | AT_link_or_enum, AT_link_or_enum
  | AT_int, AT_int | AT_string, AT_string | AT_bool, AT_bool
  | AT_int8, AT_int8 | AT_int16, AT_int16 | AT_int32, AT_int32 | AT_int64, AT_int64
  | AT_float, AT_float | AT_double, AT_double | AT_uint, AT_uint
  | AT_uint8, AT_uint8 | AT_uint16, AT_uint16 | AT_uint32, AT_uint32 | AT_uint64, AT_uint64 => true
  | _, _ => false
  end.

(** propagate_attributes.c:24-36 [compare_attribute_types]; the references of
    these three types are never NULL after parsing. *)
Definition compare_attribute_types (a b : attribute) : bool :=
  if attribute_type_eqb (at_type a) (at_type b) then
    match at_type a with
    | AT_link | AT_link_or_enum | AT_user => STReq (at_type_reference a) (at_type_reference b)
    | _ => true
    end
  else false.

Inductive pra_error :=
| RedeclaredWithoutConstructor (name : ident)   (* lines 50-58 *)
| RedeclaredDifferently (name : ident)          (* lines 59-69 *)
| Redeclared (name : ident)                     (* lines 89-106 *)
| ChildConflict (name : ident).                 (* lines 116-127 *)

Definition is_classic (x : attribute) : bool :=
  negb (at_is_inherited x || at_is_synthesized x).

Definition same_name (a b : ident) : bool := STReq (Some (ID_LWR a)) (Some (ID_LWR b)).

(** propagate_attributes.c:40-74 [check_classic_exception]: the errors; [None]
    stands for the result false *)
Definition check_classic_exception (parent_attr child_attr : attribute) : option (list pra_error) :=
  if negb (is_classic parent_attr) then None
  else Some
    (if negb (at_in_constructor child_attr) then [RedeclaredWithoutConstructor (at_name parent_attr)]
     else if at_is_inherited child_attr || at_is_synthesized child_attr ||
             negb (compare_attribute_types parent_attr child_attr)
          then [RedeclaredDifferently (at_name parent_attr)]
          else []).

(** propagate_attributes.c:76-111 [check_existing_attributes] *)
Fixpoint check_existing_attributes (is_node : bool) (l : list attribute) (x : attribute)
  : list pra_error * bool :=
  match l with
  | [] => ([], false)
  | a :: l =>
      let r := check_existing_attributes is_node l x in
      if same_name (at_name a) (at_name x) then
        match (if is_node then check_classic_exception x a else None) with
        | Some errs => (errs ++ fst r, true)
        | None => (Redeclared (at_name a) :: fst r, snd r)
        end
      else r
  end.

(** propagate_attributes.c:113-129 [check_existing_child] *)
Definition check_existing_child (children : list child) (x : attribute) : list pra_error :=
  map (fun c => ChildConflict (ch_name c))
    (filter (fun c => same_name (ch_name c) (at_name x)) children).

Definition mark_propagated (x : attribute) : attribute :=
  mk_attribute (at_name x) (at_type x) (at_type_reference x) (at_in_constructor x)
    (at_is_inherited x) (at_is_synthesized x) true (at_lifetimes x).

(** propagate_attributes.c:131-155 [propagate_attribute] on the attribute list
    of one node ([Some children]) or nodeset ([None]): the new list and the
    errors. *)
Definition propagate_attribute (children : option (list child)) (l : list attribute) (x : attribute)
  : list attribute * list pra_error :=
  let r := check_existing_attributes (match children with Some _ => true | None => false end) l x in
  if snd r then (l, fst r)
  else (mark_propagated x :: l,
        fst r ++ match children with Some cs => check_existing_child cs x | None => [] end).

Inductive target := TNode (i : nat) | TSet (i : nat).

(** The attribute lists INODE_IATTRIBUTES, INODESET_IATTRIBUTES and the errors
    (each followed by CCNerrorAction). *)
Record pra := mk_pra {
  p_nodes : list (list attribute);
  p_sets : list (list attribute);
  p_errors : list pra_error }.

Section Walk.
  Variable nodes : list inode.

  Definition apply_to (s : pra) (t : target) (x : attribute) : pra :=
    match t with
    | TNode i =>
        let cs := match nth_error nodes i with Some n => nd_children n | None => [] end in
        let r := propagate_attribute (Some cs) (nth i (p_nodes s) []) x in
        mk_pra (upd (p_nodes s) i (fst r)) (p_sets s) (p_errors s ++ snd r)
    | TSet i =>
        let r := propagate_attribute None (nth i (p_sets s) []) x in
        mk_pra (p_nodes s) (upd (p_sets s) i (fst r)) (p_errors s ++ snd r)
    end.

  (** propagate_attributes.c:157-167 [propagate_attributes]; [cur] is
      [curr_nodeset] *)
  Definition propagate_attributes (cur : nat) (s : pra) (t : target) : pra :=
    fold_left (fun s x => if at_is_propagated x then s else apply_to s t x)
      (nth cur (p_sets s) []) s.

  (** STlookup of a set member (lines 201-204; that it is a node is checked by
      C28, otherwise the assertion fails). *)
  Fixpoint find_node (l : list inode) (id : ident) : option nat :=
    match l with
    | [] => None
    | n :: l => if same_name (nd_name n) id then Some 0 else option_map S (find_node l id)
    end.

  (** propagate_attributes.c:198-208 [PRAsetliteral]: a member, then the left
      and the right subtree *)
  Fixpoint PRAsetliteral (cur : nat) (s : pra) (l : literal) : outcome pra :=
    match l with
    | LNull => Val s
    | SetLiteral r a b =>
        match find_node nodes r with
        | None => Aborted
        | Some i =>
            let! s := PRAsetliteral cur (propagate_attributes cur s (TNode i)) a in
            PRAsetliteral cur s b
        end
    end.

  (** propagate_attributes.c:181-196 [PRAinodeset], [PRAnodeset_child_entry];
      for every nodeset its children table and its members *)
  Fixpoint PRAinodesets (cur : nat) (s : pra) (l : list (list nat * literal)) : outcome pra :=
    match l with
    | [] => Val s
    | (table, lit) :: l =>
        let s := fold_left (fun s k => propagate_attributes cur s (TSet k)) table s in
        let! s := PRAsetliteral cur s lit in
        PRAinodesets (S cur) s l
    end.
End Walk.

(** propagate_attributes.c:172-176 [PRAast] *)
Definition PRAast (nodes : list inode) (sets : list inodeset) (l : list (list nat * literal)) : outcome pra :=
  PRAinodesets nodes 0 (mk_pra (map nd_attributes nodes) (map ns_attributes sets) []) l.
