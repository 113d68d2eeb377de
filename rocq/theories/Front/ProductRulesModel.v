(** Model of the traversal checkProductRules
    (cocogen/frontend/check_product_rules.c): every reference in the equations
    of a node is resolved, and there has to be an equation for every attribute
    the node has to define.

    Nodes and nodesets are [target]s: positions in the lists of the
    specification.  Their attribute lists are those left by
    propagateAttributes.  The nested hash tables [found_children] and
    [found_attributes], keyed by a pointer and a string, are association
    lists with the newest entry first (that the hash table is a map is C01). *)

From Coq Require Import List Ascii Bool Arith.
From Verif Require Import Base.Outcome Palm.StrModel Front.Syntax Front.NodesetTableModel
  Front.PropagateModel.
Import ListNotations.
Local Open Scope outcome_scope.

Inductive cpr_error :=
| NoSuchChild (id : ident)                                (* lines 145-151 *)
| NoSuchAttribute (id : ident)                            (* lines 171-179 *)
| NotSynthesized (id : ident)                             (* lines 184-192 *)
| NotInherited (child id : ident)                         (* lines 193-203 *)
| MissingRule (node : ident) (child : option ident) (id : ident).  (* lines 207-221 *)

Definition target_eqb (a b : target) : bool :=
  match a, b with
  | TNode i, TNode j | TSet i, TSet j => Nat.eqb i j
  | _, _ => false
  end.

(** What a resolved reference is linked to: ATTRIBUTE_REFERENCE_CHILD_REFERENCE,
    the node(set) ATTRIBUTE_REFERENCE_NODE_TYPE names, and
    ATTRIBUTE_REFERENCE_REFERENCE. *)
Record link := mk_link {
  l_node : nat;
  l_reference : attribute_reference;
  l_child : option child;
  l_target : target;
  l_attribute : attribute }.

(** Traversal data (main.ccn:511-520), the errors and the links set so far. *)
Record cpr := mk_cpr {
  found_children : list ((nat * cstring) * child);
  found_attributes : list ((target * cstring) * attribute);
  c_errors : list cpr_error;
  c_links : list link }.

Definition add_error (s : cpr) (e : cpr_error) : cpr :=
  mk_cpr (found_children s) (found_attributes s) (c_errors s ++ [e]) (c_links s).
Definition add_link (s : cpr) (l : link) : cpr :=
  mk_cpr (found_children s) (found_attributes s) (c_errors s) (c_links s ++ [l]).

(** check_product_rules.c:50-57 [HTfind_nested] *)
Fixpoint HTfind_nested {K V} (eqb : K -> K -> bool) (t : list ((K * cstring) * V)) (k : K) (key : cstring)
  : option V :=
  match t with
  | [] => None
  | (k', key', v) :: t => if eqb k k' && STReq (Some key) (Some key') then Some v
                          else HTfind_nested eqb t k key
  end.

(** check_product_rules.c:63-74 [HTinsert_nested]: an entry that is there is
    kept *)
Definition HTinsert_nested {K V} (eqb : K -> K -> bool) (t : list ((K * cstring) * V)) (k : K)
    (key : cstring) (v : V) : list ((K * cstring) * V) :=
  match HTfind_nested eqb t k key with
  | Some _ => t
  | None => (k, key, v) :: t
  end.

Section Check.
  Variable nodes : list inode.
  Variable sets : list inodeset.
  (** INODE_IATTRIBUTES and INODESET_IATTRIBUTES *)
  Variable attrs : pra.

  Definition attributes_of (t : target) : list attribute :=
    match t with
    | TNode i => nth i (p_nodes attrs) []
    | TSet i => nth i (p_sets attrs) []
    end.

  (** symboltable.c:41-55 [STlookup], restricted to nodes and nodesets: names
      are unique (C27) and child types are nodes or nodesets (C28); otherwise
      the assertions of lines 156, 164, 282, 287 fail. *)
  Definition find_type (id : ident) : option target :=
    match find_node nodes id with
    | Some i => Some (TNode i)
    | None => option_map TSet (find_nodeset sets id)
    end.

  (** check_product_rules.c:76-94 [find_child]; [i] is [curr_node] *)
  Definition find_child (s : cpr) (i : nat) (n : inode) (id : ident) : cpr * option child :=
    match HTfind_nested Nat.eqb (found_children s) i (ID_LWR id) with
    | Some c => (s, Some c)
    | None =>
        match find (fun c => same_name (ch_name c) id) (nd_children n) with
        | Some c =>
            (mk_cpr (HTinsert_nested Nat.eqb (found_children s) i (ID_LWR id) c)
                    (found_attributes s) (c_errors s) (c_links s), Some c)
        | None => (s, None)
        end
    end.

  (** check_product_rules.c:96-113 [find_attribute] *)
  Definition find_attribute (s : cpr) (t : target) (id : ident) : cpr * option attribute :=
    match HTfind_nested target_eqb (found_attributes s) t (ID_LWR id) with
    | Some x => (s, Some x)
    | None =>
        match find (fun x => same_name (at_name x) id) (attributes_of t) with
        | Some x =>
            (mk_cpr (found_children s)
                    (HTinsert_nested target_eqb (found_attributes s) t (ID_LWR id) x)
                    (c_errors s) (c_links s), Some x)
        | None => (s, None)
        end
    end.

  (** check_product_rules.c:115-136 [find_product_rule] *)
  Definition find_product_rule (eqs : list equation) (child : option ident) (id : ident) : bool :=
    existsb (fun e =>
      match child, ar_inode (eq_rule e) with
      | None, None => true
      | Some c, Some c' => same_name c c'
      | _, _ => false
      end && same_name (ar_attribute (eq_rule e)) id) eqs.

  (** check_product_rules.c:159-205, the node(set) being known *)
  Definition check_in_target (s : cpr) (i : nat) (r : attribute_reference) (c : option child) (t : target)
      (in_rule : bool) : cpr :=
    match find_attribute s t (ar_attribute r) with
    | (s, None) => add_error s (NoSuchAttribute (ar_attribute r))
    | (s, Some x) =>
        let s := add_link s (mk_link i r c t x) in
        if in_rule then
          match ar_inode r with
          | None => if negb (at_is_synthesized x) then add_error s (NotSynthesized (at_name x)) else s
          | Some cn => if negb (at_is_inherited x) then add_error s (NotInherited cn (at_name x)) else s
          end
        else s
    end.

  (** check_product_rules.c:138-205 [check_attribute_reference] *)
  Definition check_attribute_reference (s : cpr) (i : nat) (n : inode) (r : attribute_reference)
      (in_rule : bool) : outcome cpr :=
    match ar_inode r with
    | None => Val (check_in_target s i r None (TNode i) in_rule)
    | Some cn =>
        match find_child s i n cn with
        | (s, None) => Val (add_error s (NoSuchChild cn))
        | (s, Some c) =>
            match find_type (ch_type c) with
            | None => Aborted
            | Some t => Val (check_in_target s i r (Some c) t in_rule)
            end
        end
    end.

  (** check_product_rules.c:207-221 [check_product_rule] *)
  Definition check_product_rule (s : cpr) (n : inode) (child : option ident) (id : ident) : cpr :=
    if find_product_rule (nd_equations n) child id then s
    else add_error s (MissingRule (nd_name n) child id).

  (** check_product_rules.c:247-261 [CPRequation], [CPRequation_dependency] *)
  Fixpoint CPRargs (s : cpr) (i : nat) (n : inode) (l : list attribute_reference) : outcome cpr :=
    match l with
    | [] => Val s
    | r :: l => let! s := check_attribute_reference s i n r false in CPRargs s i n l
    end.
  Fixpoint CPRequations (s : cpr) (i : nat) (n : inode) (l : list equation) : outcome cpr :=
    match l with
    | [] => Val s
    | e :: l =>
        let! s := check_attribute_reference s i n (eq_rule e) true in
        let! s := CPRargs s i n (eq_args e) in
        CPRequations s i n l
    end.

  (** check_product_rules.c:276-301 [CPRchild] *)
  Fixpoint CPRchildren (s : cpr) (n : inode) (l : list child) : outcome cpr :=
    match l with
    | [] => Val s
    | c :: l =>
        match find_type (ch_type c) with
        | None => Aborted
        | Some t =>
            CPRchildren
              (fold_left (fun s x => if at_is_inherited x
                                     then check_product_rule s n (Some (ch_name c)) (at_name x) else s)
                 (attributes_of t) s) n l
        end
    end.

  (** check_product_rules.c:263-274 [CPRattribute] *)
  Definition CPRattributes (s : cpr) (n : inode) (l : list attribute) : cpr :=
    fold_left (fun s x => if at_is_synthesized x then check_product_rule s n None (at_name x) else s) l s.

  (** check_product_rules.c:232-242 [CPRinode] *)
  Fixpoint CPRinodes (s : cpr) (i : nat) (l : list inode) : outcome cpr :=
    match l with
    | [] => Val s
    | n :: l =>
        let! s := CPRequations s i n (nd_equations n) in
        let! s := CPRchildren s n (nd_children n) in
        CPRinodes (CPRattributes s n (attributes_of (TNode i))) (S i) l
    end.

  (** check_product_rules.c:24-28, 226-230 [CPRinit], [CPRast] *)
  Definition CPRast : outcome cpr := CPRinodes (mk_cpr [] [] [] []) 0 nodes.
End Check.
