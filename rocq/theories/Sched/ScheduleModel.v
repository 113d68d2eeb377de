(** Model of the first half of the traversal scheduleAttributeVisits
    (cocogen/frontend/attribute_scheduler/schedule_attribute_visits.c): a
    dependency graph for every node and for every member of every nodeset,
    exchange of induced dependencies, errors.

    It runs on what the passes before it leave: the nodes and nodesets with
    their attribute lists (PropagateModel.v), the evaluated set literals
    (SetsModel.v) and the links set by checkProductRules
    (ProductRulesModel.v).  The same node in the AST is the same pointer:
    an occurrence is a node type or nodeset, or the [k]th child of the [i]th
    node; an attribute is a position in the attribute list of a node or
    nodeset.  Assertions are off (/repo/Makefile:3): where one would fail, a
    NULL pointer is used later, which is [Undef].  Not modelled: dot files,
    messages (an error is the GRerror). *)

From Coq Require Import List Ascii Bool Arith.
From Verif Require Import Base.Outcome Palm.StrModel Front.Syntax Front.NodesetTableModel
  Front.PropagateModel Front.ProductRulesModel Sched.GraphModel.
Import ListNotations.
Local Open Scope outcome_scope.

Inductive occurrence := OType (t : target) | OChild (i k : nat).
Definition aptr : Type := target * nat.

Lemma target_dec : forall x y : target, {x = y} + {x <> y}.
Proof. decide equality; apply Nat.eq_dec. Defined.
Lemma occurrence_dec : forall x y : occurrence, {x = y} + {x <> y}.
Proof. decide equality; (apply target_dec || apply Nat.eq_dec). Defined.
Lemma aptr_dec : forall x y : aptr, {x = y} + {x <> y}.
Proof. decide equality; [apply Nat.eq_dec|apply target_dec]. Defined.
Lemma type_dec : forall x y : option target, {x = y} + {x <> y}.
Proof. decide equality. apply target_dec. Defined.

Notation ag_graph := (graph occurrence aptr).
Notation ag_vertex := (vertex occurrence aptr).
Notation ag_error := (GRerror occurrence aptr).
Notation ag_lookup := (GRlookup_node occurrence_dec aptr_dec).
Notation ag_add_edge := (GRadd_edge occurrence_dec aptr_dec).
Notation ag_close := (GRclose_transitivity occurrence_dec aptr_dec).

(** ATTRIBUTE_IS_INHERITED || ATTRIBUTE_IS_SYNTHESIZED *)
Definition in_grammar (x : attribute) : bool := at_is_inherited x || at_is_synthesized x.

Fixpoint positions_from {X} (f : X -> bool) (k : nat) (l : list X) : list nat :=
  match l with
  | [] => []
  | x :: l => if f x then k :: positions_from f (S k) l else positions_from f (S k) l
  end.
Definition positions {X} (f : X -> bool) (l : list X) : list nat := positions_from f 0 l.

(** What GRadd_edge, GRadd_new_intra_node_dependency and handle_graph_error
    (lines 157-183) change: the graph, the list [edges], the errors. *)
Definition building : Type := ag_graph * list (ag_vertex * ag_vertex) * list ag_error.
Definition add_edge (s : building) (x y : ag_vertex) : building :=
  let '(g, edges, errs) := s in
  let r := ag_add_edge g x y GRnormal in
  (fst r, edges, report (snd r) errs).

Section Schedule.
  Variable nodes : list inode.
  Variable sets : list inodeset.
  Variable attrs : pra.
  (** INODESET_EXPR after unwrapSetExpr *)
  Variable literals : list literal.

  Notation attributes_of := (attributes_of attrs).

  (** common.h:35-44 [get_node_type] *)
  Definition get_node_type (o : occurrence) : option target :=
    match o with
    | OType t => Some t
    | OChild i k =>
        match nth_error nodes i with
        | None => None
        | Some n => match nth_error (nd_children n) k with
                    | None => None
                    | Some c => find_type nodes sets (ch_type c)
                    end
        end
    end.

  (** schedule_attribute_visits.c:185-193 [add_attributes] *)
  Definition add_attributes (g : ag_graph) (o : occurrence) (t : target) : ag_graph :=
    fold_left (fun g k => GRadd_node g (o, (t, k))) (positions in_grammar (attributes_of t)) g.

  (** ATTRIBUTE_REFERENCE_CHILD_REFERENCE (or the node itself) and
      ATTRIBUTE_REFERENCE_REFERENCE, set by check_product_rules.c:138-205 *)
  Definition first_position {X} (f : X -> bool) (l : list X) : option nat :=
    hd_error (positions f l).
  Definition resolve (i : nat) (n : inode) (r : attribute_reference) : option ag_vertex :=
    let attribute_in o t :=
      match first_position (fun x => same_name (at_name x) (ar_attribute r)) (attributes_of t) with
      | Some k => Some (o, (t, k))
      | None => None
      end in
    match ar_inode r with
    | None => attribute_in (OType (TNode i)) (TNode i)
    | Some cn =>
        match first_position (fun c => same_name (ch_name c) cn) (nd_children n) with
        | None => None
        | Some k => match get_node_type (OChild i k) with
                    | None => None
                    | Some t => attribute_in (OChild i k) t
                    end
        end
    end.
  Definition attribute_at (a : aptr) : option attribute := nth_error (attributes_of (fst a)) (snd a).

  (** schedule_attribute_visits.c:353-373: one argument of an equation for
      [y] *)
  Definition add_argument (i : nat) (n : inode) (y : ag_vertex) (s : building) (r : attribute_reference) :
      outcome building :=
    match resolve i n r with
    | None => Undef
    | Some x =>
        match attribute_at (snd x) with
        | None => Undef
        | Some d =>
            if negb (in_grammar d) then Val s
            else
              let '(g, edges, errs) := s in
              match ag_lookup g (fst x) (snd x) with
              | None => Undef
              | Some x =>
                  let '(g, edges, errs) := add_edge s x y in
                  Val (g, if occurrence_dec (fst x) (fst y)
                          then GRadd_new_intra_node_dependency edges x y else edges, errs)
              end
        end
    end.
  Fixpoint add_arguments (i : nat) (n : inode) (y : ag_vertex) (s : building) (l : list attribute_reference) :
      outcome building :=
    match l with
    | [] => Val s
    | r :: l => let! s := add_argument i n y s r in add_arguments i n y s l
    end.

  (** schedule_attribute_visits.c:341-374.  That [n2] is not NULL is an
      assertion (line 352), also for an equation without arguments. *)
  Fixpoint add_equations (i : nat) (n : inode) (s : building) (l : list equation) : outcome building :=
    match l with
    | [] => Val s
    | e :: l =>
        match resolve i n (eq_rule e) with
        | None => Undef
        | Some y =>
            match ag_lookup (fst (fst s)) (fst y) (snd y) with
            | None => Undef
            | Some y =>
                let! s := add_arguments i n y s (eq_args e) in
                add_equations i n s l
            end
        end
    end.

  (** GRclose_transitivity on the graph being built, the error handled *)
  Definition close_building (s : building) : outcome building :=
    let '(g, edges, errs) := s in
    let! c := ag_close g edges in
    Val (cl_graph c, cl_added c, report (cl_error c) errs).

  (** schedule_attribute_visits.c:334-339 *)
  Fixpoint add_children (i k : nat) (g : ag_graph) (l : list child) : outcome ag_graph :=
    match l with
    | [] => Val g
    | c :: l =>
        match find_type nodes sets (ch_type c) with
        | None => Undef
        | Some t => add_children i (S k) (add_attributes g (OChild i k) t) l
        end
    end.

  (** schedule_attribute_visits.c:328-378 [generate_graph_node] *)
  Definition generate_graph_node (i : nat) (n : inode) : outcome building :=
    let g := add_attributes GRnew (OType (TNode i)) (TNode i) in
    let! g := add_children i 0 g (nd_children n) in
    let! s := add_equations i n (g, [], []) (nd_equations n) in
    close_building s.

  (** schedule_attribute_visits.c:239-254 [add_nodeset_entries] *)
  Fixpoint add_nodeset_entries (l : literal) (entries : list nat) : outcome (list nat) :=
    match l with
    | LNull => Val entries
    | SetLiteral r a b =>
        match find_node nodes r with
        | None => Undef
        | Some m =>
            let! entries := add_nodeset_entries a (m :: entries) in
            add_nodeset_entries b entries
        end
    end.

  (** schedule_attribute_visits.c:264-276 [get_equivalent_attribute]: the last
      one with the name *)
  Definition get_equivalent_attribute (x : attribute) (m : nat) : option aptr :=
    match rev (positions (fun c => same_name (at_name x) (at_name c)) (attributes_of (TNode m))) with
    | [] => None
    | k :: _ => Some (TNode m, k)
    end.

  (** schedule_attribute_visits.c:298-306: look up, or add *)
  Definition find_or_add (g : ag_graph) (o : occurrence) (a : aptr) : ag_graph :=
    match ag_lookup g o a with Some _ => g | None => GRadd_node g (o, a) end.

  (** schedule_attribute_visits.c:291-315 for the attribute at position [k] *)
  Definition add_member_attribute (j m : nat) (s : building) (k : nat) : outcome building :=
    match nth_error (attributes_of (TSet j)) k with
    | None => Undef
    | Some x =>
        let '(g, edges, errs) := s in
        let n1 := (OType (TSet j), (TSet j, k)) in
        let g := find_or_add g (fst n1) (snd n1) in
        match get_equivalent_attribute x m with
        | None => Undef
        | Some a =>
            let n2 := (OType (TNode m), a) in
            let g := find_or_add g (fst n2) (snd n2) in
            let s := (g, edges, errs) in
            let s := if at_is_inherited x then add_edge s n1 n2 else s in
            Val (if at_is_synthesized x then add_edge s n2 n1 else s)
        end
    end.
  Fixpoint add_member_attributes (j m : nat) (s : building) (l : list nat) : outcome building :=
    match l with
    | [] => Val s
    | k :: l => let! s := add_member_attribute j m s k in add_member_attributes j m s l
    end.

  (** schedule_attribute_visits.c:286-323: one member *)
  Definition generate_graph_member (j m : nat) (edges : list (ag_vertex * ag_vertex)) : outcome building :=
    let g := add_attributes GRnew (OType (TSet j)) (TSet j) in
    let g := add_attributes g (OType (TNode m)) (TSet j) in
    let! s := add_member_attributes j m (g, edges, []) (positions in_grammar (attributes_of (TSet j))) in
    close_building s.

  (** schedule_attribute_visits.c:278-326 [generate_graph_nodeset]; the list
      of graphs is built backwards *)
  Fixpoint generate_member_graphs (j : nat) (entries : list nat) (graphs : list (nat * ag_graph))
      (edges : list (ag_vertex * ag_vertex)) (errs : list ag_error) :
      outcome (list (nat * ag_graph) * list (ag_vertex * ag_vertex) * list ag_error) :=
    match entries with
    | [] => Val (graphs, edges, errs)
    | m :: entries =>
        let! s := generate_graph_member j m edges in
        let '(g, edges, errs') := s in
        generate_member_graphs j entries ((m, g) :: graphs) edges (errs ++ errs')
    end.
  Definition generate_graph_nodeset (j : nat) (l : literal) :
      outcome (list (nat * ag_graph) * list (ag_vertex * ag_vertex) * list ag_error) :=
    let! entries := add_nodeset_entries l [] in
    generate_member_graphs j entries [] [] [].

  (** The graphs in [graphs_htable]: a node has one, a nodeset one for each
      member, in this order. *)
  Inductive graph_key := KNode (i : nat) | KMember (j m : nat).
  Notation combine_edges := (combine_edgelists aptr_dec type_dec get_node_type).

  (** schedule_attribute_visits.c:505-515 *)
  Fixpoint node_graphs (i : nat) (l : list inode) (pending : list (@induced aptr (option target))) :
      outcome (list (graph_key * ag_graph) * list induced * list ag_error) :=
    match l with
    | [] => Val ([], pending, [])
    | n :: l =>
        let! s := generate_graph_node i n in
        let '(g, edges, errs) := s in
        let! r := node_graphs (S i) l (combine_edges pending edges) in
        let '(gs, pending, errs') := r in
        Val ((KNode i, g) :: gs, pending, errs ++ errs')
    end.
  (** schedule_attribute_visits.c:517-524 *)
  Fixpoint nodeset_graphs (j : nat) (l : list literal) (pending : list (@induced aptr (option target))) :
      outcome (list (graph_key * ag_graph) * list induced * list ag_error) :=
    match l with
    | [] => Val ([], pending, [])
    | lit :: l =>
        let! s := generate_graph_nodeset j lit in
        let '(graphs, edges, errs) := s in
        let! r := nodeset_graphs (S j) l (combine_edges pending edges) in
        let '(gs, pending, errs') := r in
        Val (map (fun mg => (KMember j (fst mg), snd mg)) graphs ++ gs, pending, errs ++ errs')
    end.

  (** schedule_attribute_visits.c:496-560 [SAVast] up to the test of
      [errors].  HTiterate visits the graphs in an order that depends on
      addresses, the same one in every round: [shuffle]. *)
  Variable shuffle : list (graph_key * ag_graph) -> list (graph_key * ag_graph).
  Definition SAVgraphs : outcome (list (graph_key * ag_graph) * list ag_error) :=
    let! r := node_graphs 0 nodes [] in
    let '(gs, pending, errs) := r in
    let! r := nodeset_graphs 0 literals pending in
    let '(gs', pending, errs') := r in
    let all := shuffle (gs ++ gs') in
    let! r := induce_loop occurrence_dec aptr_dec type_dec get_node_type (induce_fuel all) all pending in
    Val (fst r, errs ++ errs' ++ snd r).
End Schedule.
