(** Model of the diagrams of dependency graphs that scheduleAttributeVisits
    writes (pre_induce.dot, induce_N.dot, partitioned.dot):
    cocogen/dot/gen_dot_ag.c and [dump_dotfile] in
    cocogen/frontend/attribute_scheduler/schedule_attribute_visits.c:461-491.

    A file is a list of DOT statements.  Identifiers and labels are the
    characters that are printed; the layout around them (spaces, semicolons,
    brackets of attribute lists) is left out.  The numbers printed with "%d"
    for a size_t are those numbers. *)

From Coq Require Import String.
From Coq Require Import List Ascii Bool Arith DecimalString DecimalNat.
From Verif Require Import Base.Outcome Palm.StrModel Front.Syntax Front.PropagateModel Front.ProductRulesModel
  Sched.GraphModel Sched.ScheduleModel Sched.PartitionModel.
Import ListNotations.
Local Open Scope list_scope.

Definition text := list ascii.
Definition txt (s : string) : text := list_ascii_of_string s.

Inductive stmt :=
| Begin (id : text)                   (* [digraph id {] or [subgraph id {] *)
| Set_ (k : text) (v : text)          (* [k="v";] or [k=<v>;] *)
| Point (id : text) (label : text)    (* [id [label=<label>];] *)
| Arrow (x y : text) (dotted : bool)  (* [x -> y;] or [x -> y [style="dotted"];] *)
| End.                                (* [}] *)

Definition decimal (n : nat) : text := txt (NilEmpty.string_of_uint (Nat.to_uint n)).

Section Draw.
  Context {O A : Type}.
  Variable O_dec : forall x y : O, {x = y} + {x <> y}.
  (** ID_ORIG(get_node_name(node->node)) (gen_dot_ag.c:16-25) *)
  Variable node_name : O -> text.
  (** For a child, ID_ORIG of the name of the node or nodeset its type refers
      to (lines 81-84). *)
  Variable child_type : O -> option text.
  (** ID_ORIG(ATTRIBUTE_NAME(node->attribute)) *)
  Variable attribute_name : A -> text.
  (** [partition_table], if it is not NULL, with [lookup_partition] (lines
      36-63); the messages on stderr are left out. *)
  Variable partition : option (vertex O A -> nat).

  (** gen_dot_ag.c:96-99, 126-130 "attr_%s__%s__%s" *)
  Definition point_id (name : text) (v : vertex O A) : text :=
    txt "attr_" ++ name ++ txt "__" ++ ID_LWR (node_name (fst v)) ++ txt "__" ++ ID_LWR (attribute_name (snd v)).
  (** gen_dot_ag.c:101-111 *)
  Definition partition_label (v : vertex O A) : text :=
    match partition with
    | None => []
    | Some f =>
        let p := f v in
        if p =? 0 then txt " <I><SUB>NaN</SUB></I>"
        else if p mod 2 =? 0 then txt " <I>I<SUB>" ++ decimal (p / 2) ++ txt "</SUB></I>"
        else txt " <I>S<SUB>" ++ decimal (p / 2) ++ txt "</SUB></I>"
    end.
  (** gen_dot_ag.c:91-113 *)
  Definition draw_attributes (name : text) (g : graph O A) (o : O) : list stmt :=
    flat_map (fun v => if O_dec (fst v) o
                       then [Point (point_id name v) (attribute_name (snd v) ++ partition_label v)] else [])
             (g_nodes g).
  (** gen_dot_ag.c:77-115 *)
  Definition draw_box (name : text) (g : graph O A) (o : O) : list stmt :=
    [Begin (txt "cluster_" ++ name ++ txt "__" ++ ID_LWR (node_name o));
     Set_ (txt "style") (txt "filled"); Set_ (txt "color") (txt "ivory");
     Set_ (txt "label")
       (match child_type o with
        | Some t => txt "<B>" ++ t ++ txt "</B> " ++ node_name o
        | None => txt "<B>" ++ node_name o ++ txt "</B>"
        end)] ++
    draw_attributes name g o ++ [End].
  (** gen_dot_ag.c:73-116: [seen] holds lower-case names. *)
  Fixpoint draw_boxes (name : text) (g : graph O A) (seen : list text) (l : list (vertex O A)) : list stmt :=
    match l with
    | [] => []
    | v :: l =>
        let n := ID_LWR (node_name (fst v)) in
        if in_dec (list_eq_dec ascii_dec) n seen then draw_boxes name g seen l
        else draw_box name g (fst v) ++ draw_boxes name g (n :: seen) l
    end.
  (** gen_dot_ag.c:118-136 *)
  Definition draw_edge (name : text) (e : @edge O A) : list stmt :=
    let induced := match etype e with GRinduced => true | _ => false end in
    if induced && (if O_dec (fst (first e)) (fst (second e)) then false else true) then []
    else [Arrow (point_id name (first e)) (point_id name (second e)) induced].

  (** gen_dot_ag.c:65-140 [GDag_dot_add_graph] *)
  Definition GDag_dot_add_graph (name : text) (g : graph O A) : list stmt :=
    [Begin (txt "cluster_" ++ name);
     Set_ (txt "style") (txt "filled"); Set_ (txt "color") (txt "lightgrey");
     Set_ (txt "label") (txt "Production of <B>" ++ name ++ txt "</B>")] ++
    draw_boxes name g [] (g_nodes g) ++ flat_map (draw_edge name) (g_edges g) ++ [End].

  (** schedule_attribute_visits.c:468-488: the graphs of one node or nodeset
      are numbered from [i] if there are several. *)
  Fixpoint name_graphs (n : text) (multiple : bool) (i : nat) (l : list (graph O A)) : list (text * graph O A) :=
    match l with
    | [] => []
    | g :: l => ((if multiple then n ++ txt "_" ++ decimal i else n), g) :: name_graphs n multiple (S i) l
    end.
  Definition named_graphs (entry : text * list (graph O A)) : list (text * graph O A) :=
    name_graphs (fst entry) (1 <? length (snd entry)) 1 (snd entry).
  (** schedule_attribute_visits.c:461-491 [dump_dotfile]; [graphs] is the hash
      table in the order of its iteration. *)
  Definition dump_dotfile (graphs : list (text * list (graph O A))) : list stmt :=
    [Begin (txt "G")] ++
    flat_map (fun ng => GDag_dot_add_graph (fst ng) (snd ng)) (flat_map named_graphs graphs) ++ [End].
End Draw.

(** ** The names in a specification *)
Section Names.
  Variable a : ast.
  Variable s : pra.

  (** A position that is not there, which is not in a graph (C32), has no
      name. *)
  Definition type_name (t : target) : text :=
    match t with
    | TNode i => match nth_error (a_nodes a) i with Some n => nd_name n | None => [] end
    | TSet j => match nth_error (a_nodesets a) j with Some m => ns_name m | None => [] end
    end.
  (** gen_dot_ag.c:16-25 *)
  Definition occurrence_name (o : occurrence) : text :=
    match o with
    | OType t => type_name t
    | OChild i k =>
        match nth_error (a_nodes a) i with
        | Some n => match nth_error (nd_children n) k with Some c => ch_name c | None => [] end
        | None => []
        end
    end.
  (** gen_dot_ag.c:82-83 *)
  Definition occurrence_type (o : occurrence) : option text :=
    match o with
    | OType _ => None
    | OChild _ _ => match get_node_type (a_nodes a) (a_nodesets a) o with Some t => Some (type_name t) | None => Some [] end
    end.
  Definition attribute_label (x : aptr) : text :=
    match attribute_at s x with Some d => at_name d | None => [] end.
  (** gen_dot_ag.c:36-63 *)
  Definition lookup_partition (tables : partition_tables_type) (v : ag_vertex) : nat :=
    match get_node_type (a_nodes a) (a_nodesets a) (fst v) with
    | None => 0
    | Some t => match table_of tables t with
                | None => 0
                | Some tab => partition_of tab (ID_LWR (attribute_label (snd v)))
                end
    end.

  (** The entries of [graphs_htable]: of a node its graph, of a nodeset its
      graphs, in the order of [gs]; without an entry for empty nodesets, of
      which nothing is drawn. *)
  Definition graphs_of (gs : list (graph_key * ag_graph)) (t : target) : list ag_graph :=
    flat_map (fun kg => if target_dec (key_of (fst kg)) t then [snd kg] else []) gs.
  Definition grammar_diagram (tables : option partition_tables_type) (order : list target)
      (gs : list (graph_key * ag_graph)) : list stmt :=
    dump_dotfile occurrence_dec occurrence_name occurrence_type attribute_label (option_map lookup_partition tables)
      (map (fun t => (type_name t, graphs_of gs t)) order).
End Names.
