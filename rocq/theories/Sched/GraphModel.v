(** Model of cocogen/frontend/attribute_scheduler/graph.c and of the part of
    schedule_attribute_visits.c that works on arbitrary graphs: induced
    dependencies are exchanged between graphs until nothing changes.

    A graph node is a pair of pointers, to an occurrence (a node type, a
    nodeset or a child) and to an attribute; a graph has at most one graph node
    for a pair (assertion in graph.c:138), so the pair stands for the pointer
    to the graph node.  Hash tables are finite maps (C01): the edge map is the
    list of edges, in which the first entry for a pair counts
    (graph.c:48-60 keeps an entry that is there).  Built without NDEBUG
    the program would stop at the assertion of line 207 if an edge is added
    twice; this is the release build (/repo/Makefile:3), in which it is kept.
    malloc and free are not modelled. *)

From Coq Require Import List Bool Arith.
From Verif Require Import Base.Outcome.
Import ListNotations.
Local Open Scope outcome_scope.

(** graph.h:16-21, 42-48 *)
Inductive GRedge_type := GRnormal | GRinduced | GRintravisit | GRintravisit_induced.
Inductive GRerror_type :=
  GR_error_cycle | GR_error_cycle_induced | GR_error_cycle_intravisit | GR_error_cycle_intravisit_induced.

Section Graph.
  Context {O A : Type}.
  Variable O_dec : forall x y : O, {x = y} + {x <> y}.
  Variable A_dec : forall x y : A, {x = y} + {x <> y}.

  (** graph.h:5-9, 23-27, 36-40 *)
  Definition vertex : Type := O * A.
  Record edge := mk_edge { first : vertex; second : vertex; etype : GRedge_type }.
  Record graph := mk_graph { g_nodes : list vertex; g_edges : list edge }.
  (** graph.h:50-58; GR_error_none is [None] *)
  Record GRerror := mk_error { er_type : GRerror_type; er_n1 : vertex; er_n2 : vertex }.

  (** graph.c:30-32 [GRnode_equal] *)
  Definition veq (x y : vertex) : bool :=
    if O_dec (fst x) (fst y) then if A_dec (snd x) (snd y) then true else false else false.

  (** graph.c:62-81 [GRnew] *)
  Definition GRnew : graph := mk_graph [] [].

  (** graph.c:131-151 [GRadd_node] *)
  Definition GRadd_node (g : graph) (x : vertex) : graph := mk_graph (g_nodes g ++ [x]) (g_edges g).

  (** graph.c:153-158 [GRlookup_node] *)
  Definition GRlookup_node (g : graph) (o : O) (a : A) : option vertex :=
    if existsb (veq (o, a)) (g_nodes g) then Some (o, a) else None.

  (** graph.c:38-46 [HTlookup_edge] *)
  Definition HTlookup_edge (g : graph) (x y : vertex) : option edge :=
    find (fun e => veq (first e) x && veq (second e) y) (g_edges g).
  Definition has_edge (g : graph) (x y : vertex) : bool :=
    match HTlookup_edge g x y with Some _ => true | None => false end.

  (** graph.c:262-273 [GRlookup_edge] *)
  Definition GRlookup_edge (g : graph) (x y : vertex) (intravisit : bool) : bool :=
    match HTlookup_edge g x y with
    | None => false
    | Some e =>
        match etype e with
        | GRintravisit | GRintravisit_induced => intravisit
        | _ => true
        end
    end.

  (** graph.c:198-220 [add_edge_internal] *)
  Definition add_edge_internal (g : graph) (x y : vertex) (t : GRedge_type) : graph :=
    mk_graph (g_nodes g) (g_edges g ++ [mk_edge x y t]).

  (** graph.c:222-250 [check_cycle] *)
  Definition check_cycle (g : graph) (x y : vertex) (t : GRedge_type) : option GRerror :=
    if has_edge g y x then
      Some (mk_error (match t with
                      | GRnormal => GR_error_cycle
                      | GRinduced => GR_error_cycle_induced
                      | GRintravisit => GR_error_cycle_intravisit
                      | GRintravisit_induced => GR_error_cycle_intravisit_induced
                      end) x y)
    else None.

  (** graph.c:252-260 [GRadd_edge] *)
  Definition GRadd_edge (g : graph) (x y : vertex) (t : GRedge_type) : graph * option GRerror :=
    match check_cycle g x y t with
    | Some e => (g, Some e)
    | None => (add_edge_internal g x y t, None)
    end.

  (** graph.c:275-286 [GRadd_new_intra_node_dependency] *)
  Definition GRadd_new_intra_node_dependency (added : list (vertex * vertex)) (x y : vertex) :=
    (x, y) :: added.

  (** graph.c:288-324 [GRclose_transitivity].  The loop over [k] ends at the
      first one found.  One turn of the loops over [i] and [j]: *)
  Record closing := mk_closing {
    cl_graph : graph; cl_added : list (vertex * vertex); cl_changed : bool; cl_error : option GRerror }.
  Definition same_occurrence (x y : vertex) : bool := if O_dec (fst x) (fst y) then true else false.
  Definition close_pair (s : closing) (ij : vertex * vertex) : closing :=
    let '(i, j) := ij in
    let g := cl_graph s in
    match cl_error s with
    | Some _ => s
    | None =>
        if veq i j || has_edge g i j then s
        else if existsb (fun k => negb (veq i k) && negb (veq j k) && has_edge g i k && has_edge g k j) (g_nodes g)
        then
          let g' := add_edge_internal g i j GRinduced in
          mk_closing g'
            (if same_occurrence i j then GRadd_new_intra_node_dependency (cl_added s) i j else cl_added s)
            true (check_cycle g' i j GRinduced)
        else s
    end.
  Fixpoint close_loop (fuel : nat) (g : graph) (added : list (vertex * vertex)) : outcome closing :=
    match fuel with
    | 0 => NoFuel
    | S fuel =>
        let s := fold_left close_pair (list_prod (g_nodes g) (g_nodes g)) (mk_closing g added false None) in
        match cl_error s with
        | Some _ => Val s
        | None => if cl_changed s then close_loop fuel (cl_graph s) (cl_added s) else Val s
        end
    end.
  Definition GRclose_transitivity (g : graph) (added : list (vertex * vertex)) : outcome closing :=
    close_loop (S (length (g_nodes g) * length (g_nodes g))) g added.

  Definition report (e : option GRerror) (l : list GRerror) : list GRerror :=
    match e with Some e => l ++ [e] | None => l end.

  (** graph.c:160-177 [GRget_inter_node_dependencies], 179-196
      [GRget_node_dependencies]; the lists are built backwards *)
  Definition GRget_inter_node_dependencies (g : graph) (x : vertex) : list vertex :=
    rev (filter (fun d => negb (veq d x) && same_occurrence d x && GRlookup_edge g d x false) (g_nodes g)).
  Definition GRget_node_dependencies (g : graph) (x : vertex) : list vertex :=
    rev (filter (fun d => negb (veq d x) && GRlookup_edge g d x false) (g_nodes g)).

  (** ** Exchanging induced dependencies (schedule_attribute_visits.c) *)

  Context {T : Type}.
  Variable T_dec : forall x y : T, {x = y} + {x <> y}.
  (** common.h:35-44 [get_node_type] *)
  Variable get_node_type : O -> T.

  (** A dependency between two attributes of a type. *)
  Record induced := mk_induced { in_first : T; in_second : T; in_from : A; in_to : A }.
  Definition induced_eqb (x y : induced) : bool :=
    (if T_dec (in_first x) (in_first y) then true else false) &&
    (if T_dec (in_second x) (in_second y) then true else false) &&
    (if A_dec (in_from x) (in_from y) then true else false) &&
    (if A_dec (in_to x) (in_to y) then true else false).

  (** schedule_attribute_visits.c:206-237 [combine_edgelists]; the map holds
      exactly the edges of the list *)
  Definition combine_edgelists (edge_list : list induced) (new_edges : list (vertex * vertex)) : list induced :=
    fold_left (fun l e =>
      let n := mk_induced (get_node_type (fst (fst e))) (get_node_type (fst (snd e)))
                          (snd (fst e)) (snd (snd e)) in
      if existsb (induced_eqb n) l then l else n :: l) new_edges edge_list.

  (** schedule_attribute_visits.c:380-404 [add_induced_edges] *)
  Definition add_induced_at (e : induced) (st : graph * list GRerror) (x : vertex) : graph * list GRerror :=
    let '(g, errs) := st in
    if T_dec (in_first e) (get_node_type (fst x)) then
      match GRlookup_node g (fst x) (in_from e), GRlookup_node g (fst x) (in_to e) with
      | Some from, Some to =>
          if GRlookup_edge g from to false then st
          else let r := GRadd_edge g from to GRinduced in (fst r, report (snd r) errs)
      | _, _ => st
      end
    else st.
  Definition add_induced_edge (st : graph * list GRerror) (e : induced) : graph * list GRerror :=
    fold_left (add_induced_at e) (g_nodes (fst st)) st.
  Definition add_induced_edges (g : graph) (edges : list induced) :
      outcome (graph * list (vertex * vertex) * list GRerror) :=
    let st := fold_left add_induced_edge edges (g, []) in
    let! c := GRclose_transitivity (fst st) [] in
    Val (cl_graph c, cl_added c, report (cl_error c) (snd st)).

  (** schedule_attribute_visits.c:531-552: one round over all graphs, and the
      loop; [K] is the key of a graph in the table *)
  Context {K : Type}.
  Fixpoint induce_round (gs : list (K * graph)) (edges pending : list induced) :
      outcome (list (K * graph) * list induced * list GRerror) :=
    match gs with
    | [] => Val ([], pending, [])
    | (k, g) :: gs =>
        let! r := add_induced_edges g edges in
        let '(g, added, errs) := r in
        let! s := induce_round gs edges (combine_edgelists pending added) in
        let '(gs, pending, errs') := s in
        Val ((k, g) :: gs, pending, errs ++ errs')
    end.
  Fixpoint induce_loop (fuel : nat) (gs : list (K * graph)) (pending : list induced) :
      outcome (list (K * graph) * list GRerror) :=
    match pending with
    | [] => Val (gs, [])
    | _ =>
        match fuel with
        | 0 => NoFuel
        | S fuel =>
            let! r := induce_round gs pending [] in
            let '(gs, pending, errs) := r in
            let! s := induce_loop fuel gs pending in
            Val (fst s, errs ++ snd s)
        end
    end.
  Definition induce_fuel (gs : list (K * graph)) : nat :=
    S (fold_right (fun e n => length (g_nodes (snd e)) * length (g_nodes (snd e)) + n) 0 gs).
End Graph.
Arguments vertex : clear implicits.
Arguments graph : clear implicits.
Arguments GRerror : clear implicits.
