(** Model of cocogen/frontend/attribute_scheduler/partition_nodes.c, of
    [collect_visits] in collect_visits.c and of the parts of SAVast that call
    them (schedule_attribute_visits.c:562-617).

    The queue is a list, oldest first (C39); a hash table is a finite map
    (C01), here a list of entries.  [repartition_nodes] and
    [find_intravisit_dependencies] are not called and not modelled. *)

From Coq Require Import List Ascii Bool Arith.
From Verif Require Import Base.Outcome Palm.StrModel Front.Syntax Front.PropagateModel
  Front.ProductRulesModel Sched.GraphModel Sched.ScheduleModel.
Import ListNotations.
Local Open Scope outcome_scope.

Notation ag_dependencies := (GRget_inter_node_dependencies occurrence_dec aptr_dec).

(** Partition number by lower-case attribute name; 0 is NULL, not there. *)
Definition partition_table : Type := list (cstring * nat).
Fixpoint partition_of (t : partition_table) (id : cstring) : nat :=
  match t with
  | [] => 0
  | (k, n) :: t => if list_eq_dec ascii_dec k id then n else partition_of t id
  end.

Definition is_of (o : occurrence) (x : ag_vertex) : bool := if occurrence_dec (fst x) o then true else false.

Section Partition.
  Variable attrs : pra.
  Notation attribute_at := (attribute_at attrs).

  (** ID_LWR(ATTRIBUTE_NAME(node->attribute)) *)
  Definition attribute_id (x : ag_vertex) : outcome cstring :=
    match attribute_at (snd x) with Some d => Val (ID_LWR (at_name d)) | None => Undef end.

  (** partition_nodes.c:36-57: the highest number of the dependencies, and
      whether all have one *)
  Fixpoint highest (t : partition_table) (deps : list ag_vertex) (max_partition : nat) (assignable : bool) :
      outcome (nat * bool) :=
    match deps with
    | [] => Val (max_partition, assignable)
    | dep :: deps =>
        let! id := attribute_id dep in
        let dep_partition := partition_of t id in
        if dep_partition =? 0 then highest t deps max_partition false
        else highest t deps (if max_partition <? dep_partition then dep_partition else max_partition) assignable
    end.

  (** partition_nodes.c:21-70.  The loop does not end if dependencies have a
      cycle. *)
  Fixpoint partition_loop (fuel : nat) (g : ag_graph) (t : partition_table) (queue : list ag_vertex) :
      outcome partition_table :=
    match queue with
    | [] => Val t
    | x :: queue =>
        match fuel with
        | 0 => NoFuel
        | S fuel =>
            match attribute_at (snd x) with
            | None => Undef
            | Some d =>
                let id := ID_LWR (at_name d) in
                let synthesized := at_is_synthesized d in
                if negb (partition_of t id =? 0) then partition_loop fuel g t queue
                else
                  match ag_dependencies g x with
                  | [] => partition_loop fuel g ((id, if synthesized then 3 else 2) :: t) queue
                  | deps =>
                      let! r := highest t deps 0 true in
                      let '(max_partition, assignable) := r in
                      if negb assignable then partition_loop fuel g t (queue ++ [x])
                      else
                        let dep_synthesized := max_partition mod 2 =? 1 in
                        partition_loop fuel g
                          ((id, if Bool.eqb synthesized dep_synthesized then max_partition
                                else max_partition + 1) :: t) queue
                  end
            end
        end
    end.

  (** partition_nodes.c:11-75 [partition_nodes] *)
  Definition partition_nodes (g : ag_graph) (tnode : occurrence) : outcome partition_table :=
    let queue := filter (is_of tnode) (g_nodes g) in
    partition_loop (S (length queue * length queue)) g [] queue.

  (** The graph of a node; the first graph of a nodeset, [None] if it is
      empty.  Which member is first depends on the order of the graphs in the
      model, and in the program on the order of the set literal. *)
  Definition key_of (k : graph_key) : target :=
    match k with KNode i => TNode i | KMember j _ => TSet j end.
  Definition first_graph (gs : list (graph_key * ag_graph)) (t : target) : option ag_graph :=
    match find (fun kg => if target_dec (key_of (fst kg)) t then true else false) gs with
    | Some kg => Some (snd kg)
    | None => None
    end.

  (** schedule_attribute_visits.c:562-578.  A node always has a graph. *)
  Definition partition_tables_type : Type := list (target * partition_table).
  Fixpoint partition_types (gs : list (graph_key * ag_graph)) (l : list target) : outcome partition_tables_type :=
    match l with
    | [] => Val []
    | t :: l =>
        match first_graph gs t, t with
        | None, TNode _ => Undef
        | None, TSet _ => partition_types gs l
        | Some g, _ =>
            let! p := partition_nodes g (OType t) in
            let! r := partition_types gs l in
            Val ((t, p) :: r)
        end
    end.
  Definition all_types (nodes sets : nat) : list target := map TNode (seq 0 nodes) ++ map TSet (seq 0 sets).
  Definition partition_all (nodes sets : nat) (gs : list (graph_key * ag_graph)) : outcome partition_tables_type :=
    partition_types gs (all_types nodes sets).

  Definition table_of (tables : partition_tables_type) (t : target) : option partition_table :=
    match find (fun e => if target_dec (fst e) t then true else false) tables with
    | Some e => Some (snd e)
    | None => None
    end.

  (** ** Visits *)

  (** collect_visits.h:6-17; the index of a visit is its position *)
  Record visit := mk_visit { v_inputs : list ag_vertex; v_outputs : list ag_vertex }.
  Definition empty_visit : visit := mk_visit [] [].

  (** collect_visits.c:66-78: make room *)
  Definition grow (vs : list visit) (n : nat) : list visit := vs ++ repeat empty_visit (n - length vs).
  Fixpoint update_visit (k : nat) (f : visit -> visit) (vs : list visit) : list visit :=
    match vs, k with
    | [], _ => []
    | v :: vs, 0 => f v :: vs
    | v :: vs, S k => v :: update_visit k f vs
    end.

  (** collect_visits.c:16-47 [lookup_partition], 49-104 [collect_visits].  An
      attribute without a number makes the compilation fail after this action
      (CCNerrorAction); here [Exited]. *)
  Fixpoint collect_loop (table : option partition_table) (vs : list visit) (l : list ag_vertex) : outcome (list visit) :=
    match l with
    | [] => Val vs
    | x :: l =>
        match table with
        | None => Exited
        | Some t =>
            match attribute_at (snd x) with
            | None => Undef
            | Some d =>
                let partition := partition_of t (ID_LWR (at_name d)) in
                if partition =? 0 then Exited
                else
                  let visit_index := partition / 2 - 1 in
                  let vs := grow vs (S visit_index) in
                  collect_loop table
                    (update_visit visit_index (fun v =>
                       if at_is_inherited d then mk_visit (v_inputs v ++ [x]) (v_outputs v)
                       else mk_visit (v_inputs v) (v_outputs v ++ [x])) vs) l
            end
        end
    end.
  Definition collect_visits (g : ag_graph) (o : occurrence) (table : option partition_table) : outcome (list visit) :=
    collect_loop table [] (filter (is_of o) (g_nodes g)).

  (** schedule_attribute_visits.c:596-617 *)
  Definition visits_table : Type := list (target * list visit).
  Fixpoint collect_types (gs : list (graph_key * ag_graph)) (tables : partition_tables_type) (l : list target) :
      outcome visits_table :=
    match l with
    | [] => Val []
    | t :: l =>
        match first_graph gs t, t with
        | None, TNode _ => Undef
        | None, TSet _ => collect_types gs tables l
        | Some g, _ =>
            let! v := collect_visits g (OType t) (table_of tables t) in
            let! r := collect_types gs tables l in
            Val ((t, v) :: r)
        end
    end.
  Definition collect_all (nodes sets : nat) (gs : list (graph_key * ag_graph)) (tables : partition_tables_type) :
      outcome visits_table :=
    collect_types gs tables (all_types nodes sets).
End Partition.
