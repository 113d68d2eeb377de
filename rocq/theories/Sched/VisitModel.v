(** Model of [generate_empty_visits] in collect_visits.c, of generate_visits.c
    and of the rest of SAVast (schedule_attribute_visits.c:619-658): the
    sequence of evaluations and child visits of every visit of every node.

    The queue is a list, oldest first (C39); hash tables of pointers are sets
    (C01), here lists.  The log file is not modelled.  fill_visit_stubs.c links
    a visit sequence entry to the visit it was made for; here the entry holds
    the type and the index of that visit. *)

From Coq Require Import List Ascii Bool Arith.
From Verif Require Import Base.Outcome Palm.StrModel Front.Syntax Front.NodesetTableModel Front.PropagateModel
  Front.ProductRulesModel Sched.GraphModel Sched.ScheduleModel Sched.PartitionModel.
Import ListNotations.
Local Open Scope outcome_scope.

(** visits_htable *)
Definition visits_of (vt : visits_table) (t : target) : option (list visit) :=
  match find (fun e => if target_dec (fst e) t then true else false) vt with
  | Some e => Some (snd e)
  | None => None
  end.
Definition set_visits (vt : visits_table) (t : target) (vs : list visit) : visits_table :=
  map (fun e => if target_dec (fst e) t then (t, vs) else e) vt.

(** generate_visits.c:144-150 [seq_queue_item]; a [child_visit] pointer stands
    for a child and one of its visits (lines 70-83 make one per pair). *)
Inductive item := IEval (x : ag_vertex) | IVisit (o : occurrence) (k : nat).
Definition item_eqb (x y : item) : bool :=
  match x, y with
  | IEval x, IEval y => veq occurrence_dec aptr_dec x y
  | IVisit o k, IVisit o' k' => (if occurrence_dec o o' then true else false) && (k =? k')
  | _, _ => false
  end.
Definition item_in (x : item) (l : list item) : bool := existsb (item_eqb x) l.

(** A visit sequence: an evaluation, or a visit with index [k] of a child with
    what to do for each type it may have: call visit [k] of that type ([true])
    or nothing (VISIT_SEQUENCE_DUMMY). *)
Inductive entry := EEval (x : ag_vertex) | EVisit (o : occurrence) (k : nat) (alternatives : list (nat * bool)).

Section Visits.
  Variable nodes : list inode.
  Variable sets : list inodeset.
  Variable attrs : pra.
  Variable literals : list literal.

  Notation get_node_type := (get_node_type nodes sets).
  Notation attribute_at := (attribute_at attrs).

  (** ** Empty visits *)

  (** collect_visits.c:106-119 [node_has_visit] for the children from the
      [k]th on *)
  Fixpoint node_has_visit (vt : visits_table) (i k : nat) (l : list child) : outcome bool :=
    match l with
    | [] => Val false
    | _ :: l =>
        match get_node_type (OChild i k) with
        | None => Undef
        | Some t =>
            match visits_of vt t with
            | None => Undef
            | Some vs => if 0 <? length vs then Val true else node_has_visit vt i (S k) l
            end
        end
    end.

  (** collect_visits.c:121-138 [nodeset_has_visit] *)
  Fixpoint nodeset_has_visit (vt : visits_table) (l : literal) : outcome bool :=
    match l with
    | LNull => Val false
    | SetLiteral r a b =>
        match find_node nodes r with
        | None => Undef
        | Some m =>
            match visits_of vt (TNode m) with
            | None => Undef
            | Some vs =>
                if 0 <? length vs then Val true
                else
                  let! x := nodeset_has_visit vt a in
                  if x then Val true else nodeset_has_visit vt b
            end
        end
    end.

  (** collect_visits.c:161-172, 174-185: one type *)
  Definition needs_visit (vt : visits_table) (t : target) : outcome bool :=
    match t with
    | TNode i => match nth_error nodes i with
                 | None => Undef
                 | Some n => node_has_visit vt i 0 (nd_children n)
                 end
    | TSet j => match nth_error literals j with
                | None => Undef
                | Some l => nodeset_has_visit vt l
                end
    end.
  Definition add_empty_visit (vt : visits_table) (t : target) : outcome (visits_table * bool) :=
    match visits_of vt t with
    | None => Val (vt, false)
    | Some (_ :: _) => Val (vt, false)
    | Some [] =>
        let! b := needs_visit vt t in
        Val (if b then (set_visits vt t [empty_visit], true) else (vt, false))
    end.
  Fixpoint empty_visits_round (vt : visits_table) (l : list target) : outcome (visits_table * bool) :=
    match l with
    | [] => Val (vt, false)
    | t :: l =>
        let! r := add_empty_visit vt t in
        let! s := empty_visits_round (fst r) l in
        Val (fst s, snd r || snd s)
    end.

  (** collect_visits.c:155-189 [generate_empty_visits] *)
  Fixpoint empty_visits_loop (fuel : nat) (vt : visits_table) (l : list target) : outcome visits_table :=
    match fuel with
    | 0 => NoFuel
    | S fuel =>
        let! r := empty_visits_round vt l in
        if snd r then empty_visits_loop fuel (fst r) l else Val (fst r)
    end.
  Definition generate_empty_visits (vt : visits_table) : outcome visits_table :=
    empty_visits_loop (S (length vt)) vt (all_types (length nodes) (length sets)).

  (** ** Visit sequences *)

  Section Node.
    Variable vt : visits_table.
    Variable g : ag_graph.
    (** the node itself *)
    Variable node : occurrence.

    Definition child_visits (o : occurrence) : outcome (list visit) :=
      match get_node_type o with
      | None => Undef
      | Some t => match visits_of vt t with Some vs => Val vs | None => Undef end
      end.

    (** generate_visits.c:131-142 [find_visit]; -1 is [None] *)
    Fixpoint find_visit (vs : list visit) (k : nat) (a : aptr) : option nat :=
      match vs with
      | [] => None
      | v :: vs => if existsb (fun x : ag_vertex => if aptr_dec (snd x) a then true else false) (v_outputs v) then Some k
                   else find_visit vs (S k) a
      end.

    (** Queue and [queued]. *)
    Definition waiting : Type := list item * list item.

    (** generate_visits.c:152-203 [sched_equation_dependency].  Line 184 puts
        the visit instead of the child visit into [queued], a pointer that is
        never looked up. *)
    Definition sched_equation_dependency (w : waiting) (dependency : ag_vertex) : outcome waiting :=
      let '(queue, queued) := w in
      match attribute_at (snd dependency) with
      | None => Undef
      | Some d =>
          if negb (if occurrence_dec (fst dependency) node then true else false) && at_is_synthesized d then
            let! vs := child_visits (fst dependency) in
            match find_visit vs 0 (snd dependency) with
            | None => Undef
            | Some k =>
                let child_visit := IVisit (fst dependency) k in
                Val (if item_in child_visit queued then w else (queue ++ [child_visit], queued))
            end
          else
            Val (if item_in (IEval dependency) queued then w
                 else (queue ++ [IEval dependency], IEval dependency :: queued))
      end.

    (** generate_visits.c:246-269 [sched_equation_dependencies] and the loop
        of lines 232-242 *)
    Fixpoint sched_attributes (scheduled : list item) (w : waiting) (unscheduled : bool) (l : list ag_vertex) :
        outcome (waiting * bool) :=
      match l with
      | [] => Val (w, unscheduled)
      | x :: l =>
          if item_in (IEval x) scheduled then sched_attributes scheduled w unscheduled l
          else
            let! w := sched_equation_dependency w x in
            sched_attributes scheduled w true l
      end.

    (** generate_visits.c:208-229: earlier visits of the child *)
    Fixpoint sched_previous (scheduled : list item) (o : occurrence) (w : waiting) (unscheduled : bool) (l : list nat) :
        waiting * bool :=
      match l with
      | [] => (w, unscheduled)
      | k :: l =>
          if item_in (IVisit o k) scheduled then sched_previous scheduled o w unscheduled l
          else
            let '(queue, queued) := w in
            sched_previous scheduled o
              (if item_in (IVisit o k) queued then w else (queue ++ [IVisit o k], IVisit o k :: queued)) true l
      end.
    (** The graph nodes of attributes of a child. *)
    Fixpoint lookup_all (o : occurrence) (l : list ag_vertex) : outcome (list ag_vertex) :=
      match l with
      | [] => Val []
      | x :: l =>
          match ag_lookup g o (snd x) with
          | None => Undef
          | Some y => let! r := lookup_all o l in Val (y :: r)
          end
      end.

    (** generate_visits.c:205-244 [sched_visit_dependencies] and lines 246-269
        [sched_equation_dependencies] *)
    Definition sched_dependencies (scheduled : list item) (w : waiting) (x : item) : outcome (waiting * bool) :=
      match x with
      | IEval x => sched_attributes scheduled w false (GRget_node_dependencies occurrence_dec aptr_dec g x)
      | IVisit o k =>
          let! vs := child_visits o in
          match nth_error vs k with
          | None => Undef
          | Some v =>
              let '(w, unscheduled) := sched_previous scheduled o w false (seq 0 k) in
              let! inputs := lookup_all o (v_inputs v) in
              sched_attributes scheduled w unscheduled inputs
          end
      end.

    (** generate_visits.c:280-297 [mark_scheduled] *)
    Definition mark_scheduled (scheduled : list item) (x : item) : outcome (list item) :=
      match x with
      | IEval _ => Val (x :: scheduled)
      | IVisit o k =>
          let! vs := child_visits o in
          match nth_error vs k with
          | None => Undef
          | Some v =>
              let! outputs := lookup_all o (v_outputs v) in
              Val (x :: map IEval outputs ++ scheduled)
          end
      end.

    (** generate_visits.c:314-366 [add_visit_sequence_visit_nodeset_rec] *)
    Fixpoint nodeset_alternatives (k : nat) (l : literal) : outcome (list (nat * bool)) :=
      match l with
      | LNull => Val []
      | SetLiteral r a b =>
          match find_node nodes r with
          | None => Undef
          | Some m =>
              match visits_of vt (TNode m) with
              | None => Undef
              | Some vs =>
                  let! x := nodeset_alternatives k a in
                  let! y := nodeset_alternatives k b in
                  Val ((m, k <? length vs) :: x ++ y)
              end
          end
      end.

    (** generate_visits.c:387-423: the entry for an item, if any *)
    Definition make_entry (x : item) : outcome (option entry) :=
      match x with
      | IEval y =>
          match attribute_at (snd y) with
          | None => Undef
          | Some d =>
              Val (if negb (if occurrence_dec (fst y) node then true else false) && at_is_synthesized d then None
                   else Some (EEval y))
          end
      | IVisit o k =>
          match get_node_type o with
          | None => Undef
          | Some (TNode m) => Val (Some (EVisit o k [(m, true)]))
          | Some (TSet j) =>
              match nth_error literals j with
              | None => Undef
              | Some l =>
                  let! alternatives := nodeset_alternatives k l in
                  Val (match alternatives with [] => None | _ => Some (EVisit o k alternatives) end)
              end
          end
      end.
    (** generate_visits.c:425-442.  If the last entry is a dummy,
        VISIT_SEQUENCE_EVAL_NEXT is used on it, which is not the node it is
        for. *)
    Definition is_dummy (e : entry) : bool :=
      match e with EVisit _ _ ((_, false) :: _) => true | _ => false end.
    Definition append_entry (l : list entry) (e : entry) : outcome (list entry) :=
      match rev l with
      | [] => Val [e]
      | last :: _ => if is_dummy last then Undef else Val (l ++ [e])
      end.
    (** generate_visits.c:379-443 [add_visit_sequence] *)
    Definition add_visit_sequence (l : list entry) (x : item) : outcome (list entry) :=
      let! e := make_entry x in
      match e with None => Val l | Some e => append_entry l e end.

    (** generate_visits.c:488-491 and QUpop: on to the first item that has not
        been scheduled *)
    Fixpoint drop_scheduled (scheduled : list item) (queue : list item) : list item :=
      match queue with
      | [] => []
      | x :: l => if item_in x scheduled then drop_scheduled scheduled l else queue
      end.

    (** generate_visits.c:486-571; [iterations] is what is left of
        ag_scheduler_max_iter.  When nothing is left the compilation ends with
        "Loop detected". *)
    Fixpoint visit_loop (iterations : nat) (scheduled : list item) (w : waiting) (l : list entry) :
        outcome (list item * list entry) :=
      let '(queue, queued) := w in
      match drop_scheduled scheduled queue with
      | [] => Val (scheduled, l)
      | x :: queue =>
          match iterations with
          | 0 => Exited
          | S iterations =>
              let! r := sched_dependencies scheduled (queue, queued) x in
              let '((queue, queued), unscheduled) := r in
              if (unscheduled : bool) then visit_loop iterations scheduled (queue ++ [x], queued) l
              else
                let! scheduled := mark_scheduled scheduled x in
                let! l := add_visit_sequence l x in
                visit_loop iterations scheduled (queue, queued) l
          end
      end.

    (** generate_visits.c:461-476: all visits of all children *)
    Fixpoint all_child_visits (i k : nat) (l : list child) : outcome (list item) :=
      match l with
      | [] => Val []
      | _ :: l =>
          let! vs := child_visits (OChild i k) in
          let! r := all_child_visits i (S k) l in
          Val (map (IVisit (OChild i k)) (seq 0 (length vs)) ++ r)
      end.

    Variable max_iter : nat.

    (** generate_visits.c:445-577 [generate_visit] for the [i]th node, [n] *)
    Definition generate_visit (i : nat) (n : inode) (scheduled : list item) (v : visit) (last_visit : bool) :
        outcome (list item * list entry) :=
      let queue := map IEval (v_outputs v) in
      let! more := if last_visit then all_child_visits i 0 (nd_children n) else Val [] in
      let queue := queue ++ more in
      let scheduled := map IEval (v_inputs v) ++ scheduled in
      visit_loop max_iter scheduled (queue, queue) [].

    (** generate_visits.c:654-679 *)
    Fixpoint generate_sequences (i : nat) (n : inode) (scheduled : list item) (vs : list visit) :
        outcome (list (visit * list entry)) :=
      match vs with
      | [] => Val []
      | v :: vs =>
          let! r := generate_visit i n scheduled v (match vs with [] => true | _ => false end) in
          let! rest := generate_sequences i n (fst r) vs in
          Val ((v, snd r) :: rest)
      end.
  End Node.

  Variable max_iter : nat.

  (** generate_visits.c:633-690 [generate_visits] *)
  Definition generate_visits (vt : visits_table) (g : ag_graph) (i : nat) (n : inode) :
      outcome (list (visit * list entry)) :=
    match visits_of vt (TNode i) with
    | None => Undef
    | Some vs => generate_sequences vt g (OType (TNode i)) max_iter i n [] vs
    end.

  (** schedule_attribute_visits.c:629-645 *)
  Fixpoint generate_all (vt : visits_table) (gs : list (graph_key * ag_graph)) (i : nat) (l : list inode) :
      outcome (list (list (visit * list entry))) :=
    match l with
    | [] => Val []
    | n :: l =>
        match first_graph gs (TNode i) with
        | None => Undef
        | Some g =>
            let! x := generate_visits vt g i n in
            let! r := generate_all vt gs (S i) l in
            Val (x :: r)
        end
    end.

  (** schedule_attribute_visits.c:562-645 [SAVast] after the test of [errors] *)
  Definition SAVvisits (gs : list (graph_key * ag_graph)) : outcome (visits_table * list (list (visit * list entry))) :=
    let! tables := partition_all attrs (length nodes) (length sets) gs in
    let! vt := collect_all attrs (length nodes) (length sets) gs tables in
    let! vt := generate_empty_visits vt in
    let! r := generate_all vt gs 0 nodes in
    Val (vt, r).
End Visits.
