(** From a file to the generated visit functions: scanAndParse, the semantic
    passes and the generation of visits one after the other
    (cocogen/main.ccn:1-46, 170-189).

    Simplifications: [reachability] and unpackLifetimes only write fields that
    the passes here do not read, except that childrenSetMandatory decides
    which children are optional (see EvalVariantsModel.v).  An error of the
    whole action (CCNerrorAction) ends the compilation at the end of the pass,
    an error of the phase (CCNerrorPhase) at the end of [semantic] (C18). *)

From Coq Require Import List Ascii Bool.
From Verif Require Import Base.Outcome Front.Syntax Front.SetsModel Front.PropagateModel Front.NodesetTableModel Front.NodesetPassesModel
  Front.CheckAttributesModel Front.ProductRulesModel Front.ScannerModel Front.FileModel
  Sched.GraphModel Sched.ScheduleModel Sched.PartitionModel Sched.VisitModel Sched.FrontendModel Gen.EvalVariantsModel Gen.EvaluateModel.
From Verif Require Front.ParserModel.
Import ListNotations.
Local Open Scope outcome_scope.

(** What the semantic passes add to the tree: the attributes of nodes and
    nodesets, the members of nodesets, the visits of every type and the
    sequences of the visits of every node. *)
Record analysis := mk_analysis {
  an_attributes : pra;
  an_members : list Syntax.literal;
  an_visits : visits_table;
  an_sequences : list (list (visit * list VisitModel.entry)) }.

(** check_attributes.c:78: the only error that ends the action is the one for
    "constructor" at an attribute of a nodeset; the others (lines 30, 65, 84,
    93) end the phase. *)
Definition of_action (e : cha_error) : bool :=
  match e with NodesetConstructor _ => true | _ => false end.

(** The passes before the scheduler, as in [before_scheduling]
    (FrontendModel.v): the errors of checkAttributes that end the phase, and
    the attributes and members. *)
Definition passes (a : ast) : outcome (list cha_error * (pra * list Syntax.literal)) :=
  let! s := nodeset_passes a in
  let! t := NCTast (a_nodesets a) in
  let! u := unwrap a in
  let errs := CHAast (combine (a_nodes a) (p_nodes s))
                     (combine (combine (a_nodesets a) (n_illegal t)) (p_sets s)) in
  if existsb of_action errs then Exited
  else
    let! r := CPRast (a_nodes a) (a_nodesets a) s in
    match c_errors r with
    | _ :: _ => Exited
    | [] => Val (errs, (s, snd u))
    end.

Section Compile.
  (** The order in which HTiterate visits the graphs
      (schedule_attribute_visits.c:514-546), globals.ag_scheduler_max_iter,
      and the order in which a table of optional children is iterated
      (gen_visit_source.c:326-360). *)
  Variable shuffle : list (graph_key * ag_graph) -> list (graph_key * ag_graph).
  Variable max_iter : nat.
  Variable iteration : list nat -> list nat.

  (** main.ccn:34-46 [semantic]; schedule_attribute_visits.c:547-560: errors
      end the pass *)
  Definition semantic (a : ast) : outcome analysis :=
    let! p := passes a in
    let r := snd p in
    let! g := SAVgraphs (a_nodes a) (a_nodesets a) (fst r) (snd r) shuffle in
    match snd g with
    | _ :: _ => Exited
    | [] =>
        let! v := SAVvisits (a_nodes a) (a_nodesets a) (fst r) (snd r) max_iter (fst g) in
        match fst p with
        | _ :: _ => Exited
        | [] => Val (mk_analysis (fst r) (snd r) (fst v) (snd v))
        end
    end.

  (** ... and dynamicGenVisitSource (main.ccn:184) *)
  Definition translate (a : ast) : outcome (analysis * list (list function)) :=
    let! x := semantic a in
    let! f := DGVSast (a_nodes a) (an_attributes x) (an_sequences x) iteration in
    Val (x, f).

  (** cocogen on the file with the characters [t]; a file that cannot be read
      ends the program (C45, C46). *)
  Inductive compile (t : ScannerModel.text) : outcome (ast * analysis * list (list function)) -> Prop :=
  | compile_read : forall p, reads_file t p ->
      compile t (map_outcome (fun r => (ParserModel.ast_of p, fst r, snd r)) (translate (ParserModel.ast_of p)))
  | compile_rejected : (forall p, ~ reads_file t p) -> compile t Exited.
End Compile.
