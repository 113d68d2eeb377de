(** A run of cocogen as the file system sees it: the phase tree of
    cocogen/main.ccn:1-240 under the phase driver (PhaseDriverModel.v), with
    the files that its actions open (generator/generator.c,
    dynamic_backend/file_switchers.c, main.c:24-34, dot/, phase_driver/).

    What an action prints is a parameter ([content]); modelled is into which
    file it goes.  Simplifications: opening a file succeeds (otherwise the
    program ends, generator.c:49-52) and the directories exist (main.c:66-71);
    the tree check of cocogen's own tree finds nothing; the phase semantic is
    one action ([semantic], CompileModel.v), and so is unpackLifetimes
    ([unpack_lifetimes], LifetimesModel.v); the generating actions whose
    outcome is not mentioned succeed.  An action that ends the program itself
    (CTIabortOnError) is one that is ended by the phase driver directly
    afterwards. *)

From Coq Require Import String DecimalString.
From Coq Require Import List Ascii Bool NArith.
From Verif Require Import Base.Outcome Palm.StrModel Front.Syntax Front.SetsModel Front.SymbolTableModel Front.LifetimesModel
  Copra.PhaseDriverModel Sched.GraphModel Sched.ScheduleModel Sched.FrontendModel Gen.AccessModel Gen.TablesModel
  Gen.EvalVariantsModel Gen.EvaluateModel Gen.CompileModel.
Import ListNotations.
Local Open Scope string_scope.
Local Open Scope list_scope.
Local Open Scope outcome_scope.

(** cocogen's tree while it runs: nothing, the tree of the parser, and the
    tree with the results of the semantic passes *)
Inductive progress := Nothing | Parsed (a : ast) | Analysed (a : ast) (x : analysis).

(** The passes and traversals.  [Prints]: one that prints without opening a
    file.  [Opens]: one that opens the files, with names relative to the
    directory for output, one after the other. *)
Inductive leaf :=
| ScanAndParse
| Semantic
| UnpackLifetimes
| Prints (name : string)
| Opens (name : string) (paths : list string)
| EquationFunctions
| VisitSource
| UserTraversals
| UserEquations
| Show.
Inductive gate := BackendIsDynamic | BackendIsStatic.

Definition leaf_name (l : leaf) : string :=
  match l with
  | ScanAndParse => "scanAndParse"
  | Semantic => "semantic"
  | UnpackLifetimes => "unpackLifetimes"
  | Prints name | Opens name _ => name
  | EquationFunctions => "dynamicGenEquationFunctions"
  | VisitSource => "dynamicGenVisitSource"
  | UserTraversals => "dynamicUserGenTraversals"
  | UserEquations => "dynamicUserGenEquations"
  | Show => "print"
  end.

Definition act (l : leaf) : action leaf gate := ALeaf (TablesModel.text (leaf_name l)) l.
Definition phase (name : string) (l : list (action leaf gate)) : action leaf gate :=
  APhase (TablesModel.text name) None false l.
Definition gated (name : string) (g : gate) (l : list (action leaf gate)) : action leaf gate :=
  APhase (TablesModel.text name) (Some g) false l.

(** main.ccn:146-166; file_switchers.c:13-42 *)
Definition dynamicGenAst : action leaf gate := phase "dynamicGenAst"
  [ act (Opens "dynamic_start_ast_header" ["ccngen/ast.h"]);
    act (Prints "dynamicGenNodeStructs");
    act (Prints "dynamicGenNodeMacros");
    act (Prints "dynamicGenNodeInitFunctions");
    act (Prints "dynamicGenNodeUnion");
    act (Prints "dynamicGenBaseNode");
    act (Prints "dynamicGenNodeAccessFunctions");
    act (Prints "dynamicGenNodesetAccessFunctions");
    act (Opens "dynamicSwitchToAstSource" ["ast.c"]);
    act (Prints "dynamicGenBaseNodeInit");
    act (Prints "dynamicGenNodeConstructor");
    act (Prints "dynamicGenNodeAccessFunctionsError");
    act (Prints "dynamicGenNodesetAccessFunctionsError") ].

(** main.ccn:131-144; file_switchers.c:101-127 *)
Definition dynamicGenTravData : action leaf gate := phase "dynamicGenTravData"
  [ act (Opens "dynamicStartTravData" ["ccngen/trav_data.h"]);
    act (Prints "dynamicGenTravDataStructs");
    act (Prints "dynamicGenTravDataUnion");
    act (Prints "dynamicGenTravDataGetters");
    act (Prints "dynamicGenTravDataCtorsHeader");
    act (Opens "dynamicSwitchTravData" ["trav_data.c"]);
    act (Prints "dynamicGenTravDataCtors") ].

(** main.ccn:168-185; file_switchers.c:42-82, 129-151 *)
Definition dynamicGenVisits : action leaf gate := phase "dynamicGenVisits"
  [ act (Opens "dynamic_start_equation_header" ["ccngen/equation.h"]);
    act (Prints "dynamicGenEquationIncludes");
    act EquationFunctions;
    act (Opens "dynamic_start_visit_header" ["ccngen/visit.h"]);
    act (Prints "dynamicGenVisitFunctions");
    act (Opens "dynamicSwitchToVisitSource" ["visit.c"]);
    act VisitSource;
    act (Opens "dynamic_start_ag_header" ["ccngen/ag.h"]);
    act (Prints "dynamicGenAGHeader");
    act (Opens "dynamicSwitchToAGSource" ["ag.c"]);
    act (Prints "dynamicGenAGSource") ].

(** main.ccn:187-212; gen_user_passes.c:11-18 *)
Definition dynamicGenUserFiles : action leaf gate := phase "dynamicGenUserFiles"
  [ act (Opens "dynamicUserGenPasses" ["user/passes.c"]); act UserTraversals; act UserEquations ].

(** main.ccn:88-114; file_switchers.c:84-99, gen_action_header.c:14-18,
    gen_copy_traversal.c:24-28, gen_free_traversal.c:16-20,
    gen_check_traversal.c:34-38, gen_traversal_functions.c:61-77 *)
Definition dynamicBackend : action leaf gate := gated "dynamicBackend" BackendIsDynamic
  [ dynamicGenAst;
    act (Opens "dynamicStartEnumHeader" ["ccngen/enum.h"]);
    act (Prints "dynamicGenEnum");
    act (Prints "dynamicGenEnumValues");
    dynamicGenTravData;
    act (Opens "dynamicStartTableGen" ["vtables.c"]);
    act (Prints "dynamicGenTravVtable");
    act (Prints "dynamicGenPassTable");
    act (Prints "dynamicGenSystemTraversals");
    act (Prints "dynamicGenTravTable");
    act (Prints "dynamicGenTravDataTables");
    act (Opens "dynamicGenActionsHeader" ["ccngen/actions.h"]);
    act (Opens "dynamicGenCopyTraversal" ["ccn_copy.c"]);
    act (Opens "dynamicGenFreeTraversal" ["ccn_free.c"]);
    act (Opens "dynamicGenCheckTraversal" ["ccn_check.c"]);
    dynamicGenVisits;
    dynamicGenUserFiles;
    act (Opens "dynamicGenTravFunctions" ["trav.c"; "ccngen/trav.h"]) ].

(** main.ccn:116-129; static/gen_ast_structs.c:17-21 *)
Definition staticBackend : action leaf gate := gated "staticBackend" BackendIsStatic
  [ phase "staticGenAst" [ act (Opens "staticGenNodeStructs" ["ccngen/ast.h"]) ] ].

(** main.ccn:77-86; gen_action_array_header.c:21-24, gen_ids_table.c:14-17,
    gen_gate_header.c:7-10 *)
Definition phaseDriver : action leaf gate := phase "phaseDriver"
  [ act (Opens "genActionArrayHeader" ["ccngen/action_handling.h"]);
    act (Opens "genIdsTables" ["action_handling.c"]);
    act (Prints "genActionArray");
    act (Opens "genGateHeader" ["ccngen/gate.h"]) ].

(** main.ccn:1-18; dot/gen_dot.c:18-30, main.c:24-34 *)
Definition startPhase : action leaf gate := phase "startPhase"
  [ act ScanAndParse; act Semantic; act UnpackLifetimes; dynamicBackend; staticBackend; phaseDriver;
    act (Opens "genDot" ["ast.dot"]); act (Opens "genDefines" ["ccngen/ccn_defs.h"]); act Show ].

(** A call of the generator: GNopenFile, GNprint (generator.c:42-53, 97-120,
    the latter flushes), and a file that is written without it
    (schedule_attribute_visits.c:622-646). *)
Inductive effect (P : Type) :=
| Open (path : cstring)
| Print (p : P)
| Write (path : cstring) (l : list P).
Arguments Open {P} path.
Arguments Print {P} p.
Arguments Write {P} path l.

Section Run.
  (** What GNprint is given. *)
  Context {P : Type}.

  (** The files on the disk, the file of the GeneratorContext, and how the run
      ends if the phase driver ends it. *)
  Definition files : Type := cstring -> option (list P).
  Record machine := mk_machine { disk : files; fp : option cstring; verdict : outcome unit }.

  Definition put (d : files) (path : cstring) (l : list P) : files :=
    fun q => if list_eq_dec ascii_dec q path then Some l else d q.

  Definition perform (w : machine) (e : effect P) : machine :=
    match e with
    | Open path => mk_machine (put (disk w) path []) (Some path) (verdict w)
    | Print p =>
        match fp w with
        | None => mk_machine (disk w) None Undef
        | Some path =>
            match disk w path with
            | Some l => mk_machine (put (disk w) path (l ++ [p])) (Some path) (verdict w)
            | None => w
            end
        end
    | Write path l => mk_machine (put (disk w) path l) (fp w) (verdict w)
    end.

  (** [directory] is global_command_line.gen_dir and [backend] globals.backend
      (main.c:49-64); [input] is the tree of the file, if it can be read.
      [content name k] is what the action [name] prints into the [k]-th file
      that it opens, [0] being the file that is open before. *)
  Variable directory : cstring.
  Variable backend : cstring.
  Variable input : option ast.
  Variable shuffle : list (graph_key * ag_graph) -> list (graph_key * ag_graph).
  Variable max_iter : nat.
  Variable iteration : list nat -> list nat.
  Variable content : string -> nat -> list P.
  (** How often the scheduler propagates induced edges, and how many calls of
      the generator it makes if it fails. *)
  Variable rounds stage : nat.

  Definition prints (name : string) (k : nat) : list (effect P) := map Print (content name k).
  Fixpoint opens (name : string) (k : nat) (paths : list cstring) : list (effect P) :=
    match paths with
    | [] => []
    | path :: paths => Open (directory ++ path) :: prints name k ++ opens name (S k) paths
    end.

  (** schedule_attribute_visits.c:526, 548, 580, 622 *)
  Definition induce_name (k : nat) : cstring :=
    TablesModel.text "ag_dot/induce_" ++ TablesModel.text (NilEmpty.string_of_uint (Nat.to_uint k)) ++ TablesModel.text ".dot".
  Definition dot_files : list cstring :=
    TablesModel.text "ag_dot/pre_induce.dot" :: map induce_name (seq 1 rounds) ++ [TablesModel.text "ag_dot/partitioned.dot"].
  Definition scheduler_effects (o : outcome analysis) : list (effect P) :=
    let l := opens "scheduleAttributeVisits" 1 dot_files ++
             [Write (directory ++ TablesModel.text "log/ag_schedule.log") (content "scheduleAttributeVisits" 0)] in
    match o with Val _ => l | _ => firstn stage l end.

  (** gen_equation_functions.c:66-72, gen_user_traversals.c:20-27,
      gen_user_equations.c:63-68 *)
  Definition with_equations (a : ast) : list inode :=
    filter (fun n => match nd_equations n with [] => false | _ :: _ => true end) (a_nodes a).
  Definition equation_header (n : inode) : cstring :=
    TablesModel.text "ccngen/equations/" ++ ID_LWR (nd_name n) ++ TablesModel.text ".h".
  Definition traversal_file (t : itraversal) : cstring :=
    TablesModel.text "user/trav_" ++ ID_LWR (tv_name t) ++ TablesModel.text ".c".
  Definition equation_file (n : inode) : cstring :=
    TablesModel.text "user/eq_" ++ ID_LWR (nd_name n) ++ TablesModel.text ".c".

  Definition no_result {A} (o : outcome A) : outcome unit := map_outcome (fun _ => tt) o.

  (** The phase unpackLifetimes sees the attributes after the semantic passes.
      Phases nest at most as deep as there are phases, unless they are
      recursive. *)
  Definition lifetimes (a : ast) (x : analysis) : outcome unit :=
    let! ste := BSTast a in
    no_result (unpack_lifetimes ste (S (length (a_phases a))) (finished a (an_attributes x) (an_members x))).

  (** What an action does to the files, its result, and the tree afterwards. *)
  Definition leaf_action (l : leaf) (t : progress) : list (effect P) * outcome unit * progress :=
    match l, t with
    | ScanAndParse, _ =>
        match input with
        | None => ([], Exited, t)
        | Some a => ([], Val tt, Parsed a)
        end
    | Semantic, Parsed a =>
        let o := semantic shuffle max_iter a in
        (scheduler_effects o, no_result o, match o with Val x => Analysed a x | _ => t end)
    | UnpackLifetimes, Analysed a x => ([], lifetimes a x, t)
    | Prints name, Analysed _ _ => (prints name 0, Val tt, t)
    | Opens name paths, Analysed _ _ => (opens name 1 (map TablesModel.text paths), Val tt, t)
    | EquationFunctions, Analysed a _ =>
        (opens (leaf_name l) 1 (map equation_header (with_equations a)),
         no_result (map_val (fun n => DGEFequations n iteration) (a_nodes a)), t)
    | VisitSource, Analysed a x =>
        (prints (leaf_name l) 0, no_result (DGVSast (a_nodes a) (an_attributes x) (an_sequences x) iteration), t)
    | UserTraversals, Analysed a _ => (opens (leaf_name l) 1 (map traversal_file (a_traversals a)), Val tt, t)
    | UserEquations, Analysed a _ =>
        (opens (leaf_name l) 1 (map equation_file (with_equations a)),
         no_result (map_val (fun n => DGEFequations n iteration) (a_nodes a)), t)
    | Show, Analysed _ _ => ([], Val tt, t)
    | _, _ => ([], Undef, t)
    end.

  (** [true]: the action fails *)
  Definition leaf_step (l : leaf) (w : machine) (t : progress) : machine * progress * bool :=
    let '(effects, o, t') := leaf_action l t in
    let w := fold_left perform effects w in
    match o with
    | Val _ => (w, t', false)
    | _ => (mk_machine (disk w) (fp w) o, t', true)
    end.
  Definition leaf_fun (l : leaf) (_ : N) (w : machine) (t : progress) : option (machine * progress * list signal) :=
    let '(w, t, e) := leaf_step l w t in Some (w, t, if e then [SErrorAction] else []).

  (** dynamic_backend/gate.c:11-14, static/gates.c:5-8 *)
  Definition gate_fun (g : gate) (_ : N) (w : machine) : option (bool * machine * list signal) :=
    match (match g with
           | BackendIsDynamic => STReqci (Some (TablesModel.text "dynamic")) (Some backend)
           | BackendIsStatic => Val (STReq (Some (TablesModel.text "static")) (Some backend))
           end) with
    | Val b => Some (b, w, [])
    | _ => None
    end.

  (** main.c:41-80; without breakpoints there is no [HBreakpoint] *)
  Definition cocogen (d : files) : files * outcome unit :=
    match CCNrun leaf_fun gate_fun (fun _ _ => 0%N) 1 startPhase (mk_state driver0 (mk_machine d None (Val tt)) Nothing 0%N []) with
    | Cont s => (disk (world s), verdict (world s))
    | Halt HActionError s => (disk (world s), verdict (world s))
    | Halt _ s => (disk (world s), Undef)
    end.
End Run.
