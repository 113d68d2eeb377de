(** The names that the files of a generated compiler declare: those of
    functions, tables, enumerators and type names (one name space of C), those
    of structures, unions and enums (another one), macros, and the members of
    structures.

    A user's file may include all headers, and all files are linked to one
    program, so that the names of all files are put together.  Left out are
    names that only one C file knows (static functions and tables, parameters,
    local variables), the names of the C library, and gates, which the user
    declares as often as they are used (gate.c). *)

From Coq Require Import String DecimalString.
From Coq Require Import List Ascii Bool Arith.
From Verif Require Import Base.Outcome Palm.StrModel Front.Syntax Sched.FrontendModel Gen.AccessModel Gen.TablesModel Gen.DispatchModel
  Gen.EvalVariantsModel Gen.StubsModel Gen.TravChildModel.
Import ListNotations.
Local Open Scope string_scope.
Local Open Scope list_scope.
Local Open Scope outcome_scope.

(** ** Names that every compiler has *)

(** copra/ccn/dynamic_core.h:13-26, phase_driver.h:14-31, action_types.h:36;
    copra/src/phase_driver.c:60, 62, 144, 311 has functions without a
    declaration in a header. *)
Definition copra_functions : list cstring := map TablesModel.text
  ["TRAVerror"; "PASSerror"; "TRAVopt"; "TRAVstart"; "PASSstart"; "TRAVdo"; "TRAVpush"; "TRAVpop"; "TRAVchildren"; "TRAVnop";
   "TRAVdataNOP"; "TRAVgetCurrent"; "CCNcopy"; "CCNfree"; "CCNrun"; "CCNcycleNotify"; "CCNgetCurrentActionId"; "CCNerrorPhase";
   "CCNerrorAction"; "CCNsetBreakpoint"; "CCNsetBreakpointWithID"; "CCNsetCycles"; "CCNsetVerbosity"; "CCNsetTreeCheck";
   "CCNshowTree"; "CCNgetActionFromID"; "BreakpointHandler"; "CCNdispatchAction"; "Checkbreakpoint"; "ShowTree"].
(** copra/ccn/ccn_types.h:10-12, dynamic_core.h:7-11, action_types.h:7,
    phase_driver.h:7-12 *)
Definition copra_types : list cstring := map TablesModel.text ["ccn_trav_ft"; "ccn_pass_ft"; "ccn_trav_data_ft"; "ccn_trav_st"].
Definition copra_enumerators : list cstring := map TablesModel.text
  ["CCN_ACTION_PASS"; "CCN_ACTION_PHASE"; "CCN_ACTION_TRAVERSAL"; "CCN_ACTION_NULL";
   "PD_V_QUIET"; "PD_V_SMALL"; "PD_V_MEDIUM"; "PD_V_HIGH"].
Definition copra_tags : list cstring := map TablesModel.text
  ["ccn_trav"; "ccn_action_type"; "ccn_pass"; "ccn_phase"; "ccn_traversal"; "ccn_action"; "pd_verbosity"].

(** the headers in palm/include/palm; palm/src/hash_table.c:82-99,
    350-406 and ctinfo.c:147 have functions without a declaration in a header. *)
Definition palm_functions : list cstring := map TablesModel.text
  ["CTIinstallInterruptHandlers"; "CTIgetErrorMessageLineLength"; "CTIgetWarnMessageLineLength"; "CTIgetWarnings"; "CTIgetErrors";
   "CTIabortCompilation"; "CTIabortOnError"; "CTIabortOutOfMemory"; "CTI"; "CTIobj"; "CTIgetErrorMessageVA";
   "DBUGprintAssert"; "DBUGprint"; "DBUGoff"; "FSensureDirExists";
   "HTnew"; "HTnew_String"; "HTnew_Ptr"; "HTnew_Int"; "HTcpy"; "HTdeep_copy"; "HTinsert"; "HTlookup"; "HTremove"; "HTclear"; "HTdelete";
   "HTmap"; "HTmapWithKey"; "HTmapWithDataAndKey"; "HTfold"; "HTelementCount"; "HTiterate"; "HTiterateNext"; "HTiterateCancel";
   "HTiterValue"; "HTiterSetValue"; "HTiterKey"; "NewEntry"; "DeleteEntry"; "Insert"; "StringHash"; "PtrHash"; "PtrEqual"; "IntHash"; "IntEqual";
   "MEMmalloc"; "MEMrealloc"; "MEMfree"; "MEMcopy";
   "STRcpy"; "STRncpy"; "STReq"; "STReqci"; "STReqn"; "STRlen"; "STRcat"; "STRcatn"; "STRfmt"; "STRonNull"; "STRitoa"; "STRlower"; "STRupper";
   "STRtok"; "STRprefix"; "STRsuffix"; "STRsub"; "STRsubStr"; "STRsubstToken"; "STRtoLower"; "STRtoUpper"; "STRnull"].
Definition palm_types : list cstring := map TablesModel.text
  ["htable_st"; "htable_iter_st"; "hash_key_ft"; "is_equal_ft"; "cpy_ft"; "map_ft"; "mapk_ft"; "mapdk_ft"; "fold_ft"].
Definition palm_enumerators : list cstring := map TablesModel.text ["CTI_STATE"; "CTI_NOTE"; "CTI_WARN"; "CTI_ERROR"].
Definition palm_tags : list cstring := map TablesModel.text ["htable"; "htable_iter"; "cti_type"; "ctinfo"].
(** palm/include/palm/dbug.h:21-86, str.h:229 *)
Definition palm_macros : list cstring := map TablesModel.text ["MODULE"; "DBUG_ASSERT"; "DBUG_ASSERTF"; "DBUG"; "DBUGF"; "F_PTR"].

(** gen_node_base_and_union.c:20, 48; gen_copy_traversal.c:48;
    gen_ag_header.c:33; the type name node_st is in gen_helpers.h *)
Definition generated_always : list cstring := map TablesModel.text ["NewNode"; "CopyBaseNode"; "CCNevaluateAttributes"; "ccn_node"; "node_st"].
(** gen_enums.c:24-77, gen_node_base_and_union.c:48, 66, gen_trav_data_union.c:19
    and phase_driver/gen_action_array_header.c:27 *)
Definition tags_always : list cstring := map TablesModel.text
  ["nodesettype"; "ccn_nodetype"; "ccn_traversal_type"; "ccn_pass_type"; "ccn_action_id"; "NODE_DATA"; "ccn_node"; "TRAV_DATA"].
(** gen_node_base_and_union.c:40-47, file_switchers.c:76-78 and
    phase_driver/gen_action_array_header.c:38-39 with the macros of the root and
    of unsafe types *)
Definition macros_always : list cstring := map TablesModel.text
  ["NODE_TYPE"; "NODE_CHILDREN"; "NODE_NUMCHILDREN"; "NODE_FILENAME"; "NODE_BLINE"; "NODE_ELINE"; "NODE_BCOL"; "NODE_ECOL";
   "MAYBE_UNUSED"; "CCN_NUM_OF_ACTIONS"; "CCN_ROOT_TYPE"; "CCN_ROOT_ACTION"; "CCN_USES_UNSAFE"].

Definition fixed_names : list cstring :=
  copra_functions ++ copra_types ++ copra_enumerators ++ palm_functions ++ palm_types ++ palm_enumerators ++ generated_always.
Definition fixed_tags : list cstring := copra_tags ++ palm_tags ++ tags_always.
Definition fixed_macros : list cstring := palm_macros ++ macros_always.

(** ** Functions, tables, enumerators and type names *)

(** gen_enum_values.c:14-33 [DGEVienum], [DGEVid] *)
Definition DGEVienum (e : ienum) : list cstring :=
  (ID_UPR (en_prefix e) ++ TablesModel.text "_NULL") :: map (fun v => ID_UPR (en_prefix e) ++ TablesModel.text "_" ++ ID_LWR v) (en_values e).
(** gen_node_constructor.c: AST<node> *)
Definition constructors (a : ast) : list cstring := map (fun n => TablesModel.text "AST" ++ ID_LWR (nd_name n)) (a_nodes a).
(** gen_action_header.c:48-57 [DGHinode] *)
Definition system_functions (a : ast) : list cstring :=
  flat_map (fun n => map (fun pre => TablesModel.text pre ++ ID_LWR (nd_name n)) ["CPY"; "DEL"; "CHK"]) (a_nodes a).
(** gen_traversal_functions.c:24-59 *)
Definition child_functions (fs : list trav_function) : list cstring := map (fun f => TablesModel.text "TRAV" ++ tf_key f) fs.
(** gen_trav_data_ctors_header.c:8-17 [DGTDCHitraversal] *)
Definition data_functions (a : ast) : list cstring :=
  flat_map (fun t => match tv_data t with
                     | [] => []
                     | _ :: _ => map (fun pre => TablesModel.text pre ++ tv_name t) ["TRAVdataInit"; "TRAVdataFree"]
                     end) (a_traversals a).
(** The accessors of Gen/AccessModel.v, in the tree that the generators see *)
Definition access_functions (b : ast) : list cstring := map f_name (functions b) ++ map e_name (error_functions b).

Section Program.
  (** The number of visits that the scheduler made for a node type, and the
      order in which a table of children is iterated *)
  Variable visits : inode -> nat.
  Variable iteration : list nat -> list nat.

  (** gen_visit_header.c:72: "CCNvisit_%s_%d" *)
  Definition decimal (k : nat) : cstring := list_ascii_of_string (NilEmpty.string_of_uint (Nat.to_uint k)).
  Definition visit_name (n : inode) (k : nat) : cstring :=
    TablesModel.text "CCNvisit_" ++ ID_LWR (nd_name n) ++ TablesModel.text "_" ++ decimal k.
  Definition visit_functions (a : ast) : list cstring := flat_map (fun n => map (visit_name n) (seq 1 (visits n))) (a_nodes a).

  Definition table_names (a : ast) (tables : list carray) : list cstring := map ca_name tables ++ map fst (ids_tables a).
  Definition user_functions (directory : list cfile) : list cstring := map fst (flat_map snd directory).

  (** All these names, for the tree of a file that the front end accepts *)
  Definition ordinary_names (a : ast) : outcome (list cstring) :=
    let! r := before_scheduling a in
    let! tables := generated_tables a in
    let! fs := DGT_Fast a in
    let! directory := user_directory iteration a in
    Val (fixed_names ++ (all_enumerators a ++ flat_map DGEVienum (a_enums a)) ++ constructors a ++ system_functions a ++
         (child_functions fs ++ data_functions a) ++ (access_functions (finished a (fst r) (snd r)) ++ visit_functions a) ++
         table_names a tables ++ user_functions directory).

  (** ** Structures, unions and enums *)

  (** gen_node_structs.c:30-66 [DGNSinode], [DGNSattribute]; C puts the tags
      of structures in structures with all others. *)
  Definition DGNSattribute (n : inode) (x : attribute) : list cstring :=
    if at_is_inherited x || at_is_synthesized x
    then [TablesModel.text "NODE_" ++ ID_UPR (nd_name n) ++ TablesModel.text "_" ++ ID_UPR (at_name x) ++ TablesModel.text "_STRUCT"] else [].
  Definition DGNSinode (n : inode) : list cstring :=
    (TablesModel.text "NODE_DATA_" ++ ID_UPR (nd_name n)) ::
    match nd_children n with
    | [] => []
    | _ :: _ => [TablesModel.text "NODE_CHILDREN_" ++ ID_UPR (nd_name n);
                 TablesModel.text "NODE_CHILDREN_" ++ ID_UPR (nd_name n) ++ TablesModel.text "_STRUCT"]
    end ++ flat_map (DGNSattribute n) (nd_attributes n).
  (** gen_trav_structs.c:20-28 [DGTSitraversal] *)
  Definition DGTSitraversal (t : itraversal) : list cstring :=
    match tv_data t with [] => [] | _ :: _ => [TablesModel.text "data_" ++ ID_LWR (uid_of t)] end.
  (** gen_visit_header.c: the results of a visit with more than one; the name is
      kept for all visits *)
  Definition visit_tags (a : ast) : list cstring := map (fun f => f ++ TablesModel.text "_out") (visit_functions a).

  Definition tag_names (b : ast) : list cstring :=
    fixed_tags ++ map en_name (a_enums b) ++ flat_map DGNSinode (a_nodes b) ++ flat_map DGTSitraversal (a_traversals b) ++ visit_tags b.
End Program.

(** ** Macros *)

(** gen_trav_data_getters.c:8-16 [DGTDGitraversal] *)
Definition DGTDGitraversal (t : itraversal) : list cstring :=
  match tv_data t with
  | [] => []
  | _ :: _ => [TablesModel.text "DATA_" ++ ID_UPR (uid_of t) ++ TablesModel.text "_GET"]
  end.
Definition macro_names (b : ast) : list cstring :=
  fixed_macros ++ map m_name (DGNMast b) ++ flat_map DGTDGitraversal (a_traversals b).

(** ** Members of the structures and unions *)

(** gen_node_structs.c:36-92 *)
Definition attribute_member (x : attribute) : cstring :=
  (if at_is_inherited x || at_is_synthesized x then TablesModel.text "_" else []) ++ ID_LWR (at_name x).
Definition node_structs (n : inode) : list (list cstring) :=
  (match nd_children n with [] => [] | _ :: _ => [ID_LWR (nd_name n) ++ TablesModel.text "_children"] end ++
   map attribute_member (nd_attributes n)) ::
  map (fun c => ID_LWR (ch_name c)) (nd_children n) ::
  [ID_LWR (nd_name n) ++ TablesModel.text "_children_st"; ID_LWR (nd_name n) ++ TablesModel.text "_children_at"] ::
  map (fun x => [TablesModel.text "ccn_val_set"; ID_LWR (at_name x)])
    (filter (fun x => at_is_inherited x || at_is_synthesized x) (nd_attributes n)).
(** gen_node_base_and_union.c:62-80, gen_trav_data_union.c:34-43,
    gen_trav_structs.c:30-52 *)
Definition structs (b : ast) : list (list cstring) :=
  map (fun n => TablesModel.text "N_" ++ ID_LWR (nd_name n)) (a_nodes b) ::
  map (fun t => ID_LWR (tv_name t)) (filter (fun t => match tv_data t with [] => false | _ => true end) (a_traversals b)) ::
  map (fun t => map td_name (tv_data t)) (a_traversals b) ++
  flat_map node_structs (a_nodes b).
