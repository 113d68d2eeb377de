(** Model of the enums, dispatch tables and action tables cocogen generates:
    dynamic_backend/gen_enums.c, gen_trav_table.c, gen_trav_v_table.c,
    gen_node_trav_table.c, gen_system_traversals.c, gen_pass_table.c,
    gen_trav_data_tables.c, gen_helpers.c, gen_action_header.c, and
    phase_driver/gen_action_array.c, gen_action_array_header.c,
    gen_ids_table.c; and of the C meaning of that text: an enumerator is its
    position in its enum, an array is indexed by position.

    Generated text is kept as names (byte strings); layout and punctuation are
    not represented.  A traversal always has a uid (dsl-parser.y:436-497);
    where the syntax has none, the model uses the empty string. *)

From Coq Require Import String.
From Coq Require Import List Ascii Bool Arith.
From Verif Require Import Base.Outcome Palm.StrModel Front.Syntax Front.ReachModel
  Copra.PhaseDriverModel.
Import ListNotations.
Local Open Scope string_scope.
Local Open Scope list_scope.
Local Open Scope outcome_scope.

(** Text in a format string of the generators. *)
Definition text (s : string) : cstring := list_ascii_of_string s.

(** [ITRAVERSAL_IPREFIX], see above. *)
Definition uid_of (t : itraversal) : ident := match tv_uid t with Some u => u | None => [] end.

(** ** Enums *)

(** gen_enums.c:50-56 [DGEinode], 34-40 [DGEitraversal], 42-48 [DGEipass],
    58-64 [DGEinodeset] *)
Definition nt_name (n : inode) : cstring := text "NT_" ++ ID_UPR (nd_name n).
Definition trav_enumerator (t : itraversal) : cstring := text "TRAV_" ++ ID_UPR (uid_of t).
Definition pass_enumerator (p : ipass) : cstring := text "PASS_" ++ ID_UPR (ps_name p).
Definition ns_name_of (s : inodeset) : cstring := text "NS_" ++ ID_UPR (ns_name s).

(** gen_enums.c:8-21 [do_enum], 23-31 [DGEast] *)
Definition nodeset_enum (a : ast) : list cstring :=
  text "NS_NULL" :: map ns_name_of (a_nodesets a) ++ [text "_NS_SIZE"].
Definition node_enum (a : ast) : list cstring :=
  text "NT_NULL" :: map nt_name (a_nodes a) ++ [text "_NT_SIZE"].
Definition traversal_enum (a : ast) : list cstring :=
  text "TRAV_NULL" :: map trav_enumerator (a_traversals a) ++
  [text "TRAV_free"; text "TRAV_check"; text "TRAV_cpy"; text "_TRAV_SIZE"].
Definition pass_enum (a : ast) : list cstring :=
  text "PASS_NULL" :: map pass_enumerator (a_passes a) ++ [text "_PASS_SIZE"].

(** gen_action_array_header.c:53-78 [GAAHiphase], [GAAHitraversal],
    [GAAHipass] and 31-35 *)
Definition action_enumerator (name : ident) : cstring := text "CCNAC_ID_" ++ ID_UPR name.
Definition action_enum (a : ast) : list cstring :=
  map (fun p => action_enumerator (ph_name p)) (a_phases a) ++
  map (fun t => action_enumerator (tv_name t)) (a_traversals a) ++
  map (fun p => action_enumerator (ps_name p)) (a_passes a) ++
  [text "CCNAC_ID_check"; text "CCNAC_ID_free"; text "CCNAC_ID_cleanup"; text "CCNAC_ID_NULL"].

(** All generated enumerators; they share one C name space. *)
Definition all_enumerators (a : ast) : list cstring :=
  nodeset_enum a ++ node_enum a ++ traversal_enum a ++ pass_enum a ++ action_enum a.

(** C: without explicit values an enumerator is its position in its enum. *)
Fixpoint value_of (e : list cstring) (x : cstring) : option nat :=
  match e with
  | [] => None
  | y :: e => if list_eq_dec ascii_dec y x then Some 0 else option_map S (value_of e x)
  end.

(** ** Dispatch tables *)

(** An array definition: name, declared length (an enumerator) and the
    entries, each the name of a function or an array. *)
Record carray := mk_carray { ca_name : cstring; ca_length : cstring; ca_entries : list cstring }.

(** gen_node_trav_table.c:22-38 [DGNFTTinode] *)
Definition node_entry (t : itraversal) (c : code) (n : inode) : cstring :=
  match c with
  | RUser => ID_UPR (uid_of t) ++ ID_LWR (nd_name n)
  | RTrav => text "TRAVchildren"
  | RZero => text "TRAVnop"
  end.

Section Dispatch.
  (** [reachability_matrix], see Front/ReachModel.v. *)
  Variable reach : itraversal -> inode -> code.

  (** gen_trav_v_table.c:25-35 [DGTVitraversal] *)
  Definition vtable_name (t : itraversal) : cstring := ID_LWR (tv_name t) ++ text "_vtable".
  Definition trav_vtable (a : ast) (t : itraversal) : carray :=
    mk_carray (vtable_name t) (text "_NT_SIZE")
      (text "TRAVerror" :: map (fun n => node_entry t (reach t n) n) (a_nodes a)).

  (** gen_system_traversals.c:29-36, 49-61 *)
  Definition system_vtable (a : ast) (prefix name : string) : carray :=
    mk_carray (text "ccn_" ++ text name ++ text "_vtable") (text "_NT_SIZE")
      (text "TRAVerror" ::
       map (fun n => if string_dec prefix "ERR" then text "TRAVerror"
                     else text prefix ++ ID_LWR (nd_name n)) (a_nodes a)).

  (** gen_trav_table.c:13-34 *)
  Definition ccn_trav_vtable (a : ast) : carray :=
    mk_carray (text "ccn_trav_vtable") (text "_TRAV_SIZE")
      (text "ccn_error_vtable" :: map vtable_name (a_traversals a) ++
       [text "ccn_free_vtable"; text "ccn_check_vtable"; text "ccn_copy_vtable"]).

  (** gen_helpers.c:6-17 [DGHpassFuncName] *)
  Definition DGHpassFuncName (p : ipass) : cstring :=
    match ps_func p with
    | Some f => f
    | None => match ps_uid p with
              | Some u => ID_UPR u ++ ps_name p
              | None => ps_name p
              end
    end.

  (** gen_pass_table.c:17-36 *)
  Definition ccn_pass_vtable (a : ast) : carray :=
    mk_carray (text "ccn_pass_vtable") (text "_PASS_SIZE")
      (text "PASSerror" :: map DGHpassFuncName (a_passes a)).

  (** gen_trav_data_tables.c:17-57; the function name is "TRAVdataInit" or
      "TRAVdataFree" followed by the traversal's name as written. *)
  Definition data_entry (f : string) (t : itraversal) : cstring :=
    match tv_data t with [] => text "TRAVdataNOP" | _ :: _ => text f ++ tv_name t end.
  Definition data_table (a : ast) (name f : string) : carray :=
    mk_carray (text name) (text "_TRAV_SIZE")
      (text "TRAVdataNOP" :: map (data_entry f) (a_traversals a) ++
       [text "TRAVdataNOP"; text "TRAVdataNOP"; text "TRAVdataNOP"]).
  Definition trav_data_init_vtable (a : ast) : carray :=
    data_table a "trav_data_init_vtable" "TRAVdataInit".
  Definition trav_data_free_vtable (a : ast) : carray :=
    data_table a "trav_data_free_vtable" "TRAVdataFree".

  (** All tables (file vtables.c, main.ccn:100-105, file_switchers.c:94; the
      order in the file does not matter here). *)
  Definition vtables (a : ast) : list carray :=
    map (trav_vtable a) (a_traversals a) ++
    [system_vtable a "CPY" "copy"; system_vtable a "CHK" "check";
     system_vtable a "DEL" "free"; system_vtable a "ERR" "error";
     ccn_trav_vtable a; ccn_pass_vtable a; trav_data_init_vtable a; trav_data_free_vtable a].

  Definition array_named (l : list carray) (x : cstring) : option carray :=
    find (fun c => if list_eq_dec ascii_dec (ca_name c) x then true else false) l.

  (** C: the element [i] of a const array: [Undef] outside the initialised
      elements.  (The rest up to the declared length would be NULL; the
      declared lengths are checked separately.) *)
  Definition element (c : carray) (i : nat) : outcome cstring :=
    match nth_error (ca_entries c) i with Some x => Val x | None => Undef end.

  (** copra/src/dynamic_core.c:48-52 [TRAVdo]: the function called for a node
      of type number [ty] in traversal number [tr]. *)
  Definition TRAVdo_function (a : ast) (tr ty : nat) : outcome cstring :=
    let! row := element (ccn_trav_vtable a) tr in
    match array_named (vtables a) row with
    | Some c => element c ty
    | None => Undef
    end.

  (** dynamic_core.c:18-28 [TRAVpush], 31-40 [TRAVpop], PASSstart *)
  Definition PASSstart_function (a : ast) (ps : nat) : outcome cstring := element (ccn_pass_vtable a) ps.
  Definition TRAVpush_function (a : ast) (tr : nat) : outcome cstring := element (trav_data_init_vtable a) tr.
  Definition TRAVpop_function (a : ast) (tr : nat) : outcome cstring := element (trav_data_free_vtable a) tr.
End Dispatch.

(** gen_action_header.c:37-47 [DGAHipass], with gen_helpers.h:15-17: the
    function of a pass as declared in actions.h. *)
Definition declared_pass (p : ipass) : cstring :=
  match ps_uid p with Some u => ID_UPR u | None => [] end ++ ps_name p.

(** ** Action tables *)

(** ccn/action_types.h:7-33, with enumerators and array names instead of
    values *)
Inductive payload :=
| PayTraversal (trav_type : cstring)
| PayPass (pass_type : cstring)
| PayPhase (gate_func : option cstring) (root_type action_table : cstring) (is_cycle : bool)
    (current_action_id : cstring).
Record action_entry := mk_entry { ae_id : cstring; ae_name : cstring; ae_payload : payload }.

Definition ids_table_name (p : iphase) : cstring := ID_LWR (ph_name p) ++ text "_ids_table".

(** gen_action_array.c:45-55 [GAAiphase]; [root] is AST_ROOT_NODE *)
Definition phase_entry (root : inode) (p : iphase) : action_entry :=
  mk_entry (action_enumerator (ph_name p)) (ph_name p)
    (PayPhase (ph_gate p) (nt_name root) (ids_table_name p) (ph_is_cycle p)
       (action_enumerator (ph_name p))).
(** 58-67 [GAAitraversal] *)
Definition traversal_entry (t : itraversal) : action_entry :=
  mk_entry (action_enumerator (tv_name t)) (tv_name t) (PayTraversal (trav_enumerator t)).
(** 69-78 [GAAipass] *)
Definition pass_entry (p : ipass) : action_entry :=
  mk_entry (action_enumerator (ps_name p)) (ps_name p) (PayPass (pass_enumerator p)).

(** 19-43 [GAAast] *)
Definition ccn_action_array (root : inode) (a : ast) : list action_entry :=
  map (phase_entry root) (a_phases a) ++ map traversal_entry (a_traversals a) ++
  map pass_entry (a_passes a) ++
  [ mk_entry (text "CCNAC_ID_free") (text "Free") (PayTraversal (text "TRAV_free"));
    mk_entry (text "CCNAC_ID_cleanup") (text "Cleanup")
      (PayPhase None (nt_name root) (text "cleanup_ids_table") false (text "CCNAC_ID_cleanup")) ].

(** gen_ids_table.c:14-50 *)
Definition ids_table (p : iphase) : cstring * list cstring :=
  (ids_table_name p, map action_enumerator (ph_actions p) ++ [text "CCNAC_ID_NULL"]).
Definition ids_tables (a : ast) : list (cstring * list cstring) :=
  (text "cleanup_ids_table", [text "CCNAC_ID_free"; text "CCNAC_ID_NULL"]) ::
  map ids_table (a_phases a).

Definition assoc {V} (l : list (cstring * V)) (x : cstring) : option V :=
  option_map snd (find (fun e => if list_eq_dec ascii_dec (fst e) x then true else false) l).

(** The leaf of an action: the number of a traversal or a pass. *)
Inductive leaf := LTraversal (n : nat) | LPass (n : nat).

(** An undeclared name does not compile: [Exited] stands for the C compiler's
    error. *)
Definition c_value (e : list cstring) (x : cstring) : outcome nat :=
  match value_of e x with Some v => Val v | None => Exited end.

(** CCNgetActionFromID (generated, gen_action_array.c:37-40) and the walks
    over [action_table] up to CCNAC_ID_NULL (copra/src/phase_driver.c:128-146,
    198-206, 313-335): the tree of actions behind an action number. *)
Section Load.
  Variable root : inode.
  Variable a : ast.

  Section Walk.
    Variable load : nat -> outcome (action leaf cstring).
    Fixpoint load_table (ids : list cstring) : outcome (list (action leaf cstring)) :=
      match ids with
      | [] => Undef
      | x :: ids =>
          let! v := c_value (action_enum a) x in
          let! stop := c_value (action_enum a) (text "CCNAC_ID_NULL") in
          if Nat.eqb v stop then Val []
          else let! act := load v in
               let! rest := load_table ids in
               Val (act :: rest)
      end.
  End Walk.

  Fixpoint load (fuel : nat) (id : nat) : outcome (action leaf cstring) :=
    match fuel with
    | O => NoFuel
    | S fuel =>
        match nth_error (ccn_action_array root a) id with
        | None => Undef
        | Some e =>
            match ae_payload e with
            | PayTraversal x =>
                let! v := c_value (traversal_enum a) x in Val (ALeaf (ae_name e) (LTraversal v))
            | PayPass x =>
                let! v := c_value (pass_enum a) x in Val (ALeaf (ae_name e) (LPass v))
            | PayPhase gate _ table is_cycle _ =>
                match assoc (ids_tables a) table with
                | None => Exited
                | Some ids =>
                    let! acts := load_table (load fuel) ids in
                    Val (APhase (ae_name e) gate is_cycle acts)
                end
            end
        end
    end.

  (** gen_action_array_header.c:46-48, phase_driver.c:302: the action CCNrun
      starts with; [start] is AST_START_PHASE *)
  Definition CCN_ROOT_ACTION (start : iphase) : cstring := action_enumerator (ph_name start).
  Definition load_root (fuel : nat) (start : iphase) : outcome (action leaf cstring) :=
    let! v := c_value (action_enum a) (CCN_ROOT_ACTION start) in load fuel v.
End Load.

(** ** What the C compiler asks of these files: no name is defined twice, and
    the tables of actions use declared enumerators only.  Clashes with the
    enumerators of user enums are not considered. *)
Record compiles (reach : itraversal -> inode -> code) (a : ast) : Prop := {
  co_enumerators : NoDup (all_enumerators a);
  co_vtables : NoDup (map ca_name (vtables reach a));
  co_ids_tables : NoDup (map fst (ids_tables a));
  co_actions : forall p x, In p (a_phases a) -> In x (snd (ids_table p)) -> In x (action_enum a)
}.
