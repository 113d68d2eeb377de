(** The files in user/ with a first definition of every function that the user
    has to supply: dynamic_backend/gen_user_passes.c, gen_user_traversals.c and
    gen_user_equations.c, in the order of main.ccn:204-228, with
    generator.c:42-53, 90-95 (GNopenFile, GNopenUserFile).

    A function is its name and what its body does; comments, includes and types
    are not represented. *)

From Coq Require Import String.
From Coq Require Import List Ascii Bool Arith.
From Verif Require Import Base.Outcome Palm.StrModel Front.Syntax Front.SetsModel Front.ReachModel Copra.TravModel
  Sched.FrontendModel Front.SymbolTableModel Gen.AccessModel Gen.TablesModel Gen.DispatchModel Gen.EvalVariantsModel.
From Verif Require Front.SetsSpec.
Import ListNotations.
Local Open Scope string_scope.
Local Open Scope list_scope.
Local Open Scope outcome_scope.

Inductive body :=
| Return_root      (* return root; *)
| Return_nothing   (* return; *)
| Walk_children    (* TRAVchildren(node); return node; *)
| Default_value (parameters : list attribute_reference).
  (* return the default value of the type, for a user type nothing *)
Definition cfunction : Type := cstring * body.
Definition cfile : Type := cstring * list cfunction.

(** gen_user_passes.c:11-29 [DUGPast], [DUGPipass] *)
Definition DUGPast (a : ast) : cfile :=
  (TablesModel.text "passes.c", map (fun p => (DGHpassFuncName p, Return_root)) (a_passes a)).

(** gen_user_traversals.c:67-77 [DUGTid] *)
Definition DUGTid (curr_trav : cstring) (id : ident) : cfunction := (curr_trav ++ ID_LWR id, Walk_children).

(** gen_user_traversals.c:20-65 [DUGTitraversal], [DUGTinode]: [inodes] is
    ITRAVERSAL_INODES, NULL for the empty set.  DUGT has no function for
    setliteral, so TRAVchildren walks through reference, left and right
    (main.ccn:810-816).  TRAVnext comes before TRAVname. *)
Definition DUGTitraversal (a : ast) (t : itraversal) (inodes : option literal) : cfile :=
  let curr_trav := ID_UPR (uid_of t) in
  (TablesModel.text "trav_" ++ ID_LWR (tv_name t) ++ TablesModel.text ".c",
   match tv_data t with
   | [] => []
   | _ :: _ => [(curr_trav ++ TablesModel.text "init", Return_nothing); (curr_trav ++ TablesModel.text "fini", Return_nothing)]
   end ++
   match inodes with
   | None | Some LNull => rev (map (fun n => DUGTid curr_trav (nd_name n)) (a_nodes a))
   | Some l => map (DUGTid curr_trav) (SetsSpec.listed l)
   end).
Definition DUGTast (a : ast) (targets : list (option literal)) : list cfile :=
  map (fun x => DUGTitraversal a (fst x) (snd x)) (combine (a_traversals a) targets).

Section Equations.
  (** The order in which a table of children is iterated. *)
  Variable iteration : list nat -> list nat.

  (** gen_user_equations.c:63-96, 138-200 [DUGEinode], [DUGEequation]; the
      functions are those of [DGEFequation] *)
  Definition DUGEinode (n : inode) : outcome (list cfile) :=
    match nd_equations n with
    | [] => Val []
    | _ :: _ => let! l := DGEFequations n iteration in
                Val [(TablesModel.text "eq_" ++ ID_LWR (nd_name n) ++ TablesModel.text ".c",
                      map (fun f => (fst f, Default_value (snd f))) l)]
    end.
  Definition DUGEast (a : ast) : outcome (list cfile) :=
    let! l := map_val DUGEinode (a_nodes a) in Val (concat l).

  (** fopen (path, "w"): what was in the file before is lost *)
  Definition GNopenUserFile (files : list cfile) (f : cfile) : list cfile :=
    filter (fun g => if list_eq_dec ascii_dec (fst g) (fst f) then false else true) files ++ [f].

  Definition dynamicGenUserFiles (a : ast) (targets : list (option literal)) : outcome (list cfile) :=
    let! equations := DUGEast a in
    Val (fold_left GNopenUserFile (DUGPast a :: DUGTast a targets ++ equations) []).

  (** The directory user/ for an accepted specification. *)
  Definition user_directory (a : ast) : outcome (list cfile) :=
    let! u := unwrap a in dynamicGenUserFiles a (fst u).
End Equations.

(** The tables of the generated file vtables.c, see [dispatch]. *)
Definition generated_tables (a : ast) : outcome (list carray) :=
  let! r := before_scheduling a in
  let! ste := BSTast a in
  let! u := unwrap a in
  let! reach := matrix ste a (fst u) (snd u) in
  Val (vtables reach (finished a (fst r) (snd r))).

(** A compiler that consists of the generated files, with [directory] for the
    user's functions: the linker takes the definition of the name; names that
    are not there are defined elsewhere. *)
Section Program.
  Context {A W : Type}.
  Variable others : cstring -> W -> tree A -> prog A W.

  Definition definition (directory : list cfile) (f : cstring) : option body :=
    option_map snd (find (fun g => if list_eq_dec ascii_dec (fst g) f then true else false) (flat_map snd directory)).
  Definition linked (directory : list cfile) (f : cstring) (w : W) (t : tree A) : prog A W :=
    match definition directory f with
    | Some Walk_children => PChildren w (Some t) (fun w r => PRet w r)
    | Some _ => PRet w (Some t)
    | None => others f w t
    end.
End Program.
