(** Which files a run of cocogen writes, and whose output is in them. *)

From Coq Require Import String.
From Coq Require Import List Ascii.
From Verif Require Import Palm.StrModel Front.Syntax.
Import ListNotations.
Local Open Scope string_scope.
Local Open Scope list_scope.

Definition str (s : string) : cstring := list_ascii_of_string s.

(** An action together with the number of one of its files; [0] is a file
    that another action has opened. *)
Definition part : Type := (string * nat)%type.
(** A file below the directory for output, and the parts of its text. *)
Definition output : Type := (cstring * list part)%type.

Definition one (path : string) (l : list part) : output := (str path, l).
(** Files that one action writes one after the other *)
Fixpoint several (action : string) (k : nat) (paths : list cstring) : list output :=
  match paths with
  | [] => []
  | p :: paths => (p, [(action, k)]) :: several action (S k) paths
  end.

(** The nodes that have equations. *)
Definition equation_nodes (a : ast) : list inode :=
  filter (fun n => match nd_equations n with [] => false | _ :: _ => true end) (a_nodes a).

Definition dynamic_outputs (a : ast) : list output :=
  [ one "ccngen/ast.h"
      [("dynamic_start_ast_header", 1); ("dynamicGenNodeStructs", 0); ("dynamicGenNodeMacros", 0); ("dynamicGenNodeInitFunctions", 0);
       ("dynamicGenNodeUnion", 0); ("dynamicGenBaseNode", 0); ("dynamicGenNodeAccessFunctions", 0); ("dynamicGenNodesetAccessFunctions", 0)];
    one "ast.c"
      [("dynamicSwitchToAstSource", 1); ("dynamicGenBaseNodeInit", 0); ("dynamicGenNodeConstructor", 0);
       ("dynamicGenNodeAccessFunctionsError", 0); ("dynamicGenNodesetAccessFunctionsError", 0)];
    one "ccngen/enum.h" [("dynamicStartEnumHeader", 1); ("dynamicGenEnum", 0); ("dynamicGenEnumValues", 0)];
    one "ccngen/trav_data.h"
      [("dynamicStartTravData", 1); ("dynamicGenTravDataStructs", 0); ("dynamicGenTravDataUnion", 0); ("dynamicGenTravDataGetters", 0);
       ("dynamicGenTravDataCtorsHeader", 0)];
    one "trav_data.c" [("dynamicSwitchTravData", 1); ("dynamicGenTravDataCtors", 0)];
    one "vtables.c"
      [("dynamicStartTableGen", 1); ("dynamicGenTravVtable", 0); ("dynamicGenPassTable", 0); ("dynamicGenSystemTraversals", 0);
       ("dynamicGenTravTable", 0); ("dynamicGenTravDataTables", 0)];
    one "ccngen/actions.h" [("dynamicGenActionsHeader", 1)];
    one "ccn_copy.c" [("dynamicGenCopyTraversal", 1)];
    one "ccn_free.c" [("dynamicGenFreeTraversal", 1)];
    one "ccn_check.c" [("dynamicGenCheckTraversal", 1)];
    one "ccngen/equation.h" [("dynamic_start_equation_header", 1); ("dynamicGenEquationIncludes", 0)] ] ++
  several "dynamicGenEquationFunctions" 1
    (map (fun n => str "ccngen/equations/" ++ ID_LWR (nd_name n) ++ str ".h") (equation_nodes a)) ++
  [ one "ccngen/visit.h" [("dynamic_start_visit_header", 1); ("dynamicGenVisitFunctions", 0)];
    one "visit.c" [("dynamicSwitchToVisitSource", 1); ("dynamicGenVisitSource", 0)];
    one "ccngen/ag.h" [("dynamic_start_ag_header", 1); ("dynamicGenAGHeader", 0)];
    one "ag.c" [("dynamicSwitchToAGSource", 1); ("dynamicGenAGSource", 0)];
    one "user/passes.c" [("dynamicUserGenPasses", 1)] ] ++
  several "dynamicUserGenTraversals" 1
    (map (fun t => str "user/trav_" ++ ID_LWR (tv_name t) ++ str ".c") (a_traversals a)) ++
  several "dynamicUserGenEquations" 1
    (map (fun n => str "user/eq_" ++ ID_LWR (nd_name n) ++ str ".c") (equation_nodes a)) ++
  [ one "trav.c" [("dynamicGenTravFunctions", 1)]; one "ccngen/trav.h" [("dynamicGenTravFunctions", 2)] ].

(** For every backend *)
Definition common_outputs : list output :=
  [ one "ccngen/action_handling.h" [("genActionArrayHeader", 1)];
    one "action_handling.c" [("genIdsTables", 1); ("genActionArray", 0)];
    one "ccngen/gate.h" [("genGateHeader", 1)];
    one "ast.dot" [("genDot", 1)];
    one "ccngen/ccn_defs.h" [("genDefines", 1)] ].

Definition outputs (a : ast) : list output := dynamic_outputs a ++ common_outputs.

(** Files for looking at the scheduler *)
Definition diagnostic (directory path : cstring) : Prop :=
  exists rest, path = directory ++ str "ag_dot/" ++ rest \/ path = directory ++ str "log/" ++ rest.

(** The text of a file, given the texts of the actions. *)
Definition text_of {P : Type} (content : string -> nat -> list P) (l : list part) : list P :=
  flat_map (fun x => content (fst x) (snd x)) l.
