(** The functions that the user of a generated compiler has to supply. *)

From Coq Require Import String.
From Coq Require Import List Ascii Bool Arith.
From Verif Require Import Palm.StrModel Front.Syntax Copra.TravModel Gen.EvalVariantsSpec Gen.StubsModel Gen.DispatchSpec.
Import ListNotations.
Local Open Scope string_scope.
Local Open Scope list_scope.

Definition str (s : string) : cstring := list_ascii_of_string s.

Definition pass_function (p : ipass) : cstring :=
  match ps_func p, ps_uid p with
  | Some f, _ => f
  | None, Some u => ID_UPR u ++ ps_name p
  | None, None => ps_name p
  end.
Definition traversal_file (t : itraversal) : cstring := str "trav_" ++ ID_LWR (tv_name t) ++ str ".c".
Definition equation_file (n : inode) : cstring := str "eq_" ++ ID_LWR (nd_name n) ++ str ".c".

(** [stub a file f b]: function [f] is to be found in [file], with body [b].
    A traversal with an empty set is for all nodes. *)
Inductive stub (a : ast) : cstring -> cstring -> body -> Prop :=
| stub_pass : forall p, In p (a_passes a) -> stub a (str "passes.c") (pass_function p) Return_root
| stub_init : forall t u, In t (a_traversals a) -> tv_uid t = Some u -> tv_data t <> [] ->
    stub a (traversal_file t) (ID_UPR u ++ str "init") Return_nothing
| stub_fini : forall t u, In t (a_traversals a) -> tv_uid t = Some u -> tv_data t <> [] ->
    stub a (traversal_file t) (ID_UPR u ++ str "fini") Return_nothing
| stub_handler : forall t u n, In t (a_traversals a) -> tv_uid t = Some u -> In n (a_nodes a) ->
    is_for a t n \/ for_nothing a t ->
    stub a (traversal_file t) (ID_UPR u ++ ID_LWR (nd_name n)) Walk_children
| stub_equation : forall n e children null args, In n (a_nodes a) -> In e (nd_equations n) ->
    optional_children n (eq_args e) children -> (forall c, null c = true -> optional n c) ->
    readable n null (eq_args e) args ->
    stub a (equation_file n) (variant_name n (eq_rule e) (names n (filter null children))) (Default_value args).

(** What else a generated compiler has: the functions of the runtime and the
    generated ones. *)
Definition of_runtime (f : cstring) : Prop :=
  In f (map str ["TRAVerror"; "TRAVnop"; "TRAVchildren"; "PASSerror"; "TRAVdataNOP"]).
Definition generated (a : ast) (f : cstring) : Prop :=
  (exists n prefix, In n (a_nodes a) /\ In prefix ["CPY"; "CHK"; "DEL"] /\ f = str prefix ++ ID_LWR (nd_name n)) \/
  (exists t prefix, In t (a_traversals a) /\ tv_data t <> [] /\ In prefix ["TRAVdataInit"; "TRAVdataFree"] /\ f = str prefix ++ tv_name t).

(** No equation reads 64 or more optional children. *)
Definition few_children (a : ast) : Prop :=
  forall n e children, In n (a_nodes a) -> In e (nd_equations n) -> optional_children n (eq_args e) children ->
  List.length children < 64.

(** No two of these functions have one name.  [plain]: without underscore. *)
Definition plain (i : ident) : Prop := ~ In "_"%char i.
Record names_apart (a : ast) : Prop := {
  na_plain : forall n e, In n (a_nodes a) -> In e (nd_equations n) -> plain (nd_name n) /\
    plain (ar_attribute (eq_rule e)) /\ forall c, ar_inode (eq_rule e) = Some c -> plain c;
  na_equations : forall n, In n (a_nodes a) ->
    NoDup (map (fun e => (match ar_inode (eq_rule e) with Some c => ID_LWR c | None => str "this" end, ID_LWR (ar_attribute (eq_rule e))))
             (nd_equations n));
  na_data : forall t n, In t (a_traversals a) -> tv_data t <> [] -> In n (a_nodes a) ->
    is_for a t n \/ for_nothing a t -> ID_LWR (nd_name n) <> str "init" /\ ID_LWR (nd_name n) <> str "fini";
  na_functions : NoDup (map pass_function (a_passes a));
  na_passes : forall p, In p (a_passes a) ->
    (forall t u x, In t (a_traversals a) -> tv_uid t = Some u ->
       In x (str "init" :: str "fini" :: map (fun n => ID_LWR (nd_name n)) (a_nodes a)) -> pass_function p <> ID_UPR u ++ x) /\
    (forall x, pass_function p <> str "EVAL" ++ x) }.

(** The nodes of a tree that traversal number [i] has handlers for, in the
    order of a walk through the tree. *)
Section Called.
  Context {A : Type}.
  Variable a : ast.
  Variable i : nat.
  Inductive called : tree A -> list (tree A) -> Prop :=
  | called_handler : forall j x kids f l, meant a i j (Calls f) -> each_called kids l ->
      called (Node j x kids) (Node j x kids :: l)
  | called_none : forall j x kids l, meant a i j Walks -> each_called kids l -> called (Node j x kids) l
  with each_called : list (option (tree A)) -> list (tree A) -> Prop :=
  | each_called_nil : each_called [] []
  | each_called_null : forall kids l, each_called kids l -> each_called (None :: kids) l
  | each_called_child : forall t kids l l', called t l -> each_called kids l' -> each_called (Some t :: kids) (l ++ l').
End Called.
