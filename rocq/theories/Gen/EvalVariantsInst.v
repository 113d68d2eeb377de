(** Instances for the variants of equations (C35). *)

From Coq Require Import String.
From Coq Require Import List Ascii Bool Arith.
From Verif Require Import Base.Outcome Palm.StrModel Front.Syntax Front.SetsModel Front.SetsSpec Front.SetsInst Front.ExampleInst
  Front.PropagateModel Front.PropagateInst Front.NodesetPassesModel Front.NodesetPassesProof
  Front.ProductRulesModel Front.ProductRulesInst Sched.FrontendModel Sched.VisitInst Gen.EvalVariantsModel.
Import ListNotations.
Local Open Scope string_scope.
Local Open Scope list_scope.
Local Open Scope outcome_scope.

(** A child with lifetime "mandatory". *)
Definition must (t s : string) : child := mk_child (nm s) (nm t) true [mk_lifetime LT_mandatory None None].

Definition show (l : list prototype) : list (string * list attribute_reference) :=
  map (fun p => (string_of_list_ascii (fst p), snd p)) l.
(** The declarations of an equation, and the call for the absent children. *)
Definition declarations (n : inode) (e : equation) : outcome (list (string * list attribute_reference)) :=
  map_outcome show (DGEFequation n (fun l => l) e).
Definition call (n : inode) (r : attribute_reference) (absent : list nat) : outcome (list (string * list attribute_reference)) :=
  let! st := DGVSvisit_sequence_eval n (@rev nat) r in
  match st with
  | None => Exited
  | Some st => map_outcome (fun p => show [p]) (run (fun c => existsb (Nat.eqb c) absent) st)
  end.

(** pair has optional children left and right and a mandatory child base:
    pair.sum = f(right.value, base.value, left.value, Right.value, pair.bonus). *)
Definition sum : equation :=
  mk_equation (this_ "Sum") [of_ "right" "value"; of_ "base" "value"; of_ "left" "value"; of_ "Right" "value"; this_ "bonus"].
Definition pair_node : inode :=
  mk_node (nm "Pair") true [ch "num" "left"; ch "num" "Right"; must "num" "base"]
    [syn_attr "sum" AT_int; syn_attr "bonus" AT_int] [mk_equation (this_ "bonus") []; sum] [].
Definition num_node : inode := mk_node (nm "num") false [] [syn_attr "value" AT_int] [mk_equation (this_ "value") []] [].
Definition pairs : ast := spec [pair_node; num_node] [].

(** A child named "this": this.s is computed from nothing, the inherited
    attribute i of the child "this" too; both nodes have an attribute s. *)
Definition top_this : inode :=
  mk_node (nm "top") true [ch "num" "this"; ch "num" "other"] [syn_attr "s" AT_int]
    [mk_equation (of_ "this" "s") [of_ "other" "t"]; mk_equation (of_ "other" "s") []; mk_equation (this_ "s") []] [].
Definition low_node : inode :=
  mk_node (nm "num") false [] [inh_attr "s" AT_int; syn_attr "t" AT_int] [mk_equation (this_ "t") []] [].
Definition child_this : ast := spec [top_this; low_node] [].

(** Names with underscores: a_b.c and a.b_c. *)
Definition top_underscores : inode :=
  mk_node (nm "top") true [ch "x" "a_b"; ch "y" "a"] []
    [mk_equation (of_ "a_b" "c") []; mk_equation (of_ "a" "b_c") []] [].
Definition underscores : ast := spec
  [ top_underscores; mk_node (nm "x") false [] [inh_attr "c" AT_int] [] [];
    mk_node (nm "y") false [] [inh_attr "b_c" AT_bool] [] [] ] [].

(** Two equations for one attribute, the second reads the child. *)
Definition again : equation := mk_equation (this_ "s") [of_ "c" "t"].
Definition top_twice : inode :=
  mk_node (nm "top") true [ch "leaf" "c"] [syn_attr "s" AT_int] [mk_equation (this_ "s") []; again] [].
Definition twice : ast := spec
  [ top_twice; mk_node (nm "leaf") false [] [syn_attr "t" AT_int] [mk_equation (this_ "t") []] [] ] [].

(** The specifications are accepted by the checks before code generation. *)
Lemma no_sets_parsed : forall nodes, parsed_ast (spec nodes []).
Proof. intros nodes. apply spec_parsed. intros n []. Qed.
Lemma no_sets_unmarked : forall nodes, unmarked (spec nodes []).
Proof. intros nodes m x []. Qed.
