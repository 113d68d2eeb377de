(** The files of a run have different names. *)

From Coq Require Import String.
From Coq Require Import List Ascii Bool Permutation.
From Verif Require Import Palm.StrModel Front.Syntax Front.ProductRulesProof Front.NodesetPassesProof Gen.CompileVerdict Gen.RunSpec.
Import ListNotations.
Local Open Scope list_scope.

Lemma several_paths : forall name paths k, map fst (several name k paths) = paths.
Proof. intros name. induction paths as [|p paths IH]; intros k; [reflexivity|]. cbn [several map fst]. f_equal. apply IH. Qed.

Lemma NoDup_named : forall A (f : A -> cstring) (pre post : cstring) l, NoDup (map f l) -> NoDup (map (fun n => pre ++ f n ++ post) l).
Proof.
  intros A f pre post l. induction l as [|n l IH]; intros N; [constructor|]. cbn [map] in *. apply NoDup_cons_iff in N. destruct N as [N1 N2].
  constructor; [|apply IH, N2]. intros I. apply N1. apply in_map_iff in I. destruct I as (m & E & I). apply app_inv_head in E. apply app_inv_tail in E.
  rewrite <- E. apply in_map. exact I.
Qed.
Lemma NoDup_filtered : forall A B (f : A -> B) g l, NoDup (map f l) -> NoDup (map f (filter g l)).
Proof.
  intros A B f g l. induction l as [|n l IH]; intros N; [constructor|]. cbn [map filter] in *. apply NoDup_cons_iff in N. destruct N as [N1 N2].
  destruct (g n); [|apply IH, N2]. cbn [map]. constructor; [|apply IH, N2]. intros I. apply N1. apply in_map_iff in I. destruct I as (m & E & I).
  rewrite <- E. apply in_map. apply filter_In in I. apply I.
Qed.

Lemma different : forall (l m : list cstring), NoDup l -> NoDup m -> (forall x, In x l -> In x m -> False) -> NoDup (l ++ m).
Proof. intros l m A B C. apply NoDup_app_all. split; [exact A|]. split; [exact B|]. exact C. Qed.

Lemma NoDup_map_str : forall l, NoDup l -> NoDup (map str l).
Proof.
  induction l as [|x l IH]; intros N; [constructor|]. apply NoDup_cons_iff in N. destruct N as [N1 N2]. cbn [map]. constructor; [|apply IH, N2].
  intros I. apply N1. apply in_map_iff in I. destruct I as (y & E & I). apply (f_equal string_of_list_ascii) in E. unfold str in E.
  rewrite !string_of_list_ascii_of_string in E. subst y. exact I.
Qed.

Section Names.
  Variable a : ast.
  Hypothesis Dn : NoDup (map (fun n => ID_LWR (nd_name n)) (a_nodes a)).
  Hypothesis Dt : NoDup (map (fun t => ID_LWR (tv_name t)) (a_traversals a)).

  Let headers := map (fun n => str "ccngen/equations/" ++ ID_LWR (nd_name n) ++ str ".h") (equation_nodes a).
  Let travs := map (fun t => str "user/trav_" ++ ID_LWR (tv_name t) ++ str ".c") (a_traversals a).
  Let eqs := map (fun n => str "user/eq_" ++ ID_LWR (nd_name n) ++ str ".c") (equation_nodes a).
  Let fixed : list cstring := map str
    ["ccngen/ast.h"; "ast.c"; "ccngen/enum.h"; "ccngen/trav_data.h"; "trav_data.c"; "vtables.c"; "ccngen/actions.h"; "ccn_copy.c"; "ccn_free.c"; "ccn_check.c";
     "ccngen/equation.h"; "ccngen/visit.h"; "visit.c"; "ccngen/ag.h"; "ag.c"; "user/passes.c"; "trav.c"; "ccngen/trav.h";
     "ccngen/action_handling.h"; "action_handling.c"; "ccngen/gate.h"; "ast.dot"; "ccngen/ccn_defs.h"]%string.

  Lemma paths : Permutation (map fst (outputs a)) (fixed ++ headers ++ travs ++ eqs).
  Proof.
    unfold outputs, dynamic_outputs. rewrite !map_app, !several_paths. fold headers travs eqs.
    match goal with
    | |- Permutation ((?x ++ headers ++ ?y ++ travs ++ eqs ++ ?z) ++ ?w) _ => set (f1 := x); set (f2 := y); set (f3 := z); set (f4 := w)
    end.
    change fixed with (f1 ++ f2 ++ f3 ++ f4). clearbody f1 f2 f3 f4 headers travs eqs. rewrite <- !app_assoc. apply Permutation_app_head.
    rewrite (app_assoc headers), (Permutation_app_comm headers f2), <- app_assoc. apply Permutation_app_head.
    transitivity ((f3 ++ f4) ++ (headers ++ travs ++ eqs)); [|rewrite <- !app_assoc; reflexivity].
    transitivity ((headers ++ travs ++ eqs) ++ (f3 ++ f4)); [rewrite <- !app_assoc; reflexivity|]. apply Permutation_app_comm.
  Qed.

  Lemma named_apart : forall A B (f : A -> cstring) (g : B -> cstring) l m, (forall x y, f x <> g y) -> forall p, In p (map f l) -> In p (map g m) -> False.
  Proof. intros A B f g l m N p I J. apply in_map_iff in I. destruct I as (x & <- & _). apply in_map_iff in J. destruct J as (y & E & _). apply (N x y). auto. Qed.

  Lemma outputs_distinct : NoDup (map fst (outputs a)).
  Proof.
    apply (Permutation_NoDup (Permutation_sym paths)).
    apply different; [|apply different; [|apply different|]|].
    - unfold fixed. apply NoDup_map_str. repeat (constructor; [cbn [In]; intuition discriminate|]). constructor.
    - apply NoDup_named with (f := fun n => ID_LWR (nd_name n)), NoDup_filtered, Dn.
    - apply NoDup_named with (f := fun n => ID_LWR (tv_name n)), Dt.
    - apply NoDup_named with (f := fun n => ID_LWR (nd_name n)), NoDup_filtered, Dn.
    - apply named_apart. discriminate.
    - intros p I J. apply in_app_iff in J. destruct J as [J|J]; revert I J; apply named_apart; discriminate.
    - intros p I J. apply in_map_iff in I. destruct I as (x & <- & I).
      apply in_app_iff in J. destruct J as [J|J]; [|apply in_app_iff in J; destruct J as [J|J]]; apply in_map_iff in J; destruct J as (y & E & _);
        cbn [In] in I; repeat (destruct I as [<-|I]; [discriminate E|]); destruct I.
  Qed.
End Names.
