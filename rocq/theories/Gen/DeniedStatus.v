(** A run opens the files of the specification, and those for looking at the
    scheduler, only. *)

From Coq Require Import String.
From Coq Require Import List Ascii Bool NArith Lia Permutation.
From Verif Require Import Base.Outcome Palm.StrModel Front.Syntax Sched.GraphModel Sched.ScheduleModel Gen.AccessModel Gen.TablesModel
  Gen.EvalVariantsModel Gen.EvaluateModel Gen.CompileModel Gen.RunModel Gen.RunSpec Gen.RunProof Gen.RunProps Gen.DeniedModel Gen.DeniedProof.
Import ListNotations.
Local Open Scope list_scope.

Section Denied.
  Context {P : Type}.
  Variable denied : cstring -> bool.
  Variable full : cstring -> list P -> bool.
  Variable directory : cstring.
  Variable backend : cstring.
  Variable a : ast.
  Variable shuffle : list (graph_key * ag_graph) -> list (graph_key * ag_graph).
  Variable max_iter : nat.
  Variable iteration : list nat -> list nat.
  Variable content : string -> nat -> list P.
  Variable rounds stage : nat.
  Local Notation step := (leaf_step directory (Some a) shuffle max_iter iteration content rounds stage).
  Local Notation try := (leaf_try denied full directory (Some a) shuffle max_iter iteration content rounds stage).
  Local Notation doing := (leaf_action directory (Some a) shuffle max_iter iteration content rounds stage).
  Local Notation trace := (trace directory (Some a) shuffle max_iter iteration content rounds stage).
  Local Notation allowed := (@allowed P denied).

  Lemma go_allowed : (forall p l, full p l = false) -> forall ls w t, Forall allowed (trace ls t) -> go try ls w t = go step ls w t.
  Proof.
    intros F. induction ls as [|l ls IH]; intros w t A; [reflexivity|]. cbn [go DeniedProof.trace] in *.
    assert (E : try l w t = step l w t).
    { unfold leaf_try, leaf_step. destruct (doing l t) as [[es o] t1]. apply Forall_app in A. rewrite (attempt_allowed _ _ _ _ (proj1 A) F). reflexivity. }
    rewrite E. unfold leaf_step at 1 2. destruct (doing l t) as [[es o] t1]. apply Forall_app in A. destruct o; [|reflexivity..]. apply IH, A.
  Qed.

  Variable x : analysis.
  Lemma trace_later : forall ls, (forall l, In l ls -> l <> ScanAndParse /\ l <> Semantic) -> forall Q : effect P -> Prop,
    Forall Q (flat_map (effects_of directory (Some a) shuffle max_iter iteration content rounds stage a x) ls) -> Forall Q (trace ls (Analysed a x)).
  Proof.
    induction ls as [|l ls IH]; intros N Q H; [constructor|]. cbn [flat_map] in H. apply Forall_app in H. destruct H as [H1 H2]. cbn [DeniedProof.trace].
    assert (T : snd (doing l (Analysed a x)) = Analysed a x).
    { destruct (N l (or_introl eq_refl)) as [N1 N2]. destruct l; try reflexivity; contradiction. }
    unfold effects_of in H1. destruct (doing l (Analysed a x)) as [[es o] t1]. cbn [fst snd] in *. subst t1.
    apply Forall_app. split; [exact H1|]. destruct o; [|constructor..]. apply IH; [|exact H2]. intros l' I. apply N. right. exact I.
  Qed.

  Hypothesis Hdynamic : backend_is_dynamic backend.
  Hypothesis Ex : semantic shuffle max_iter a = Val x.
  Lemma trace_allowed :
    (forall o, In o (outputs a) -> denied (directory ++ fst o) = false) -> (forall path, diagnostic directory path -> denied path = false) ->
    Forall allowed (trace (executed (opened backend true) startPhase) Nothing).
  Proof.
    intros O D. rewrite (executed_is backend true Hdynamic). cbn [app DeniedProof.trace leaf_action]. rewrite Ex. cbn [no_result map_outcome app leaf_action].
    apply Forall_app. split.
    - apply (Forall_impl (P := confined (diagnostic directory))); [|apply scheduler_confined].
      intros [p|y|p l]; cbn; auto.
    - destruct (lifetimes a x); [|constructor..]. cbn [app]. apply (trace_later (later backend true) (later_kind backend true Hdynamic)).
      rewrite (backend_effects directory backend (Some a) shuffle max_iter iteration content rounds stage true a x). change (Forall allowed (segments (map (file_of directory content) (the_outputs backend true a)))).
      rewrite (dynamic_files backend Hdynamic). unfold segments. apply Forall_flat_map. apply Forall_forall. intros f I.
      apply in_map_iff in I. destruct I as (o & <- & I). constructor; [exact (O o I)|]. apply Forall_forall. intros e Ie.
      apply in_map_iff in Ie. destruct Ie as (y & <- & _). exact Logic.I.
  Qed.
End Denied.
