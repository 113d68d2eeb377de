(** What a run does that cannot open all files. *)

From Coq Require Import String.
From Coq Require Import List Ascii Bool NArith Lia Permutation.
From Verif Require Import Base.Outcome Palm.StrModel Front.Syntax Copra.PhaseDriverModel Copra.PhaseDriverProof
  Sched.GraphModel Sched.ScheduleModel Gen.AccessModel Gen.TablesModel
  Gen.EvalVariantsModel Gen.EvaluateModel Gen.CompileModel Gen.RunModel Gen.RunSpec Gen.RunProof Gen.DeniedModel.
Import ListNotations.
Local Open Scope list_scope.

Section Denied.
  Context {P : Type}.
  Variable denied : cstring -> bool.
  Variable full : cstring -> list P -> bool.
  Implicit Types w : @machine P.
  Local Notation attempt := (attempt denied full).

  Definition allowed (e : effect P) : Prop :=
    match e with Open path | Write path _ => denied path = false | Print _ => True end.

  Lemma attempt_done : forall es w w', attempt es w = (w', false) ->
    Forall allowed es /\ ((forall p l, full p l = false) -> w' = fold_left perform es w).
  Proof.
    induction es as [|e es IH]; intros w w' H; [injection H as <-; auto|]. destruct e as [p|x|p l]; cbn [DeniedModel.attempt] in H.
    - destruct (denied p) eqn:D; [discriminate H|]. destruct (IH _ _ H) as [A B]. split; [constructor; [exact D|exact A]|exact B].
    - destruct (IH _ _ H) as [A B]. split; [constructor; [exact I|exact A]|]. intros F. rewrite (B F). cbn [fold_left]. f_equal.
      destruct (fp w) as [q|]; [|reflexivity]. destruct (disk w q) as [l|]; [rewrite F|]; reflexivity.
    - destruct (denied p) eqn:D; [discriminate H|]. destruct (IH _ _ H) as [A B]. split; [constructor; [exact D|exact A]|].
      intros F. rewrite (B F), F. reflexivity.
  Qed.
  Definition like (w v : @machine P) : Prop := fp w = fp v /\ verdict w = verdict v.
  Lemma attempt_like : forall es w w' v, attempt es w = (w', false) -> like w v -> like w' (fold_left perform es v).
  Proof.
    induction es as [|e es IH]; intros w w' v H [F V]; [injection H as <-; split; assumption|].
    destruct e as [p|x|p l]; cbn [DeniedModel.attempt] in H; cbn [fold_left].
    - destruct (denied p); [discriminate H|]. apply (IH _ _ _ H). split; [reflexivity|exact V].
    - apply (IH _ _ _ H). cbn [perform]. rewrite <- F. destruct (fp w) as [q|] eqn:E; [|split; reflexivity].
      assert (X : like w (match disk v q with Some l => mk_machine (put (disk v) q (l ++ [x])) (Some q) (verdict v) | None => v end)).
      { destruct (disk v q); (split; [|exact V]); [exact E|congruence]. }
      destruct (match disk w q with Some l => full q l | None => false end); [exact X|]. destruct X as [X1 X2]. split; [rewrite <- X1|rewrite <- X2]; destruct (disk w q); try reflexivity. symmetry. exact E.
    - destruct (denied p); [discriminate H|]. apply (IH _ _ _ H). split; [exact F|exact V].
  Qed.
  Lemma attempt_ended : forall es w w', attempt es w = (w', true) -> verdict w' = Exited.
  Proof.
    induction es as [|e es IH]; intros w w' H; [discriminate H|]. destruct e as [p|x|p l]; cbn [DeniedModel.attempt] in H.
    - destruct (denied p); [injection H as <-; reflexivity|exact (IH _ _ H)].
    - exact (IH _ _ H).
    - destruct (denied p); [injection H as <-; reflexivity|exact (IH _ _ H)].
  Qed.
  Lemma attempt_allowed : forall es w, Forall allowed es -> (forall p l, full p l = false) -> attempt es w = (fold_left perform es w, false).
  Proof.
    intros es w A F. revert w. induction A as [|e es H A IH]; intros w; [reflexivity|]. destruct e as [p|x|p l]; cbn [DeniedModel.attempt allowed] in *.
    - rewrite H. apply IH.
    - rewrite IH. cbn [fold_left]. f_equal. f_equal. destruct (fp w) as [q|]; [|reflexivity]. destruct (disk w q) as [l|]; [rewrite F|]; reflexivity.
    - rewrite H, F. apply IH.
  Qed.
  (** Files that cannot be opened stay as they are. *)
  Definition sound w : Prop := forall p, fp w = Some p -> denied p = false.
  Lemma attempt_kept : forall es w, sound w -> forall q, denied q = true ->
    sound (fst (attempt es w)) /\ disk (fst (attempt es w)) q = disk w q.
  Proof.
    assert (K : forall w e, sound w -> allowed e -> forall q, denied q = true -> sound (perform w e) /\ disk (perform w e) q = disk w q).
    { intros w e S A q D. destruct e as [p|x|p l]; cbn [perform allowed] in *.
      - split; [intros r E; injection E as <-; exact A|]. apply put_other. congruence.
      - destruct (fp w) as [r|] eqn:E; [|split; [discriminate|reflexivity]]. destruct (disk w r) eqn:Er; [|split; [exact S|reflexivity]].
        split; [intros r' E'; injection E' as <-; exact (S r E)|]. apply put_other. intros ->. rewrite (S r E) in D. discriminate.
      - split; [exact S|]. apply put_other. congruence. }
    induction es as [|e es IH]; intros w S q D; [auto|]. destruct e as [p|x|p l]; cbn [DeniedModel.attempt].
    - destruct (denied p) eqn:E; [split; [discriminate|reflexivity]|]. destruct (K w (Open p) S E q D) as [A B].
      destruct (IH _ A q D) as [A' B']. split; [exact A'|congruence].
    - set (w1 := match fp w with Some path => _ | None => _ end).
      assert (X : sound w1 /\ disk w1 q = disk w q).
      { unfold w1. destruct (fp w) as [r|] eqn:Er; [destruct (match disk w r with Some l => full r l | None => false end); [auto|]|]; apply (K w (Print x) S I q D). }
      destruct X as [A B]. destruct (IH _ A q D) as [A' B']. split; [exact A'|congruence].
    - destruct (denied p) eqn:E; [split; [exact S|reflexivity]|].
      destruct (K w (Write p (if full p [] then [] else l)) S E q D) as [A B]. destruct (IH _ A q D) as [A' B']. split; [exact A'|congruence].
  Qed.

  Section TheRun.
    Variable directory : cstring.
    Variable backend : cstring.
    Variable input : option ast.
    Variable shuffle : list (graph_key * ag_graph) -> list (graph_key * ag_graph).
    Variable max_iter : nat.
    Variable iteration : list nat -> list nat.
    Variable content : string -> nat -> list P.
    Variable rounds stage : nat.
    Local Notation step := (leaf_step directory input shuffle max_iter iteration content rounds stage).
    Local Notation try := (leaf_try denied full directory input shuffle max_iter iteration content rounds stage).
    Local Notation doing := (leaf_action directory input shuffle max_iter iteration content rounds stage).
    Local Notation run := (cocogen directory backend input shuffle max_iter iteration content rounds stage).
    Local Notation run_on := (cocogen_on denied full directory backend input shuffle max_iter iteration content rounds stage).

    Variable dynamic : bool.
    Hypothesis Hdynamic : STReqci (Some (TablesModel.text "dynamic")) (Some backend) = Val dynamic.
    Local Notation opened := (opened backend dynamic).

    Lemma run_on_is : forall d,
      run_on d = match go try (executed opened startPhase) (mk_machine d None (Val tt)) Nothing with
                 | inl (w, _) | inr (w, _) => (disk w, verdict w)
                 end.
    Proof.
      intros d. unfold cocogen_on, CCNrun.
      set (s := with_drv reset_driver _).
      assert (A := dispatch_agrees try opened (leaf_try_fun denied full directory input shuffle max_iter iteration content rounds stage) (gate_fun backend)
                (fun l i w t => eq_refl)).
      assert (Hg : forall g i (w : @machine P), gate_fun backend g i w = Some (opened g, w, [])).
      { intros [] i w; unfold gate_fun, RunProof.opened; [rewrite Hdynamic|]; reflexivity. }
      specialize (A Hg startPhase eq_refl s). unfold s in A at 1. specialize (A (conj eq_refl (conj eq_refl (conj eq_refl eq_refl)))).
      change (PhaseDriverModel.world s) with (mk_machine d None (Val tt)) in A. change (PhaseDriverModel.node s) with Nothing in A.
      destruct (go try (executed opened startPhase) _ Nothing) as [[w t]|[w t]].
      - destruct A as (s' & -> & _ & <- & _). reflexivity.
      - destruct A as (s' & -> & <- & _). reflexivity.
    Qed.

    (** All effects of the actions [ls], up to one that fails *)
    Fixpoint trace (ls : list leaf) (t : progress) : list (effect P) :=
      match ls with
      | [] => []
      | l :: ls => let '(es, o, t') := doing l t in es ++ match o with Val _ => trace ls t' | _ => [] end
      end.

    Lemma go_trace : forall ls w t w' t', go step ls w t = inl (w', t') -> w' = fold_left perform (trace ls t) w.
    Proof.
      induction ls as [|l ls IH]; intros w t w' t' H; [injection H as <- _; reflexivity|]. cbn [go trace] in *. unfold leaf_step in H.
      destruct (doing l t) as [[es o] t1]. destruct o; try discriminate H. rewrite fold_left_app. exact (IH _ _ _ _ H).
    Qed.

    Lemma go_fails : forall ls w t x t2, go step ls w t = inr (x, t2) -> verdict x <> Val tt.
    Proof.
      induction ls as [|l ls IH]; intros w t x t2 H; [discriminate H|]. cbn [go] in H. unfold leaf_step in H.
      destruct (doing l t) as [[es o] t1]. destruct o; [exact (IH _ _ _ _ H)|..]; injection H as <- _; discriminate.
    Qed.

    Lemma go_done : forall ls w1 t x1 t2, go try ls w1 t = inl (x1, t2) ->
      Forall allowed (trace ls t) /\ forall w, exists x, go step ls w t = inl (x, t2) /\
        ((forall p l, full p l = false) -> w = w1 -> x = x1) /\ (like w1 w -> like x1 x).
    Proof.
      induction ls as [|l ls IH]; intros w1 t x1 t2 H; [injection H as <- <-; split; [constructor|]; intros w; exists w; auto|].
      cbn [go trace] in *. unfold leaf_try in H. unfold leaf_step. destruct (doing l t) as [[es o] t1].
      destruct (attempt es w1) as [w2 ended] eqn:E. destruct ended; [discriminate H|]. destruct o; try discriminate H.
      destruct (attempt_done _ _ _ E) as [A B]. destruct (IH _ _ _ _ H) as [C D]. split; [apply Forall_app; auto|].
      intros w. destruct (D (fold_left perform es w)) as (x & Gx & Ex & Lx). exists x. split; [exact Gx|].
      split; [intros F ->; apply (Ex F); symmetry; exact (B F)|]. intros L. apply Lx. exact (attempt_like _ _ _ _ E L).
    Qed.
    Lemma go_ended : forall ls w1 t x1 t2, go try ls w1 t = inr (x1, t2) ->
      verdict x1 <> Val tt /\ (verdict x1 = Exited \/ forall w, exists x, go step ls w t = inr x).
    Proof.
      induction ls as [|l ls IH]; intros w1 t x1 t2 H; [discriminate H|].
      cbn [go] in *. unfold leaf_try in H. unfold leaf_step. destruct (doing l t) as [[es o] t1].
      destruct (attempt es w1) as [w2 ended] eqn:E. destruct ended.
      - injection H as <- _. rewrite (attempt_ended _ _ _ E). split; [discriminate|auto].
      - destruct o; [destruct (IH _ _ _ _ H) as [A B]; split; [exact A|]; destruct B as [B|B]; [left; exact B|right; intros w; apply B]|..]; injection H as <- _; (split; [discriminate|right; intros w; eexists; reflexivity]).
    Qed.

    Lemma effects_allowed : (forall path, denied (directory ++ path) = false) -> forall l t, Forall allowed (fst (fst (doing l t))).
    Proof.
      intros H.
      assert (C : forall es : list (effect P), Forall (confined (fun p => denied p = false)) es -> Forall allowed es).
      { intros es F. apply (Forall_impl (P := confined (fun p => denied p = false))); [|exact F]. intros [p|x|p l]; cbn; auto. }
      assert (O : forall name k paths, Forall (confined (fun p => denied p = false)) (opens directory content name k paths)).
      { intros name k paths. apply opens_confined. intros p _. apply H. }
      assert (Pr : forall name k, Forall (confined (fun p => denied p = false)) (prints content name k)).
      { intros name k. unfold prints. apply Forall_forall. intros e I. apply in_map_iff in I. destruct I as (y & <- & _). exact Logic.I. }
      assert (S : forall o, Forall (confined (fun p => denied p = false)) (scheduler_effects directory content rounds stage o)).
      { intros o. unfold scheduler_effects. cbn zeta. match goal with |- context [firstn stage ?l] => set (all := l) end.
        assert (F : Forall (confined (fun p => denied p = false)) all).
        { unfold all. apply Forall_app. split; [apply O|]. constructor; [apply H|constructor]. }
        destruct o; [exact F|apply confined_first; exact F..]. }
      intros l t. apply C. destruct l, t; cbn [leaf_action fst]; try destruct input; cbn [fst]; auto.
    Qed.
    Lemma go_same : (forall path, denied (directory ++ path) = false) -> (forall p l, full p l = false) ->
      forall ls w t, go try ls w t = go step ls w t.
    Proof.
      intros H F. induction ls as [|l ls IH]; intros w t; [reflexivity|]. cbn [go].
      assert (E : try l w t = step l w t).
      { unfold leaf_try, leaf_step. assert (A := effects_allowed H l t). destruct (doing l t) as [[es o] t1]. cbn [fst] in A.
        rewrite (attempt_allowed _ _ A F). reflexivity. }
      rewrite E. destruct (step l w t) as [[w' t'] []]; [reflexivity|apply IH].
    Qed.
    Lemma go_kept : forall ls w t q, sound w -> denied q = true ->
      match go try ls w t with inl (w', _) | inr (w', _) => disk w' q = disk w q end.
    Proof.
      induction ls as [|l ls IH]; intros w t q S D; [reflexivity|]. cbn [go]. unfold leaf_try at 1. destruct (doing l t) as [[es o] t1].
      destruct (attempt_kept es w S q D) as [A B]. destruct (attempt es w) as [w2 ended]. cbn [fst] in A, B. destruct ended; [exact B|].
      destruct o; [|exact B..]. specialize (IH w2 t1 q A D). destruct (go try ls w2 t1) as [[w3 t3]|[w3 t3]]; rewrite <- B; exact IH.
    Qed.

    (** Whole runs *)
    Lemma run_on_same : (forall path, denied (directory ++ path) = false) -> (forall p l, full p l = false) -> forall d, run_on d = run d.
    Proof.
      intros H F d. rewrite run_on_is, (run_is directory backend input shuffle max_iter iteration content rounds stage dynamic Hdynamic), go_same; trivial.
    Qed.
    Lemma run_on_kept : forall d q, denied q = true -> fst (run_on d) q = d q.
    Proof.
      intros d q D. rewrite run_on_is. assert (K := go_kept (executed opened startPhase) (mk_machine d None (Val tt)) Nothing q).
      specialize (K (fun p E => match E with eq_refl => I end) D).
      destruct (go try _ _ _) as [[w t]|[w t]]; exact K.
    Qed.
    Lemma run_on_done : forall d d', run_on d = (d', Val tt) ->
      Forall allowed (trace (executed opened startPhase) Nothing) /\ (forall d0, exists d0', run d0 = (d0', Val tt)) /\ ((forall p l, full p l = false) -> run d = (d', Val tt)).
    Proof.
      intros d d' H. rewrite run_on_is in H. destruct (go try _ _ _) as [[w t]|[w t]] eqn:G; injection H as Hd Hv.
      - destruct (go_done _ _ _ _ _ G) as [A B]. split; [exact A|]. split.
        + intros d0. destruct (B (mk_machine d0 None (Val tt))) as (x & Gx & _ & Lx). destruct (Lx (conj eq_refl eq_refl)) as [_ V].
          rewrite (run_is directory backend input shuffle max_iter iteration content rounds stage dynamic Hdynamic), Gx. exists (disk x). congruence.
        + intros F. destruct (B (mk_machine d None (Val tt))) as (x & Gx & Ex & _). specialize (Ex F eq_refl). subst x.
          rewrite (run_is directory backend input shuffle max_iter iteration content rounds stage dynamic Hdynamic), Gx. congruence.
      - destruct (go_ended _ _ _ _ _ G) as [N _]. congruence.
    Qed.
    Lemma run_on_ended : forall d d1 d2, run d1 = (d2, Val tt) -> snd (run_on d) = Val tt \/ snd (run_on d) = Exited.
    Proof.
      intros d d1 d2 H. destruct (run_on d) as [d' o] eqn:R. cbn [snd]. rewrite run_on_is in R.
      destruct (go try _ _ _) as [[w t]|[w t]] eqn:G; injection R as _ <-.
      - left. destruct (go_done _ _ _ _ _ G) as [_ B]. destruct (B (mk_machine d1 None (Val tt))) as (x & Gx & _ & Lx).
        destruct (Lx (conj eq_refl eq_refl)) as [_ V].
        rewrite (run_is directory backend input shuffle max_iter iteration content rounds stage dynamic Hdynamic), Gx in H. congruence.
      - right. destruct (go_ended _ _ _ _ _ G) as [_ [E|E]]; [exact E|]. exfalso. destruct (E (mk_machine d1 None (Val tt))) as ([x t'] & Gx).
        rewrite (run_is directory backend input shuffle max_iter iteration content rounds stage dynamic Hdynamic), Gx in H. injection H as _ H.
        exact (go_fails _ _ _ _ _ Gx H).
    Qed.
    (** The files that are written were opened. *)
    Lemma run_opens : Forall allowed (trace (executed opened startPhase) Nothing) -> forall d d', run d = (d', Val tt) ->
      forall q, d' q <> d q -> denied q = false.
    Proof.
      intros A d d' H q N. destruct (denied q) eqn:D; [|reflexivity]. exfalso. apply N.
      rewrite (run_is directory backend input shuffle max_iter iteration content rounds stage dynamic Hdynamic) in H.
      destruct (go step _ _ _) as [[w t]|[w t]] eqn:G; injection H as Hd Hv; [|destruct (go_fails _ _ _ _ _ G Hv)].
      apply go_trace in G. subst w d'.
      destruct (confined_performed (fun p => denied p = false) (trace (executed opened startPhase) Nothing) (mk_machine d None (Val tt))) as [K _].
      - apply (Forall_impl (P := allowed)); [|exact A]. intros [p|x|p l]; cbn; auto.
      - discriminate.
      - apply K. congruence.
    Qed.
  End TheRun.
End Denied.
