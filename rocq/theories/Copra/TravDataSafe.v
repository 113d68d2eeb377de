(** What programs leave as it was, and which programs have no undefined
    behaviour: facts about the stack of traversals. *)

From Coq Require Import List Arith NArith Bool Ascii Lia.
From Verif Require Import Base.Outcome Base.Heap Palm.StrModel Copra.TravModel Copra.TravDataModel Copra.TravDataSpec
  Copra.TravDataProof.
Import ListNotations.
Local Open Scope outcome_scope.
Local Arguments same_name : simpl never.

Section Safe.
  Context {V : Type}.
  Variable fields : nat -> option (list (cstring * V)).
  Context {A W : Type}.
  Variable vtable : nat -> nat -> entry.
  Variable user : nat -> W -> tree A -> prog A W V.
  Variable has_data : nat -> bool.
  Variable init fini : nat -> W -> prog A W V.
  Implicit Types F : @traversals V.
  Notation SM := (s_machine fields).
  Notation sexec := (exec SM vtable user has_data init fini).
  Notation svisit := (visit SM vtable user has_data init fini).
  Notation spush := (TRAVpush SM vtable user has_data init fini).
  Notation spop := (TRAVpop SM vtable user has_data init fini).

  Definition visits : Type := @traversals V -> W -> tree A -> outcome (@traversals V * W * option (tree A)).

  (** ** What changes *)
  Definition changes (E : nat -> Prop) F F' : Prop :=
    map fst F' = map fst F /\ forall l, l < length F -> ~ E l -> nth_started l F' = nth_started l F.
  Lemma changes_refl : forall E F, changes E F F.
  Proof. intros E F. split; auto. Qed.
  Lemma same_types_length : forall F F', map fst F' = map fst F -> length F' = length F.
  Proof. intros F F' H. apply (f_equal (@length _)) in H. now rewrite !map_length in H. Qed.
  Lemma changes_length : forall E F F', changes E F F' -> length F' = length F.
  Proof. intros E F F' [H _]. now apply same_types_length. Qed.
  Lemma changes_trans : forall E F F' F'', changes E F F' -> changes E F' F'' -> changes E F F''.
  Proof.
    intros E F F' F'' H1 H2. pose proof (changes_length _ _ _ H1) as L. destruct H1 as [A1 B1], H2 as [A2 B2].
    split; [congruence|]. intros l Ll N. rewrite B2 by (try lia; exact N). now apply B1.
  Qed.
  Lemma changes_mono : forall (E E' : nat -> Prop) F F', (forall l, l < length F -> E l -> E' l) -> changes E F F' -> changes E' F F'.
  Proof. intros E E' F F' H [A1 B1]. split; [exact A1|]. intros l L N. apply B1; [exact L|]. intros El. apply N. now apply H. Qed.
  Lemma changes_tl : forall E x F F', changes E (x :: F) F' -> changes E F (tl F').
  Proof.
    intros E x F F' H. pose proof (changes_length _ _ _ H) as L. destruct H as [A1 B1].
    destruct F' as [|y F']; [discriminate|]. cbn in *. injection A1 as A0 A1. split; [exact A1|].
    intros l Ll N. specialize (B1 l). assert (length F' = length F) as Le by lia. rewrite Le in B1.
    destruct (Nat.eqb_spec l (length F)); [lia|]. apply B1; [lia|exact N].
  Qed.
  Lemma changes_none : forall E F F', changes E F F' -> (forall l, l < length F -> ~ E l) -> F' = F.
  Proof.
    intros E F. induction F as [|x F IH]; intros F' H N.
    - destruct H as [H _]. now destruct F'.
    - pose proof (changes_length _ _ _ H) as L. pose proof (changes_tl _ _ _ _ H) as Ht.
      destruct F' as [|y F']; [discriminate|]. cbn in *. rewrite (IH F' Ht) in * by (intros l Ll; apply N; lia).
      f_equal. destruct H as [A1 B1]. specialize (B1 (length F)). cbn in B1. rewrite Nat.eqb_refl in B1.
      injection A1 as A1. destruct x, y; cbn in *. rewrite B1 by (try apply N; lia). now subst.
  Qed.
  Lemma nth_update : forall F l r k, l <> k -> nth_started k (update l r F) = nth_started k F.
  Proof.
    induction F as [|x F IH]; intros l r k N; [reflexivity|]. cbn. destruct (Nat.eqb_spec l (length F)) as [->|]; cbn.
    - destruct (Nat.eqb_spec k (length F)); [congruence|reflexivity].
    - rewrite update_length. destruct (Nat.eqb k (length F)); [reflexivity|]. now apply IH.
  Qed.

  Lemma bind_val : forall X Y (o : outcome X) (f : X -> outcome Y) y, bind o f = Val y -> exists x, o = Val x /\ f x = Val y.
  Proof. intros X Y [x| | | |] f y E; cbn in E; try discriminate. exists x. auto. Qed.

  Lemma opt_changes : forall E (v : visits) (t : option (tree A)) F w r, (forall F w t r, v F w t = Val r -> changes (E (length F)) F (fst (fst r))) ->
    opt SM v F w t = Val r -> changes (E (length F)) F (fst (fst r)).
  Proof.
    intros E v [t|] F w r H R; cbn in R; [exact (H _ _ _ _ R)|]. injection R as <-. apply changes_refl.
  Qed.
  Lemma each_changes : forall E (v : visits) (kids : list (option (tree A))) F w r, (forall F w t r, v F w t = Val r -> changes (E (length F)) F (fst (fst r))) ->
    each SM v F w kids = Val r -> changes (E (length F)) F (fst (fst r)).
  Proof.
    intros E v kids. induction kids as [|c kids IH]; intros F w r H R; cbn in R.
    - injection R as <-. apply changes_refl.
    - apply bind_val in R. destruct R as [r1 [R1 R]]. apply bind_val in R. destruct R as [r2 [R2 R]]. injection R as <-.
      pose proof (opt_changes E v c F w r1 H R1) as C1. destruct r1 as [[F1 w1] c1]. cbn [fst snd m_state s_machine] in *.
      apply (IH _ _ _ H) in R2. cbn [fst].
      rewrite (changes_length _ _ _ C1) in R2. now apply changes_trans with (F' := F1).
  Qed.
  Lemma children_changes : forall E (v : visits) (t : tree A) F w r, (forall F w t r, v F w t = Val r -> changes (E (length F)) F (fst (fst r))) ->
    children SM v F w t = Val r -> changes (E (length F)) F (fst (fst r)).
  Proof.
    intros E v [ty a kids] F w r H R. cbn in R. apply bind_val in R. destruct R as [l [R1 R]]. injection R as <-.
    exact (each_changes E v kids F w l H R1).
  Qed.

  Definition is_top (n : nat) : nat -> Prop := fun l => S l = n.
  Definition reached (env : locals SM) (n : nat) : nat -> Prop := fun l => S l = n \/ exists v, env v = Some l.

  Lemma run_changes : forall n,
    (forall F env p r, sexec n env F p = Val r -> changes (reached env (length F)) F (fst (fst r))) /\
    (forall F w t r, svisit n F w t = Val r -> changes (is_top (length F)) F (fst (fst r))) /\
    (forall F trav w r, spush n trav F w = Val r -> exists q, fst r = (trav, q) :: F) /\
    (forall F w r, spop n F w = Val r -> F <> [] /\ fst r = tl F).
  Proof.
    induction n as [|n [IE [IV [IP IQ]]]]; [repeat split; intros; discriminate|].
    assert (K : forall env F G p r, changes (reached env (length F)) F G -> sexec n env G p = Val r ->
                changes (reached env (length F)) F (fst (fst r))).
    { intros env F G p r C R. apply IE in R. pose proof (changes_length _ _ _ C) as L. cbn [m_state s_machine] in *. rewrite L in R. exact (changes_trans _ _ _ _ C R). }
    assert (Up : forall env F G, changes (is_top (length F)) F G -> changes (reached env (length F)) F G).
    { intros env F G. apply changes_mono. intros l _ E. now left. }
    assert (Nl : forall F G, changes (reached (no_locals SM) (length F)) F G -> changes (is_top (length F)) F G).
    { intros F G. apply changes_mono. intros l _ [E|[v E]]; [exact E|discriminate]. }
    split; [|split; [|split]].
    - intros F env p r R. destruct p as [w t|w t k|w t k|w t k|w trav t k|w trav body k|var trav k|var f k|var f v k]; cbn [exec] in R.
      + injection R as <-. apply changes_refl.
      + destruct t as [t|]; [|discriminate]. apply bind_val in R. destruct R as [r1 [R1 R]]. apply IV in R1.
        exact (K _ _ _ _ _ (Up _ _ _ R1) R).
      + apply bind_val in R. destruct R as [r1 [R1 R]]. apply (opt_changes is_top _ _ _ _ _ IV) in R1. exact (K _ _ _ _ _ (Up _ _ _ R1) R).
      + destruct t as [t|]; [|discriminate]. apply bind_val in R. destruct R as [r1 [R1 R]].
        apply (children_changes is_top _ _ _ _ _ IV) in R1. exact (K _ _ _ _ _ (Up _ _ _ R1) R).
      + apply bind_val in R. destruct R as [[F1 w1] [R1 R]]. apply bind_val in R. destruct R as [[[F2 w2] r2] [R2 R]].
        apply bind_val in R. destruct R as [[F3 w3] [R3 R]]. cbn [fst snd] in *.
        apply IP in R1. destruct R1 as [q R1]. cbn [fst] in R1. subst F1.
        apply (opt_changes is_top _ _ _ _ _ IV) in R2. cbn [fst] in R2. apply IQ in R3. destruct R3 as [_ R3]. cbn [fst] in R3. subst F3.
        apply changes_tl in R2. apply changes_none in R2; [|intros l L E; unfold is_top in E; cbn in E; lia].
        rewrite R2 in R. now apply IE in R.
      + apply bind_val in R. destruct R as [[F1 w1] [R1 R]]. apply bind_val in R. destruct R as [[[F2 w2] r2] [R2 R]].
        apply bind_val in R. destruct R as [[F3 w3] [R3 R]]. cbn [fst snd] in *.
        apply IP in R1. destruct R1 as [q R1]. cbn [fst] in R1. subst F1.
        apply IE in R2. cbn [fst] in R2. apply IQ in R3. destruct R3 as [_ R3]. cbn [fst] in R3. subst F3.
        apply changes_tl in R2. apply (K env F (tl F2) _ _) in R; [exact R|].
        apply (changes_mono _ _ _ _) with (2 := R2). intros l L [E|E]; [cbn in E; lia|now right].
      + apply bind_val in R. destruct R as [l [R1 R]]. apply IE in R. eapply changes_mono; [|exact R].
        intros k' _ [E|[v E]]; [now left|]. unfold assign in E. destruct (Nat.eqb v var); [|right; now exists v].
        injection E as ->. left. cbn in R1. unfold s_data in R1. destruct F as [|[ty [q|]] F]; try discriminate.
        destruct (Nat.eqb ty trav); [|discriminate]. injection R1 as <-. reflexivity.
      + destruct (env var) as [l|]; [|discriminate]. apply bind_val in R. destruct R as [v [_ R]]. now apply IE in R.
      + destruct (env var) as [l|] eqn:Ev; [|discriminate]. apply bind_val in R. destruct R as [F' [R1 R]].
        apply (K env F F' _ _) in R; [exact R|]. cbn in R1. unfold s_store in R1. destruct (nth_started l F) as [q|]; [|discriminate].
        destruct (get_field q f); [|discriminate]. injection R1 as <-. split; [apply update_types|].
        intros k' _ N. apply nth_update. intros ->. apply N. right. now exists var.
    - intros F w t r R. cbn [visit] in R. apply bind_val in R. destruct R as [trav [_ R]]. destruct (vtable trav (node_type t)).
      + apply IE in R. now apply Nl.
      + exact (children_changes is_top _ _ _ _ _ IV R).
      + injection R as <-. apply changes_refl.
      + discriminate.
    - intros F trav w r R. cbn [TRAVpush] in R. cbn [enter s_machine] in R. unfold s_enter in R. cbn [bind] in R. destruct (has_data trav).
      + apply bind_val in R. destruct R as [r1 [R1 R]]. injection R as <-. apply IE in R1. apply Nl in R1.
        destruct r1 as [[G1 w1] o1]. cbn [fst snd] in *. pose proof (changes_length _ _ _ R1) as L. pose proof (changes_tl _ _ _ _ R1) as Ct. destruct R1 as [T _].
        destruct G1 as [|[ty q] G]; [discriminate|]. cbn in Ct, T. injection T as -> T. exists q. f_equal.
        apply changes_none in Ct; [exact Ct|]. intros l Ll E. unfold is_top in E. cbn in E. lia.
      + injection R as <-. eexists. reflexivity.
    - intros F w r R. cbn [TRAVpop] in R. cbn [closing leave s_machine] in R. apply bind_val in R. destruct R as [c [Rc R]].
      destruct F as [|[ty q] F]; [discriminate|]. split; [discriminate|]. injection Rc as <-. cbn [snd fst] in R.
      apply bind_val in R. destruct R as [[F1 w1] [R1 R]]. unfold s_leave in R. cbn [bind fst snd] in R. injection R as <-. cbn [fst tl].
      destruct (has_data ty).
      + unfold map_outcome in R1. apply bind_val in R1. destruct R1 as [r2 [R2 R1]]. injection R1 as R1.
        apply IE in R2. apply Nl in R2. destruct r2 as [[G1 w2] o1]. cbn [fst] in *. injection R1 as -> ->. apply changes_tl in R2.
        apply changes_none in R2; [exact R2|]. intros l Ll E. unfold is_top in E. cbn in E. lia.
      + injection R1 as <- <-. reflexivity.
  Qed.

  (** A traversal that is started and ends changes nothing. *)
  Lemma start_keeps : forall n env F w trav t r,
    sexec n env F (PStart w trav t (fun w t => PRet w t)) = Val r -> fst (fst r) = F.
  Proof.
    intros n env F w trav t r R. destruct n as [|n]; [discriminate|]. cbn [exec] in R.
    destruct (run_changes n) as [_ [IV [IP IQ]]].
    apply bind_val in R. destruct R as [[F1 w1] [R1 R]]. apply bind_val in R. destruct R as [[[F2 w2] r2] [R2 R]].
    apply bind_val in R. destruct R as [[F3 w3] [R3 R]]. cbn [fst snd] in *.
    apply IP in R1. destruct R1 as [q R1]. cbn [fst] in R1. subst F1.
    apply (opt_changes is_top _ _ _ _ _ IV) in R2. cbn [fst] in R2. apply IQ in R3. destruct R3 as [_ R3]. cbn [fst] in R3. subst F3.
    apply changes_tl in R2. apply changes_none in R2; [|intros l L E; unfold is_top in E; cbn in E; lia].
    destruct n as [|n]; [discriminate|]. cbn [exec] in R. injection R as <-. exact R2.
  Qed.

  (** ** No undefined behaviour *)
  Variable errors : Prop.
  Hypothesis errors_if : forall trav ty, vtable trav ty = EError -> errors.
  Definition good {X} (Q : X -> Prop) (o : outcome X) : Prop :=
    match o with Val x => Q x | NoFuel => True | Aborted => errors | _ => False end.
  Lemma good_bind : forall X Y (Q : X -> Prop) (Q' : Y -> Prop) o f, good Q o -> (forall x, Q x -> good Q' (f x)) -> good Q' (bind o f).
  Proof. intros X Y Q Q' [x| | | |] f G K; cbn in *; auto; contradiction. Qed.

  Definition no_vars_of : nat -> option nat := fun _ => None.
  Hypothesis user_fine : forall trav w t, fine fields trav no_vars_of (user trav w t).
  Hypothesis init_fine : forall trav w, has_data trav = true -> fine fields trav no_vars_of (init trav w).
  Hypothesis fini_fine : forall trav w, has_data trav = true -> fine fields trav no_vars_of (fini trav w).

  Definition named F : Prop := Forall (fun f => option_map (map fst) (snd f) = option_map (map fst) (fields (fst f))) F.
  Definition wf (T : list nat) F : Prop := map fst F = T /\ named F.
  Fixpoint nth_type (l : nat) (T : list nat) : option nat :=
    match T with [] => None | x :: T => if Nat.eqb l (length T) then Some x else nth_type l T end.
  Lemma nth_type_lt : forall T l x, nth_type l T = Some x -> l < length T.
  Proof.
    induction T as [|y T IH]; intros l x E; cbn in *; [discriminate|]. destruct (Nat.eqb_spec l (length T)); [lia|]. apply IH in E. lia.
  Qed.
  Definition typed (env : locals SM) (vars : nat -> option nat) (T : list nat) : Prop :=
    forall v x, vars v = Some x -> exists l, env v = Some l /\ nth_type l T = Some x.
  Lemma typed_cons : forall env vars x T, typed env vars T -> typed env vars (x :: T).
  Proof.
    intros env vars x T H v y E. destruct (H v y E) as [l [E1 E2]]. exists l. split; [exact E1|]. cbn.
    pose proof (nth_type_lt _ _ _ E2). destruct (Nat.eqb_spec l (length T)); [lia|exact E2].
  Qed.
  Lemma typed_none : forall env T, typed env no_vars_of T.
  Proof. intros env T v x E. discriminate E. Qed.

  Lemma named_field : forall F l x f, named F -> nth_type l (map fst F) = Some x -> has_field fields x f ->
    exists r v, nth_started l F = Some r /\ get_field r f = Some v /\
      forall u, named (update l (set_field r f u) F).
  Proof.
    induction F as [|[ty r] F IH]; intros l x f N T H; [discriminate|]. cbn in T. rewrite map_length in T. cbn [nth_started snd].
    inversion N as [|? ? N1 N2]; subst. cbn in N1. cbn [update fst]. destruct (Nat.eqb_spec l (length F)) as [_|_].
    - injection T as ->. destruct H as [fs [Ef If]]. rewrite Ef in N1. destruct r as [r|]; [|discriminate]. cbn in N1. injection N1 as N1.
      rewrite <- N1 in If. apply get_field_in in If. destruct (get_field r f) as [v|] eqn:Eg; [|congruence].
      exists r, v. split; [reflexivity|]. split; [exact Eg|]. intros u. constructor; [|exact N2]. cbn. rewrite Ef, set_field_names. cbn. now rewrite N1.
    - destruct (IH l x f N2 T H) as [q [v [E1 [E2 E3]]]]. exists q, v. split; [exact E1|]. split; [exact E2|]. intros u. constructor; [exact N1|apply E3].
  Qed.

  Lemma opt_good : forall T (v : visits) (t : option (tree A)) F w, (forall F w t, wf T F -> good (fun r => wf T (fst (fst r))) (v F w t)) ->
    wf T F -> good (fun r : traversals * W * option (tree A) => wf T (fst (fst r))) (opt SM v F w t).
  Proof. intros T v [t|] F w H R; cbn; [now apply H|exact R]. Qed.
  Lemma each_good : forall T (v : visits) (kids : list (option (tree A))) F w, (forall F w t, wf T F -> good (fun r => wf T (fst (fst r))) (v F w t)) ->
    wf T F -> good (fun r : traversals * W * list (option (tree A)) => wf T (fst (fst r))) (each SM v F w kids).
  Proof.
    intros T v kids. induction kids as [|c kids IH]; intros F w H R; cbn; [exact R|].
    eapply good_bind; [exact (opt_good T v c F w H R)|]. intros r1 R1. eapply good_bind; [exact (IH _ (snd (fst r1)) H R1)|].
    intros r2 R2. exact R2.
  Qed.
  Lemma children_good : forall T (v : visits) (t : tree A) F w, (forall F w t, wf T F -> good (fun r => wf T (fst (fst r))) (v F w t)) ->
    wf T F -> good (fun r : traversals * W * option (tree A) => wf T (fst (fst r))) (children SM v F w t).
  Proof.
    intros T v [ty a kids] F w H R. cbn. eapply good_bind; [exact (each_good T v kids F w H R)|]. intros l R1. exact R1.
  Qed.

  Lemma run_good : forall n,
    (forall trav T vars F env p, fine fields trav vars p -> wf (trav :: T) F -> typed env vars (trav :: T) ->
       good (fun r => wf (trav :: T) (fst (fst r))) (sexec n env F p)) /\
    (forall trav T F w t, wf (trav :: T) F -> good (fun r => wf (trav :: T) (fst (fst r))) (svisit n F w t)) /\
    (forall T trav F w, wf T F -> good (fun r => wf (trav :: T) (fst r)) (spush n trav F w)) /\
    (forall T trav F w, wf (trav :: T) F -> good (fun r => wf T (fst r)) (spop n F w)).
  Proof.
    induction n as [|n [IE [IV [IP IQ]]]]; [repeat split; intros; exact I|].
    split; [|split; [|split]].
    - intros trav T vars F env p H R E. destruct H; cbn [exec].
      + exact R.
      + eapply good_bind; [exact (IV _ _ F w t R)|]. intros r R1. now apply IE with (vars := vars).
      + eapply good_bind; [exact (opt_good _ _ t F w (IV _ _) R)|]. intros r R1. now apply IE with (vars := vars).
      + eapply good_bind; [exact (children_good _ _ t F w (IV _ _) R)|]. intros r R1. now apply IE with (vars := vars).
      + eapply good_bind; [exact (IP _ x F w R)|]. intros r R1. eapply good_bind; [exact (opt_good _ _ t _ _ (IV _ _) R1)|].
        intros r2 R2. eapply good_bind; [exact (IQ _ _ _ _ R2)|]. intros r3 R3. now apply IE with (vars := vars).
      + eapply good_bind; [exact (IP _ x F w R)|]. intros r R1.
        eapply good_bind; [exact (IE _ _ _ _ env _ (H (snd r)) R1 (typed_cons _ _ _ _ E))|].
        intros r2 R2. eapply good_bind; [exact (IQ _ _ _ _ R2)|]. intros r3 R3. now apply IE with (vars := vars).
      + assert (Ed : data SM trav F = Val (length T)).
        { cbn. destruct R as [R N]. destruct F as [|[ty q] F]; [discriminate|]. cbn in R. injection R as -> R.
          inversion N as [|? ? N1 N2]; subst. cbn in N1. destruct q as [q|]; [|destruct (fields trav); [discriminate|congruence]].
          cbn. now rewrite Nat.eqb_refl, map_length. }
        rewrite Ed. cbn [bind]. eapply IE; [eassumption|exact R|]. intros v x Ev. unfold assign. destruct (Nat.eqb v var); [|now apply E].
        injection Ev as <-. exists (length T). split; [reflexivity|]. cbn. now rewrite Nat.eqb_refl.
      + destruct (E var x H) as [l [E1 E2]]. rewrite E1. destruct R as [RT RN]. rewrite <- RT in E2.
        destruct (named_field F l x f RN E2 H0) as [r [v [N1 [N2 N3]]]]. cbn [load s_machine]. unfold s_load. rewrite N1, N2. cbn [bind].
        apply IE with (vars := vars); [apply H1|split; assumption|exact E].
      + destruct (E var x H) as [l [E1 E2]]. rewrite E1. destruct R as [RT RN]. rewrite <- RT in E2.
        destruct (named_field F l x f RN E2 H0) as [r [v' [N1 [N2 N3]]]]. cbn [TravDataModel.store s_machine]. unfold s_store. rewrite N1, N2. cbn [bind].
        apply IE with (vars := vars); [assumption| |exact E]. split; [now rewrite update_types|apply N3].
    - intros trav T F w t R. cbn [visit current s_machine].
      assert (Ec : s_current F = Val trav).
      { destruct R as [R _]. destruct F as [|[ty q] F]; [discriminate|]. cbn in *. congruence. }
      rewrite Ec. cbn [bind]. destruct (vtable trav (node_type t)) eqn:Ev.
      + eapply IE; [apply user_fine|exact R|apply typed_none].
      + exact (children_good _ _ t F w (IV _ _) R).
      + exact R.
      + exact (errors_if _ _ Ev).
    - intros T trav F w R. cbn [TRAVpush enter s_machine]. unfold s_enter. cbn [bind].
      assert (R' : wf (trav :: T) ((trav, fields trav) :: F)).
      { destruct R as [R N]. split; [cbn; now rewrite R|]. constructor; [reflexivity|exact N]. }
      destruct (has_data trav) eqn:Eh; [|exact R'].
      eapply good_bind; [exact (IE _ _ _ _ _ _ (init_fine trav w Eh) R' (typed_none _ _))|]. intros r R1. exact R1.
    - intros T trav F w R. cbn [TRAVpop closing leave s_machine].
      assert (Ec : s_closing F = Val (tt, trav)).
      { destruct R as [R _]. destruct F as [|[ty q] F]; [discriminate|]. cbn in *. congruence. }
      rewrite Ec. cbn [bind snd].
      assert (Q : good (fun r : traversals * W => wf (trav :: T) (fst r))
        (if has_data trav then map_outcome fst (sexec n (no_locals SM) F (fini trav w)) else Val (F, w))).
      { destruct (has_data trav) eqn:Eh; [|exact R].
        eapply good_bind; [exact (IE _ _ _ _ _ _ (fini_fine trav w Eh) R (typed_none _ _))|]. intros r R1. exact R1. }
      eapply good_bind; [exact Q|]. intros r [R1 N1]. unfold s_leave. cbn. destruct r as [G w1]. cbn [fst] in *. destruct G as [|[ty q] F1]; [discriminate|].
      cbn in R1. injection R1 as -> R1. inversion N1; subst. split; [reflexivity|assumption].
  Qed.
End Safe.
