(** TRAVdo with the generated tables does what the traversals are meant to
    do. *)

From Coq Require Import String.
From Coq Require Import List Ascii Bool Arith Lia.
From Verif Require Import Base.Outcome Palm.StrModel Front.Syntax Copra.TravModel Copra.TravSpec Copra.TravProof
  Gen.TablesModel Gen.DispatchModel Gen.DispatchSpec Gen.DispatchReach.
Import ListNotations.
Local Open Scope list_scope.

Scheme does_min := Minimality for does Sort Prop
  with each_min := Minimality for each_does Sort Prop
  with runs_min := Minimality for runs Sort Prop.
Combined Scheme does_ind_all from does_min, each_min, runs_min.

Section Run.
  Variable a : ast.
  Variable calls : nat -> nat -> outcome cstring.
  Let entry := entry_at calls.
  Hypothesis Inj : forall n m j, In n (a_nodes a) -> In m (a_nodes a) -> node_number a n j -> node_number a m j -> n = m.
  Hypothesis Mc : forall i j f, meant a i j (Calls f) -> calls i j = Val f /\ entry i j = EUser.
  Hypothesis Mw : forall i j, meant a i j Walks -> entry i j = EChildren \/ entry i j = ENop.
  Hypothesis Ec : forall i j, entry i j = EUser -> exists f, calls i j = Val f /\ meant a i j (Calls f).
  Hypothesis Ew : forall i j, entry i j = EChildren \/ entry i j = ENop -> meant a i j Walks.
  Hypothesis En : forall i j, entry i j = ENop -> forall n m k, In n (a_nodes a) -> node_number a n j ->
    In m (a_nodes a) -> node_number a m k -> under a n m -> meant a i k Walks.

  Lemma apart : forall i j f, meant a i j (Calls f) -> meant a i j Walks -> False.
  Proof. intros i j f M W. destruct (Mc i j f M) as [_ E]. destruct (Mw i j W); congruence. Qed.
  Lemma meant_node : forall i j m, meant a i j m -> exists n, In n (a_nodes a) /\ node_number a n j.
  Proof. intros i j m M. inversion M; subst; eauto. Qed.

  Context {A W : Type}.
  Variable functions : cstring -> W -> tree A -> prog A W.
  Notation does := (does a functions).
  Notation each_does := (each_does a functions).
  Notation runs := (runs a functions).
  Let fn := function_at calls functions.

  Lemma slot_in : forall cs kids t, Forall2 (slot_fits a) cs kids -> In (Some t) kids ->
    exists c m, In c cs /\ admits a (ch_type c) m /\ node_number a m (node_type t) /\ @fits a A t.
  Proof.
    intros cs kids t F. induction F as [|c o cs kids S F IH]; intros [].
    - subst o. inversion S; subst. exists c, m. split; [left; reflexivity|]. auto.
    - destruct (IH H) as (c' & m & I & X). exists c', m. split; [right; exact I|exact X].
  Qed.

  Lemma each_quiet : forall s w kids,
    (forall c s' w' r, In (Some c) kids -> (does s w c s' w' r <-> s' = s /\ w' = w /\ r = Some c)) ->
    forall s' w' kids', each_does s w kids s' w' kids' <-> s' = s /\ w' = w /\ kids' = kids.
  Proof.
    intros s w. induction kids as [|[c|] kids IH]; intros H s' w' kids'.
    - split; [intros X; inversion X; subst; auto|intros (-> & -> & ->); constructor].
    - split.
      + intros X. inversion X as [| |s0 w0 t0 s1 w1 r kids0 s2 w2 kids2 X1 X2]; subst. apply H in X1; [|left; reflexivity].
        destruct X1 as (-> & -> & ->). apply IH in X2; [|intros d s3 w3 r I; apply H; right; exact I].
        destruct X2 as (-> & -> & ->). auto.
      + intros (-> & -> & ->). eapply each_child; [apply H; [left; reflexivity|auto]|].
        apply IH; [intros d s3 w3 r I; apply H; right; exact I|auto].
    - split.
      + intros X. inversion X as [|s0 w0 kids0 s2 w2 kids2 X2|]; subst. apply IH in X2; [|intros d s3 w3 r I; apply H; right; exact I].
        destruct X2 as (-> & -> & ->). auto.
      + intros (-> & -> & ->). apply each_null. apply IH; [intros d s3 w3 r I; apply H; right; exact I|auto].
  Qed.

  (** Where no handler is below, nothing happens. *)
  Lemma quiet : forall t, fits a t -> forall i n s w, innermost s = Some i -> In n (a_nodes a) -> node_number a n (node_type t) ->
    meant a i (node_type t) Walks ->
    (forall m k, In m (a_nodes a) -> node_number a m k -> under a n m -> meant a i k Walks) ->
    forall s' w' r, does s w t s' w' r <-> s' = s /\ w' = w /\ r = Some t.
  Proof.
    induction t as [j x kids IH] using tree_ind'. intros F i n s w Hi In_n Nj Mj Un.
    cbn [node_type] in Nj, Mj.
    assert (Q : forall s' w' kids', each_does s w kids s' w' kids' <-> s' = s /\ w' = w /\ kids' = kids).
    { apply each_quiet. intros c s' w' r Ic. inversion F as [n0 j0 x0 kids0 In0 N0 Fk]; subst.
      assert (n0 = n) by (eapply Inj; eassumption). subst n0.
      destruct (slot_in _ _ c Fk Ic) as (d & m & Id & Ad & Nm & Fc).
      assert (Im : In m (a_nodes a)) by apply Ad. apply (IH c Ic Fc i m); auto.
      - apply (Un m); auto. eapply under_child; eassumption.
      - intros m' k Im' Nk U. apply (Un m'); auto. eapply under_step; eassumption. }
    intros s' w' r. split.
    - intros X. inversion X as [s0 w0 t0 i0 f s1 w1 r0 Hi0 F0 M0 R0|s0 w0 j0 x0 kids0 i0 s1 w1 kids' Hi0 F0 M0 E0]; subst.
      + exfalso. assert (i0 = i) by congruence. subst i0. eapply apart; eassumption.
      + apply Q in E0. destruct E0 as (-> & -> & ->). auto.
    - intros (-> & -> & ->). eapply does_walk; try eassumption. apply Q. auto.
  Qed.

  Lemma nop_quiet : forall t s w i, fits a t -> innermost s = Some i -> entry i (node_type t) = ENop ->
    forall s' w' r, does s w t s' w' r <-> s' = s /\ w' = w /\ r = Some t.
  Proof.
    intros t s w i F Hi E. destruct (meant_node i (node_type t) Walks (Ew _ _ (or_intror E))) as (n & In_n & Nn).
    apply (quiet t F i n); auto. intros m k Im Nm U. exact (En i _ E n m k In_n Nn Im Nm U).
  Qed.

  Lemma inner : forall (s : tstate A) i, innermost s = Some i -> exists st, stack s = i :: st.
  Proof. intros s i H. unfold innermost in H. destruct (stack s) as [|k st]; [discriminate|]. injection H as ->. eauto. Qed.

  Definition enough (P : nat -> Prop) : Prop := exists f, forall f', f <= f' -> P f'.
  Lemma enough_impl : forall (P Q : nat -> Prop), (forall f, P f -> Q f) -> enough P -> enough Q.
  Proof. intros P Q H (f & X). exists f. auto. Qed.
  Lemma enough_and : forall P Q : nat -> Prop, enough P -> enough Q -> enough (fun f => P f /\ Q f).
  Proof. intros P Q (f1 & H1) (f2 & H2). exists (f1 + f2). intros f' L. split; [apply H1|apply H2]; lia. Qed.
  Lemma enough_S : forall P Q : nat -> Prop, (forall f, P f -> Q (S f)) -> enough P -> enough Q.
  Proof. intros P Q H (f & X). exists (S f). intros [|f'] L; [lia|]. apply H, X. lia. Qed.

  (** The tables are complete. *)
  Theorem does_run :
    (forall s w t s' w' r, does s w t s' w' r -> enough (fun f => TRAVdo entry fn f s w t = Val (s', w', r))) /\
    (forall s w kids s' w' kids', each_does s w kids s' w' kids' ->
       enough (fun f => in_order (call_of (TRAVdo entry fn f)) s w kids s' w' kids')) /\
    (forall p s s' w' r, runs p s s' w' r -> enough (fun f => run_prog (TRAVdo entry fn f) p s = Val (s', w', r))).
  Proof.
    apply does_ind_all.
    - intros s w t i f s' w' r Hi F M _ IH. destruct (inner s i Hi) as (st & Es). destruct (Mc i _ f M) as [C E].
      revert IH. apply enough_S. intros f' X. cbn [TRAVdo]. rewrite Es, E. unfold fn, function_at. rewrite C. exact X.
    - intros s w j x kids i s' w' kids' Hi F M E0 IH. destruct (inner s i Hi) as (st & Es). destruct (Mw i j M) as [E|E].
      + revert IH. apply enough_S. intros f' X. cbn [TRAVdo node_type]. rewrite Es, E. apply TRAVchildren_order. eauto.
      + destruct (proj1 (nop_quiet (Node j x kids) s w i F Hi E s' w' (Some (Node j x kids')))) as (-> & -> & Q);
          [eapply does_walk; eassumption|].
        injection Q as ->. revert IH. apply enough_S. intros f' _. cbn [TRAVdo node_type]. rewrite Es, E. reflexivity.
    - intros s w. exists 0. intros f' _. constructor.
    - intros s w kids s' w' kids' _ IH. revert IH. apply enough_impl. intros f X. constructor. exact X.
    - intros s w t s1 w1 r kids s' w' kids' _ IH1 _ IH2. generalize (enough_and _ _ IH1 IH2). apply enough_impl.
      intros f [X1 X2]. econstructor; [exact X1|exact X2].
    - intros w t s. exists 0. intros f' _. reflexivity.
    - intros w t k s s1 w1 r1 s' w' r _ IH1 _ IH2. generalize (enough_and _ _ IH1 IH2). apply enough_impl.
      intros f [X1 X2]. cbn [run_prog]. rewrite X1. exact X2.
    - intros w k s s' w' r _ IH. revert IH. apply enough_impl. intros f X. exact X.
    - intros w t k s s1 w1 r1 s' w' r _ IH1 _ IH2. generalize (enough_and _ _ IH1 IH2). apply enough_impl.
      intros f [X1 X2]. cbn [run_prog opt]. rewrite X1. exact X2.
    - intros w j x kids kids' k s s1 w1 s' w' r _ IH1 _ IH2. generalize (enough_and _ _ IH1 IH2). apply enough_impl.
      intros f [X1 X2]. cbn [run_prog].
      rewrite (proj2 (TRAVchildren_order _ s w j x kids s1 w1 (Some (Node j x kids'))) (ex_intro _ kids' (conj X1 eq_refl))). exact X2.
    - intros w i k s s' w' r _ IH. revert IH. apply enough_impl. intros f X. exact X.
    - intros w i t k s s1 w1 r1 s' w' r _ IH1 _ IH2. generalize (enough_and _ _ IH1 IH2). apply enough_impl.
      intros f [X1 X2]. cbn [run_prog opt]. change (TRAVpush i s) with (mk_tstate (i :: stack s) (TInit i :: tlog s)).
      rewrite X1. cbn [bind]. destruct (TRAVdo_keeps entry fn f _ _ _ _ _ _ X1) as [Es _]. cbn [stack] in Es.
      unfold TRAVpop. rewrite Es. exact X2.
    - intros k s s' w' r _ IH. revert IH. apply enough_impl. intros f X. exact X.
  Qed.

  (** They do nothing else with trees of the specification. *)
  Section Sound.
    Variable g : grammar.
    Hypothesis Dg : describes a g.
    Notation typed := (TRAVdo_typed g entry fn).

    Lemma typed_keeps : forall f, stack_ok (typed f).
    Proof.
      intros f s w t s' w' r X. apply (TRAVdo_keeps entry fn f s w t s' w' r).
      apply (prune_sound g entry entry fn (fun _ _ => or_introl eq_refl) f). exact X.
    Qed.

    Lemma order_each : forall visit, (forall s w t s' w' r, visit s w t = Val (s', w', r) -> does s w t s' w' r) ->
      forall s w kids s' w' kids', in_order (call_of visit) s w kids s' w' kids' -> each_does s w kids s' w' kids'.
    Proof.
      intros visit H s w kids s' w' kids' X. induction X; [constructor|constructor; assumption|].
      econstructor; [apply H; eassumption|assumption].
    Qed.

    Lemma run_runs : forall visit, (forall s w t s' w' r, visit s w t = Val (s', w', r) -> does s w t s' w' r) -> stack_ok visit ->
      forall p s s' w' r, run_prog visit p s = Val (s', w', r) -> runs p s s' w' r.
    Proof.
      intros visit H K p. induction p as [w t|w t k IH|w t k IH|w t k IH|w trav t k IH|k IH]; intros s s' w' r E; cbn [run_prog] in E.
      - injection E as <- <- <-. constructor.
      - destruct t as [t|]; [|discriminate]. destruct (visit s w t) as [[[s1 w1] r1]| | | |] eqn:Ev; try discriminate. cbn [bind] in E.
        eapply runs_do; [apply H; exact Ev|apply IH; exact E].
      - destruct t as [t|]; cbn [opt] in E.
        + destruct (visit s w t) as [[[s1 w1] r1]| | | |] eqn:Ev; try discriminate. cbn [bind] in E.
          eapply runs_opt; [apply H; exact Ev|apply IH; exact E].
        + cbn [bind] in E. apply runs_opt_null. apply IH; exact E.
      - destruct t as [[j x kids]|]; [|discriminate].
        destruct (TRAVchildren visit s w (Node j x kids)) as [[[s1 w1] r1]| | | |] eqn:Ev; try discriminate. cbn [bind] in E.
        apply TRAVchildren_order in Ev. destruct Ev as (kids' & X & ->).
        eapply runs_children; [eapply order_each; eassumption|apply IH; exact E].
      - destruct t as [t|]; cbn [opt] in E.
        + destruct (visit (TRAVpush trav s) w t) as [[[s1 w1] r1]| | | |] eqn:Ev; try discriminate. cbn [bind] in E.
          destruct (K _ _ _ _ _ _ Ev) as [Es _]. cbn in Es. unfold TRAVpop in E. rewrite Es in E. cbn [bind] in E.
          eapply runs_start; [apply H; exact Ev|apply IH; exact E].
        + cbn in E. apply runs_start_null. apply IH; exact E.
      - apply runs_current. apply IH. exact E.
    Qed.

    Theorem run_does : forall fuel s w t s' w' r, typed fuel s w t = Val (s', w', r) -> does s w t s' w' r.
    Proof.
      induction fuel as [|fuel IH]; intros s w t s' w' r E; [discriminate|]. cbn [TRAVdo_typed] in E.
      destruct (well_typed g t) eqn:Wt; [|discriminate]. destruct (stack s) as [|i st] eqn:Es; [discriminate|].
      assert (Hi : innermost s = Some i) by (unfold innermost; rewrite Es; reflexivity).
      assert (Ft : forall m, meant a i (node_type t) m -> fits a t).
      { intros m M. apply Dg. split; [exact Wt|]. eapply meant_node; exact M. }
      destruct (entry i (node_type t)) eqn:Ee.
      - destruct (Ec _ _ Ee) as (f & C & M). unfold fn at 2, function_at in E. rewrite C in E.
        eapply does_call; [exact Hi|eapply Ft; exact M|exact M|]. eapply run_runs; [exact IH|apply typed_keeps|exact E].
      - assert (M := Ew i (node_type t) (or_introl Ee)). assert (F := Ft _ M). destruct t as [j x kids].
        apply TRAVchildren_order in E. destruct E as (kids' & X & ->).
        eapply does_walk; [exact Hi|exact F|exact M|]. eapply order_each; eassumption.
      - assert (M := Ew i (node_type t) (or_intror Ee)). injection E as <- <- <-.
        apply (nop_quiet t s w i (Ft _ M) Hi Ee). auto.
      - discriminate.
    Qed.
  End Sound.
End Run.
