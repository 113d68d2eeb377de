(** Exchanging induced dependencies between graphs computes exactly the
    dependencies of the specification. *)

From Coq Require Import List Bool Arith Lia.
From Verif Require Import Base.Outcome Sched.GraphModel Sched.GraphSpec Sched.GraphProof.
Import ListNotations.
Local Open Scope outcome_scope.

Section Induce.
  Context {O A T K : Type}.
  Variable O_dec : forall x y : O, {x = y} + {x <> y}.
  Variable A_dec : forall x y : A, {x = y} + {x <> y}.
  Variable T_dec : forall x y : T, {x = y} + {x <> y}.
  Variable get_node_type : O -> T.
  Implicit Types g : graph O A.
  Implicit Types x y i j k u v : vertex O A.
  Implicit Types e : @induced A T.
  Implicit Types gs : list (K * graph O A).

  Notation E := (E O_dec A_dec).
  Notation antisym := (antisym O_dec A_dec).
  Notation closed := (closed O_dec A_dec).
  Notation ends_in := (ends_in O_dec A_dec).
  Notation missing := (missing O_dec A_dec).
  Notation same_occurrence := (same_occurrence O_dec).
  Notation add_induced_at := (add_induced_at O_dec A_dec T_dec get_node_type).
  Notation add_induced_edge := (add_induced_edge O_dec A_dec T_dec get_node_type).
  Notation add_induced_edges := (add_induced_edges O_dec A_dec T_dec get_node_type).
  Notation combine_edgelists := (combine_edgelists A_dec T_dec get_node_type).
  Notation induce_round := (induce_round O_dec A_dec T_dec get_node_type (K := K)).
  Notation induce_loop := (induce_loop O_dec A_dec T_dec get_node_type (K := K)).

  (** [e] says that in [o] the attribute [y] depends on [x]. *)
  Definition says e (o : O) x y : Prop :=
    get_node_type o = in_first e /\ x = (o, in_from e) /\ y = (o, in_to e).

  (** Adding edges *)
  Record adds (es : list induced) (g : graph O A) (errs : list (GRerror O A)) (g' : graph O A)
      (errs' : list (GRerror O A)) : Prop := {
    a_nodes : g_nodes g' = g_nodes g;
    a_grow : forall x y, E g x y -> E g' x y;
    a_plain : plain g';
    a_new : forall x y, E g' x y -> E g x y \/
      exists e o, In e es /\ says e o x y /\ In x (g_nodes g) /\ In y (g_nodes g);
    a_errs : exists more, errs' = errs ++ more /\ (more <> [] -> exists e o x y,
      In e es /\ says e o x y /\ x <> y /\ In x (g_nodes g) /\ In y (g_nodes g) /\ E g' y x);
    a_antisym : antisym g -> antisym g' }.

  Lemma adds_refl : forall es g errs, plain g -> adds es g errs g errs.
  Proof.
    intros es g errs P. split; auto. exists []. split; [symmetry; apply app_nil_r|congruence].
  Qed.
  Lemma adds_trans : forall es g1 r1 g2 r2 g3 r3, adds es g1 r1 g2 r2 -> adds es g2 r2 g3 r3 -> adds es g1 r1 g3 r3.
  Proof.
    intros es g1 r1 g2 r2 g3 r3 H Q. split.
    - rewrite (a_nodes _ _ _ _ _ Q). apply (a_nodes _ _ _ _ _ H).
    - intros x y X. apply (a_grow _ _ _ _ _ Q), (a_grow _ _ _ _ _ H), X.
    - apply (a_plain _ _ _ _ _ Q).
    - intros x y X. destruct (a_new _ _ _ _ _ Q x y X) as [Y|(e & o & I & S & I1 & I2)]; [apply (a_new _ _ _ _ _ H), Y|].
      rewrite (a_nodes _ _ _ _ _ H) in I1, I2. right. exists e, o. auto.
    - destruct (a_errs _ _ _ _ _ H) as (m1 & E1 & X1). destruct (a_errs _ _ _ _ _ Q) as (m2 & E2 & X2).
      exists (m1 ++ m2). split; [rewrite E2, E1, app_assoc; reflexivity|]. intros N.
      destruct m1 as [|z m1].
      + destruct (X2 N) as (e & o & x & y & I & S & D & I1 & I2 & R). rewrite (a_nodes _ _ _ _ _ H) in I1, I2.
        exists e, o, x, y. repeat (split; [assumption|]). assumption.
      + destruct X1 as (e & o & x & y & I & S & D & I1 & I2 & R); [discriminate|].
        exists e, o, x, y. repeat (split; [assumption|]). apply (a_grow _ _ _ _ _ Q), R.
    - intros X. apply (a_antisym _ _ _ _ _ Q), (a_antisym _ _ _ _ _ H), X.
  Qed.

  Lemma add_at : forall es e g errs z, In e es -> plain g ->
    let r := add_induced_at e (g, errs) z in
    adds es g errs (fst r) (snd r) /\
    (snd r = [] -> forall x y, says e (fst z) x y -> In x (g_nodes g) -> In y (g_nodes g) -> E (fst r) x y).
  Proof.
    intros es e g errs z I P. unfold GraphModel.add_induced_at.
    destruct (T_dec (in_first e) (get_node_type (fst z))) as [Ty|Ty].
    2:{ cbv zeta. split; [apply adds_refl; exact P|]. intros _ x y (S & _) _ _. congruence. }
    rewrite !(lookup_node_spec O_dec A_dec).
    destruct (in_dec (vertex_dec O_dec A_dec) (fst z, in_from e) (g_nodes g)) as [I1|N1].
    2:{ cbv zeta. split; [apply adds_refl; exact P|]. intros _ x y (_ & -> & _) X _. contradiction. }
    destruct (in_dec (vertex_dec O_dec A_dec) (fst z, in_to e) (g_nodes g)) as [I2|N2].
    2:{ cbv zeta. split; [apply adds_refl; exact P|]. intros _ x y (_ & _ & ->) _ X. contradiction. }
    set (x := (fst z, in_from e)) in *. set (y := (fst z, in_to e)) in *.
    assert (S : says e (fst z) x y) by (split; [congruence|split; reflexivity]).
    rewrite (lookup_plain O_dec A_dec _ _ _ P).
    destruct (has_edge O_dec A_dec g x y) eqn:Ex; cbv zeta.
    { split; [apply adds_refl; exact P|]. intros _ u v (_ & -> & ->) _ _. exact Ex. }
    unfold GRadd_edge. destruct (check_cycle O_dec A_dec g x y GRinduced) as [er|] eqn:C; cbn [fst snd report].
    - apply check_cycle_some in C. split; [|intros H; destruct errs; discriminate H].
      split; auto. exists [er]. split; [reflexivity|]. intros _. exists e, (fst z), x, y.
      assert (Dxy : x <> y) by (intros Q; rewrite <- Q in C, Ex; unfold GraphProof.E in C; congruence).
      repeat (split; [assumption|]). exact C.
    - apply check_cycle_none in C. split; [split|].
      + reflexivity.
      + intros u v U. apply E_add. left. exact U.
      + apply plain_add; auto.
      + intros u v U. apply E_add in U. destruct U as [U|[<- <-]]; [left; exact U|].
        right. exists e, (fst z). auto.
      + exists []. split; [symmetry; apply app_nil_r|congruence].
      + intros An u v D U V. apply E_add in U. apply E_add in V. destruct U as [U|[-> ->]].
        * destruct V as [V|[-> ->]]; [exact (An u v D U V)|contradiction].
        * destruct V as [V|[-> _]]; [contradiction|congruence].
      + intros _ u v (_ & -> & ->) _ _. apply E_add. right. auto.
  Qed.

  Lemma add_edge_adds : forall es e g errs, In e es -> plain g ->
    let r := add_induced_edge (g, errs) e in
    adds es g errs (fst r) (snd r) /\
    (snd r = [] -> forall o x y, says e o x y -> In x (g_nodes g) -> In y (g_nodes g) -> E (fst r) x y).
  Proof.
    intros es e g errs I P. unfold GraphModel.add_induced_edge. cbn [fst].
    assert (L : forall l g errs, plain g ->
      let r := fold_left (add_induced_at e) l (g, errs) in
      adds es g errs (fst r) (snd r) /\
      (snd r = [] -> forall z, In z l -> forall x y, says e (fst z) x y -> In x (g_nodes g) -> In y (g_nodes g) -> E (fst r) x y)).
    { clear g errs P. induction l as [|z l IH]; intros g errs P; cbn [fold_left].
      - cbv zeta. split; [apply adds_refl; exact P|intros _ z []].
      - destruct (add_at es e g errs z I P) as [H1 H2].
        destruct (add_induced_at e (g, errs) z) as [g1 r1]. cbn [fst snd] in *.
        destruct (IH g1 r1 (a_plain _ _ _ _ _ H1)) as [H3 H4]. cbv zeta.
        destruct (fold_left (add_induced_at e) l (g1, r1)) as [g2 r2]. cbn [fst snd] in *.
        split; [exact (adds_trans _ _ _ _ _ _ _ H1 H3)|].
        intros N w [<-|Iw] x y S I1 I2.
        + apply (a_grow _ _ _ _ _ H3). apply H2; auto.
          destruct (a_errs _ _ _ _ _ H3) as (m & E3 & _). rewrite N in E3. symmetry in E3.
          apply app_eq_nil in E3. apply E3.
        + rewrite <- (a_nodes _ _ _ _ _ H1) in I1, I2. exact (H4 N w Iw x y S I1 I2). }
    destruct (L (g_nodes g) g errs P) as [H1 H2]. split; [exact H1|].
    intros N o x y S I1 I2. apply (H2 N x I1); auto. destruct S as (S & -> & ->). split; auto.
  Qed.

  Lemma add_edges_adds : forall all es g errs, incl es all -> plain g ->
    let r := fold_left add_induced_edge es (g, errs) in
    adds all g errs (fst r) (snd r) /\
    (snd r = [] -> forall e, In e es -> forall o x y, says e o x y -> In x (g_nodes g) -> In y (g_nodes g) -> E (fst r) x y).
  Proof.
    intros all. induction es as [|e es IH]; intros g errs I P; cbn [fold_left].
    - cbv zeta. split; [apply adds_refl; exact P|intros _ e []].
    - destruct (add_edge_adds all e g errs (I e (or_introl eq_refl)) P) as [H1 H2].
      destruct (add_induced_edge (g, errs) e) as [g1 r1]. cbn [fst snd] in *.
      destruct (IH g1 r1 (fun z Z => I z (or_intror Z)) (a_plain _ _ _ _ _ H1)) as [H3 H4]. cbv zeta.
      destruct (fold_left add_induced_edge es (g1, r1)) as [g2 r2]. cbn [fst snd] in *.
      split; [exact (adds_trans _ _ _ _ _ _ _ H1 H3)|].
      intros N e' [<-|Ie] o x y S I1 I2.
      + apply (a_grow _ _ _ _ _ H3). apply (H2 ltac:(destruct (a_errs _ _ _ _ _ H3) as (m & E3 & _);
          rewrite N in E3; symmetry in E3; apply app_eq_nil in E3; apply E3) o); auto.
      + rewrite <- (a_nodes _ _ _ _ _ H1) in I1, I2. exact (H4 N e' Ie o x y S I1 I2).
  Qed.

  (** Adding the edges of a round to a graph, and closing it. *)
  Record induces (es : list induced) g g' (added : list (vertex O A * vertex O A)) (errs : list (GRerror O A)) : Prop := {
    i_nodes : g_nodes g' = g_nodes g;
    i_grow : forall x y, E g x y -> E g' x y;
    i_plain : plain g';
    i_ends : ends_in g -> ends_in g';
    i_sound : forall P : vertex O A -> vertex O A -> Prop, (forall x y z, P x y -> P y z -> P x z) ->
      (forall x y, E g x y -> P x y) ->
      (forall e o x y, In e es -> says e o x y -> In x (g_nodes g) -> In y (g_nodes g) -> P x y) ->
      (forall x y, E g' x y -> P x y) /\ (errs <> [] -> exists x y, x <> y /\ P x y /\ P y x);
    i_added : forall x y, In (x, y) added -> fst x = fst y /\ E g' x y /\ ~ E g x y /\
      In x (g_nodes g) /\ In y (g_nodes g);
    i_announced : forall x y, E g' x y -> ~ E g x y -> fst x = fst y ->
      In (x, y) added \/ exists e, In e es /\ says e (fst x) x y;
    i_all : errs = [] -> forall e o x y, In e es -> says e o x y -> In x (g_nodes g) -> In y (g_nodes g) -> E g' x y;
    i_antisym : errs = [] -> antisym g -> antisym g';
    i_closed : errs = [] -> closed g' }.

  Lemma induces_spec : forall es g, plain g ->
    exists g' added errs, add_induced_edges g es = Val (g', added, errs) /\ induces es g g' added errs.
  Proof.
    intros es g P. unfold GraphModel.add_induced_edges.
    destruct (add_edges_adds es es g [] (incl_refl _) P) as [H1 H2].
    destruct (fold_left add_induced_edge es (g, [])) as [g1 r1] eqn:F. cbn [fst snd] in *.
    destruct (close_closes O_dec A_dec g1 []) as (c & Ec & C). rewrite Ec. cbn [bind].
    exists (cl_graph c), (cl_added c), (report (cl_error c) r1). split; [reflexivity|].
    destruct (c_added _ _ _ _ _ C) as (new & En & Sn & Cn). rewrite app_nil_r in En. rewrite En.
    assert (N1 := a_nodes _ _ _ _ _ H1).
    assert (R : report (cl_error c) r1 = [] -> r1 = [] /\ cl_error c = None).
    { destruct (cl_error c) as [er|]; cbn [report]; [intros Z; destruct r1; discriminate Z|auto]. }
    split.
    - rewrite (c_nodes _ _ _ _ _ C). exact N1.
    - intros x y X. apply (c_grow _ _ _ _ _ C), (a_grow _ _ _ _ _ H1), X.
    - apply (c_plain _ _ _ _ _ C), (a_plain _ _ _ _ _ H1).
    - intros En' x y X. rewrite (c_nodes _ _ _ _ _ C), N1.
      destruct (c_ends _ _ _ _ _ C x y X) as [Y|Y]; [|rewrite N1 in Y; exact Y].
      destruct (a_new _ _ _ _ _ H1 x y Y) as [Z|(e & o & _ & _ & Z)]; [apply En', Z|exact Z].
    - intros Q Tr Q1 Q2.
      assert (Q3 : forall x y, E g1 x y -> Q x y).
      { intros x y X. destruct (a_new _ _ _ _ _ H1 x y X) as [Z|(e & o & I & S & I1 & I2)]; [apply Q1, Z|].
        exact (Q2 e o x y I S I1 I2). }
      assert (Q4 := c_sound _ _ _ _ _ C Q Tr Q3). split; [exact Q4|]. intros Ne.
      destruct (cl_error c) as [er|] eqn:Er.
      + destruct (c_error _ _ _ _ _ C er Er) as (x & y & D & X & Y). exists x, y. split; [exact D|]. split; apply Q4; assumption.
      + cbn [report] in Ne. destruct (a_errs _ _ _ _ _ H1) as (more & E1 & M). cbn [app] in E1. subst more.
        destruct (M Ne) as (e & o & x & y & I & S & D & I1 & I2 & Z). exists x, y. split; [exact D|].
        split; [exact (Q2 e o x y I S I1 I2)|]. apply Q4, (c_grow _ _ _ _ _ C), Z.
    - intros x y I. destruct (Sn x y I) as (S & X & Y & I1 & I2). rewrite N1 in I1, I2.
      apply same_occurrence_spec in S. repeat split; auto. intros Z. apply Y, (a_grow _ _ _ _ _ H1), Z.
    - intros x y X Y S. destruct (E_dec O_dec A_dec g1 x y) as [Z|Z].
      + right. destruct (a_new _ _ _ _ _ H1 x y Z) as [Z'|(e & o & I & Sy & _)]; [contradiction|].
        exists e. split; [exact I|]. destruct Sy as (S1 & -> & ->). split; auto.
      + left. apply Cn; auto. apply same_occurrence_spec. exact S.
    - intros Ne e o x y I S I1 I2. apply R in Ne. destruct Ne as [Ne _].
      apply (c_grow _ _ _ _ _ C). exact (H2 Ne e I o x y S I1 I2).
    - intros Ne An. apply R in Ne. destruct Ne as [_ Ne]. apply (c_antisym _ _ _ _ _ C Ne).
      apply (a_antisym _ _ _ _ _ H1), An.
    - intros Ne. apply R in Ne. destruct Ne as [_ Ne]. exact (c_closed _ _ _ _ _ C Ne).
  Qed.

  (** What an edge says about the type of its occurrence. *)
  Definition announce x y : @induced A T :=
    mk_induced (get_node_type (fst x)) (get_node_type (fst y)) (snd x) (snd y).

  Lemma induced_eqb_spec : forall e f, induced_eqb A_dec T_dec e f = true <-> e = f.
  Proof.
    intros [a b c d] [a' b' c' d']. unfold induced_eqb. cbn [in_first in_second in_from in_to].
    destruct (T_dec a a'), (T_dec b b'), (A_dec c c'), (A_dec d d'); cbn; split; intros; congruence.
  Qed.
  Lemma combine_in : forall new l e, In e (combine_edgelists l new) <->
    In e l \/ exists x y, In (x, y) new /\ e = announce x y.
  Proof.
    unfold GraphModel.combine_edgelists. induction new as [|[x y] new IH]; intros l e; cbn [fold_left].
    - split; [auto|]. intros [H|(x & y & [] & _)]; exact H.
    - cbn [fst snd]. rewrite IH.
      change (mk_induced (get_node_type (fst x)) (get_node_type (fst y)) (snd x) (snd y)) with (announce x y).
      destruct (existsb (induced_eqb A_dec T_dec (announce x y)) l) eqn:X.
      + apply existsb_exists in X. destruct X as (f & If & Ef). apply induced_eqb_spec in Ef. subst f.
        split.
        * intros [H|(u & v & I & ->)]; [left; exact H|right; exists u, v; split; [right; exact I|reflexivity]].
        * intros [H|(u & v & [I|I] & ->)]; [left; exact H| |right; eauto].
          injection I as <- <-. left. exact If.
      + split.
        * intros [[H|H]|(u & v & I & ->)]; [right; exists x, y; split; [left; reflexivity|auto]|left; exact H|].
          right; exists u, v; split; [right; exact I|reflexivity].
        * intros [H|(u & v & [I|I] & ->)]; [left; right; exact H| |right; eauto].
          injection I as <- <-. left. left. reflexivity.
  Qed.

  (** A round. *)
  Definition stepped (es pending : list induced) (errs : list (GRerror O A)) (a b : K * graph O A) : Prop :=
    fst b = fst a /\ exists added er, induces es (snd a) (snd b) added er /\
      (forall x y, In (x, y) added -> In (announce x y) pending) /\ (errs = [] -> er = []).

  Lemma round_spec : forall gs es pending, (forall kg, In kg gs -> plain (snd kg)) ->
    exists gs' pending' errs, induce_round gs es pending = Val (gs', pending', errs) /\
      Forall2 (stepped es pending' errs) gs gs' /\
      incl pending pending' /\
      (forall e, In e pending' -> In e pending \/ exists a b x y, In (a, b) (combine gs gs') /\ fst x = fst y /\
         e = announce x y /\ E (snd b) x y /\ ~ E (snd a) x y /\ In x (g_nodes (snd a)) /\ In y (g_nodes (snd a))) /\
      (errs <> [] -> exists a b added er, In (a, b) (combine gs gs') /\ induces es (snd a) (snd b) added er /\ er <> []).
  Proof.
    induction gs as [|[k g] gs IH]; intros es pending P; cbn [GraphModel.induce_round].
    - exists [], pending, []. split; [reflexivity|]. split; [constructor|]. split; [apply incl_refl|].
      split; [auto|]. congruence.
    - destruct (induces_spec es g (P (k, g) (or_introl eq_refl))) as (g' & added & er & Eg & Hg).
      rewrite Eg. cbn [bind].
      destruct (IH es (combine_edgelists pending added)) as (gs' & pend & errs & Er & F & Inc & Pe & Ee).
      { intros kg I. apply P. right. exact I. }
      rewrite Er. cbn [bind]. exists ((k, g') :: gs'), pend, (er ++ errs). split; [reflexivity|]. split; [|split; [|split]].
      + constructor.
        * split; [reflexivity|]. cbn [snd]. exists added, er. split; [exact Hg|]. split.
          -- intros x y I. apply Inc, combine_in. right. eauto.
          -- intros N. apply app_eq_nil in N. apply N.
        * clear - F. induction F as [|a b gs gs' H F IH]; constructor; auto.
          destruct H as (H1 & ad & e & H2 & H3 & H4). split; [exact H1|]. exists ad, e. split; [exact H2|]. split; [exact H3|].
          intros N. apply H4. apply app_eq_nil in N. apply N.
      + intros e I. apply Inc, combine_in. left. exact I.
      + intros e I. destruct (Pe e I) as [J|(a & b & x & y & J & R)].
        * apply combine_in in J. destruct J as [J|(x & y & J & ->)]; [left; exact J|]. right.
          exists (k, g), (k, g'), x, y. split; [left; reflexivity|]. cbn [snd].
          destruct (i_added _ _ _ _ _ Hg x y J) as (S & X & Y & I1 & I2). auto 7.
        * right. exists a, b, x, y. split; [right; exact J|exact R].
      + intros N. destruct er as [|z er].
        * destruct (Ee N) as (a & b & ad & e & J & R). exists a, b, ad, e. split; [right; exact J|exact R].
        * exists (k, g), (k, g'), added, (z :: er). split; [left; reflexivity|]. split; [exact Hg|discriminate].
  Qed.

  (** ** Termination *)
  Definition total (gs : list (K * graph O A)) : nat := fold_right (fun kg n => missing (snd kg) + n) 0 gs.

  Lemma total_le : forall es p r gs gs', Forall2 (stepped es p r) gs gs' -> total gs' <= total gs.
  Proof.
    intros es p r gs gs' F. induction F as [|a b gs gs' H F IH]; cbn [total fold_right]; [lia|].
    destruct H as (_ & ad & e & H & _).
    assert (L := missing_le O_dec A_dec _ _ (i_nodes _ _ _ _ _ H) (i_grow _ _ _ _ _ H)). unfold total in IH. lia.
  Qed.
  Lemma total_lt : forall es p r gs gs' a b x y, Forall2 (stepped es p r) gs gs' -> In (a, b) (combine gs gs') ->
    E (snd b) x y -> ~ E (snd a) x y -> In x (g_nodes (snd a)) -> In y (g_nodes (snd a)) -> total gs' < total gs.
  Proof.
    intros es p r gs gs' a b x y F. induction F as [|a' b' gs gs' H F IH]; cbn [total fold_right combine]; intros I X Y I1 I2; [destruct I|].
    destruct H as (_ & ad & e & H & _).
    assert (L := missing_le O_dec A_dec _ _ (i_nodes _ _ _ _ _ H) (i_grow _ _ _ _ _ H)).
    destruct I as [I|I].
    - injection I as -> ->. assert (L' := missing_lt O_dec A_dec _ _ x y (i_nodes _ _ _ _ _ H) (i_grow _ _ _ _ _ H) I1 I2 Y X).
      assert (M := total_le _ _ _ _ _ F). unfold total in M. lia.
    - assert (M := IH I X Y I1 I2). unfold total in M. lia.
  Qed.

  Lemma stepped_plain : forall es p r gs gs', Forall2 (stepped es p r) gs gs' -> forall kg, In kg gs' -> plain (snd kg).
  Proof.
    intros es p r gs gs' F. induction F as [|a b gs gs' H F IH]; intros kg I; [destruct I|].
    destruct I as [<-|I]; [|apply IH, I]. destruct H as (_ & ad & e & H & _). exact (i_plain _ _ _ _ _ H).
  Qed.

  Theorem loop_ends : forall fuel gs pending, (forall kg, In kg gs -> plain (snd kg)) -> total gs < fuel ->
    exists r, induce_loop fuel gs pending = Val r.
  Proof.
    induction fuel as [|fuel IH]; intros gs pending P F; [lia|].
    destruct pending as [|e0 pending]; [exists (gs, []); reflexivity|].
    cbn [GraphModel.induce_loop].
    destruct (round_spec gs (e0 :: pending) [] P) as (gs' & pend & errs & Er & F2 & _ & Pe & _).
    rewrite Er. cbn [bind]. destruct pend as [|e1 pend].
    - destruct fuel; cbn [GraphModel.induce_loop bind]; eauto.
    - destruct (Pe e1 (or_introl eq_refl)) as [[]|(a & b & x & y & J & _ & _ & X & Y & I1 & I2)].
      assert (L := total_lt _ _ _ _ _ a b x y F2 J X Y I1 I2).
      destruct (IH gs' (e1 :: pend) (stepped_plain _ _ _ _ _ F2)) as (r & R); [lia|].
      rewrite R. cbn [bind]. eauto.
  Qed.

  (** ** Soundness *)
  Variable ps : list (production O A).
  Notation depends_on := (depends_on get_node_type ps).
  (** The type an attribute belongs to; a graph may contain other pairs of an
      occurrence and an attribute, to which no edge goes. *)
  Variable owner : A -> T.
  Definition proper x : Prop := owner (snd x) = get_node_type (fst x).
  Hypothesis Gp : forall p, In p ps -> good_production p.
  Hypothesis Own : forall p x, In p ps -> In x (p_vertices p) -> proper x.

  Lemma depends_vertices : forall p x y, depends_on p x y -> In x (p_vertices p) /\ In y (p_vertices p).
  Proof.
    intros p x y D. induction D as [p x y Ip I|p x y z _ [H1 _] _ [_ H2]|]; auto.
    apply (gp_deps _ (Gp p Ip)). exact I.
  Qed.
  Lemma depends_in : forall p x y, depends_on p x y -> In p ps.
  Proof. intros p x y D. induction D; assumption. Qed.

  Definition fits (p : production O A) (kg : K * graph O A) : Prop :=
    In p ps /\ (forall x, In x (p_vertices p) <-> In x (g_nodes (snd kg)) /\ proper x) /\ plain (snd kg) /\
    (forall x y, E (snd kg) x y -> depends_on p x y).
  Definition justified e : Prop := exists p o, depends_on p (o, in_from e) (o, in_to e) /\
    get_node_type o = in_first e.

  Lemma justified_use : forall e o x y p kg, justified e -> says e o x y -> fits p kg ->
    In x (g_nodes (snd kg)) -> In y (g_nodes (snd kg)) -> depends_on p x y.
  Proof.
    intros e o x y p kg (p' & o' & D & Ty) (S & -> & ->) (Ip & V & _) I1 I2.
    destruct (depends_vertices _ _ _ D) as [V1 V2]. assert (Ip' := depends_in _ _ _ D).
    apply (Own _ _ Ip') in V1. apply (Own _ _ Ip') in V2. unfold proper in V1, V2. cbn [fst snd] in V1, V2.
    apply (dep_induced get_node_type ps p p' o o'); auto; [congruence| |]; apply V; (split; [assumption|]);
      unfold proper; cbn [fst snd]; congruence.
  Qed.

  Lemma fits_step : forall es p r a b q, fits q a -> (forall e, In e es -> justified e) -> stepped es p r a b -> fits q b.
  Proof.
    intros es p r a b q Fq J (_ & ad & e & H & _). assert (Fq' := Fq). destruct Fq' as (Iq & V & Pl & D).
    split; [exact Iq|]. split; [|split].
    - intros x. rewrite (i_nodes _ _ _ _ _ H). apply V.
    - exact (i_plain _ _ _ _ _ H).
    - apply (i_sound _ _ _ _ _ H (depends_on q)); auto.
      + intros x y z. apply dep_trans.
      + intros f o x y If S I1 I2. exact (justified_use f o x y q a (J f If) S Fq I1 I2).
  Qed.

  Lemma combine_Forall2 : forall {X Y} (R : X -> Y -> Prop) l l' a b, Forall2 R l l' -> In (a, b) (combine l l') -> R a b.
  Proof.
    intros X Y R l l' a b F. induction F as [|a' b' l l' H F IH]; cbn [combine]; [intros []|].
    intros [I|I]; [congruence|auto].
  Qed.

  Theorem loop_sound : forall fuel gs pending gs' errs, Forall2 fits ps gs -> (forall e, In e pending -> justified e) ->
    induce_loop fuel gs pending = Val (gs', errs) -> Forall2 fits ps gs' /\
      (errs <> [] -> exists p x y, x <> y /\ depends_on p x y /\ depends_on p y x).
  Proof.
    induction fuel as [|fuel IH]; intros gs pending gs' errs F J R.
    { destruct pending; [|discriminate R]. injection R as <- <-. split; [exact F|congruence]. }
    destruct pending as [|e0 pending]; [injection R as <- <-; split; [exact F|congruence]|].
    set (es := e0 :: pending) in *. cbn [GraphModel.induce_loop] in R. change (e0 :: pending) with es in R.
    assert (P : forall kg, In kg gs -> plain (snd kg)).
    { intros kg I. clear - F I. induction F as [|p a l l' H F IHF]; [destruct I|]. destruct I as [<-|I]; [apply H|auto]. }
    destruct (round_spec gs es [] P) as (gs1 & pend & er & Er & F2 & _ & Pe & Ee).
    unfold es in R. cbn [GraphModel.induce_loop] in R. fold es in R. rewrite Er in R. cbn [bind] in R.
    destruct (induce_loop fuel gs1 pend) as [[gs2 er2]| | | |] eqn:R2; cbn [bind] in R; try discriminate R.
    injection R as <- <-. cbn [fst snd].
    assert (F1 : Forall2 fits ps gs1).
    { assert (X : forall qs, Forall2 fits qs gs -> Forall2 fits qs gs1); [|apply X, F].
      clear - F2 J Gp Own. intros qs F. revert gs1 F2. induction F as [|p a l l' H F IHF]; intros gs1 F2; inversion F2; subst; constructor.
      - eapply fits_step; eassumption.
      - apply IHF; assumption. }
    assert (Q : forall a b, In (a, b) (combine gs gs1) -> exists q, fits q a /\ fits q b).
    { clear - F F1. revert gs1 F1. induction F as [|p a l l' H F IHF]; intros gs1 F1 c d I; inversion F1; subst; cbn [combine] in I; [destruct I|].
      destruct I as [I|I]; [injection I as <- <-; eauto|eauto]. }
    assert (J1 : forall e, In e pend -> justified e).
    { intros e I. destruct (Pe e I) as [[]|(a & b & x & y & Iab & S & -> & X & _)].
      destruct (Q a b Iab) as (q & _ & (_ & _ & _ & D)). unfold announce, justified. cbn [in_first in_from in_to].
      exists q, (fst x). split; [|reflexivity]. assert (D' := D x y X).
      destruct x as [o1 a1], y as [o2 a2]. cbn [fst snd] in *. subst o2. exact D'. }
    destruct (IH gs1 pend gs2 er2 F1 J1 R2) as [F3 C3]. split; [exact F3|].
    intros N. destruct er as [|z er]; [apply C3, N|].
    destruct Ee as (a & b & ad & e & Iab & H & Ne); [discriminate|].
    destruct (Q a b Iab) as (q & Fq & _). assert (Fq' := Fq). destruct Fq' as (Iq & V & _ & D).
    destruct (i_sound _ _ _ _ _ H (depends_on q)) as [_ C].
    - intros x y w. apply dep_trans.
    - exact D.
    - intros f o x y If S I1 I2. exact (justified_use f o x y q a (J f If) S Fq I1 I2).
    - destruct (C Ne) as (x & y & X). exists q, x, y. exact X.
  Qed.

  (** ** Completeness *)
  Definition good_graph (p : production O A) (kg : K * graph O A) : Prop :=
    (forall x, In x (p_vertices p) <-> In x (g_nodes (snd kg)) /\ proper x) /\
    (forall x y, In (x, y) (p_deps p) -> E (snd kg) x y) /\
    antisym (snd kg) /\ closed (snd kg) /\ ends_in (snd kg) /\ plain (snd kg).
  (** what [e] says is an edge wherever it applies *)
  Definition spread gs e : Prop := forall kg o x y, In kg gs -> says e o x y ->
    In x (g_nodes (snd kg)) -> In y (g_nodes (snd kg)) -> E (snd kg) x y.
  Definition handled gs (pending : list induced) : Prop := forall kg x y, In kg gs -> fst x = fst y ->
    E (snd kg) x y -> In (announce x y) pending \/ spread gs (announce x y).

  Theorem loop_complete : forall fuel gs pending gs', Forall2 good_graph ps gs -> handled gs pending ->
    induce_loop fuel gs pending = Val (gs', []) -> Forall2 good_graph ps gs' /\ handled gs' [].
  Proof.
    induction fuel as [|fuel IH]; intros gs pending gs' F J R.
    { destruct pending; [|discriminate R]. injection R as <-. auto. }
    destruct pending as [|e0 pending]; [injection R as <-; auto|].
    assert (P : forall kg, In kg gs -> plain (snd kg)).
    { intros kg I. clear - F I. induction F as [|p a l l' H F IHF]; [destruct I|]. destruct I as [<-|I]; [apply H|auto]. }
    destruct (round_spec gs (e0 :: pending) [] P) as (gs1 & pend & er & Er & F2 & _ & Pe & _).
    cbn [GraphModel.induce_loop] in R. rewrite Er in R. cbn [bind] in R. set (es := e0 :: pending) in *.
    destruct (induce_loop fuel gs1 pend) as [[gs2 er2]| | | |] eqn:R2; cbn [bind] in R; try discriminate R.
    injection R as <- N. cbn [fst snd] in *. apply app_eq_nil in N. destruct N as [-> ->].
    (* every new graph comes from an old one *)
    assert (Q : forall b, In b gs1 -> exists a, In a gs /\ stepped es pend [] a b).
    { intros b I. clear - F2 I. induction F2 as [|a c l l' H F2 IHF]; [destruct I|].
      destruct I as [<-|I]; [exists a; split; [left; reflexivity|exact H]|].
      destruct (IHF I) as (a' & Ia & S). exists a'. split; [right; exact Ia|exact S]. }
    apply (IH gs1 pend); [| |exact R2].
    - clear - F F2. revert gs1 F2. induction F as [|p a l l' H F IHF]; intros gs1 F2; inversion F2; subst; constructor; [|auto].
      destruct H as (V & D & An & Cl & En & Pl). destruct H2 as (_ & ad & e & H & _ & Ne). specialize (Ne eq_refl).
      split; [|split; [|split; [|split; [|split]]]].
      + intros x. rewrite (i_nodes _ _ _ _ _ H). apply V.
      + intros u v X. apply (i_grow _ _ _ _ _ H), D, X.
      + exact (i_antisym _ _ _ _ _ H Ne An).
      + exact (i_closed _ _ _ _ _ H Ne).
      + exact (i_ends _ _ _ _ _ H En).
      + exact (i_plain _ _ _ _ _ H).
    - assert (Spread : forall e, In e es -> spread gs1 e).
      { intros e Ie b o x y Ib S I1 I2. destruct (Q b Ib) as (a & _ & (_ & ad & er & H & _ & Ne)).
        rewrite (i_nodes _ _ _ _ _ H) in I1, I2. exact (i_all _ _ _ _ _ H (Ne eq_refl) e o x y Ie S I1 I2). }
      assert (Keep : forall e, spread gs e -> spread gs1 e).
      { intros e Se b o x y Ib S I1 I2. destruct (Q b Ib) as (a & Ia & (_ & ad & er & H & _ & Ne)).
        rewrite (i_nodes _ _ _ _ _ H) in I1, I2. apply (i_grow _ _ _ _ _ H). exact (Se a o x y Ia S I1 I2). }
      intros b x y Ib S X. destruct (Q b Ib) as (a & Ia & (_ & ad & er & H & Add & Ne)).
      destruct (E_dec O_dec A_dec (snd a) x y) as [Y|Y].
      + right. destruct (J a x y Ia S Y) as [Z|Z]; [apply Spread, Z|apply Keep, Z].
      + destruct (i_announced _ _ _ _ _ H x y X Y S) as [Z|(e & Ie & Sy)]; [left; apply Add, Z|].
        right. (* what [e] says is what the edge announces *)
        intros c o u v Ic (S1 & -> & ->) I1 I2. apply (Spread e Ie c o); auto.
        destruct Sy as (S2 & Ex & Ey). unfold announce in *. cbn [in_first in_from in_to] in *.
        rewrite Ex, Ey in *. cbn [fst snd] in *. split; [congruence|auto].
  Qed.

  Lemma matched : forall gs p, Forall2 good_graph ps gs -> In p ps -> exists kg, In (p, kg) (combine ps gs).
  Proof.
    intros gs p F. clear Gp Own. induction F as [|q a l l' H F IH]; [intros []|]. cbn [combine]. intros [<-|I]; [eauto using in_eq|].
    destruct (IH I) as (kg & J). exists kg. right. exact J.
  Qed.

  Theorem depends_edge : forall gs, Forall2 good_graph ps gs -> handled gs [] ->
    (forall p x, In p ps -> ~ In (x, x) (p_deps p)) ->
    forall p x y, depends_on p x y -> forall kg, In (p, kg) (combine ps gs) -> x <> y /\ E (snd kg) x y.
  Proof.
    intros gs F H Ns p x y D. induction D as [p x y Ip I|p x y z _ IH1 _ IH2|p p' o o' a b Ip D IH Ty I1 I2]; intros kg M.
    - destruct (combine_Forall2 _ _ _ _ _ F M) as (_ & Dd & _). split; [|apply Dd, I].
      intros ->. exact (Ns p y Ip I).
    - destruct (IH1 kg M) as [N1 E1]. destruct (IH2 kg M) as [N2 E2].
      destruct (combine_Forall2 _ _ _ _ _ F M) as (_ & _ & An & Cl & En & _).
      assert (N3 : x <> z) by (intros ->; exact (An z y N1 E1 E2)).
      split; [exact N3|]. destruct (En x y E1) as [Ix Iy]. destruct (En y z E2) as [_ Iz].
      exact (Cl x y z Ix Iy Iz N1 N2 N3 E1 E2).
    - destruct (matched gs p' F (depends_in _ _ _ D)) as (kg' & M'). destruct (IH kg' M') as [N E1].
      split; [congruence|].
      assert (Ik' : In kg' gs) by exact (in_combine_r _ _ _ _ M'). assert (Ik : In kg gs) by exact (in_combine_r _ _ _ _ M).
      destruct (H kg' (o', a) (o', b) Ik' eq_refl E1) as [[]|S].
      destruct (combine_Forall2 _ _ _ _ _ F M) as (V & _). apply V in I1. apply V in I2.
      apply (S kg o); auto; [|apply I1|apply I2].
      split; [symmetry; exact Ty|split; reflexivity].
  Qed.

  (** ... and with equations that read what they compute *)
  Theorem depends_edge_or_same : forall gs, Forall2 good_graph ps gs -> handled gs [] ->
    forall p x y, depends_on p x y -> forall kg, In (p, kg) (combine ps gs) -> x = y \/ E (snd kg) x y.
  Proof.
    intros gs F H p x y D. induction D as [p x y Ip I|p x y z _ IH1 _ IH2|p p' o o' a b Ip D IH Ty I1 I2]; intros kg M.
    - destruct (combine_Forall2 _ _ _ _ _ F M) as (_ & Dd & _). right. apply Dd, I.
    - destruct (IH1 kg M) as [->|E1]; [exact (IH2 kg M)|]. destruct (IH2 kg M) as [<-|E2]; [right; exact E1|].
      destruct (combine_Forall2 _ _ _ _ _ F M) as (_ & _ & An & Cl & En & _).
      destruct (vertex_dec O_dec A_dec x z) as [->|N3]; [left; reflexivity|right].
      destruct (vertex_dec O_dec A_dec x y) as [->|N1]; [exact E2|]. destruct (vertex_dec O_dec A_dec y z) as [<-|N2]; [exact E1|].
      destruct (En x y E1) as [Ix Iy]. destruct (En y z E2) as [_ Iz].
      exact (Cl x y z Ix Iy Iz N1 N2 N3 E1 E2).
    - destruct (matched gs p' F (depends_in _ _ _ D)) as (kg' & M'). destruct (IH kg' M') as [N|E1]; [left; congruence|right].
      assert (Ik' : In kg' gs) by exact (in_combine_r _ _ _ _ M'). assert (Ik : In kg gs) by exact (in_combine_r _ _ _ _ M).
      destruct (H kg' (o', a) (o', b) Ik' eq_refl E1) as [[]|S].
      destruct (combine_Forall2 _ _ _ _ _ F M) as (V & _). apply V in I1. apply V in I2.
      apply (S kg o); auto; [|apply I1|apply I2].
      split; [symmetry; exact Ty|split; reflexivity].
  Qed.
End Induce.
