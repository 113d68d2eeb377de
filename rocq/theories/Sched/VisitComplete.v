(** The visit loop finds an order if there is one (C34). *)

From Coq Require Import List Ascii Bool Arith Lia.
From Verif Require Import Sched.GraphModel Sched.GraphSpec Sched.GraphProof Sched.ScheduleModel Sched.ScheduleProof Sched.PartitionModel Sched.PartitionGrammar
  Sched.VisitModel Sched.VisitSpec Sched.VisitProof.
From Verif Require Import Base.Outcome Palm.StrModel Front.Syntax Front.NodesetTableModel Front.PropagateModel Front.ProductRulesModel.
Import ListNotations.
Local Open Scope outcome_scope.

Lemma find_visit_some : forall vs k0 b k, find_visit vs k0 b = Some k ->
  exists v y, k0 <= k /\ k < k0 + length vs /\ nth_error vs (k - k0) = Some v /\ In y (v_outputs v) /\ snd y = b.
Proof.
  intros vs. induction vs as [|v vs IH]; intros k0 b k H; cbn [find_visit] in H; [discriminate|].
  destruct (existsb _ (v_outputs v)) eqn:E.
  - injection H as <-. apply existsb_exists in E. destruct E as (y & Iy & Q). destruct (aptr_dec (snd y) b) as [Qy|]; [|discriminate].
    exists v, y. cbn [length]. rewrite Nat.sub_diag. split; [lia|]. split; [lia|]. split; [reflexivity|]. auto.
  - destruct (IH (S k0) b k H) as (w & y & L1 & L2 & Hw & Hy). exists w, y. cbn [length]. split; [lia|]. split; [lia|].
    split; [|exact Hy]. replace (k - k0) with (S (k - S k0)) by lia. exact Hw.
Qed.
Lemma find_visit_exists : forall vs k0 b v y, In v vs -> In y (v_outputs v) -> snd y = b -> exists k, find_visit vs k0 b = Some k.
Proof.
  intros vs. induction vs as [|w vs IH]; intros k0 b v y Iv Iy Q; [destruct Iv|]. cbn [find_visit].
  destruct (existsb _ (v_outputs w)) eqn:E; [eauto|]. destruct Iv as [->|Iv]; [|eauto]. exfalso.
  assert (X : existsb (fun x : ag_vertex => if aptr_dec (snd x) b then true else false) (v_outputs v) = true).
  { apply existsb_exists. exists y. split; [exact Iy|]. destruct (aptr_dec (snd y) b); [reflexivity|contradiction]. }
  congruence.
Qed.

Section Node.
  Variable nodes : list inode.
  Variable sets : list inodeset.
  Variable attrs : pra.
  Variable literals : list literal.
  Variable vt : visits_table.
  Variable g : ag_graph.
  Variable i : nat.
  Variable n : inode.
  Notation node := (OType (TNode i)).
  Notation kids := (kids i n).
  Notation child_visits := (child_visits nodes sets vt).
  Notation sched_equation_dependency := (sched_equation_dependency nodes sets attrs vt node).
  Notation sched_attributes := (sched_attributes nodes sets attrs vt node).
  Notation sched_dependencies := (sched_dependencies nodes sets attrs vt g node).
  Notation mark_scheduled := (mark_scheduled nodes sets vt g).
  Notation make_entry := (make_entry nodes sets attrs literals vt node).
  Notation add_visit_sequence := (add_visit_sequence nodes sets attrs literals vt node).
  Notation visit_loop := (visit_loop nodes sets attrs literals vt g node).
  Notation dependencies := (GRget_node_dependencies occurrence_dec aptr_dec g).
  Notation good_item := (good_item attrs g i n).

  Hypothesis Hvertices : forall x, In x (g_nodes g) -> fst x = node \/ In (fst x) kids.
  Hypothesis Hkids : forall o, In o kids -> exists vs, child_visits o = Val vs.
  Hypothesis Hattr : forall x, In x (g_nodes g) -> exists d, attribute_at attrs (snd x) = Some d.
  Hypothesis Hfind : forall x d vs, In x (g_nodes g) -> In (fst x) kids -> attribute_at attrs (snd x) = Some d ->
    at_is_synthesized d = true -> child_visits (fst x) = Val vs -> exists v y, In v vs /\ In y (v_outputs v) /\ snd y = snd x.
  Hypothesis Hlookup : forall o vs v y, In o kids -> child_visits o = Val vs -> In v vs ->
    In y (v_inputs v ++ v_outputs v) -> In (o, snd y) (g_nodes g).
  Hypothesis Hentry : forall o k vs, In o kids -> child_visits o = Val vs -> k < length vs ->
    exists e, make_entry (IVisit o k) = Val (Some e) /\ is_dummy e = false.

  Definition good (x : item) : Prop :=
    good_item x /\ forall o k, x = IVisit o k -> exists vs, child_visits o = Val vs /\ k < length vs.

  (** What gives an attribute its value. *)
  Definition supplied (x : ag_vertex) (y : item) : Prop :=
    ((fst x = node \/ forall d, attribute_at attrs (snd x) = Some d -> at_is_synthesized d = false) /\ y = IEval x) \/
    (fst x <> node /\ exists vs k, child_visits (fst x) = Val vs /\ find_visit vs 0 (snd x) = Some k /\ y = IVisit (fst x) k).
  Definition requires (x y : item) : Prop :=
    match x with
    | IEval x => exists u, In u (dependencies x) /\ supplied u y
    | IVisit o k => (exists j, j < k /\ y = IVisit o j) \/
        exists vs v u, child_visits o = Val vs /\ nth_error vs k = Some v /\ In u (v_inputs v) /\ supplied (o, snd u) y
    end.

  Definition grows (w w' : waiting) : Prop :=
    (exists more, fst w' = fst w ++ more /\ forall z, In z more -> good z) /\
    (forall z, In z (snd w') -> In z (snd w) \/ In z (fst w')) /\
    (forall z, In z (snd w) -> In z (snd w')).
  Lemma grows_refl : forall w, grows w w.
  Proof. intros w. split; [exists []; rewrite app_nil_r; split; [reflexivity|intros z []]|]. auto. Qed.
  Lemma grows_trans : forall w1 w2 w3, grows w1 w2 -> grows w2 w3 -> grows w1 w3.
  Proof.
    intros w1 w2 w3 ((m1 & Q1 & G1) & B1 & C1) ((m2 & Q2 & G2) & B2 & C2). split; [|split].
    - exists (m1 ++ m2). rewrite Q2, Q1, app_assoc. split; [reflexivity|]. intros z I. apply in_app_iff in I. destruct I; auto.
    - intros z I. destruct (B2 z I) as [I'|I']; [|auto]. destruct (B1 z I') as [I2|I2]; [auto|]. right. rewrite Q2. apply in_app_iff. auto.
    - auto.
  Qed.
  Definition present (w : waiting) (y : item) : Prop := In y (fst w) \/ In y (snd w).
  Lemma grows_present : forall w w' y, grows w w' -> present w y -> present w' y.
  Proof. intros w w' y ((m & Q & _) & _ & C) [I|I]; [left; rewrite Q; apply in_app_iff; auto|right; auto]. Qed.
  Lemma grows_add : forall q qd y, good y -> grows (q, qd) (q ++ [y], y :: qd).
  Proof.
    intros q qd y Gy. unfold grows. cbn [fst snd]. split; [exists [y]; split; [reflexivity|]|split].
    - intros z [<-|[]]. exact Gy.
    - intros z [<-|I]; [right; apply in_app_iff; right; left; reflexivity|auto].
    - intros z I. right. exact I.
  Qed.
  Lemma grows_push : forall q qd y, good y -> grows (q, qd) (q ++ [y], qd).
  Proof.
    intros q qd y Gy. unfold grows. cbn [fst snd]. split; [exists [y]; split; [reflexivity|]|split; auto].
    intros z [<-|[]]. exact Gy.
  Qed.

  Lemma good_eval : forall x d, In x (g_nodes g) -> attribute_at attrs (snd x) = Some d ->
    fst x = node \/ at_is_synthesized d = false -> good (IEval x).
  Proof.
    intros x d Ix D H. split; [|intros o k Q; discriminate]. split; [exact Ix|]. destruct H as [H|H]; [auto|right]. intros d' D'. congruence.
  Qed.

  Lemma sched_equation_defined : forall w x, In x (g_nodes g) ->
    exists w' y, sched_equation_dependency w x = Val w' /\ supplied x y /\ grows w w' /\ present w' y.
  Proof.
    intros [q qd] x Ix. destruct (Hattr x Ix) as (d & D). unfold VisitModel.sched_equation_dependency. rewrite D.
    destruct (occurrence_dec (fst x) node) as [E|E]; cbn [negb andb].
    - exists (if item_in (IEval x) qd then (q, qd) else (q ++ [IEval x], IEval x :: qd)), (IEval x).
      split; [destruct (item_in (IEval x) qd); reflexivity|]. split; [left; auto|]. destruct (item_in (IEval x) qd) eqn:I.
      + split; [apply grows_refl|right; apply item_in_In; exact I].
      + split; [apply grows_add; apply (good_eval x d); auto|right; left; reflexivity].
    - destruct (at_is_synthesized d) eqn:Sy; cbn [andb].
      + destruct (Hvertices x Ix) as [K|K]; [contradiction|]. destruct (Hkids _ K) as (vs & C). rewrite C. cbn [bind].
        destruct (Hfind x d vs Ix K D Sy C) as (v & y & Iv & Iy & Qy).
        destruct (find_visit_exists vs 0 (snd x) v y Iv Iy Qy) as (k & F). rewrite F.
        exists (if item_in (IVisit (fst x) k) qd then (q, qd) else (q ++ [IVisit (fst x) k], qd)), (IVisit (fst x) k).
        split; [destruct (item_in (IVisit (fst x) k) qd); reflexivity|]. split; [right; split; [exact E|]; exists vs, k; auto|].
        assert (Gk : good (IVisit (fst x) k)).
        { split; [exact K|]. intros o k' Q. injection Q as <- <-. exists vs. split; [exact C|].
          destruct (find_visit_some vs 0 _ k F) as (_ & _ & _ & L & _). exact L. }
        destruct (item_in (IVisit (fst x) k) qd) eqn:I.
        * split; [apply grows_refl|right; apply item_in_In; exact I].
        * split; [apply grows_push; exact Gk|left; apply in_app_iff; right; left; reflexivity].
      + exists (if item_in (IEval x) qd then (q, qd) else (q ++ [IEval x], IEval x :: qd)), (IEval x).
        split; [destruct (item_in (IEval x) qd); reflexivity|]. split; [left; split; [right; intros d' D'; congruence|reflexivity]|].
        destruct (item_in (IEval x) qd) eqn:I.
        * split; [apply grows_refl|right; apply item_in_In; exact I].
        * split; [apply grows_add; apply (good_eval x d); auto|right; left; reflexivity].
  Qed.

  Lemma sched_attributes_defined : forall S l w b, (forall x, In x l -> In x (g_nodes g)) ->
    exists w' b', sched_attributes S w b l = Val (w', b') /\ grows w w' /\
      (b' = true -> b = true \/ exists x y, In x l /\ ~ In (IEval x) S /\ supplied x y /\ present w' y).
  Proof.
    intros S l. induction l as [|x l IH]; intros w b H; cbn [VisitModel.sched_attributes].
    - exists w, b. split; [reflexivity|]. split; [apply grows_refl|auto].
    - destruct (item_in (IEval x) S) eqn:I.
      + destruct (IH w b) as (w' & b' & E & G & X); [intros y Iy; apply H; right; exact Iy|]. exists w', b'. split; [exact E|]. split; [exact G|].
        intros Q. destruct (X Q) as [X'|(u & y & Iu & X')]; [auto|]. right. exists u, y. split; [right; exact Iu|exact X'].
      + destruct (sched_equation_defined w x) as (w1 & y & E1 & Sx & G1 & P1); [apply H; left; reflexivity|]. rewrite E1. cbn [bind].
        destruct (IH w1 true) as (w' & b' & E & G & X); [intros z Iz; apply H; right; exact Iz|]. exists w', b'. split; [exact E|].
        split; [exact (grows_trans _ _ _ G1 G)|]. intros _. right. exists x, y. split; [left; reflexivity|].
        split; [apply item_in_false; exact I|]. split; [exact Sx|]. exact (grows_present _ _ _ G P1).
  Qed.

  Lemma sched_previous_defined : forall S o vs l w b, In o kids -> child_visits o = Val vs -> (forall k, In k l -> k < length vs) ->
    exists w' b', sched_previous S o w b l = (w', b') /\ grows w w' /\
      (b' = true -> b = true \/ exists k, In k l /\ ~ In (IVisit o k) S /\ present w' (IVisit o k)).
  Proof.
    intros S o vs l. induction l as [|k l IH]; intros w b K C L; cbn [VisitModel.sched_previous].
    - exists w, b. split; [reflexivity|]. split; [apply grows_refl|auto].
    - destruct (item_in (IVisit o k) S) eqn:I.
      + destruct (IH w b K C) as (w' & b' & E & G & X); [intros j Ij; apply L; right; exact Ij|]. exists w', b'. split; [exact E|]. split; [exact G|].
        intros Q. destruct (X Q) as [X'|(j & Ij & X')]; [auto|]. right. exists j. split; [right; exact Ij|exact X'].
      + destruct w as [q qd].
        assert (G1 : grows (q, qd) (if item_in (IVisit o k) qd then (q, qd) else (q ++ [IVisit o k], IVisit o k :: qd)) /\
                     present (if item_in (IVisit o k) qd then (q, qd) else (q ++ [IVisit o k], IVisit o k :: qd)) (IVisit o k)).
        { destruct (item_in (IVisit o k) qd) eqn:J.
          - split; [apply grows_refl|right; apply item_in_In; exact J].
          - split; [apply grows_add|right; left; reflexivity]. split; [exact K|]. intros o' k' Q. injection Q as <- <-.
            exists vs. split; [exact C|apply L; left; reflexivity]. }
        destruct G1 as [G1 P1]. destruct (IH (if item_in (IVisit o k) qd then (q, qd) else (q ++ [IVisit o k], IVisit o k :: qd)) true K C)
          as (w' & b' & E & G & _); [intros j Ij; apply L; right; exact Ij|].
        exists w', b'. split; [exact E|]. split; [exact (grows_trans _ _ _ G1 G)|]. intros _. right. exists k. split; [left; reflexivity|].
        split; [apply item_in_false; exact I|]. exact (grows_present _ _ _ G P1).
  Qed.

  Lemma lookup_all_defined : forall o l, (forall y, In y l -> In (o, snd y) (g_nodes g)) ->
    lookup_all g o l = Val (map (fun y => (o, snd y)) l).
  Proof.
    intros o l. induction l as [|y l IH]; intros H; cbn [lookup_all map]; [reflexivity|].
    rewrite lookup_in by (apply H; left; reflexivity). rewrite IH by (intros z Iz; apply H; right; exact Iz). reflexivity.
  Qed.

  (** A scheduled child visit has delivered. *)
  Definition delivered (S : list item) : Prop := forall o k vs v y, In (IVisit o k) S -> child_visits o = Val vs ->
    nth_error vs k = Some v -> In y (v_outputs v) -> In (IEval (o, snd y)) S.
  Lemma supplier_missing : forall S x y, delivered S -> supplied x y -> ~ In (IEval x) S -> ~ In y S.
  Proof.
    intros S x y D [[_ ->]|(_ & vs & k & C & F & ->)] N I; [contradiction|].
    destruct (find_visit_some vs 0 _ k F) as (v & u & _ & L & Hv & Iu & Qu). rewrite Nat.sub_0_r in Hv.
    apply N. destruct x as [o b]. cbn [fst snd] in *. rewrite <- Qu. exact (D o k vs v u I C Hv Iu).
  Qed.

  Lemma sched_dependencies_defined : forall S w x, good x -> delivered S ->
    exists w' b, sched_dependencies S w x = Val (w', b) /\ grows w w' /\
      (b = true -> exists z, requires x z /\ present w' z /\ ~ In z S).
  Proof.
    intros S w x [Gx Vx] D. destruct x as [x|o k]; cbn [VisitModel.sched_dependencies requires].
    - destruct (sched_attributes_defined S (dependencies x) w false) as (w' & b & E & G & X).
      { intros u Iu. unfold GRget_node_dependencies in Iu. apply in_rev in Iu. apply filter_In in Iu. apply Iu. }
      exists w', b. split; [exact E|]. split; [exact G|]. intros Q. destruct (X Q) as [X'|(u & y & Iu & Nu & Su & Py)]; [discriminate|].
      exists y. split; [exists u; auto|]. split; [exact Py|]. exact (supplier_missing S u y D Su Nu).
    - cbn [VisitProof.good_item] in Gx. destruct (Vx o k eq_refl) as (vs & C & L). rewrite C. cbn [bind].
      destruct (nth_error vs k) as [v|] eqn:Hv; [|apply nth_error_None in Hv; lia].
      destruct (sched_previous_defined S o vs (seq 0 k) w false Gx C) as (w1 & b1 & E1 & G1 & X1); [intros j Ij; apply in_seq in Ij; lia|].
      rewrite E1. rewrite lookup_all_defined.
      2: { intros y Iy. apply (Hlookup o vs v y Gx C (nth_error_In _ _ Hv)). apply in_app_iff. auto. }
      cbn [bind].
      destruct (sched_attributes_defined S (map (fun y : ag_vertex => (o, snd y)) (v_inputs v)) w1 b1) as (w' & b & E & G & X).
      { intros u Iu. apply in_map_iff in Iu. destruct Iu as (y & <- & Iy). apply (Hlookup o vs v y Gx C (nth_error_In _ _ Hv)). apply in_app_iff. auto. }
      exists w', b. split; [exact E|]. split; [exact (grows_trans _ _ _ G1 G)|]. intros Q.
      destruct (X Q) as [X'|(u & y & Iu & Nu & Su & Py)].
      + destruct (X1 X') as [X2|(j & Ij & Nj & Pj)]; [discriminate|]. exists (IVisit o j). apply in_seq in Ij.
        split; [left; exists j; split; [lia|reflexivity]|]. split; [exact (grows_present _ _ _ G Pj)|exact Nj].
      + apply in_map_iff in Iu. destruct Iu as (u0 & Qu & Iu0). exists y. split; [right; exists vs, v, u0; rewrite Qu; auto|].
        split; [exact Py|]. exact (supplier_missing S u y D Su Nu).
  Qed.

  Lemma mark_scheduled_defined : forall S x, good x -> delivered S ->
    exists S', mark_scheduled S x = Val S' /\ delivered S' /\ In x S' /\ (forall z, In z S -> In z S').
  Proof.
    intros S x [Gx Vx] D. destruct x as [x|o k]; cbn [VisitModel.mark_scheduled].
    - exists (IEval x :: S). split; [reflexivity|]. split; [|split; [left; reflexivity|intros z I; right; exact I]].
      intros o k vs v y [Q|I] C Hv Iy; [discriminate|]. right. exact (D o k vs v y I C Hv Iy).
    - cbn [VisitProof.good_item] in Gx. destruct (Vx o k eq_refl) as (vs & C & L). rewrite C. cbn [bind].
      destruct (nth_error vs k) as [v|] eqn:Hv; [|apply nth_error_None in Hv; lia].
      rewrite lookup_all_defined.
      2: { intros y Iy. apply (Hlookup o vs v y Gx C (nth_error_In _ _ Hv)). apply in_app_iff. auto. }
      cbn [bind]. eexists. split; [reflexivity|]. split; [|split; [left; reflexivity|intros z I; right; apply in_app_iff; auto]].
      intros o' k' vs' v' y [Q|I] C' Hv' Iy.
      + injection Q as <- <-. rewrite C in C'. injection C' as <-. rewrite Hv in Hv'. injection Hv' as <-. right. apply in_app_iff. left.
        apply in_map. apply in_map_iff. exists y. auto.
      + right. apply in_app_iff. right. apply in_app_iff in I. destruct I as [I|I].
        * apply in_map_iff in I. destruct I as (z & Q & _). discriminate.
        * exact (D o' k' vs' v' y I C' Hv' Iy).
  Qed.

  Definition no_dummies (l : list entry) : Prop := forall e, In e l -> is_dummy e = false.
  Lemma append_defined : forall l e, no_dummies l -> append_entry l e = Val (l ++ [e]).
  Proof.
    intros l e N. unfold append_entry. destruct (rev l) as [|x r] eqn:R.
    - destruct l as [|y l]; [reflexivity|]. cbn [rev] in R. destruct (rev l); discriminate.
    - assert (I : In x l) by (apply in_rev; rewrite R; left; reflexivity). rewrite (N x I). reflexivity.
  Qed.
  Lemma add_visit_defined : forall l x, good x -> no_dummies l -> exists l', add_visit_sequence l x = Val l' /\ no_dummies l'.
  Proof.
    intros l x [Gx Vx] N. unfold VisitModel.add_visit_sequence. destruct x as [x|o k].
    - cbn [VisitModel.make_entry]. destruct Gx as [Ix _]. destruct (Hattr x Ix) as (d & ->). cbn [bind].
      destruct (negb _ && _); [eauto|]. rewrite append_defined by exact N. eexists. split; [reflexivity|].
      intros e I. apply in_app_iff in I. destruct I as [I|[<-|[]]]; [auto|reflexivity].
    - cbn [VisitProof.good_item] in Gx. destruct (Vx o k eq_refl) as (vs & C & L). destruct (Hentry o k vs Gx C L) as (e & E & De). rewrite E. cbn [bind].
      rewrite append_defined by exact N. eexists. split; [reflexivity|].
      intros e' I. apply in_app_iff in I. destruct I as [I|[<-|[]]]; [auto|exact De].
  Qed.

  (** ** The loop *)

  Record state_right (S : list item) (w : waiting) (l : list entry) : Prop := {
    sr_good : forall x, In x (fst w) -> good x;
    sr_queued : forall x, In x (snd w) -> In x (fst w) \/ In x S;
    sr_delivered : delivered S;
    sr_entries : no_dummies l }.

  (** One round. *)
  Lemma round_right : forall S q qd l x q1, state_right S (q, qd) l -> drop_scheduled S q = x :: q1 ->
    good x /\ ~ In x S /\ exists q2 qd2 b, sched_dependencies S (q1, qd) x = Val ((q2, qd2), b) /\
      (exists more, q2 = q1 ++ more) /\
      if b then state_right S (q2 ++ [x], qd2) l /\ exists z, requires x z /\ In z (q2 ++ [x]) /\ ~ In z S
      else exists S' l', mark_scheduled S x = Val S' /\ add_visit_sequence l x = Val l' /\ state_right S' (q2, qd2) l' /\
             In x S' /\ forall z, In z S -> In z S'.
  Proof.
    intros S q qd l x q1 [H1 H2 H3 H4] Dr. cbn [fst snd] in *. destruct (drop_scheduled_right S q) as (dropped & Q & Hd & Nx). rewrite Dr in *.
    specialize (Nx x q1 eq_refl).
    assert (Gx : good x) by (apply H1; rewrite Q; apply in_app_iff; right; left; reflexivity).
    split; [exact Gx|]. split; [exact Nx|].
    destruct (sched_dependencies_defined S (q1, qd) x Gx H3) as ([q2 qd2] & b & E & ((more & Q2 & G2) & Qd & Mono) & X). cbn [fst snd] in *.
    exists q2, qd2, b. split; [exact E|]. split; [exists more; exact Q2|].
    assert (G' : forall z, In z q2 -> good z).
    { intros z I. rewrite Q2 in I. apply in_app_iff in I. destruct I as [I|I]; [|auto]. apply H1. rewrite Q. apply in_app_iff. right. right. exact I. }
    assert (W : forall z, In z qd2 -> In z q2 \/ z = x \/ In z S).
    { intros z I. destruct (Qd z I) as [I'|I']; [|auto]. destruct (H2 z I') as [J|J]; [|auto]. rewrite Q in J. apply in_app_iff in J.
      destruct J as [J|[J|J]]; [auto|auto|]. left. rewrite Q2. apply in_app_iff. auto. }
    destruct b.
    - split.
      + split; cbn [fst snd]; auto.
        * intros z I. apply in_app_iff in I. destruct I as [I|[<-|[]]]; auto.
        * intros z I. destruct (W z I) as [I'|[->|I']]; [left; apply in_app_iff; auto|left; apply in_app_iff; right; left; reflexivity|auto].
      + destruct (X eq_refl) as (z & Rz & Pz & Nz). exists z. split; [exact Rz|]. split; [|exact Nz].
        destruct Pz as [I|I]; cbn [fst snd] in I; [apply in_app_iff; auto|]. destruct (W z I) as [I'|[->|I']]; [apply in_app_iff; auto| |contradiction].
        apply in_app_iff. right. left. reflexivity.
    - destruct (mark_scheduled_defined S x Gx H3) as (S' & E' & D' & Ix & M'). destruct (add_visit_defined l x Gx H4) as (l' & El & N').
      exists S', l'. split; [exact E'|]. split; [exact El|]. split; [|auto]. split; cbn [fst snd]; auto.
      intros z I. destruct (W z I) as [I'|[->|I']]; auto.
  Qed.

  (** Nothing undefined happens. *)
  Theorem loop_defined : forall iter S w l, state_right S w l ->
    (exists r, visit_loop iter S w l = Val r /\ delivered (fst r)) \/ visit_loop iter S w l = Exited.
  Proof.
    intros iter. induction iter as [|iter IH]; intros S [q qd] l St; cbn [VisitModel.visit_loop].
    - destruct (drop_scheduled S q); [left; eexists; split; [reflexivity|]|right; reflexivity]. destruct St as [_ _ D _]. exact D.
    - destruct (drop_scheduled S q) as [|x q1] eqn:Dr; [left; eexists; split; [reflexivity|]; destruct St as [_ _ D _]; exact D|].
      destruct (round_right S q qd l x q1 St Dr) as (_ & _ & q2 & qd2 & b & E & _ & X). rewrite E. cbn [bind]. destruct b.
      + destruct X as [St' _]. exact (IH S (q2 ++ [x], qd2) l St').
      + destruct X as (S' & l' & E1 & E2 & St' & _). rewrite E1. cbn [bind]. rewrite E2. cbn [bind]. exact (IH S' (q2, qd2) l' St').
  Qed.

  Lemma all_child_visits_defined : forall l k, k + length l = length (nd_children n) ->
    exists r, all_child_visits nodes sets vt i k l = Val r /\ forall x, In x r -> good x.
  Proof.
    intros l. induction l as [|c l IH]; intros k L; cbn [all_child_visits]; [exists []; split; [reflexivity|intros x []]|].
    assert (K : In (OChild i k) kids) by (unfold VisitProof.kids; apply in_map; apply in_seq; cbn [length] in L; lia).
    destruct (Hkids _ K) as (vs & C). rewrite C. cbn [bind]. destruct (IH (Datatypes.S k)) as (r & E & G); [cbn [length] in L; lia|].
    rewrite E. cbn [bind]. eexists. split; [reflexivity|]. intros x I. apply in_app_iff in I. destruct I as [I|I]; [|auto].
    apply in_map_iff in I. destruct I as (j & <- & Ij). apply in_seq in Ij. split; [exact K|]. intros o k' Q. injection Q as <- <-.
    exists vs. split; [exact C|lia].
  Qed.

  Definition proper_visit (v : visit) : Prop := forall x, In x (v_outputs v) -> fst x = node /\ In x (g_nodes g).
  Lemma generate_visit_start : forall S v last, proper_visit v -> delivered S ->
    exists queue, (forall max, generate_visit nodes sets attrs literals vt g node max i n S v last =
                     visit_loop max (map IEval (v_inputs v) ++ S) (queue, queue) []) /\
      state_right (map IEval (v_inputs v) ++ S) (queue, queue) [].
  Proof.
    intros S v last Pv D.
    assert (X : exists more, (if last then all_child_visits nodes sets vt i 0 (nd_children n) else Val []) = Val more /\ forall x, In x more -> good x).
    { destruct last; [apply all_child_visits_defined; reflexivity|]. exists []. split; [reflexivity|intros x []]. }
    destruct X as (more & E & G). exists (map IEval (v_outputs v) ++ more). split.
    - intros max. unfold generate_visit. rewrite E. reflexivity.
    - split; cbn [fst snd].
      + intros x I. apply in_app_iff in I. destruct I as [I|I]; [|auto]. apply in_map_iff in I. destruct I as (y & <- & Iy).
        destruct (Pv y Iy) as [Oy Gy]. split; [|intros o k Q; discriminate]. split; auto.
      + auto.
      + intros o k vs w y I C Hw Iy. apply in_app_iff in I. destruct I as [I|I].
        * apply in_map_iff in I. destruct I as (z & Q & _). discriminate.
        * apply in_app_iff. right. exact (D o k vs w y I C Hw Iy).
      + intros e [].
  Qed.

  Theorem sequences_defined : forall max vs S, (forall v, In v vs -> proper_visit v) -> delivered S ->
    (exists res, generate_sequences nodes sets attrs literals vt g node max i n S vs = Val res) \/
    generate_sequences nodes sets attrs literals vt g node max i n S vs = Exited.
  Proof.
    intros max vs. induction vs as [|v vs IH]; intros S Pv D; cbn [generate_sequences]; [left; eauto|].
    destruct (generate_visit_start S v (match vs with [] => true | _ => false end)) as (queue & E & St); [apply Pv; left; reflexivity|exact D|].
    rewrite E. destruct (loop_defined max _ _ _ St) as [(r & Er & Dr)| ->]; [|right; reflexivity]. rewrite Er. cbn [bind].
    destruct (IH (fst r)) as [(rest & ->)| ->]; [intros w I; apply Pv; right; exact I|exact Dr|left; cbn [bind]; eauto|right; reflexivity].
  Qed.

  Lemma loop_more : forall iter S w l r, visit_loop iter S w l = Val r -> forall iter', iter <= iter' -> visit_loop iter' S w l = Val r.
  Proof.
    intros iter. induction iter as [|iter IH]; intros S [q qd] l r H iter' L; cbn [VisitModel.visit_loop] in H;
      destruct (drop_scheduled S q) as [|x q1] eqn:Dr.
    - destruct iter'; cbn [VisitModel.visit_loop]; rewrite Dr; exact H.
    - discriminate.
    - destruct iter'; cbn [VisitModel.visit_loop]; rewrite Dr; exact H.
    - destruct iter' as [|iter']; [lia|]. cbn [VisitModel.visit_loop]. rewrite Dr.
      destruct (sched_dependencies S (q1, qd) x) as [[[q2 qd2] b]| | | |]; try discriminate. cbn [bind] in *. destruct b.
      + apply (IH _ _ _ _ H). lia.
      + destruct (mark_scheduled S x) as [S'| | | |]; try discriminate. cbn [bind] in *.
        destruct (add_visit_sequence l x) as [l'| | | |]; try discriminate. cbn [bind] in *. apply (IH _ _ _ _ H). lia.
  Qed.

  (** With an order, it ends. *)
  Variable rank : item -> nat.
  Hypothesis Hrank : forall x y, good x -> requires x y -> rank y < rank x.

  Definition universe : list item := map IEval (g_nodes g) ++
    flat_map (fun o => match child_visits o with Val vs => map (IVisit o) (seq 0 (length vs)) | _ => [] end) kids.
  Lemma good_universe : forall x, good x -> In x universe.
  Proof.
    intros [x|o k] [Gx Vx]; unfold universe; apply in_app_iff.
    - left. apply in_map. apply Gx.
    - right. cbn [VisitProof.good_item] in Gx. destruct (Vx o k eq_refl) as (vs & C & L). apply in_flat_map. exists o. split; [exact Gx|]. rewrite C.
      apply in_map. apply in_seq. lia.
  Qed.
  Definition missing (S : list item) : nat := length (filter (fun x => negb (item_in x S)) universe).
  Lemma missing_less : forall S S' x, In x universe -> ~ In x S -> In x S' -> (forall z, In z S -> In z S') -> missing S' < missing S.
  Proof.
    intros S S' x. unfold missing. induction universe as [|y l IH]; intros I N I' M; [destruct I|]. cbn [filter].
    assert (Le : forall l, length (filter (fun x => negb (item_in x S')) l) <= length (filter (fun x => negb (item_in x S)) l)).
    { clear -M. intros l. induction l as [|z l IH]; cbn [filter length]; [lia|]. destruct (item_in z S) eqn:E.
      - apply item_in_In, M, item_in_In in E. rewrite E. cbn [negb]. exact IH.
      - cbn [negb]. destruct (item_in z S'); cbn [negb length]; lia. }
    destruct I as [->|I].
    - apply item_in_false in N. rewrite N. apply item_in_In in I'. rewrite I'. cbn [negb length]. specialize (Le l). lia.
    - specialize (IH I N I' M). destruct (item_in y S) eqn:E.
      + apply item_in_In, M, item_in_In in E. rewrite E. cbn [negb]. exact IH.
      + cbn [negb]. destruct (item_in y S'); cbn [negb length]; lia.
  Qed.

  Lemma drop_position : forall S q pos y, nth_error q pos = Some y -> ~ In y S ->
    exists x q1 pos', drop_scheduled S q = x :: q1 /\ pos' <= pos /\ nth_error (x :: q1) pos' = Some y.
  Proof.
    intros S q. induction q as [|x q IH]; intros pos y H N; [destruct pos; discriminate|]. cbn [drop_scheduled]. destruct (item_in x S) eqn:E.
    - destruct pos as [|pos]; cbn [nth_error] in H.
      + injection H as ->. apply item_in_In in E. contradiction.
      + destruct (IH pos y H N) as (x' & q1 & pos' & D & L & Hy). exists x', q1, pos'. split; [exact D|]. split; [lia|exact Hy].
    - exists x, q, pos. auto.
  Qed.

  Theorem loop_complete : forall N S w l, missing S <= N -> state_right S w l ->
    exists m, forall iter, m <= iter -> exists r, visit_loop iter S w l = Val r /\ delivered (fst r).
  Proof.
    intros N. induction N as [N IHN] using lt_wf_ind.
    assert (Inner : forall r pos S q qd l y, missing S <= N -> state_right S (q, qd) l -> nth_error q pos = Some y -> ~ In y S -> rank y < r ->
              exists m, forall iter, m <= iter -> exists z, visit_loop iter S (q, qd) l = Val z /\ delivered (fst z)).
    { intros r. induction r as [|r IHr]; intros pos; [intros; lia|].
      induction pos as [pos IHpos] using lt_wf_ind. intros S q qd l y Le St Hy Ny Ry.
      destruct (drop_position S q pos y Hy Ny) as (x & q1 & pos' & Dr & Lp & Hy').
      destruct (round_right S q qd l x q1 St Dr) as (Gx & Nx & q2 & qd2 & b & E & (more & Q2) & X).
      assert (Next : exists m, forall iter, m <= iter -> exists z, visit_loop (Datatypes.S iter) S (q, qd) l = Val z /\ delivered (fst z)).
      2: { destruct Next as (m & Hm). exists (1 + m). intros [|iter] L; [lia|]. apply Hm. lia. }
      destruct b.
      - destruct X as [St' (z & Rz & Iz & Nz)].
        assert (Y : exists m, forall iter, m <= iter -> exists z, visit_loop iter S (q2 ++ [x], qd2) l = Val z /\ delivered (fst z)).
        { destruct pos' as [|pos'].
          - cbn [nth_error] in Hy'. injection Hy' as <-. apply In_nth_error in Iz. destruct Iz as (pz & Hz).
            apply (IHr pz S (q2 ++ [x]) qd2 l z Le St' Hz Nz). specialize (Hrank x z Gx Rz). lia.
          - apply (IHpos pos') with (y := y); [lia|exact Le|exact St'| |exact Ny|exact Ry].
            cbn [nth_error] in Hy'. rewrite Q2, <- app_assoc. rewrite nth_error_app1; [exact Hy'|]. apply nth_error_Some. congruence. }
        destruct Y as (m & Hm). exists m. intros iter L. destruct (Hm iter L) as (z' & Ez & Dz). exists z'. split; [|exact Dz].
        cbn [VisitModel.visit_loop]. rewrite Dr, E. cbn [bind]. exact Ez.
      - destruct X as (S' & l' & E1 & E2 & St' & Ix & Mono).
        assert (Lm := missing_less S S' x (good_universe x Gx) Nx Ix Mono).
        destruct (IHN (missing S')) with (S := S') (w := (q2, qd2)) (l := l') as (m & Hm); [lia|lia|exact St'|].
        exists m. intros iter L. destruct (Hm iter L) as (z' & Ez & Dz). exists z'. split; [|exact Dz].
        cbn [VisitModel.visit_loop]. rewrite Dr, E. cbn [bind]. rewrite E1. cbn [bind]. rewrite E2. cbn [bind]. exact Ez. }
    intros S [q qd] l Le St. destruct (drop_scheduled S q) as [|y q1] eqn:Dr.
    - exists 0. intros iter _. exists (S, l). destruct St as [_ _ D _]. split; [|exact D].
      destruct iter; cbn [VisitModel.visit_loop]; rewrite Dr; reflexivity.
    - destruct (drop_scheduled_right S q) as (dropped & Q & _ & Ny). specialize (Ny y q1 Dr). rewrite Dr in Q.
      apply (Inner (1 + rank y) (length dropped) S q qd l y); [exact Le|exact St| |exact Ny|lia].
      rewrite Q, nth_error_app2 by lia. rewrite Nat.sub_diag. reflexivity.
  Qed.

  Theorem sequences_complete : forall vs S, (forall v, In v vs -> proper_visit v) -> delivered S ->
    exists m, forall max, m <= max -> exists res, generate_sequences nodes sets attrs literals vt g node max i n S vs = Val res.
  Proof.
    intros vs. induction vs as [|v vs IH]; intros S Pv D; cbn [generate_sequences]; [exists 0; intros max _; eauto|].
    destruct (generate_visit_start S v (match vs with [] => true | _ => false end)) as (queue & E & St); [apply Pv; left; reflexivity|exact D|].
    destruct (loop_complete _ _ _ _ (le_n _) St) as (m1 & H1). destruct (H1 m1 (le_n _)) as (r & Er & Dr).
    destruct (IH (fst r)) as (m2 & H2); [intros w I; apply Pv; right; exact I|exact Dr|].
    exists (m1 + m2). intros max L. rewrite E. rewrite (loop_more _ _ _ _ _ Er max) by lia. cbn [bind].
    destruct (H2 max) as (rest & ->); [lia|]. cbn [bind]. eauto.
  Qed.
End Node.
