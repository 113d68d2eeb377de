(** The loop that makes visit sequences (C34). *)

From Coq Require Import List Ascii Bool Arith Lia.
From Verif Require Import Sched.GraphModel Sched.GraphSpec Sched.GraphProof Sched.ScheduleModel Sched.PartitionModel Sched.PartitionGrammar
  Sched.VisitModel Sched.VisitSpec.
From Verif Require Import Base.Outcome Palm.StrModel Front.Syntax Front.NodesetTableModel Front.PropagateModel Front.ProductRulesModel.
Import ListNotations.
Local Open Scope outcome_scope.

Definition action_of (e : entry) : action occurrence aptr :=
  match e with EEval x => Evaluate x | EVisit o k _ => Visit o k end.
Definition of_item (x : item) : action occurrence aptr :=
  match x with IEval x => Evaluate x | IVisit o k => Visit o k end.

Lemma item_eqb_eq : forall x y, item_eqb x y = true <-> x = y.
Proof.
  intros [x|o k] [y|o' k']; cbn [item_eqb]; try (split; discriminate).
  - unfold veq. destruct x as [o a], y as [o' a']. cbn [fst snd].
    destruct (occurrence_dec o o') as [->|N]; [|split; [discriminate|congruence]].
    destruct (aptr_dec a a') as [->|N]; [tauto|split; [discriminate|congruence]].
  - rewrite andb_true_iff, Nat.eqb_eq. destruct (occurrence_dec o o') as [->|N]; split.
    + intros [_ ->]. reflexivity.
    + intros Q. injection Q as <-. auto.
    + intros [Q _]. discriminate.
    + intros Q. congruence.
Qed.
Lemma item_in_In : forall x l, item_in x l = true <-> In x l.
Proof.
  intros x l. unfold item_in. rewrite existsb_exists. split.
  - intros (y & I & Q). apply item_eqb_eq in Q. subst y. exact I.
  - intros I. exists x. split; [exact I|]. apply item_eqb_eq. reflexivity.
Qed.
Lemma item_in_false : forall x l, item_in x l = false <-> ~ In x l.
Proof. intros x l. rewrite <- item_in_In. destruct (item_in x l); split; congruence. Qed.

Lemma nth_error_firstn_lt : forall {X} (l : list X) m j, j < m -> nth_error (firstn m l) j = nth_error l j.
Proof.
  intros X l m. revert l. induction m as [|m IH]; intros l j L; [lia|]. destruct l as [|x l]; [destruct j; reflexivity|].
  destruct j as [|j]; [reflexivity|]. cbn [firstn nth_error]. apply IH. lia.
Qed.

Section Node.
  Variable nodes : list inode.
  Variable sets : list inodeset.
  Variable attrs : pra.
  Variable literals : list literal.
  Variable vt : visits_table.
  Variable g : ag_graph.
  Variable i : nat.
  Variable n : inode.
  Notation node := (OType (TNode i)).

  Notation child_visits := (child_visits nodes sets vt).
  Notation sched_equation_dependency := (sched_equation_dependency nodes sets attrs vt node).
  Notation sched_attributes := (sched_attributes nodes sets attrs vt node).
  Notation sched_dependencies := (sched_dependencies nodes sets attrs vt g node).
  Notation mark_scheduled := (mark_scheduled nodes sets vt g).
  Notation make_entry := (make_entry nodes sets attrs literals vt node).
  Notation add_visit_sequence := (add_visit_sequence nodes sets attrs literals vt node).
  Notation visit_loop := (visit_loop nodes sets attrs literals vt g node).

  (** The visits of an occurrence. *)
  Definition visits_at (o : occurrence) : list (list aptr * list aptr) :=
    match child_visits o with Val vs => map attributes_only vs | _ => [] end.
  Definition kids : list occurrence := map (OChild i) (seq 0 (length (nd_children n))).

  (** Children are of known types, and a nodeset with visits has members. *)
  Hypothesis Hn : nth_error nodes i = Some n.
  Hypothesis Hmembers : forall j vs l, visits_of vt (TSet j) = Some vs -> nth_error literals j = Some l -> l <> LNull.
  (** The vertices of the graph are attributes of the node and its children. *)
  Hypothesis Hvertices : forall x, In x (g_nodes g) -> fst x = node \/ In (fst x) kids.

  Notation dependencies := (GRget_node_dependencies occurrence_dec aptr_dec g).

  (** Items that may be in the queue. *)
  Definition good_item (x : item) : Prop :=
    match x with
    | IEval x => In x (g_nodes g) /\
        (fst x = node \/ forall d, attribute_at attrs (snd x) = Some d -> at_is_synthesized d = false)
    | IVisit o k => In o kids
    end.

  Definition avail (inputs : list ag_vertex) (done : list (action occurrence aptr)) (x : ag_vertex) : Prop :=
    In x inputs \/ In (Evaluate x) done \/
    exists j v, In (Visit (fst x) j) done /\ nth_error (visits_at (fst x)) j = Some v /\ In (snd x) (snd v).

  Lemma avail_app : forall inputs done a x, avail inputs (done ++ [a]) x <->
    avail inputs done x \/ a = Evaluate x \/
    (exists j v, a = Visit (fst x) j /\ nth_error (visits_at (fst x)) j = Some v /\ In (snd x) (snd v)).
  Proof.
    intros inputs done a x. unfold avail. split.
    - intros [H|[H|(j & v & H & Hj & Hb)]]; [auto| |].
      + apply in_app_iff in H. destruct H as [H|[H|[]]]; auto.
      + apply in_app_iff in H. destruct H as [H|[H|[]]]; [left; right; right; exists j, v; auto|].
        right. right. exists j, v. auto.
    - intros [[H|[H|(j & v & H & Hj & Hb)]]|[->|(j & v & -> & Hj & Hb)]]; [auto| | | |].
      + right. left. apply in_app_iff. auto.
      + right. right. exists j, v. split; [apply in_app_iff; auto|auto].
      + right. left. apply in_app_iff. right. left. reflexivity.
      + right. right. exists j, v. split; [apply in_app_iff; right; left; reflexivity|auto].
  Qed.

  (** Scheduled means available, or visited. *)
  Definition agrees (S : list item) (inputs : list ag_vertex) (done : list (action occurrence aptr)) : Prop :=
    (forall x, In (IEval x) S <-> avail inputs done x) /\
    (forall o k, In (IVisit o k) S <-> In (Visit o k) done).

  (** The condition under which an action may be next. *)
  Definition allowed (inputs : list ag_vertex) (done : list (action occurrence aptr)) (a : action occurrence aptr) : Prop :=
    match a with
    | Evaluate x => In x (g_nodes g) /\ (forall y, In y (dependencies x) -> avail inputs done y) /\ ~ avail inputs done x
    | Visit o k => In o kids /\ (forall j, j < k -> In (Visit o j) done) /\ ~ In (Visit o k) done /\
        exists v, nth_error (visits_at o) k = Some v /\ forall b, In b (fst v) -> avail inputs done (o, b)
    end.

  Lemma child_visits_at : forall o vs, child_visits o = Val vs -> visits_at o = map attributes_only vs.
  Proof. intros o vs H. unfold visits_at. rewrite H. reflexivity. Qed.

  Lemma sched_equation_grows : forall w x w', sched_equation_dependency w x = Val w' ->
    In x (g_nodes g) ->
    exists more, fst w' = fst w ++ more /\ forall y, In y more -> good_item y.
  Proof.
    intros [queue queued] x w' H K. unfold VisitModel.sched_equation_dependency in H.
    destruct (attribute_at attrs (snd x)) as [d|] eqn:D; [|discriminate].
    destruct (occurrence_dec (fst x) node) as [E|E]; cbn [negb andb] in H.
    - injection H as <-. destruct (item_in (IEval x) queued); [exists []; cbn; split; [rewrite app_nil_r; reflexivity|intros y []]|].
      exists [IEval x]. split; [reflexivity|]. intros y [<-|[]]. split; auto.
    - destruct (at_is_synthesized d) eqn:Sy.
      + destruct (child_visits (fst x)) as [vs| | | |] eqn:C; try discriminate. cbn [bind] in H.
        destruct (find_visit vs 0 (snd x)) as [k|]; [|discriminate]. injection H as <-.
        destruct (item_in _ queued); [exists []; cbn; split; [rewrite app_nil_r; reflexivity|intros y []]|].
        exists [IVisit (fst x) k]. split; [reflexivity|]. intros y [<-|[]]. cbn. destruct (Hvertices x K); [contradiction|assumption].
      + injection H as <-. destruct (item_in (IEval x) queued); [exists []; cbn; split; [rewrite app_nil_r; reflexivity|intros y []]|].
        exists [IEval x]. split; [reflexivity|]. intros y [<-|[]]. split; [exact K|]. right. intros d' D'. congruence.
  Qed.

  Lemma sched_attributes_grows : forall S l w b w' b', sched_attributes S w b l = Val (w', b') ->
    (forall x, In x l -> In x (g_nodes g)) ->
    (exists more, fst w' = fst w ++ more /\ forall y, In y more -> good_item y) /\
    (b' = false -> b = false /\ forall x, In x l -> In (IEval x) S).
  Proof.
    intros S l. induction l as [|x l IH]; intros w b w' b' H K; cbn [VisitModel.sched_attributes] in H.
    - injection H as <- <-. split; [exists []; rewrite app_nil_r; split; [reflexivity|intros y []]|]. intros ->. split; [reflexivity|intros x []].
    - destruct (item_in (IEval x) S) eqn:I.
      + destruct (IH w b w' b' H) as [M F]; [intros y Iy; apply K; right; exact Iy|]. split; [exact M|].
        intros Q. destruct (F Q) as [F1 F2]. split; [exact F1|]. intros y [<-|Iy]; [apply item_in_In; exact I|auto].
      + destruct (sched_equation_dependency w x) as [w1| | | |] eqn:E; try discriminate. cbn [bind] in H.
        destruct (sched_equation_grows w x w1 E) as (m1 & Q1 & G1); [apply K; left; reflexivity|].
        destruct (IH w1 true w' b' H) as [(m2 & Q2 & G2) F]; [intros y Iy; apply K; right; exact Iy|]. split.
        * exists (m1 ++ m2). rewrite Q2, Q1, app_assoc. split; [reflexivity|]. intros y Iy. apply in_app_iff in Iy. destruct Iy; auto.
        * intros Q. destruct (F Q) as [F1 _]. discriminate.
  Qed.

  Lemma sched_previous_grows : forall S o l w b w' b', sched_previous S o w b l = (w', b') -> In o kids ->
    (exists more, fst w' = fst w ++ more /\ forall y, In y more -> good_item y) /\
    (b' = false -> b = false /\ forall k, In k l -> In (IVisit o k) S).
  Proof.
    intros S o l. induction l as [|k l IH]; intros w b w' b' H K; cbn [sched_previous] in H.
    - injection H as <- <-. split; [exists []; rewrite app_nil_r; split; [reflexivity|intros y []]|]. intros ->. split; [reflexivity|intros x []].
    - destruct (item_in (IVisit o k) S) eqn:I.
      + destruct (IH w b w' b' H K) as [M F]. split; [exact M|].
        intros Q. destruct (F Q) as [F1 F2]. split; [exact F1|]. intros y [<-|Iy]; [apply item_in_In; exact I|auto].
      + destruct w as [queue queued]. destruct (IH _ true w' b' H K) as [(m2 & Q2 & G2) F]. split.
        * destruct (item_in (IVisit o k) queued); [exists m2; auto|]. cbn [fst] in Q2. exists (IVisit o k :: m2). cbn [fst]. rewrite Q2.
          rewrite <- app_assoc. split; [reflexivity|]. intros y [<-|Iy]; [exact K|auto].
        * intros Q. destruct (F Q) as [F1 _]. discriminate.
  Qed.

  Lemma lookup_all_map : forall o l r, lookup_all g o l = Val r ->
    r = map (fun x => (o, snd x)) l /\ forall x, In x r -> In x (g_nodes g).
  Proof.
    intros o l. induction l as [|x l IH]; intros r H; cbn [lookup_all] in H; [injection H as <-; split; [reflexivity|intros x []]|].
    unfold GRlookup_node in H. destruct (existsb (veq occurrence_dec aptr_dec (o, snd x)) (g_nodes g)) eqn:Ex; [|discriminate].
    destruct (lookup_all g o l) as [r'| | | |]; try discriminate. cbn [bind] in H. injection H as <-. cbn [map].
    destruct (IH r' eq_refl) as [<- I]. split; [reflexivity|]. intros y [<-|Iy]; [|auto].
    apply existsb_exists in Ex. destruct Ex as (z & Iz & Qz). apply (item_eqb_eq (IEval _) (IEval _)) in Qz. injection Qz as ->. exact Iz.
  Qed.

  Lemma dependencies_in : forall x y, In y (dependencies x) -> In y (g_nodes g).
  Proof. intros x y I. unfold GRget_node_dependencies in I. apply in_rev in I. apply filter_In in I. apply I. Qed.

  (** If nothing is missing, the action is allowed. *)
  Lemma sched_dependencies_right : forall S w x w' b inputs done, sched_dependencies S w x = Val (w', b) ->
    good_item x -> agrees S inputs done -> ~ In x S ->
    (exists more, fst w' = fst w ++ more /\ forall y, In y more -> good_item y) /\
    (b = false -> allowed inputs done (of_item x)).
  Proof.
    intros S w x w' b inputs done H Gx [A1 A2] Nx. destruct x as [x|o k]; cbn [VisitModel.sched_dependencies] in H.
    - destruct (sched_attributes_grows S _ w false w' b H) as [M F].
      { intros y Iy. exact (dependencies_in x y Iy). }
      split; [exact M|]. intros Q. destruct (F Q) as [_ F2]. cbn [of_item allowed]. split; [apply Gx|]. split.
      + intros y Iy. apply A1, F2, Iy.
      + rewrite <- A1. exact Nx.
    - destruct (child_visits o) as [vs| | | |] eqn:C; try discriminate. cbn [bind] in H.
      destruct (nth_error vs k) as [v|] eqn:V; [|discriminate].
      destruct (sched_previous S o w false (seq 0 k)) as [w1 b1] eqn:P.
      destruct (lookup_all g o (v_inputs v)) as [ins| | | |] eqn:L; try discriminate. cbn [bind] in H.
      apply lookup_all_map in L. destruct L as [L Lg].
      destruct (sched_previous_grows S o (seq 0 k) w false w1 b1 P Gx) as [(m1 & Q1 & G1) F1].
      destruct (sched_attributes_grows S _ w1 b1 w' b H) as [(m2 & Q2 & G2) F2].
      { exact Lg. }
      split.
      + exists (m1 ++ m2). rewrite Q2, Q1, app_assoc. split; [reflexivity|]. intros y Iy. apply in_app_iff in Iy. destruct Iy; auto.
      + intros Q. destruct (F2 Q) as [Q' F2']. destruct (F1 Q') as [_ F1']. cbn [of_item allowed]. split; [exact Gx|]. split; [|split].
        * intros j Lj. apply A2, F1'. apply in_seq. lia.
        * rewrite <- A2. exact Nx.
        * exists (attributes_only v). split.
          -- rewrite (child_visits_at o vs C). rewrite nth_error_map, V. reflexivity.
          -- intros c Ic. cbn [attributes_only fst] in Ic. apply A1, F2'. rewrite L. apply in_map_iff in Ic. destruct Ic as (z & <- & Iz).
             apply in_map_iff. exists z. auto.
  Qed.

  Lemma mark_scheduled_right : forall S x S' inputs done, mark_scheduled S x = Val S' -> agrees S inputs done ->
    agrees S' inputs (done ++ [of_item x]).
  Proof.
    intros S x S' inputs done H [A1 A2]. destruct x as [x|o k]; cbn [VisitModel.mark_scheduled of_item] in *.
    - injection H as <-. split.
      + intros y. rewrite avail_app. cbn [In]. rewrite A1. split.
        * intros [Q|Q]; [right; left; congruence|auto].
        * intros [Q|[Q|(j & v & Q & _)]]; [auto|left; congruence|discriminate].
      + intros o k. cbn [In]. rewrite A2, in_app_iff. cbn [In]. split; [intros [Q|Q]; [discriminate|auto]|]. intros [Q|[Q|[]]]; [auto|discriminate].
    - destruct (child_visits o) as [vs| | | |] eqn:C; try discriminate. cbn [bind] in H.
      destruct (nth_error vs k) as [v|] eqn:V; [|discriminate].
      destruct (lookup_all g o (v_outputs v)) as [outs| | | |] eqn:L; try discriminate. cbn [bind] in H. injection H as <-.
      apply lookup_all_map in L. destruct L as [-> _]. assert (Va := child_visits_at o vs C). split.
      + intros y. rewrite avail_app. cbn [In]. rewrite in_app_iff, A1. split.
        * intros [Q|[Q|Q]]; [discriminate| |auto]. apply in_map_iff in Q. destruct Q as (z & Q & Iz). injection Q as <-.
          apply in_map_iff in Iz. destruct Iz as (u & <- & Iu). right. right. exists k, (attributes_only v). cbn [fst snd].
          split; [reflexivity|]. rewrite Va, nth_error_map, V. split; [reflexivity|]. cbn [attributes_only snd]. apply in_map_iff. exists u. auto.
        * intros [Q|[Q|(j & v' & Q & Hj & Hb)]]; [auto|discriminate|]. injection Q as Qo Qk. subst o j.
          rewrite Va, nth_error_map, V in Hj. injection Hj as <-. cbn [attributes_only snd] in Hb. apply in_map_iff in Hb. destruct Hb as (u & Qu & Iu).
          right. left. apply in_map_iff. exists y. split; [reflexivity|]. apply in_map_iff. exists u. split; [|exact Iu].
          destruct y as [yo ya]. cbn [fst snd] in *. subst ya. reflexivity.
      + intros o' k'. cbn [In]. rewrite in_app_iff, A2, in_app_iff. cbn [In]. split.
        * intros [Q|[Q|Q]]; [right; left; congruence| |auto]. apply in_map_iff in Q. destruct Q as (z & Q & _). discriminate.
        * intros [Q|[Q|[]]]; [auto|left; congruence].
  Qed.

  Lemma add_visit_sequence_right : forall l x l', add_visit_sequence l x = Val l' -> good_item x ->
    (forall o k, x = IVisit o k -> exists vs, child_visits o = Val vs) ->
    map action_of l' = map action_of l ++ [of_item x].
  Proof.
    intros l x l' H Gx Cx. unfold VisitModel.add_visit_sequence in H.
    destruct (make_entry x) as [e| | | |] eqn:E; try discriminate. cbn [bind] in H.
    assert (X : exists e', e = Some e' /\ action_of e' = of_item x).
    { destruct x as [x|o k]; cbn [VisitModel.make_entry of_item] in *.
      - destruct (attribute_at attrs (snd x)) as [d|] eqn:D; [|discriminate]. injection E as <-.
        destruct Gx as [_ [Gx|Gx]].
        + destruct (occurrence_dec (fst x) node); [|contradiction]. cbn [negb andb]. exists (EEval x). auto.
        + rewrite (Gx d D), andb_false_r. exists (EEval x). auto.
      - destruct (Cx o k eq_refl) as (vs & C). unfold VisitModel.child_visits in C.
        destruct (get_node_type nodes sets o) as [[m|j]|] eqn:T; [|discriminate E || idtac|discriminate].
        + injection E as <-. exists (EVisit o k [(m, true)]). auto.
        + destruct (visits_of vt (TSet j)) as [vs'|] eqn:Vj; [|discriminate].
          destruct (nth_error literals j) as [lit|] eqn:Lj; [|discriminate].
          assert (Ne := Hmembers j vs' lit Vj Lj). destruct lit as [|r a b]; [congruence|].
          cbn [nodeset_alternatives] in E. destruct (find_node nodes r) as [m|]; [|discriminate].
          destruct (visits_of vt (TNode m)) as [vm|]; [|discriminate].
          destruct (nodeset_alternatives nodes vt k a) as [xa| | | |]; try discriminate. cbn [bind] in E.
          destruct (nodeset_alternatives nodes vt k b) as [xb| | | |]; try discriminate. cbn [bind] in E. injection E as <-.
          eexists. split; reflexivity. }
    destruct X as (e' & -> & <-). unfold append_entry in H. destruct (rev l) as [|last r] eqn:Rl.
    - injection H as <-. assert (l = []) by (rewrite <- (rev_involutive l), Rl; reflexivity). subst l. reflexivity.
    - destruct (is_dummy last); [discriminate|]. injection H as <-. rewrite map_app. reflexivity.
  Qed.

  Lemma drop_scheduled_right : forall S q, exists dropped, q = dropped ++ drop_scheduled S q /\ (forall x, In x dropped -> In x S) /\
    forall x r, drop_scheduled S q = x :: r -> ~ In x S.
  Proof.
    intros S q. induction q as [|x q (d & Q & D & N)]; cbn [drop_scheduled].
    - exists []. split; [reflexivity|]. split; [intros x []|intros x r H; discriminate].
    - destruct (item_in x S) eqn:I.
      + exists (x :: d). cbn [app]. rewrite <- Q. split; [reflexivity|]. split; [|exact N].
        intros y [<-|Iy]; [apply item_in_In; exact I|auto].
      + exists []. split; [reflexivity|]. split; [intros y []|]. intros y r H. injection H as <- <-. apply item_in_false. exact I.
  Qed.

  (** Every action is allowed after the ones before it. *)
  Definition in_order (inputs : list ag_vertex) (earlier acts : list (action occurrence aptr)) : Prop :=
    forall before a after, acts = before ++ a :: after -> allowed inputs (earlier ++ before) a.
  Lemma in_order_nil : forall inputs earlier, in_order inputs earlier [].
  Proof. intros inputs earlier before a after Q. destruct before; discriminate. Qed.
  Lemma in_order_snoc : forall inputs earlier acts a, in_order inputs earlier acts -> allowed inputs (earlier ++ acts) a ->
    in_order inputs earlier (acts ++ [a]).
  Proof.
    intros inputs earlier acts a O A before b after Q.
    destruct (@exists_last _ (b :: after)) as (m & c & Qm); [discriminate|].
    rewrite Qm in Q. rewrite app_assoc in Q. apply app_inj_tail in Q. destruct Q as [Q <-].
    destruct m as [|b' m].
    - cbn [app] in Qm. injection Qm as <- _. rewrite app_nil_r in Q. subst before. exact A.
    - cbn [app] in Qm. injection Qm as <- _. apply (O before b m). exact Q.
  Qed.

  Lemma allowed_new : forall inputs done a, allowed inputs done a -> ~ In a done.
  Proof.
    intros inputs done [x|o k] A I; cbn [allowed] in A.
    - destruct A as (_ & _ & A). apply A. right. left. exact I.
    - destruct A as (_ & _ & A & _). contradiction.
  Qed.
  Lemma nodup_snoc : forall {X} (l : list X) x, NoDup l -> ~ In x l -> NoDup (l ++ [x]).
  Proof.
    intros X l x N Nx. induction N as [|y l Ny N IH]; cbn [app]; [constructor; [auto|constructor]|]. constructor.
    - intros I. apply in_app_iff in I. destruct I as [I|[<-|[]]]; [contradiction|]. apply Nx. left. reflexivity.
    - apply IH. intros I. apply Nx. right. exact I.
  Qed.

  Lemma visit_loop_right : forall iter S q queued l S' l' inputs earlier wanted,
    visit_loop iter S (q, queued) l = Val (S', l') ->
    (forall x, In x q -> good_item x) ->
    agrees S inputs (earlier ++ map action_of l) ->
    in_order inputs earlier (map action_of l) ->
    NoDup (earlier ++ map action_of l) ->
    (forall x, In x wanted -> In x q \/ In x S) ->
    agrees S' inputs (earlier ++ map action_of l') /\
    in_order inputs earlier (map action_of l') /\
    NoDup (earlier ++ map action_of l') /\
    (forall x, In x wanted -> In x S').
  Proof.
    intros iter. induction iter as [|iter IH]; intros S q queued l S' l' inputs earlier wanted H G A O N W;
      cbn [VisitModel.visit_loop] in H; destruct (drop_scheduled_right S q) as (dr & Q & D & Nd).
    - destruct (drop_scheduled S q) as [|x r] eqn:E; [|discriminate]. injection H as <- <-. rewrite app_nil_r in Q. subst dr.
      split; [exact A|]. split; [exact O|]. split; [exact N|]. intros x Ix. destruct (W x Ix); auto.
    - destruct (drop_scheduled S q) as [|x r] eqn:E.
      + injection H as <- <-. rewrite app_nil_r in Q. subst dr.
        split; [exact A|]. split; [exact O|]. split; [exact N|]. intros x Ix. destruct (W x Ix); auto.
      + destruct (sched_dependencies S (r, queued) x) as [[[q1 queued1] b]| | | |] eqn:SD; try discriminate. cbn [bind] in H.
        assert (Gx : good_item x) by (apply G; rewrite Q; apply in_app_iff; right; left; reflexivity).
        assert (Nx := Nd x r eq_refl).
        destruct (sched_dependencies_right S (r, queued) x (q1, queued1) b inputs _ SD Gx A Nx) as [(more & Q1 & G1) F].
        cbn [fst] in Q1. subst q1.
        assert (W' : forall y, In y wanted -> In y (r ++ more) \/ y = x \/ In y S).
        { intros y Iy. destruct (W y Iy) as [I|I]; [|auto]. rewrite Q in I. apply in_app_iff in I. destruct I as [I|[I|I]]; auto.
          left. apply in_app_iff. auto. }
        assert (Gr : forall y, In y (r ++ more) -> good_item y).
        { intros y Iy. apply in_app_iff in Iy. destruct Iy as [Iy|Iy]; [|auto]. apply G. rewrite Q. apply in_app_iff. right. right. exact Iy. }
        destruct b.
        * apply (IH S ((r ++ more) ++ [x]) queued1 l S' l' inputs earlier wanted H); auto.
          -- intros y Iy. apply in_app_iff in Iy. destruct Iy as [Iy|[<-|[]]]; auto.
          -- intros y Iy. rewrite in_app_iff. cbn [In]. destruct (W' y Iy) as [I|[->|I]]; auto.
        * destruct (mark_scheduled S x) as [S1| | | |] eqn:M; try discriminate. cbn [bind] in H.
          destruct (add_visit_sequence l x) as [l1| | | |] eqn:AV; try discriminate. cbn [bind] in H.
          assert (Cx : forall o k, x = IVisit o k -> exists vs, child_visits o = Val vs).
          { intros o k ->. cbn [VisitModel.mark_scheduled] in M. destruct (child_visits o) as [vs| | | |]; try discriminate. eauto. }
          assert (Al := add_visit_sequence_right l x l1 AV Gx Cx). assert (Aw := F eq_refl).
          apply (IH S1 (r ++ more) queued1 l1 S' l' inputs earlier wanted H); auto.
          -- rewrite Al, app_assoc. apply (mark_scheduled_right S x S1 inputs _ M A).
          -- rewrite Al. apply in_order_snoc; assumption.
          -- rewrite Al, app_assoc. apply nodup_snoc; [exact N|]. exact (allowed_new _ _ _ Aw).
          -- assert (Sub : forall y, In y S \/ y = x -> In y S1).
             { intros y Hy. destruct x as [x|o k]; cbn [VisitModel.mark_scheduled] in M.
               - injection M as <-. cbn. destruct Hy as [Hy|Hy]; [auto|left; congruence].
               - destruct (child_visits o) as [vs| | | |]; try discriminate. cbn [bind] in M. destruct (nth_error vs k); [|discriminate].
                 destruct (lookup_all g o (v_outputs v)) as [outs| | | |]; try discriminate. cbn [bind] in M. injection M as <-.
                 cbn [In]. rewrite in_app_iff. destruct Hy as [Hy|Hy]; [auto|left; congruence]. }
             intros y Iy. destruct (W' y Iy) as [I|[->|I]]; auto.
  Qed.

  (** ** All visits of the node *)

  Notation all_child_visits := (all_child_visits nodes sets vt).
  Notation generate_visit := (generate_visit nodes sets attrs literals vt g node).
  Notation generate_sequences := (generate_sequences nodes sets attrs literals vt g node).

  Lemma all_child_visits_right : forall l k items, all_child_visits i k l = Val items ->
    (forall x, In x items <-> exists c j, k <= c < k + length l /\ j < length (visits_at (OChild i c)) /\ x = IVisit (OChild i c) j).
  Proof.
    intros l. induction l as [|c0 l IH]; intros k items H; cbn [VisitModel.all_child_visits] in H.
    - injection H as <-. intros x. split; [intros []|]. intros (c & j & L & _). cbn [length] in L. lia.
    - destruct (child_visits (OChild i k)) as [vs| | | |] eqn:C; try discriminate. cbn [bind] in H.
      destruct (all_child_visits i (S k) l) as [r| | | |] eqn:R; try discriminate. cbn [bind] in H. injection H as <-.
      assert (Lv : length (visits_at (OChild i k)) = length vs) by (rewrite (child_visits_at _ _ C), map_length; reflexivity).
      intros x. rewrite in_app_iff, (IH (S k) r R), in_map_iff. cbn [length]. split.
      + intros [(j & <- & Ij)|(c & j & L & J & Q)].
        * apply in_seq in Ij. exists k, j. split; [lia|]. split; [lia|reflexivity].
        * exists c, j. split; [lia|auto].
      + intros (c & j & L & J & Q). destruct (Nat.eq_dec c k) as [->|Nc].
        * left. exists j. split; [auto|]. apply in_seq. lia.
        * right. exists c, j. split; [lia|auto].
  Qed.

  Lemma agrees_inputs : forall S inputs done more, agrees S inputs done ->
    agrees (map IEval more ++ S) (inputs ++ more) done.
  Proof.
    intros S inputs done more [A1 A2]. split.
    - intros x. rewrite in_app_iff, A1. unfold avail. rewrite in_app_iff. split.
      + intros [I|I]; [|tauto]. apply in_map_iff in I. destruct I as (y & Q & Iy). injection Q as ->. auto.
      + intros [[I|I]|I]; [tauto| |tauto]. left. apply in_map. exact I.
    - intros o k. rewrite in_app_iff, A2. split; [|tauto]. intros [I|I]; [|exact I]. apply in_map_iff in I. destruct I as (y & Q & _). discriminate.
  Qed.

  (** The state after a number of visits: what [generate_visit] adds. *)
  Lemma generate_visit_right : forall max S v last S' l inputs earlier,
    generate_visit max i n S v last = Val (S', l) ->
    (forall x, In x (v_outputs v) -> fst x = node /\ In x (g_nodes g)) ->
    agrees S inputs earlier -> NoDup earlier ->
    let inputs := inputs ++ v_inputs v in
    agrees S' inputs (earlier ++ map action_of l) /\
    in_order inputs earlier (map action_of l) /\
    NoDup (earlier ++ map action_of l) /\
    (forall x, In x (v_outputs v) -> In (IEval x) S') /\
    (last = true -> forall o k, In o kids -> k < length (visits_at o) -> In (IVisit o k) S').
  Proof.
    intros max S v last S' l inputs earlier H Ho A N. cbn zeta. unfold VisitModel.generate_visit in H.
    set (q := map IEval (v_outputs v)) in H.
    assert (X : exists more, (if last then all_child_visits i 0 (nd_children n) else Val []) = Val more /\
                  (last = true -> all_child_visits i 0 (nd_children n) = Val more) /\ (last = false -> more = [])).
    { destruct last; [|exists []; split; [reflexivity|split; [discriminate|reflexivity]]].
      destruct (all_child_visits i 0 (nd_children n)) as [more| | | |]; try discriminate. exists more. split; [reflexivity|split; [reflexivity|discriminate]]. }
    destruct X as (more & Em & Hm & Hm0). rewrite Em in H. cbn [bind] in H.
    assert (Gm : forall x, In x more -> good_item x).
    { intros x Ix. destruct last; [|rewrite (Hm0 eq_refl) in Ix; destruct Ix].
      apply (all_child_visits_right _ _ _ (Hm eq_refl)) in Ix. destruct Ix as (c & j & L & _ & ->). cbn [good_item].
      apply in_map, in_seq. exact L. }
    destruct (visit_loop_right max (map IEval (v_inputs v) ++ S) (q ++ more) (q ++ more) [] S' l (inputs ++ v_inputs v) earlier (q ++ more))
      as (R1 & R2 & R3 & R4).
    - exact H.
    - intros x Ix. apply in_app_iff in Ix. destruct Ix as [Ix|Ix]; [|auto]. unfold q in Ix. apply in_map_iff in Ix.
      destruct Ix as (y & <- & Iy). split; [|left]; apply Ho, Iy.
    - cbn [map]. rewrite app_nil_r. apply agrees_inputs. exact A.
    - apply in_order_nil.
    - cbn [map]. rewrite app_nil_r. exact N.
    - auto.
    - split; [exact R1|]. split; [exact R2|]. split; [exact R3|]. split.
      + intros x Ix. apply R4. apply in_app_iff. left. apply in_map. exact Ix.
      + intros -> o k Io Lk. apply R4. apply in_app_iff. right. apply (all_child_visits_right _ _ _ (Hm eq_refl)).
        unfold kids in Io. apply in_map_iff in Io. destruct Io as (c & <- & Ic). apply in_seq in Ic. exists c, k. auto.
  Qed.

  Definition inputs_until (vs : list visit) (k : nat) : list ag_vertex := concat (map v_inputs (firstn k vs)).
  Definition sequences (res : list (visit * list entry)) : list (list (action occurrence aptr)) :=
    map (fun r => map action_of (snd r)) res.

  Lemma generate_sequences_right : forall max vs S res inputs earlier,
    generate_sequences max i n S vs = Val res ->
    (forall v x, In v vs -> In x (v_outputs v) -> fst x = node /\ In x (g_nodes g)) ->
    agrees S inputs earlier -> NoDup earlier ->
    let seqs := sequences res in
    map fst res = vs /\
    NoDup (earlier ++ concat seqs) /\
    (forall k before a after, nth_error seqs k = Some (before ++ a :: after) ->
       allowed (inputs ++ inputs_until vs (1 + k)) (earlier ++ concat (firstn k seqs) ++ before) a) /\
    (forall k v x, nth_error vs k = Some v -> In x (v_outputs v) ->
       avail (inputs ++ inputs_until vs (1 + k)) (earlier ++ concat (firstn (1 + k) seqs)) x) /\
    (vs <> [] -> forall o k, In o kids -> k < length (visits_at o) -> In (Visit o k) (earlier ++ concat seqs)).
  Proof.
    intros max vs. induction vs as [|v vs IH]; intros S res inputs earlier H Ho A N; cbn zeta.
    - cbn in H. injection H as <-. split; [reflexivity|]. split; [cbn; rewrite app_nil_r; exact N|]. split; [|split].
      + intros k before a after Q. destruct k; discriminate.
      + intros k v x Q. destruct k; discriminate.
      + congruence.
    - cbn [VisitModel.generate_sequences] in H.
      destruct (generate_visit max i n S v (match vs with [] => true | _ :: _ => false end)) as [[S1 l]| | | |] eqn:E; try discriminate.
      cbn [bind fst snd] in H. destruct (generate_sequences max i n S1 vs) as [rest| | | |] eqn:E2; try discriminate.
      cbn [bind] in H. injection H as <-.
      destruct (generate_visit_right max S v _ S1 l inputs earlier E) as (R1 & R2 & R3 & R4 & R5); auto.
      { intros x Ix. apply (Ho v); [left; reflexivity|exact Ix]. }
      destruct (IH S1 rest (inputs ++ v_inputs v) (earlier ++ map action_of l) E2) as (T1 & T2 & T3 & T4 & T5); auto.
      { intros v' x Iv. apply Ho. right. exact Iv. }
      cbn [sequences map snd fst concat]. fold (sequences rest). split; [rewrite T1; reflexivity|]. split; [rewrite app_assoc; exact T2|].
      assert (Iu : forall k, inputs_until (v :: vs) (1 + k) = v_inputs v ++ inputs_until vs k) by (intros k; reflexivity).
      split; [|split].
      + intros k before a after Q. rewrite Iu. destruct k as [|k].
        * cbn [nth_error] in Q. injection Q as Q. unfold inputs_until. cbn [firstn map concat app]. rewrite app_nil_r. exact (R2 before a after Q).
        * cbn [nth_error] in Q. specialize (T3 k before a after Q). cbn [firstn concat]. rewrite <- !app_assoc in *. exact T3.
      + intros k v' x Q Ix. rewrite Iu. destruct k as [|k].
        * cbn [nth_error] in Q. injection Q as <-. unfold inputs_until. cbn [plus firstn map concat app]. rewrite !app_nil_r.
          apply R1. apply R4. exact Ix.
        * cbn [nth_error] in Q. specialize (T4 k v' x Q Ix). cbn [plus firstn concat] in *. rewrite <- !app_assoc in *. exact T4.
      + intros _ o k Io Lk. rewrite app_assoc. destruct vs as [|v' vs].
        * apply in_app_iff. left. apply R1. apply R5; auto.
        * apply T5; auto. discriminate.
  Qed.

  (** ** The schedule *)

  Variable vs : list visit.
  Hypothesis Hvs : visits_of vt (TNode i) = Some vs.
  Hypothesis Hown : forall v x, In v vs -> In x (v_inputs v ++ v_outputs v) -> fst x = node.
  Hypothesis Hgraph : forall v x, In v vs -> In x (v_outputs v) -> In x (g_nodes g).
  Hypothesis Hdisjoint : forall v w x, In v vs -> In w vs -> In x (v_inputs v) -> ~ In x (v_outputs w).
  Variable needed : ag_vertex -> ag_vertex -> Prop.
  Hypothesis Hneeded : forall x y, needed x y -> In y (g_nodes g) -> In x (dependencies y).

  Lemma root_visits : visits_at node = map attributes_only vs.
  Proof. apply child_visits_at. unfold VisitModel.child_visits, get_node_type. rewrite Hvs. reflexivity. Qed.
  Lemma in_inputs_until : forall x k, In x (inputs_until vs (1 + k)) <->
    exists j v, j <= k /\ nth_error vs j = Some v /\ In x (v_inputs v).
  Proof.
    intros x k. unfold inputs_until. rewrite in_concat. split.
    - intros (l & Il & Ix). apply in_map_iff in Il. destruct Il as (v & <- & Iv). apply In_nth_error in Iv. destruct Iv as (j & Hj).
      destruct (le_lt_dec (1 + k) j) as [Lj|Lj].
      + exfalso. assert (X : nth_error (firstn (1 + k) vs) j = None) by (apply nth_error_None; rewrite firstn_length; lia). congruence.
      + exists j, v. split; [lia|]. split; [|exact Ix]. rewrite (nth_error_firstn_lt vs (1 + k) j Lj) in Hj. exact Hj.
    - intros (j & v & Lj & Hj & Ix). exists (v_inputs v). split; [|exact Ix]. apply in_map.
      assert (X : nth_error (firstn (1 + k) vs) j = Some v).
      { rewrite nth_error_firstn_lt by lia. exact Hj. }
      exact (nth_error_In _ _ X).
  Qed.
  Lemma avail_available : forall k done x, avail (inputs_until vs (1 + k)) done x <-> available node visits_at k done x.
  Proof.
    intros k done x. unfold avail, available. rewrite in_inputs_until, root_visits. split.
    - intros [(j & v & Lj & Hj & Ix)|[I|I]]; [left|auto|auto]. exists j, (attributes_only v). split; [exact Lj|].
      rewrite nth_error_map, Hj. split; [reflexivity|]. split.
      + apply (Hown v); [exact (nth_error_In _ _ Hj)|apply in_app_iff; auto].
      + cbn [attributes_only fst]. apply in_map. exact Ix.
    - intros [(j & v & Lj & Hj & Ox & Ix)|[I|I]]; [left|auto|auto]. rewrite nth_error_map in Hj.
      destruct (nth_error vs j) as [w|] eqn:Hw; [|discriminate]. injection Hj as <-. exists j, w. split; [exact Lj|]. split; [exact Hw|].
      cbn [attributes_only fst] in Ix. apply in_map_iff in Ix. destruct Ix as (y & Qy & Iy).
      assert (Oy : fst y = node) by (apply (Hown w); [exact (nth_error_In _ _ Hw)|apply in_app_iff; auto]).
      destruct x as [xo xa], y as [yo ya]. cbn [fst snd] in *. subst. exact Iy.
  Qed.

  Theorem node_schedule : forall max res, generate_sequences max i n [] vs = Val res ->
    map fst res = vs /\ schedule node kids visits_at needed (sequences res).
  Proof.
    intros max res H. destruct (generate_sequences_right max vs [] res [] [] H) as (T1 & T2 & T3 & T4 & T5).
    - intros v x Iv Ix. split; [apply (Hown v x Iv); apply in_app_iff; auto|exact (Hgraph v x Iv Ix)].
    - split.
      + intros x. split; [intros []|]. intros [[]|[[]|(j & v & [] & _)]].
      + intros o k. split; intros [].
    - constructor.
    - cbn [app] in *. split; [exact T1|].
      assert (Len : length (sequences res) = length vs) by (unfold sequences; rewrite map_length, <- T1, map_length; reflexivity).
      split.
      + rewrite root_visits, map_length. exact Len.
      + exact T2.
      + intros k done x (before & after & Q & ->).
        destruct (T3 k before _ after Q) as (Gx & A1 & A2). split.
        * intros y Ny. apply avail_available. apply A1. apply Hneeded; assumption.
        * intros I. apply A2. apply avail_available. exact I.
      + intros k done o j (before & after & Q & ->). destruct (T3 k before _ after Q) as (A1 & A2 & _ & v & A3 & A4).
        split; [exact A1|]. split; [exact A2|]. exists v. split; [exact A3|]. intros b Ib. apply avail_available. exact (A4 b Ib).
      + intros k v b Hk Ib. rewrite root_visits, nth_error_map in Hk. destruct (nth_error vs k) as [w|] eqn:Hw; [|discriminate]. injection Hk as <-.
        cbn [attributes_only snd] in Ib. apply in_map_iff in Ib. destruct Ib as (x & Qx & Ix). assert (Iw := nth_error_In _ _ Hw).
        assert (Ox : fst x = node) by (apply (Hown w); [exact Iw|apply in_app_iff; auto]).
        destruct (T4 k w x Hw Ix) as [I|[I|(j & v' & I & _)]].
        * exfalso. apply in_inputs_until in I. destruct I as (j & u & _ & Hu & Iu).
          exact (Hdisjoint u w x (nth_error_In _ _ Hu) Iw Iu Ix).
        * destruct x as [xo xa]. cbn [fst snd] in *. subst. exact I.
        * exfalso. rewrite Ox in I. apply in_concat in I. destruct I as (s & Is & Iv).
          assert (Is' : In s (sequences res)).
          { rewrite <- (firstn_skipn (1 + k) (sequences res)). apply in_app_iff. auto. }
          apply In_nth_error in Is'. destruct Is' as (k' & Hk'). apply in_split in Iv. destruct Iv as (before & after & ->).
          destruct (T3 k' before _ after Hk') as (Ik & _). unfold kids in Ik. apply in_map_iff in Ik. destruct Ik as (c & Qc & _). discriminate.
      + intros Ne o k Io Lk. apply T5; auto. intros Q. rewrite Q in Len. destruct (sequences res); [congruence|discriminate].
  Qed.

  (** Only attributes of the graph are computed. *)
  Theorem node_evaluates : forall max res, generate_sequences max i n [] vs = Val res ->
    forall x, In (Evaluate x) (concat (sequences res)) -> In x (g_nodes g).
  Proof.
    intros max res H x I. destruct (generate_sequences_right max vs [] res [] [] H) as (_ & _ & T3 & _).
    - intros v y Iv Iy. split; [apply (Hown v y Iv); apply in_app_iff; auto|exact (Hgraph v y Iv Iy)].
    - split.
      + intros y. split; [intros []|]. intros [[]|[[]|(j & v & [] & _)]].
      + intros o k. split; intros [].
    - constructor.
    - apply in_concat in I. destruct I as (l & Il & Ix). apply In_nth_error in Il. destruct Il as (k & Hk).
      apply in_split in Ix. destruct Ix as (before & after & ->). apply (T3 k before _ after Hk).
  Qed.
End Node.
