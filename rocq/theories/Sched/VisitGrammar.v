(** The visit sequences of the nodes of a specification (C34). *)

From Coq Require Import List Ascii Bool Arith Lia Permutation.
From Verif Require Import Sched.GraphModel Sched.GraphSpec Sched.GraphProof Sched.TreeProof Sched.InduceProof
  Sched.ScheduleModel Sched.ScheduleSpec Sched.ScheduleProof Sched.ScheduleGraphs Sched.PartitionModel
  Sched.PartitionSpec Sched.PartitionProof Sched.PartitionGrammar Sched.VisitModel Sched.VisitSpec Sched.VisitProof Sched.EmptyVisitProof Sched.VisitComplete.
From Verif Require Import Base.Outcome Palm.StrModel Front.Syntax Front.SetsSpec Front.NodesetTableModel Front.PropagateModel Front.PropagateSpec
  Front.PropagateProof Front.NodesetPassesProof Front.ProductRulesModel Front.ProductRulesProof Sched.FrontendModel Sched.FrontendProof
  Sched.CycleProof.
Import ListNotations.
Local Open Scope outcome_scope.

(** The visits of an occurrence, by its type. *)
Definition visits_by (ty : occurrence -> option target) (vt : visits_table) (o : occurrence) : list (list aptr * list aptr) :=
  match ty o with
  | Some t => match visits_of vt t with Some vs => map attributes_only vs | None => [] end
  | None => []
  end.
(** The children of the [i]th node, [n]. *)
Definition children (i : nat) (n : inode) : list occurrence := map (OChild i) (seq 0 (length (nd_children n))).
(** The actions of the sequences that were made. *)
Definition actions (res : list (visit * list VisitModel.entry)) : list (list (action occurrence aptr)) :=
  map (fun r => map action_of (snd r)) res.

Lemma schedule_ext : forall {O A} root kids visits visits' (needs needs' : O * A -> O * A -> Prop) seqs,
  (forall o, visits o = visits' o) -> (forall x y, needs' x y -> needs x y) ->
  schedule root kids visits needs seqs -> schedule root kids visits' needs' seqs.
Proof.
  intros O A root kids visits visits' needs needs' seqs Hv Hn [S1 S2 S3 S4 S5 S6].
  assert (Av : forall k done x, available root visits k done x <-> available root visits' k done x).
  { intros k done x. unfold available. rewrite Hv, Hv. tauto. }
  split.
  - rewrite <- Hv. exact S1.
  - exact S2.
  - intros k done x Hp. destruct (S3 k done x Hp) as [H1 H2]. split.
    + intros y Ny. apply Av. auto.
    + intros I. apply H2, Av, I.
  - intros k done o i Hp. destruct (S4 k done o i Hp) as (H1 & H2 & v & H3 & H4). split; [exact H1|]. split; [exact H2|].
    exists v. rewrite <- Hv. split; [exact H3|]. intros b Ib. apply Av. auto.
  - intros k v b. rewrite <- Hv. apply S5.
  - intros Ne o i. rewrite <- Hv. apply S6. exact Ne.
Qed.

Section Specification.
  Variable a : ast.
  Variable s : pra.
  Variable lits : list literal.
  Variable shuffle : list (graph_key * ag_graph) -> list (graph_key * ag_graph).
  Variable ty : occurrence -> option target.
  Hypothesis P : parsed_ast a.
  Hypothesis U : unmarked a.
  Hypothesis B : before_scheduling a = Val (s, lits).
  Hypothesis Sh : forall l, Permutation (shuffle l) l.
  Hypothesis Ty : typing (a_nodes a) (a_nodesets a) ty.
  Variable gs : list (graph_key * ag_graph).
  Hypothesis R : dependency_graphs shuffle a = Val (gs, []).
  Variable ps : list (production occurrence aptr).
  Hypothesis Pr : productions (a_nodes a) (a_nodesets a) (attributes_of s) (member_of a) ps.

  Notation gnt := (get_node_type (a_nodes a) (a_nodesets a)).
  Notation has_production := (has_production ps).

  (** The visits before and after adding empty ones. *)
  Variable tables : list (target * partition_table).
  Variable vt0 vt : visits_table.
  Hypothesis E1 : partition_all s (length (a_nodes a)) (length (a_nodesets a)) gs = Val tables.
  Hypothesis E2 : collect_all s (length (a_nodes a)) (length (a_nodesets a)) gs tables = Val vt0.
  Hypothesis E3 : generate_empty_visits (a_nodes a) (a_nodesets a) lits vt0 = Val vt.

  (** What the visits of a type take and deliver. *)
  Lemma table_right :
    (forall t, has_production t <-> exists vs, visits_of vt t = Some vs) /\
    (forall t vs, visits_of vt t = Some vs ->
       (forall v x, In v vs -> In x (v_inputs v ++ v_outputs v) -> fst x = OType t /\ attribute_of_type (attributes_of s) t (snd x)) /\
       (forall v x, In v vs -> In x (v_inputs v) -> inherited (attributes_of s) (snd x)) /\
       (forall v x, In v vs -> In x (v_outputs v) -> ~ inherited (attributes_of s) (snd x)) /\
       (forall b, attribute_of_type (attributes_of s) t b -> exists v x, In v vs /\ In x (v_inputs v ++ v_outputs v) /\ snd x = b)).
  Proof.
    destruct (partitions_right a s lits shuffle ty P U B Sh Ty gs R ps Pr) as (tables' & vt0' & E1' & E2' & H1 & H2 & H3 & H4).
    rewrite E1 in E1'. injection E1' as <-. rewrite E2 in E2'. injection E2' as <-.
    assert (X := generate_empty_visits_right _ _ _ _ vt E3). 
    assert (D : forall t, visits_of vt0 t <> None -> In t (all_types (length (a_nodes a)) (length (a_nodesets a)))).
    { intros t Q. apply (production_type a s ps Pr). apply H2.
      change (visits_of_type vt0 t) with (visits_of vt0 t). destruct (visits_of vt0 t) as [vs|]; [eauto|congruence]. }
    specialize (X D). split.
    - intros t. rewrite H2. change (visits_of_type vt0 t) with (visits_of vt0 t). specialize (X t).
      destruct (visits_of vt0 t) as [[|v vs]|].
      + destruct X as [(_ & ->)|(_ & ->)]; split; eauto.
      + rewrite X. split; eauto.
      + rewrite X. split; intros (vs & Q); discriminate.
    - intros t vs Q. specialize (X t). destruct (visits_of vt0 t) as [[|v0 vs0]|] eqn:Q0.
      + assert (No : forall vs b, attribute_of_type (attributes_of s) t b -> exists v x, In v vs /\ In x (v_inputs v ++ v_outputs v) /\ snd x = b).
        { intros vs' b Hb. exfalso. destruct (proj1 (H1 t)) as (tab & Qt); [apply H2; eauto|].
          destruct (H4 t tab _ Qt Q0) as [_ [_ _ V3 _]]. destruct (V3 b Hb) as (k & L & _). cbn [map length] in L. lia. }
        specialize (No vs). destruct X as [(_ & X)|(_ & X)]; rewrite X in Q; injection Q as <-.
        * split; [|split; [|split]]; try (intros v x [<-|[]] []). exact No.
        * split; [|split; [|split]]; try (intros v x []). exact No.
      + rewrite X in Q. injection Q as <-. destruct (proj1 (H1 t)) as (tab & Qt); [apply H2; eauto|].
        destruct (H4 t tab _ Qt Q0) as [F [V1 V2 V3 _]].
        assert (At : forall v, In v (v0 :: vs0) -> exists k, nth_error (map attributes_only (v0 :: vs0)) k = Some (map snd (v_inputs v), map snd (v_outputs v))).
        { intros v Iv. apply In_nth_error in Iv. destruct Iv as (k & Hk). exists k. rewrite nth_error_map, Hk. reflexivity. }
        split; [|split; [|split]].
        * intros v x Iv Ix. split; [exact (F v x Iv Ix)|]. destruct (At v Iv) as (k & Hk). apply in_app_iff in Ix.
          destruct Ix as [I|I]; apply (in_map snd) in I;
            [apply (proj2 (V1 k _ _ Hk)) in I|apply (proj2 (V2 k _ _ Hk)) in I]; apply I.
        * intros v x Iv I. destruct (At v Iv) as (k & Hk). apply (in_map snd) in I. apply (proj2 (V1 k _ _ Hk)) in I. apply I.
        * intros v x Iv I. destruct (At v Iv) as (k & Hk). apply (in_map snd) in I. apply (proj2 (V2 k _ _ Hk)) in I. apply I.
        * intros b Hb. destruct (V3 b Hb) as (k & L & Cp). rewrite map_length in L.
          destruct (nth_error (v0 :: vs0) k) as [v|] eqn:Hv; [|apply nth_error_None in Hv; lia].
          assert (Hk : nth_error (map attributes_only (v0 :: vs0)) k = Some (map snd (v_inputs v), map snd (v_outputs v)))
            by (rewrite nth_error_map, Hv; reflexivity).
          exists v. assert (Di : inherited (attributes_of s) b \/ ~ inherited (attributes_of s) b).
          { destruct Hb as [_ G]. assert (Y : exists x, nth_error (attributes_of s (fst b)) (snd b) = Some x)
              by (destruct G as [(x & Y & _)|(x & Y & _)]; eauto). destruct Y as (x & Y).
            destruct (at_is_inherited x) eqn:I; [left; exists x; auto|right]. intros (y & Z & J). congruence. }
          destruct Di as [Di|Di].
          -- assert (I : In b (map snd (v_inputs v))) by (apply (proj2 (V1 k _ _ Hk)); auto). apply in_map_iff in I.
             destruct I as (x & Qx & Ix). exists x. split; [exact (nth_error_In _ _ Hv)|]. split; [apply in_app_iff; auto|exact Qx].
          -- assert (I : In b (map snd (v_outputs v))) by (apply (proj2 (V2 k _ _ Hk)); auto). apply in_map_iff in I.
             destruct I as (x & Qx & Ix). exists x. split; [exact (nth_error_In _ _ Hv)|]. split; [apply in_app_iff; auto|exact Qx].
      + congruence.
  Qed.

  Lemma set_has_members : forall j vs l, visits_of vt (TSet j) = Some vs -> nth_error lits j = Some l -> l <> LNull.
  Proof.
    intros j vs l Q Hl ->. destruct (proj2 (proj1 table_right (TSet j))) as (p & Ip & Rp); [eauto|].
    destruct (before_scheduling_input a s lits P U B) as (_ & _ & _ & Mem & _).
    destruct (pr_only _ _ _ _ _ Pr p Ip) as [(i & n & _ & N)|(j' & m & Hm & M)].
    - rewrite (np_root _ _ _ _ _ _ N) in Rp. discriminate.
    - rewrite (mp_root _ _ _ _ M) in Rp. injection Rp as ->. apply Mem in Hm. destruct Hm as (lit & n & Hlit & _ & I).
      rewrite Hl in Hlit. injection Hlit as <-. destruct I.
  Qed.

  (** The graph of a node and its production. *)
  Lemma node_facts : forall i n p g, nth_error (a_nodes a) i = Some n -> In p ps ->
    node_production (a_nodes a) (a_nodesets a) (attributes_of s) i n p -> first_graph gs (TNode i) = Some g ->
    plain g /\ (forall x, In x (p_vertices p) <-> In x (g_nodes g)) /\
    (forall x y, AE g x y -> depends_on ty ps p x y) /\
    (forall x y, depends_on ty ps p x y -> x = y \/ AE g x y).
  Proof.
    intros i n p g Hn Ip Np Fg. destruct (first_graph_in gs _ g Fg) as (k & Ik & Kt).
    destruct (graph_facts a s lits shuffle ty P U B Sh Ty gs R ps Pr (k, g) Ik) as (q & Iq & Rq & Nd & Pl & Hv & Hr & _ & He1 & He2).
    cbn [fst snd] in *. rewrite Kt in Rq.
    assert (Nq : node_production (a_nodes a) (a_nodesets a) (attributes_of s) i n q).
    { destruct (pr_only _ _ _ _ _ Pr q Iq) as [(i' & n' & Hn' & N)|(j & m & Hm & M)].
      - rewrite (np_root _ _ _ _ _ _ N) in Rq. injection Rq as ->. rewrite Hn in Hn'. injection Hn' as <-. exact N.
      - rewrite (mp_root _ _ _ _ M) in Rq. discriminate. }
    assert (Sim := node_production_similar _ _ _ (member_of a) i n p q Np Nq).
    assert (Sim' := node_production_similar _ _ _ (member_of a) i n q p Nq Np).
    assert (Sa := productions_similar _ _ _ _ ps ps Pr Pr).
    split; [exact Pl|]. split; [|split].
    - intros x. rewrite (proj1 Sim x), Hv. split; [tauto|]. intros I. split; [exact I|]. destruct (Hr x I) as [X|(_ & j & X)]; [exact X|].
      rewrite Rq in X. discriminate.
    - intros x y D. apply (depends_similar ty ps ps Sa q x y (He1 x y D)); assumption.
    - intros x y D. apply He2. apply (depends_similar ty ps ps Sa p x y D); assumption.
  Qed.

  Lemma generate_all_right : forall max l i res, generate_all (a_nodes a) (a_nodesets a) s lits max vt gs i l = Val res ->
    length res = length l /\
    forall k n, nth_error l k = Some n -> exists g r, first_graph gs (TNode (i + k)) = Some g /\
      nth_error res k = Some r /\ generate_visits (a_nodes a) (a_nodesets a) s lits max vt g (i + k) n = Val r.
  Proof.
    intros max l. induction l as [|n l IH]; intros i res H; cbn [generate_all] in H.
    - injection H as <-. split; [reflexivity|]. intros [|k] n Q; discriminate.
    - destruct (first_graph gs (TNode i)) as [g|] eqn:F; [|discriminate].
      destruct (generate_visits _ _ s lits max vt g i n) as [x| | | |] eqn:E; try discriminate. cbn [bind] in H.
      destruct (generate_all _ _ s lits max vt gs (S i) l) as [r| | | |] eqn:Er; try discriminate. cbn [bind] in H. injection H as <-.
      destruct (IH (S i) r Er) as [L X]. split; [cbn [length]; congruence|]. intros [|k] n' Q; cbn [nth_error] in Q.
      + injection Q as <-. exists g, x. rewrite Nat.add_0_r. auto.
      + destruct (X k n' Q) as (g' & r' & X1 & X2 & X3). exists g', r'. replace (i + S k) with (S i + k) by lia. auto.
  Qed.

  (** The sequences of a node. *)
  Theorem visits_right : forall max all, generate_all (a_nodes a) (a_nodesets a) s lits max vt gs 0 (a_nodes a) = Val all ->
    forall i n p, nth_error (a_nodes a) i = Some n -> In p ps ->
    node_production (a_nodes a) (a_nodesets a) (attributes_of s) i n p ->
    exists res, nth_error all i = Some res /\ visits_of vt (TNode i) = Some (map fst res) /\
      schedule (OType (TNode i)) (children i n) (visits_by ty vt) (fun x y => x <> y /\ depends_on ty ps p x y) (actions res).
  Proof.
    intros max all E4 i n p Hn Ip Np.
    destruct (generate_all_right max _ 0 all E4) as [_ X]. destruct (X i n Hn) as (g & res & Fg & Hr & E). cbn [Nat.add] in *.
    destruct (node_facts i n p g Hn Ip Np Fg) as (Pl & Hv & He1 & He2).
    unfold generate_visits in E. destruct (visits_of vt (TNode i)) as [vs|] eqn:Q; [|discriminate].
    destruct table_right as [_ T]. destruct (T _ vs Q) as (T1 & T2 & T3 & _).
    exists res. split; [exact Hr|].
    assert (W : map fst res = vs /\ schedule (OType (TNode i)) (kids i n) (visits_at (a_nodes a) (a_nodesets a) vt)
                  (fun x y => x <> y /\ depends_on ty ps p x y) (sequences res)).
    { apply (node_schedule (a_nodes a) (a_nodesets a) s lits vt g i n) with (max := max) (3 := Q).
      - exact set_has_members.
      - intros x Ix. apply Hv in Ix. apply (np_vertices _ _ _ _ _ _ Np) in Ix. destruct Ix as [Ix _].
        rewrite (np_root _ _ _ _ _ _ Np) in Ix. destruct Ix as [Ix|Ix]; [left; congruence|right].
        apply (np_kids _ _ _ _ _ _ Np) in Ix. destruct Ix as (k & Lk & Qk). rewrite Qk. unfold kids. apply in_map. apply in_seq. lia.
      - intros v x Iv Ix. apply (T1 v x Iv Ix).
      - intros v x Iv Ix. destruct (T1 v x Iv) as [Ox Ax]; [apply in_app_iff; auto|]. apply Hv.
        destruct x as [o b]. cbn [fst snd] in *. subst o. apply (root_vertices a s gs ps Pr (TNode i) g Fg p Ip (np_root _ _ _ _ _ _ Np)). exact Ax.
      - intros v w x Iv Iw I1 I2. exact (T3 w x Iw I2 (T2 v x Iv I1)).
      - intros x y [Nxy D] Iy. unfold GRget_node_dependencies. apply in_rev. rewrite rev_involutive. apply filter_In.
        assert (Gp : forall q, In q ps -> good_production q) by (intros q Iq; exact (production_good a s lits P U B ps q Pr Iq)).
        assert (Vx := depends_vertices ty ps Gp p x y D). destruct Vx as [Vx _]. split; [apply Hv, Vx|].
        destruct (He2 x y D) as [Z|Z]; [contradiction|]. rewrite lookup_plain by exact Pl. apply andb_true_iff. split.
        + apply negb_true_iff. unfold veq. destruct x as [o b], y as [o' b']. cbn [fst snd].
          destruct (occurrence_dec o o') as [->|]; [|reflexivity]. destruct (aptr_dec b b') as [->|]; [congruence|reflexivity].
        + exact Z.
      - exact E. }
    destruct W as [W1 W2]. split; [rewrite <- W1; reflexivity|].
    apply (schedule_ext _ _ (visits_at (a_nodes a) (a_nodesets a) vt) _ (fun x y => x <> y /\ depends_on ty ps p x y)); auto.
    intros o. unfold visits_at, visits_by, child_visits. rewrite (typing_gnt a s lits ty P U B Ty).
    destruct (gnt o) as [t|]; [|reflexivity]. destruct (visits_of vt t); reflexivity.
  Qed.

  (** ** Success *)

  (** A child whose type is a nodeset: the first member of the nodeset has at
      least as many visits as the nodeset. *)
  Definition leading_member (o : occurrence) : Prop := forall j, ty o = Some (TSet j) ->
    exists l r rest m vs ws, nth_error lits j = Some l /\ listed l = r :: rest /\ has_name (a_nodes a) (a_nodesets a) (TNode m) r /\
      visits_of vt (TSet j) = Some vs /\ visits_of vt (TNode m) = Some ws /\ length vs <= length ws.

  Section OneNode.
    Variable i : nat.
    Variable n : inode.
    Variable p : production occurrence aptr.
    Variable g : ag_graph.
    Hypothesis Hn : nth_error (a_nodes a) i = Some n.
    Hypothesis Ip : In p ps.
    Hypothesis Np : node_production (a_nodes a) (a_nodesets a) (attributes_of s) i n p.
    Hypothesis Fg : first_graph gs (TNode i) = Some g.
    Hypothesis Once : forall b, inherited (attributes_of s) b -> ~ synthesized (attributes_of s) b.
    Hypothesis Types : forall o t, In o (children i n) -> ty o = Some t -> has_production t.
    Hypothesis Lead : forall o, In o (children i n) -> leading_member o.
    Notation node := (OType (TNode i)).
    Notation child_visits := (child_visits (a_nodes a) (a_nodesets a) vt).
    Notation needs := (fun x y => x <> y /\ depends_on ty ps p x y).

    Lemma child_type : forall o, In o (children i n) -> exists t vs, ty o = Some t /\ gnt o = Some t /\
      visits_of vt t = Some vs /\ child_visits o = Val vs.
    Proof.
      intros o Io. assert (Io' := Io). unfold children in Io'. apply in_map_iff in Io'. destruct Io' as (k & Qk & Ik). apply in_seq in Ik.
      destruct (before_scheduling_input a s lits P U B) as (G & _).
      destruct (nth_error (nd_children n) k) as [c|] eqn:Hc; [|apply nth_error_None in Hc; lia].
      destruct (gnt o) as [t|] eqn:T.
      - exists t. assert (Tt := typing_gnt a s lits ty P U B Ty o). rewrite T in Tt.
        destruct (proj1 (proj1 table_right t) (Types o t Io Tt)) as (vs & Q). exists vs. split; [exact Tt|]. split; [reflexivity|]. split; [exact Q|].
        unfold VisitModel.child_visits. rewrite T, Q. reflexivity.
      - exfalso. rewrite <- Qk in T. cbn [get_node_type] in T. rewrite Hn, Hc in T.
        exact (find_type_defined _ _ _ G n c (nth_error_In _ _ Hn) (nth_error_In _ _ Hc) T).
    Qed.
    Lemma by_child : forall o vs, child_visits o = Val vs -> visits_by ty vt o = map attributes_only vs.
    Proof.
      intros o vs H. unfold VisitModel.child_visits in H. unfold visits_by. rewrite (typing_gnt a s lits ty P U B Ty).
      destruct (gnt o) as [t|]; [|discriminate]. destruct (visits_of vt t) as [ws|]; [|discriminate]. injection H as ->. reflexivity.
    Qed.

    Lemma vertex_facts : forall x, In x (g_nodes g) -> (fst x = node \/ In (fst x) (children i n)) /\
      (exists d, attribute_at s (snd x) = Some d) /\ gnt (fst x) = Some (fst (snd x)) /\ of_grammar (attributes_of s) (snd x).
    Proof.
      destruct (node_facts i n p g Hn Ip Np Fg) as (_ & Hv & _). intros x Ix. apply Hv in Ix. apply (np_vertices _ _ _ _ _ _ Np) in Ix.
      destruct Ix as (Ix & Tx & Gx). rewrite (np_root _ _ _ _ _ _ Np) in Ix. split; [|split; [|split; [|exact Gx]]].
      - destruct Ix as [Ix|Ix]; [left; congruence|right]. apply (np_kids _ _ _ _ _ _ Np) in Ix. destruct Ix as (k & Lk & Qk). rewrite Qk.
        unfold children. apply in_map. apply in_seq. lia.
      - destruct Gx as [(d & D & _)|(d & D & _)]; exists d; exact D.
      - rewrite <- (typing_gnt a s lits ty P U B Ty). apply Ty. exact Tx.
    Qed.
    Lemma child_lookup : forall o vs v y, In o (children i n) -> child_visits o = Val vs -> In v vs ->
      In y (v_inputs v ++ v_outputs v) -> In (o, snd y) (g_nodes g).
    Proof.
      destruct (node_facts i n p g Hn Ip Np Fg) as (_ & Hv & _). intros o vs v y Io C Iv Iy.
      destruct (child_type o Io) as (t & vs' & Tt & Gt & Q & C'). rewrite C in C'. injection C' as <-.
      destruct (proj2 table_right t vs Q) as (T1 & _). destruct (T1 v y Iv Iy) as (_ & Ft & Gy).
      apply Hv. apply (np_vertices _ _ _ _ _ _ Np). cbn [fst snd]. split; [|split; [|exact Gy]].
      - right. apply (np_kids _ _ _ _ _ _ Np). unfold children in Io. apply in_map_iff in Io. destruct Io as (k & Qk & Ik). apply in_seq in Ik.
        exists k. split; [lia|congruence].
      - rewrite Ft. apply Ty. exact Tt.
    Qed.
    Lemma child_find : forall x d vs, In x (g_nodes g) -> In (fst x) (children i n) -> attribute_at s (snd x) = Some d ->
      at_is_synthesized d = true -> child_visits (fst x) = Val vs -> exists v y, In v vs /\ In y (v_outputs v) /\ snd y = snd x.
    Proof.
      intros x d vs Ix Io D Sy C. destruct (vertex_facts x Ix) as (_ & _ & Gx & Ox).
      unfold VisitModel.child_visits in C. rewrite Gx in C. destruct (visits_of vt (fst (snd x))) as [vs'|] eqn:Q; [|discriminate]. injection C as ->.
      destruct (proj2 table_right _ vs Q) as (_ & T2 & _ & T4). destruct (T4 (snd x) (conj eq_refl Ox)) as (v & y & Iv & Iy & Qy).
      exists v, y. split; [exact Iv|]. split; [|exact Qy]. apply in_app_iff in Iy. destruct Iy as [Iy|Iy]; [|exact Iy].
      exfalso. apply (Once (snd x)); [rewrite <- Qy; exact (T2 v y Iv Iy)|]. exists d. split; [exact D|exact Sy].
    Qed.

    Lemma alternatives_defined : forall k l, In l lits -> exists r, nodeset_alternatives (a_nodes a) vt k l = Val r /\
      match l with
      | LNull => r = []
      | SetLiteral x _ _ => exists m ws rest, find_node (a_nodes a) x = Some m /\ visits_of vt (TNode m) = Some ws /\ r = (m, k <? length ws) :: rest
      end.
    Proof.
      destruct (before_scheduling_input a s lits P U B) as (G & _ & Lit & _).
      intros k l Il. specialize (Lit l). assert (L : forall id, In id (listed l) -> exists n0, In n0 (a_nodes a) /\ same_id (nd_name n0) id) by auto.
      clear Lit Il. induction l as [|x u IHu w IHw]; cbn [nodeset_alternatives]; [eauto|].
      cbn [listed] in L. destruct (L x (or_introl eq_refl)) as (n0 & In0 & Sx).
      apply In_nth_error in In0. destruct In0 as (m & Hm).
      assert (F : find_node (a_nodes a) x = Some m) by (apply (find_node_iff _ _ _ G); eauto). rewrite F.
      destruct (proj1 (proj1 table_right (TNode m))) as (ws & Q).
      { destruct (pr_nodes _ _ _ _ _ Pr m n0 Hm) as (p0 & Ip0 & Np0). exists p0. split; [exact Ip0|]. apply (np_root _ _ _ _ _ _ Np0). }
      rewrite Q. destruct IHu as (r1 & -> & _); [intros id I; apply L; right; apply in_app_iff; auto|].
      destruct IHw as (r2 & -> & _); [intros id I; apply L; right; apply in_app_iff; auto|]. cbn [bind].
      eexists. split; [reflexivity|]. exists m, ws, (r1 ++ r2). auto.
    Qed.
    Lemma child_entry : forall o k vs, In o (children i n) -> child_visits o = Val vs -> k < length vs ->
      exists e, make_entry (a_nodes a) (a_nodesets a) s lits vt node (IVisit o k) = Val (Some e) /\ is_dummy e = false.
    Proof.
      intros o k vs Io C L. destruct (child_type o Io) as (t & vs' & Tt & Gt & Q & C'). rewrite C in C'. injection C' as <-.
      cbn [make_entry]. rewrite Gt. destruct t as [m|j]; [eexists; split; reflexivity|].
      destruct (Lead o Io j Tt) as (l & r & rest & m & vs' & ws & Hl & Hr & Hm & Q1 & Q2 & Le). rewrite Hl.
      destruct (alternatives_defined k l (nth_error_In _ _ Hl)) as (alts & Ea & Xa). rewrite Ea. cbn [bind].
      destruct l as [|r' u w]; [discriminate|]. cbn [listed] in Hr. injection Hr as -> _.
      destruct Xa as (m' & ws' & tl & F & Q2' & ->). eexists. split; [reflexivity|]. cbn [is_dummy].
      destruct (before_scheduling_input a s lits P U B) as (G & _).
      assert (m' = m). { apply (find_node_iff _ _ _ G) in Hm. congruence. } subst m'.
      rewrite Q2 in Q2'. injection Q2' as <-. rewrite Q in Q1. injection Q1 as <-.
      assert (X : (k <? length ws) = true) by (apply Nat.ltb_lt; lia). rewrite X. reflexivity.
    Qed.

    Lemma own_visits : forall vs, visits_of vt (TNode i) = Some vs -> forall v, In v vs -> proper_visit g i v.
    Proof.
      intros vs Q v Iv x Ix. destruct (proj2 table_right _ vs Q) as (T1 & _). destruct (T1 v x Iv) as [Ox Ax]; [apply in_app_iff; auto|].
      split; [exact Ox|]. destruct (node_facts i n p g Hn Ip Np Fg) as (_ & Hv & _). apply Hv. destruct x as [o b]. cbn [fst snd] in *. subst o.
      apply (root_vertices a s gs ps Pr (TNode i) g Fg p Ip (np_root _ _ _ _ _ _ Np)). exact Ax.
    Qed.

    Lemma supplied_source : forall x y, In x (g_nodes g) -> supplied (a_nodes a) (a_nodesets a) s vt i x y ->
      source node (visits_by ty vt) x (of_item y).
    Proof.
      intros x y Ix [(H & ->)|(Nx & vs & k & C & F & ->)]; cbn [of_item].
      - right. split; [|reflexivity]. destruct H as [H|H]; [left; exact H|right]. intros v Iv I.
        unfold visits_by in Iv. destruct (ty (fst x)) as [t|] eqn:T; [|destruct Iv]. destruct (visits_of vt t) as [vs|] eqn:Q; [|destruct Iv].
        apply in_map_iff in Iv. destruct Iv as (w & <- & Iw). cbn [attributes_only snd] in I. apply in_map_iff in I. destruct I as (z & Qz & Iz).
        destruct (proj2 table_right t vs Q) as (T1 & _ & T3 & _). assert (Ni := T3 w z Iw Iz).
        destruct (T1 w z Iw) as (_ & _ & Gz); [apply in_app_iff; auto|]. rewrite Qz in *. destruct Gz as [Gz|(d & D & Sy)]; [contradiction|].
        rewrite (H d D) in Sy. discriminate.
      - left. destruct (find_visit_some vs 0 _ k F) as (v & z & _ & L & Hv & Iz & Qz). rewrite Nat.sub_0_r in Hv.
        exists k, (attributes_only v). split; [exact Nx|]. rewrite (by_child _ vs C). split; [rewrite nth_error_map, Hv; reflexivity|].
        split; [|reflexivity]. cbn [attributes_only snd]. apply in_map_iff. exists z. auto.
    Qed.
    Lemma requires_ranked : forall rank, order node (children i n) (visits_by ty vt) needs rank ->
      forall x y, good (a_nodes a) (a_nodesets a) s vt g i n x -> requires (a_nodes a) (a_nodesets a) s vt g i x y ->
      rank (of_item y) < rank (of_item x).
    Proof.
      intros rank [O1 O2 O3] x y [Gx Vx] Rx. destruct x as [x|o k]; cbn [requires of_item] in *.
      - destruct Rx as (u & Iu & Su). unfold GRget_node_dependencies in Iu. apply in_rev in Iu. apply filter_In in Iu. destruct Iu as [Iu Qu].
        destruct (node_facts i n p g Hn Ip Np Fg) as (Pl & _ & He & _).
        rewrite lookup_plain in Qu by exact Pl. apply andb_true_iff in Qu. destruct Qu as [Qn Qe].
        apply (O1 u x); [|apply supplied_source; assumption]. split; [|apply He; exact Qe].
        intros ->. apply negb_true_iff in Qn. unfold veq in Qn. destruct (occurrence_dec (fst x) (fst x)); [|congruence].
        destruct (aptr_dec (snd x) (snd x)); [discriminate|congruence].
      - cbn [VisitProof.good_item] in Gx. change (In o (children i n)) in Gx. destruct (Vx o k eq_refl) as (vs & C & L).
        destruct Rx as [(j & Lj & ->)|(vs' & v & u & C' & Hv & Iu & Su)].
        + cbn [of_item]. apply O3; [exact Gx|exact Lj|]. rewrite (by_child o vs C), map_length. exact L.
        + apply (O2 o k (attributes_only v) (snd u)); [exact Gx| | |].
          * rewrite (by_child o vs' C'), nth_error_map, Hv. reflexivity.
          * cbn [attributes_only fst]. apply in_map. exact Iu.
          * apply supplied_source; [|exact Su]. apply (child_lookup o vs' v u Gx C' (nth_error_In _ _ Hv)). apply in_app_iff. auto.
    Qed.

    Theorem node_defined : forall max, (exists r, generate_visits (a_nodes a) (a_nodesets a) s lits max vt g i n = Val r) \/
      generate_visits (a_nodes a) (a_nodesets a) s lits max vt g i n = Exited.
    Proof.
      intros max. unfold generate_visits. destruct (proj1 (proj1 table_right (TNode i))) as (vs & Q).
      { exists p. split; [exact Ip|]. apply (np_root _ _ _ _ _ _ Np). }
      rewrite Q. apply (sequences_defined _ _ _ _ vt g i n).
      - intros x Ix. apply (vertex_facts x Ix).
      - intros o Io. destruct (child_type o Io) as (_ & ws & _ & _ & _ & C). eauto.
      - intros x Ix. apply (vertex_facts x Ix).
      - exact child_find.
      - exact child_lookup.
      - exact child_entry.
      - exact (own_visits vs Q).
      - intros o k ws v y [].
    Qed.
    Theorem node_complete : forall rank, order node (children i n) (visits_by ty vt) needs rank ->
      exists m, forall max, m <= max -> exists r, generate_visits (a_nodes a) (a_nodesets a) s lits max vt g i n = Val r.
    Proof.
      intros rank Or. unfold generate_visits. destruct (proj1 (proj1 table_right (TNode i))) as (vs & Q).
      { exists p. split; [exact Ip|]. apply (np_root _ _ _ _ _ _ Np). }
      rewrite Q. apply (sequences_complete _ _ _ _ vt g i n) with (rank := fun x => rank (of_item x)).
      - intros x Ix. apply (vertex_facts x Ix).
      - intros o Io. destruct (child_type o Io) as (_ & ws & _ & _ & _ & C). eauto.
      - intros x Ix. apply (vertex_facts x Ix).
      - exact child_find.
      - exact child_lookup.
      - exact child_entry.
      - exact (requires_ranked rank Or).
      - exact (own_visits vs Q).
      - intros o k ws v y [].
    Qed.
  End OneNode.
End Specification.

(** ** The whole specification *)
Section Whole.
  Variable a : ast.
  Variable s : pra.
  Variable lits : list literal.
  Variable shuffle : list (graph_key * ag_graph) -> list (graph_key * ag_graph).
  Variable ty : occurrence -> option target.
  Hypothesis P : parsed_ast a.
  Hypothesis U : unmarked a.
  Hypothesis B : before_scheduling a = Val (s, lits).
  Hypothesis Sh : forall l, Permutation (shuffle l) l.
  Hypothesis Ty : typing (a_nodes a) (a_nodesets a) ty.
  Variable gs : list (graph_key * ag_graph).
  Hypothesis R : dependency_graphs shuffle a = Val (gs, []).
  Variable ps : list (production occurrence aptr).
  Hypothesis Pr : productions (a_nodes a) (a_nodesets a) (attributes_of s) (member_of a) ps.

  Lemma SAVvisits_parts : forall max vt all, SAVvisits (a_nodes a) (a_nodesets a) s lits max gs = Val (vt, all) ->
    exists tables vt0,
      partition_all s (length (a_nodes a)) (length (a_nodesets a)) gs = Val tables /\
      collect_all s (length (a_nodes a)) (length (a_nodesets a)) gs tables = Val vt0 /\
      generate_empty_visits (a_nodes a) (a_nodesets a) lits vt0 = Val vt /\
      generate_all (a_nodes a) (a_nodesets a) s lits max vt gs 0 (a_nodes a) = Val all.
  Proof.
    intros max vt all V. unfold SAVvisits in V. destruct (partition_all s _ _ gs) as [tables| | | |]; try discriminate. cbn [bind] in V.
    destruct (collect_all s _ _ gs tables) as [vt0| | | |] eqn:E2; try discriminate. cbn [bind] in V.
    destruct (generate_empty_visits _ _ lits vt0) as [vt1| | | |] eqn:E3; try discriminate. cbn [bind] in V.
    destruct (generate_all _ _ s lits max vt1 gs 0 _) as [r| | | |] eqn:E4; try discriminate. cbn [bind] in V. injection V as <- <-.
    exists tables, vt0. auto.
  Qed.

  (** Every child has a type with members. *)
  Hypothesis Types : forall i n o t, nth_error (a_nodes a) i = Some n -> In o (children i n) -> ty o = Some t -> has_production ps t.
  Hypothesis Once : forall b, inherited (attributes_of s) b -> ~ synthesized (attributes_of s) b.

  Lemma node_production_type : forall m, m < length (a_nodes a) -> has_production ps (TNode m).
  Proof.
    intros m L. destruct (nth_error (a_nodes a) m) as [n|] eqn:Hn; [|apply nth_error_None in Hn; lia].
    destruct (pr_nodes _ _ _ _ _ Pr m n Hn) as (p & Ip & Np). exists p. split; [exact Ip|]. apply (np_root _ _ _ _ _ _ Np).
  Qed.

  Lemma tables_defined : exists tables vt0 vt,
    partition_all s (length (a_nodes a)) (length (a_nodesets a)) gs = Val tables /\
    collect_all s (length (a_nodes a)) (length (a_nodesets a)) gs tables = Val vt0 /\
    generate_empty_visits (a_nodes a) (a_nodesets a) lits vt0 = Val vt.
  Proof.
    destruct (before_scheduling_input a s lits P U B) as (G & _ & Lit & Mem & _).
    destruct (partitions_right a s lits shuffle ty P U B Sh Ty gs R ps Pr) as (tables & vt0 & E1 & E2 & H1 & H2 & _).
    assert (X : forall t, visits_of vt0 t <> None <-> has_production ps t).
    { intros t. rewrite H2. change (visits_of_type vt0 t) with (visits_of vt0 t). destruct (visits_of vt0 t); split; try congruence; eauto.
      intros (vs & Q). discriminate. }
    destruct (generate_empty_visits_defined (a_nodes a) (a_nodesets a) lits vt0) as (vt & E3).
    - intros t Ht. apply X in Ht. destruct Ht as (p & Ip & Rp). destruct t as [i|j].
      + destruct (pr_only _ _ _ _ _ Pr p Ip) as [(i' & n & Hn & N)|(j & m & Hm & M)].
        2: { rewrite (mp_root _ _ _ _ M) in Rp. discriminate. }
        rewrite (np_root _ _ _ _ _ _ N) in Rp. injection Rp as ->. exists n. split; [exact Hn|]. intros k Lk.
        destruct (nth_error (nd_children n) k) as [c|] eqn:Hc; [|apply nth_error_None in Hc; lia].
        destruct (get_node_type (a_nodes a) (a_nodesets a) (OChild i k)) as [t|] eqn:T.
        * exists t. split; [reflexivity|]. apply X. apply (Types i n (OChild i k) t Hn).
          -- unfold children. apply in_map. apply in_seq. lia.
          -- rewrite (typing_gnt a s lits ty P U B Ty). exact T.
        * exfalso. cbn [get_node_type] in T. rewrite Hn, Hc in T.
          exact (find_type_defined _ _ _ G n c (nth_error_In _ _ Hn) (nth_error_In _ _ Hc) T).
      + destruct (pr_only _ _ _ _ _ Pr p Ip) as [(i' & n & Hn & N)|(j' & m & Hm & M)].
        { rewrite (np_root _ _ _ _ _ _ N) in Rp. discriminate. }
        rewrite (mp_root _ _ _ _ M) in Rp. injection Rp as ->. apply Mem in Hm. destruct Hm as (lit & _ & Hlit & _).
        exists lit. split; [exact Hlit|]. intros r Ir. destruct (Lit lit r (nth_error_In _ _ Hlit) Ir) as (n & In0 & Sn).
        apply In_nth_error in In0. destruct In0 as (m' & Hm'). exists m'. split; [apply (find_node_iff _ _ _ G); eauto|].
        apply X. apply node_production_type. apply nth_error_Some. congruence.
    - exists tables, vt0, vt. auto.
  Qed.

  Theorem success : exists vt, (forall max vt' all, SAVvisits (a_nodes a) (a_nodesets a) s lits max gs = Val (vt', all) -> vt' = vt) /\
    ((forall i n o, nth_error (a_nodes a) i = Some n -> In o (children i n) -> leading_member a lits ty vt o) ->
     (forall max, (exists all, SAVvisits (a_nodes a) (a_nodesets a) s lits max gs = Val (vt, all)) \/
        SAVvisits (a_nodes a) (a_nodesets a) s lits max gs = Exited) /\
     ((forall i n p, nth_error (a_nodes a) i = Some n -> In p ps ->
         node_production (a_nodes a) (a_nodesets a) (attributes_of s) i n p ->
         exists rank, order (OType (TNode i)) (children i n) (visits_by ty vt) (fun x y => x <> y /\ depends_on ty ps p x y) rank) ->
      exists m, forall max, m <= max -> exists all, SAVvisits (a_nodes a) (a_nodesets a) s lits max gs = Val (vt, all))).
  Proof.
    destruct tables_defined as (tables & vt0 & vt & E1 & E2 & E3). exists vt.
    split; [|intros Lead; split].
    - intros max vt' all V. destruct (SAVvisits_parts max vt' all V) as (tables' & vt0' & E1' & E2' & E3' & _). congruence.
    - intros max. unfold SAVvisits. rewrite E1. cbn [bind]. rewrite E2. cbn [bind]. rewrite E3. cbn [bind].
      assert (X : forall l i, (forall k n, nth_error l k = Some n -> nth_error (a_nodes a) (i + k) = Some n) ->
                (exists r, generate_all (a_nodes a) (a_nodesets a) s lits max vt gs i l = Val r) \/
                generate_all (a_nodes a) (a_nodesets a) s lits max vt gs i l = Exited).
      { intros l. induction l as [|n l IH]; intros i Hl; cbn [generate_all]; [left; eauto|].
        assert (Hn := Hl 0 n eq_refl). rewrite Nat.add_0_r in Hn.
        destruct (pr_nodes _ _ _ _ _ Pr i n Hn) as (p & Ip & Np).
        destruct (proj1 (has_production_graph a s lits shuffle ty P U B Sh Ty gs R ps Pr (TNode i))) as (g & Fg).
        { exists p. split; [exact Ip|]. apply (np_root _ _ _ _ _ _ Np). }
        rewrite Fg.
        destruct (node_defined a s lits shuffle ty P U B Sh Ty gs R ps Pr tables vt0 vt E1 E2 E3 i n p g Hn Ip Np Fg Once
                    (fun o t => Types i n o t Hn) (fun o => Lead i n o Hn) max) as [(r & ->)| ->]; [|right; reflexivity].
        cbn [bind]. destruct (IH (S i)) as [(r' & ->)| ->]; [|left; cbn [bind]; eauto|right; reflexivity].
        intros k n' Hk. replace (S i + k) with (i + S k) by lia. apply Hl. exact Hk. }
      destruct (X (a_nodes a) 0) as [(r & ->)| ->]; [intros k n Hk; exact Hk|left; cbn [bind]; eauto|right; reflexivity].
    - intros Or. unfold SAVvisits. rewrite E1. cbn [bind]. rewrite E2. cbn [bind]. rewrite E3. cbn [bind].
      assert (X : forall l i, (forall k n, nth_error l k = Some n -> nth_error (a_nodes a) (i + k) = Some n) ->
                exists m, forall max, m <= max -> exists r, generate_all (a_nodes a) (a_nodesets a) s lits max vt gs i l = Val r).
      { intros l. induction l as [|n l IH]; intros i Hl; cbn [generate_all]; [exists 0; eauto|].
        assert (Hn := Hl 0 n eq_refl). rewrite Nat.add_0_r in Hn.
        destruct (pr_nodes _ _ _ _ _ Pr i n Hn) as (p & Ip & Np).
        destruct (proj1 (has_production_graph a s lits shuffle ty P U B Sh Ty gs R ps Pr (TNode i))) as (g & Fg).
        { exists p. split; [exact Ip|]. apply (np_root _ _ _ _ _ _ Np). }
        rewrite Fg. destruct (Or i n p Hn Ip Np) as (rank & Ork).
        destruct (node_complete a s lits shuffle ty P U B Sh Ty gs R ps Pr tables vt0 vt E1 E2 E3 i n p g Hn Ip Np Fg Once
                    (fun o t => Types i n o t Hn) (fun o => Lead i n o Hn) rank Ork) as (m1 & H1).
        destruct (IH (S i)) as (m2 & H2).
        { intros k n' Hk. replace (S i + k) with (i + S k) by lia. apply Hl. exact Hk. }
        exists (m1 + m2). intros max L. destruct (H1 max) as (r & ->); [lia|]. cbn [bind]. destruct (H2 max) as (r' & ->); [lia|]. cbn [bind]. eauto. }
      destruct (X (a_nodes a) 0) as (m & Hm); [intros k n Hk; exact Hk|]. exists m. intros max L. destruct (Hm max L) as (r & ->). cbn [bind]. eauto.
  Qed.
End Whole.
