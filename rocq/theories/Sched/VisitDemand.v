(** The sequences compute only what is wanted, and with an order of the visits
    of the node itself never an attribute the node gets from its parent (C58). *)

From Coq Require Import List Ascii Bool Arith Lia Permutation.
From Verif Require Import Sched.GraphModel Sched.GraphSpec Sched.GraphProof Sched.ScheduleModel Sched.ScheduleSpec Sched.ScheduleProof
  Sched.CycleProof Sched.PartitionModel Sched.PartitionSpec Sched.PartitionGrammar
  Sched.VisitModel Sched.VisitSpec Sched.VisitProof Sched.VisitComplete Sched.VisitGrammar.
From Verif Require Import Base.Outcome Palm.StrModel Front.Syntax Front.SetsSpec Front.NodesetTableModel Front.PropagateModel Front.PropagateSpec
  Front.NodesetPassesProof Front.ProductRulesModel Front.ProductRulesProof Sched.FrontendModel Sched.FrontendProof.
Import ListNotations.
Local Open Scope outcome_scope.

Section Node.
  Variable nodes : list inode.
  Variable sets : list inodeset.
  Variable attrs : pra.
  Variable literals : list literal.
  Variable vt : visits_table.
  Variable g : ag_graph.
  Variable i : nat.
  Variable n : inode.
  Notation node := (OType (TNode i)).
  Notation kids := (kids i n).
  Notation child_visits := (child_visits nodes sets vt).
  Notation sched_equation_dependency := (sched_equation_dependency nodes sets attrs vt node).
  Notation sched_attributes := (sched_attributes nodes sets attrs vt node).
  Notation sched_dependencies := (sched_dependencies nodes sets attrs vt g node).
  Notation mark_scheduled := (mark_scheduled nodes sets vt g).
  Notation make_entry := (make_entry nodes sets attrs literals vt node).
  Notation add_visit_sequence := (add_visit_sequence nodes sets attrs literals vt node).
  Notation visit_loop := (visit_loop nodes sets attrs literals vt g node).
  Notation dependencies := (GRget_node_dependencies occurrence_dec aptr_dec g).
  Notation supplied := (supplied nodes sets attrs vt i).
  Notation requires := (requires nodes sets attrs vt g i).
  Notation good := (good nodes sets attrs vt g i n).

  (** What is added to the queue is required. *)
  Lemma equation_adds : forall w x w', sched_equation_dependency w x = Val w' ->
    forall y, In y (fst w') -> In y (fst w) \/ supplied x y.
  Proof.
    intros [q qd] x w' H y I. unfold VisitModel.sched_equation_dependency in H.
    destruct (attribute_at attrs (snd x)) as [d|] eqn:D; [|discriminate].
    destruct (occurrence_dec (fst x) node) as [E|E]; cbn [negb andb] in H.
    - injection H as <-. destruct (item_in (IEval x) qd); cbn [fst] in *; [auto|]. apply in_app_iff in I. destruct I as [I|[<-|[]]]; [auto|].
      right. left. auto.
    - destruct (at_is_synthesized d) eqn:Sy; cbn [andb] in H.
      + destruct (child_visits (fst x)) as [vs| | | |] eqn:C; try discriminate. cbn [bind] in H.
        destruct (find_visit vs 0 (snd x)) as [k|] eqn:F; [|discriminate]. injection H as <-.
        destruct (item_in _ qd); cbn [fst] in *; [auto|]. apply in_app_iff in I. destruct I as [I|[<-|[]]]; [auto|].
        right. right. split; [exact E|]. exists vs, k. auto.
      + injection H as <-. destruct (item_in (IEval x) qd); cbn [fst] in *; [auto|]. apply in_app_iff in I. destruct I as [I|[<-|[]]]; [auto|].
        right. left. split; [right; intros d' D'; congruence|reflexivity].
  Qed.
  Lemma attributes_add : forall S l w b w' b', sched_attributes S w b l = Val (w', b') ->
    forall y, In y (fst w') -> In y (fst w) \/ exists x, In x l /\ supplied x y.
  Proof.
    intros S l. induction l as [|x l IH]; intros w b w' b' H y I; cbn [VisitModel.sched_attributes] in H; [injection H as <- <-; auto|].
    destruct (item_in (IEval x) S).
    - destruct (IH _ _ _ _ H y I) as [J|(u & Iu & Su)]; [auto|]. right. exists u. split; [right; exact Iu|exact Su].
    - destruct (sched_equation_dependency w x) as [w1| | | |] eqn:E; try discriminate. cbn [bind] in H.
      destruct (IH _ _ _ _ H y I) as [J|(u & Iu & Su)].
      + destruct (equation_adds _ _ _ E y J) as [K|K]; [auto|]. right. exists x. split; [left; reflexivity|exact K].
      + right. exists u. split; [right; exact Iu|exact Su].
  Qed.
  Lemma previous_adds : forall S o l w b w' b', sched_previous S o w b l = (w', b') ->
    forall y, In y (fst w') -> In y (fst w) \/ exists k, In k l /\ y = IVisit o k.
  Proof.
    intros S o l. induction l as [|k l IH]; intros w b w' b' H y I; cbn [sched_previous] in H; [injection H as <- <-; auto|].
    destruct (item_in (IVisit o k) S).
    - destruct (IH _ _ _ _ H y I) as [J|(u & Iu & Su)]; [auto|]. right. exists u. split; [right; exact Iu|exact Su].
    - destruct w as [q qd]. destruct (IH _ _ _ _ H y I) as [J|(u & Iu & Su)].
      + destruct (item_in (IVisit o k) qd); cbn [fst] in J; [auto|]. apply in_app_iff in J. destruct J as [J|[<-|[]]]; [auto|].
        right. exists k. split; [left; reflexivity|reflexivity].
      + right. exists u. split; [right; exact Iu|exact Su].
  Qed.
  Lemma dependencies_add : forall S w x w' b, sched_dependencies S w x = Val (w', b) ->
    forall y, In y (fst w') -> In y (fst w) \/ requires x y.
  Proof.
    intros S w x w' b H y I. destruct x as [x|o k]; cbn [VisitModel.sched_dependencies VisitComplete.requires] in *.
    - exact (attributes_add _ _ _ _ _ _ H y I).
    - destruct (child_visits o) as [vs| | | |] eqn:C; try discriminate. cbn [bind] in H.
      destruct (nth_error vs k) as [v|] eqn:V; [|discriminate].
      destruct (sched_previous S o w false (seq 0 k)) as [w1 b1] eqn:P.
      destruct (lookup_all g o (v_inputs v)) as [ins| | | |] eqn:L; try discriminate. cbn [bind] in H.
      apply lookup_all_map in L. destruct L as [-> _].
      destruct (attributes_add _ _ _ _ _ _ H y I) as [J|(u & Iu & Su)].
      + destruct (previous_adds _ _ _ _ _ _ _ P y J) as [K|(j & Ij & ->)]; [auto|]. right. left. exists j. apply in_seq in Ij. split; [lia|reflexivity].
      + right. right. apply in_map_iff in Iu. destruct Iu as (z & <- & Iz). exists vs, v, z. auto.
  Qed.

  (** Whatever is wanted and closed under [requires]: nothing else is made. *)
  Variable wanted : item -> Prop.
  Hypothesis Closed : forall x y, wanted x -> requires x y -> wanted y.

  Lemma entry_item : forall x e, make_entry x = Val (Some e) -> action_of e = of_item x.
  Proof.
    intros [x|o k] e H; cbn [VisitModel.make_entry] in H.
    - destruct (attribute_at attrs (snd x)) as [d|]; [|discriminate]. destruct (negb _ && _); [discriminate|]. injection H as <-. reflexivity.
    - destruct (get_node_type nodes sets o) as [[m|j]|]; [injection H as <-; reflexivity| |discriminate].
      destruct (nth_error literals j) as [l|]; [|discriminate]. destruct (nodeset_alternatives nodes vt k l) as [r| | | |]; try discriminate.
      cbn [bind] in H. destruct r; [discriminate|]. injection H as <-. reflexivity.
  Qed.
  Lemma add_adds : forall l x l', add_visit_sequence l x = Val l' -> forall e, In e l' -> In e l \/ action_of e = of_item x.
  Proof.
    intros l x l' H e I. unfold VisitModel.add_visit_sequence in H. destruct (make_entry x) as [[y|]| | | |] eqn:E; try discriminate; cbn [bind] in H.
    - unfold append_entry in H. destruct (rev l) as [|z r].
      + injection H as <-. destruct I as [<-|[]]. right. exact (entry_item _ _ E).
      + destruct (is_dummy z); [discriminate|]. injection H as <-. apply in_app_iff in I. destruct I as [I|[<-|[]]]; [auto|].
        right. exact (entry_item _ _ E).
    - injection H as <-. auto.
  Qed.
  Lemma mark_keeps : forall S x S', mark_scheduled S x = Val S' -> forall z, In z S -> In z S'.
  Proof.
    intros S x S' H z I. destruct x as [x|o k]; cbn [VisitModel.mark_scheduled] in H; [injection H as <-; right; exact I|].
    destruct (child_visits o) as [vs| | | |]; try discriminate. cbn [bind] in H. destruct (nth_error vs k) as [v|]; [|discriminate].
    destruct (lookup_all g o (v_outputs v)) as [outs| | | |]; try discriminate. cbn [bind] in H. injection H as <-. right. apply in_app_iff. auto.
  Qed.

  Lemma loop_wanted : forall iter S q qd l S' l', visit_loop iter S (q, qd) l = Val (S', l') ->
    (forall x, In x q -> wanted x) ->
    (forall z, In z S -> In z S') /\
    forall e, In e l' -> In e l \/ exists x, wanted x /\ ~ In x S /\ action_of e = of_item x.
  Proof.
    intros iter. induction iter as [|iter IH]; intros S q qd l S' l' H W; cbn [VisitModel.visit_loop] in H;
      destruct (drop_scheduled_right S q) as (dr & Q & D & Nd); destruct (drop_scheduled S q) as [|x r] eqn:E;
      try discriminate; try (injection H as <- <-; split; [auto|intros e Ie; left; exact Ie]).
    destruct (sched_dependencies S (r, qd) x) as [[[q1 qd1] b]| | | |] eqn:SD; try discriminate. cbn [bind] in H.
    assert (Wx : wanted x) by (apply W; rewrite Q; apply in_app_iff; right; left; reflexivity).
    assert (Wq : forall y, In y q1 -> wanted y).
    { intros y Iy. destruct (dependencies_add _ _ _ _ _ SD y Iy) as [J|J]; [|exact (Closed x y Wx J)].
      apply W. rewrite Q. apply in_app_iff. right. right. exact J. }
    destruct b.
    - apply (IH _ _ _ _ _ _ H). intros y Iy. apply in_app_iff in Iy. destruct Iy as [Iy|[<-|[]]]; auto.
    - destruct (mark_scheduled S x) as [S1| | | |] eqn:M; try discriminate. cbn [bind] in H.
      destruct (add_visit_sequence l x) as [l1| | | |] eqn:A; try discriminate. cbn [bind] in H.
      destruct (IH _ _ _ _ _ _ H Wq) as [K1 K2]. split; [intros z Iz; apply K1; exact (mark_keeps _ _ _ M z Iz)|].
      intros e Ie. destruct (K2 e Ie) as [J|(y & Wy & Ny & Ay)].
      + destruct (add_adds _ _ _ A e J) as [J'|J']; [auto|]. right. exists x. split; [exact Wx|]. split; [exact (Nd x r eq_refl)|exact J'].
      + right. exists y. split; [exact Wy|]. split; [|exact Ay]. intros Iy. apply Ny. exact (mark_keeps _ _ _ M y Iy).
  Qed.
End Node.

Section Ranked.
  Variable nodes : list inode.
  Variable sets : list inodeset.
  Variable attrs : pra.
  Variable literals : list literal.
  Variable vt : visits_table.
  Variable g : ag_graph.
  Variable i : nat.
  Variable n : inode.
  Notation node := (OType (TNode i)).
  Notation kids := (kids i n).
  Notation child_visits := (child_visits nodes sets vt).
  Notation supplied := (supplied nodes sets attrs vt i).
  Notation requires := (requires nodes sets attrs vt g i).
  Notation good := (good nodes sets attrs vt g i n).

  Hypothesis Hvertices : forall x, In x (g_nodes g) -> fst x = node \/ In (fst x) kids.
  Hypothesis Hlookup : forall o vs v y, In o kids -> child_visits o = Val vs -> In v vs ->
    In y (v_inputs v ++ v_outputs v) -> In (o, snd y) (g_nodes g).

  Lemma supplied_good : forall x y, In x (g_nodes g) -> supplied x y -> good y.
  Proof.
    intros x y Ix [(H & ->)|(Nx & vs & k & C & F & ->)].
    - split; [|intros o k Q; discriminate]. split; [exact Ix|exact H].
    - split; [destruct (Hvertices x Ix); [contradiction|assumption]|]. intros o k' Q. injection Q as <- <-. exists vs. split; [exact C|].
      destruct (find_visit_some vs 0 _ k F) as (_ & _ & _ & L & _). exact L.
  Qed.
  Lemma requires_good : forall x y, good x -> requires x y -> good y.
  Proof.
    intros x y [Gx Vx] R. destruct x as [x|o k]; cbn [VisitComplete.requires] in R.
    - destruct R as (u & Iu & Su). apply (supplied_good u y); [|exact Su].
      unfold GRget_node_dependencies in Iu. apply in_rev in Iu. apply filter_In in Iu. apply Iu.
    - cbn [VisitProof.good_item] in Gx. destruct R as [(j & Lj & ->)|(vs & v & u & C & Hv & Iu & Su)].
      + split; [exact Gx|]. intros o' k' Q. injection Q as <- <-. destruct (Vx o k eq_refl) as (vs & C & L). exists vs. split; [exact C|lia].
      + apply (supplied_good _ _ (Hlookup o vs v u Gx C (nth_error_In _ _ Hv) (in_or_app _ _ _ (or_introl Iu))) Su).
  Qed.

  Variable rank : item -> nat.
  Hypothesis Hrank : forall x y, good x -> requires x y -> rank y < rank x.
  Variable visits : list visit.
  Hypothesis Hproper : forall v, In v visits -> proper_visit g i v.
  (** What a later visit of the node takes comes after what an earlier one
      delivers. *)
  Hypothesis Hown : forall pre v post o c w, visits = pre ++ v :: post -> In o (v_outputs v) -> In w post -> In c (v_inputs w) ->
    rank (IEval o) < rank (IEval c).

  Lemma own_not_computed : forall max vs pre S res, visits = pre ++ vs ->
    generate_sequences nodes sets attrs literals vt g node max i n S vs = Val res ->
    (forall v x, In v pre -> In x (v_inputs v) -> In (IEval x) S) ->
    forall r x w, In r res -> In (EEval x) (snd r) -> In w visits -> ~ In x (v_inputs w).
  Proof.
    intros max vs. induction vs as [|v vs IH]; intros pre S res Ev H HS r x w Ir Ix Iw Iin; cbn [generate_sequences] in H.
    { injection H as <-. destruct Ir. }
    destruct (generate_visit nodes sets attrs literals vt g node max i n S v _) as [[S' l']| | | |] eqn:Eg; try discriminate. cbn [bind fst snd] in H.
    destruct (generate_sequences nodes sets attrs literals vt g node max i n S' vs) as [rest| | | |] eqn:Er; try discriminate. cbn [bind] in H.
    injection H as <-. unfold generate_visit in Eg.
    assert (Here : forall v' y, In v' (pre ++ [v]) -> In y (v_inputs v') -> In (IEval y) (map IEval (v_inputs v) ++ S)).
    { intros v' y Iv' Iy. apply in_app_iff in Iv'. apply in_app_iff. destruct Iv' as [Iv'|[<-|[]]]; [right; exact (HS v' y Iv' Iy)|left; apply in_map; exact Iy]. }
    destruct vs as [|v2 vs].
    - destruct (all_child_visits nodes sets vt i 0 (nd_children n)) as [more| | | |]; try discriminate. cbn [bind] in Eg.
      destruct (loop_wanted nodes sets attrs literals vt g i (fun _ => True) (fun _ _ _ _ => I) _ _ _ _ _ _ _ Eg (fun _ _ => I)) as [_ K].
      cbn in Er. injection Er as <-. destruct Ir as [<-|[]]. cbn [snd] in Ix. destruct (K _ Ix) as [[]|(y & _ & Ny & Ay)].
      destruct y as [y|]; [|discriminate]. cbn in Ay. injection Ay as <-. apply Ny. apply (Here w x); [|exact Iin]. rewrite <- Ev. exact Iw.
    - cbn [bind] in Eg. rewrite app_nil_r in Eg.
      pose (wanted := fun x => good x /\ exists o, In o (v_outputs v) /\ rank x <= rank (IEval o)).
      assert (Cl : forall x y, wanted x -> requires x y -> wanted y).
      { intros z y (Gz & o & Io & Lo) Rz. split; [exact (requires_good z y Gz Rz)|]. exists o. split; [exact Io|]. specialize (Hrank z y Gz Rz). lia. }
      destruct (loop_wanted nodes sets attrs literals vt g i wanted Cl _ _ _ _ _ _ _ Eg) as [K1 K].
      { intros z Iz. apply in_map_iff in Iz. destruct Iz as (o & <- & Io). 
        destruct (Hproper v) with (x := o) as [O1 O2]; [rewrite Ev; apply in_app_iff; right; left; reflexivity|exact Io|].
        split; [split; [split; [exact O2|left; exact O1]|intros ? ? Q; discriminate]|]. exists o. auto. }
      destruct Ir as [<-|Ir].
      + cbn [snd] in Ix. destruct (K _ Ix) as [[]|(y & (Gy & o & Io & Lo) & Ny & Ay)].
        destruct y as [y|]; [|discriminate]. cbn in Ay. injection Ay as <-.
        rewrite Ev in Iw. apply in_app_iff in Iw. destruct Iw as [Iw|[<-|Iw]].
        * apply Ny. apply (Here w x); [apply in_app_iff; auto|exact Iin].
        * apply Ny. apply (Here v x); [apply in_app_iff; right; left; reflexivity|exact Iin].
        * specialize (Hown pre v (v2 :: vs) o x w Ev Io Iw Iin). lia.
      + apply (IH (pre ++ [v]) S' rest) with (r := r) (x := x) (w := w); auto.
        * rewrite <- app_assoc. exact Ev.
        * intros v' y Iv' Iy. apply K1. exact (Here v' y Iv' Iy).
  Qed.
End Ranked.

(** An order of all actions, in which also the visits of the node itself come
    one after the other ([own_order] in VisitSpec.v). *)
Section Whole.
  Variable a : ast.
  Variable s : pra.
  Variable lits : list literal.
  Variable shuffle : list (graph_key * ag_graph) -> list (graph_key * ag_graph).
  Variable ty : occurrence -> option target.
  Hypothesis P : parsed_ast a.
  Hypothesis U : unmarked a.
  Hypothesis B : before_scheduling a = Val (s, lits).
  Hypothesis Sh : forall l, Permutation (shuffle l) l.
  Hypothesis Ty : typing (a_nodes a) (a_nodesets a) ty.
  Variable gs : list (graph_key * ag_graph).
  Hypothesis R : dependency_graphs shuffle a = Val (gs, []).
  Variable ps : list (production occurrence aptr).
  Hypothesis Pr : productions (a_nodes a) (a_nodesets a) (attributes_of s) (member_of a) ps.
  Hypothesis Types : forall i n o t, nth_error (a_nodes a) i = Some n -> In o (children i n) -> ty o = Some t -> has_production ps t.
  Variable max : nat.
  Variable vt : visits_table.
  Variable all : list (list (visit * list entry)).
  Hypothesis V : SAVvisits (a_nodes a) (a_nodesets a) s lits max gs = Val (vt, all).

  Theorem own_inherited : forall i n p res rank, nth_error (a_nodes a) i = Some n -> In p ps ->
    node_production (a_nodes a) (a_nodesets a) (attributes_of s) i n p -> nth_error all i = Some res ->
    order (OType (TNode i)) (children i n) (visits_by ty vt) (fun x y => x <> y /\ depends_on ty ps p x y) rank ->
    own_order (OType (TNode i)) (visits_by ty vt) rank ->
    forall r x, In r res -> In (EEval x) (snd r) -> fst x = OType (TNode i) ->
    synthesized (attributes_of s) (snd x) /\ ~ inherited (attributes_of s) (snd x).
  Proof.
    intros i n p res rank Hn Ip Np Hr Or Own r x Ir Ix Fx.
    destruct (SAVvisits_parts a s lits gs max vt all V) as (tables & vt0 & E1 & E2 & E3 & E4).
    destruct (generate_all_right a s lits gs vt max _ 0 all E4) as [_ X]. destruct (X i n Hn) as (g & res' & Fg & Hr' & E). cbn [Nat.add] in *.
    rewrite Hr in Hr'. injection Hr' as <-.
    assert (T := table_right a s lits shuffle ty P U B Sh Ty gs R ps Pr tables vt0 vt E1 E2 E3).
    unfold generate_visits in E. destruct (visits_of vt (TNode i)) as [vs|] eqn:Q; [|discriminate].
    assert (Vf := vertex_facts a s lits shuffle ty P U B Sh Ty gs R ps Pr i n p g Hn Ip Np Fg).
    assert (Pv := own_visits a s lits shuffle ty P U B Sh Ty gs R ps Pr tables vt0 vt E1 E2 E3 i n p g Hn Ip Np Fg vs Q).
    destruct (proj2 T _ vs Q) as (T1 & T2 & T3 & T4).
    assert (Vx : In x (g_nodes g)).
    { apply (node_evaluates (a_nodes a) (a_nodesets a) s lits vt g i n) with (max := max) (vs := vs) (res := res).
      - exact (set_has_members a s lits shuffle ty P U B Sh Ty gs R ps Pr tables vt0 vt E1 E2 E3).
      - intros y Iy. apply (Vf y Iy).
      - intros v y Iv Iy. apply (T1 v y Iv Iy).
      - intros v y Iv Iy. apply (Pv v Iv y Iy).
      - exact E.
      - apply in_concat. exists (map action_of (snd r)). split.
        + unfold sequences. apply (in_map (fun r => map action_of (snd r))). exact Ir.
        + change (Evaluate x) with (action_of (EEval x)). apply in_map. exact Ix. }
    destruct (Vf x Vx) as (_ & _ & Tx & Gx). rewrite Fx in Tx. cbn [get_node_type] in Tx.
    assert (Tb : TNode i = fst (snd x)) by congruence.
    cut (~ inherited (attributes_of s) (snd x)); [intros N; split; [destruct Gx; [contradiction|assumption]|exact N]|]. intros Inh.
    destruct (T4 (snd x) (conj (eq_sym Tb) Gx)) as (w & y & Iw & Iy & Qy).
    assert (Oy : fst y = OType (TNode i)) by (apply (T1 w y Iw Iy)).
    assert (Qx : y = x) by (destruct x, y; cbn [fst snd] in *; congruence). subst y.
    apply in_app_iff in Iy. destruct Iy as [Iy|Iy]; [|exact (T3 w x Iw Iy Inh)].
    refine (own_not_computed (a_nodes a) (a_nodesets a) s lits vt g i n _ _ (fun x => rank (of_item x)) _ vs Pv _ max vs [] [] res eq_refl E _ r x w Ir Ix Iw Iy).
    - intros z Iz. apply (Vf z Iz).
    - exact (child_lookup a s lits shuffle ty P U B Sh Ty gs R ps Pr tables vt0 vt E1 E2 E3 i n p g Hn Ip Np Fg (fun o t => Types i n o t Hn)).
    - exact (requires_ranked a s lits shuffle ty P U B Sh Ty gs R ps Pr tables vt0 vt E1 E2 E3 i n p g Hn Ip Np Fg (fun o t => Types i n o t Hn) rank Or).
    - intros pre v post o c w' Ev Io Iw' Ic. apply In_nth_error in Iw'. destruct Iw' as (k & Hk). cbn [of_item].
      assert (Vb : visits_by ty vt (OType (TNode i)) = map attributes_only vs).
      { unfold visits_by. assert (Q' : ty (OType (TNode i)) = Some (TNode i)) by (apply Ty; reflexivity). rewrite Q', Q. reflexivity. }
      assert (Iv : In v vs) by (rewrite Ev; apply in_app_iff; right; left; reflexivity).
      assert (Iw2 : In w' vs) by (rewrite Ev; apply in_app_iff; right; right; exact (nth_error_In _ _ Hk)).
      assert (Oo : fst o = OType (TNode i)) by (apply (T1 v o Iv); apply in_app_iff; auto).
      assert (Oc : fst c = OType (TNode i)) by (apply (T1 w' c Iw2); apply in_app_iff; auto).
      assert (Z := Own (length pre) (length pre + S k) (attributes_only v) (attributes_only w') (snd o) (snd c)).
      rewrite Vb in Z. rewrite !nth_error_map, Ev in Z. rewrite nth_error_app2 in Z by lia. rewrite nth_error_app2 in Z by lia.
      rewrite Nat.sub_diag in Z. replace (length pre + S k - length pre) with (S k) in Z by lia. cbn [nth_error] in Z. rewrite Hk in Z.
      specialize (Z ltac:(lia) eq_refl eq_refl (in_map snd _ _ Io) (in_map snd _ _ Ic)).
      rewrite <- Oo in Z at 1. rewrite <- Oc in Z. rewrite <- !surjective_pairing in Z. exact Z.
    - intros v y [].
  Qed.
End Whole.
