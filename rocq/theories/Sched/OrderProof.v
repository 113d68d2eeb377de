(** The order in which the table of graphs is iterated does not matter: neither
    for whether a specification is accepted, nor for its visits (C62). *)

From Coq Require Import List Ascii Bool Arith Lia Permutation.
From Verif Require Import Sched.GraphModel Sched.GraphSpec Sched.GraphProof Sched.TreeProof Sched.InduceProof
  Sched.ScheduleModel Sched.ScheduleSpec Sched.ScheduleProof Sched.ScheduleGraphs Sched.PartitionModel
  Sched.PartitionSpec Sched.PartitionProof.
From Verif Require Import Base.Outcome Palm.StrModel Front.Syntax Front.SetsSpec Front.PropagateModel Front.PropagateSpec
  Front.PropagateProof Front.NodesetPassesProof Front.ProductRulesModel Front.ProductRulesProof Sched.FrontendModel Sched.FrontendProof
  Sched.CycleProof Sched.PartitionGrammar Sched.VisitModel.
Import ListNotations.
Local Open Scope outcome_scope.

Lemma Val_inj : forall {A} (x y : A), Val x = Val y -> x = y.
Proof. congruence. Qed.

(** ** Where the graphs come from *)
Section Sources.
  Variable nodes : list inode.
  Variable sets : list inodeset.
  Variable attrs : pra.
  Variable literals : list literal.

  Definition source (kg : graph_key * ag_graph) : Prop :=
    match fst kg with
    | KNode i => exists n st, nth_error nodes i = Some n /\ generate_graph_node nodes sets attrs i n = Val st /\ snd kg = b_graph st
    | KMember j m => exists base st, generate_graph_member attrs j m base = Val st /\ snd kg = b_graph st
    end.

  Lemma node_graphs_source : forall l i pending gs pend errs, (forall k n, nth_error l k = Some n -> nth_error nodes (i + k) = Some n) ->
    node_graphs nodes sets attrs i l pending = Val (gs, pend, errs) -> forall kg, In kg gs -> source kg.
  Proof.
    induction l as [|n l IH]; intros i pending gs pend errs H E kg I; cbn [node_graphs] in E.
    { injection E as <- _ _. destruct I. }
    destruct (generate_graph_node nodes sets attrs i n) as [[[g ed] er]| | | |] eqn:G; try discriminate E. cbn [bind] in E.
    destruct (node_graphs _ _ _ _ l _) as [[[gs' p'] er']| | | |] eqn:R; try discriminate E. cbn [bind] in E. injection E as <- _ _.
    destruct I as [<-|I].
    - unfold source. cbn [fst snd]. exists n, (g, ed, er). split; [|split; [exact G|reflexivity]].
      rewrite <- (H 0 n eq_refl). f_equal. lia.
    - refine (IH (S i) _ _ _ _ _ R kg I). intros k m K. rewrite <- (H (S k) m K). f_equal. lia.
  Qed.
  Lemma member_graphs_source : forall j entries graphs edges errs gs ed er,
    generate_member_graphs attrs j entries graphs edges errs = Val (gs, ed, er) ->
    (forall m g, In (m, g) graphs -> source (KMember j m, g)) -> forall m g, In (m, g) gs -> source (KMember j m, g).
  Proof.
    intros j. induction entries as [|m0 entries IH]; intros graphs edges errs gs ed er E H; cbn [generate_member_graphs] in E.
    { injection E as <- _ _. exact H. }
    destruct (generate_graph_member attrs j m0 edges) as [[[g ed'] er']| | | |] eqn:G; try discriminate E. cbn [bind] in E.
    apply (IH _ _ _ _ _ _ E). intros m g' [I|I]; [|exact (H m g' I)]. injection I as <- <-.
    unfold source. cbn [fst snd]. exists edges, (g, ed', er'). auto.
  Qed.
  Lemma nodeset_graphs_source : forall l j pending gs pend errs,
    nodeset_graphs nodes sets attrs j l pending = Val (gs, pend, errs) -> forall kg, In kg gs -> source kg.
  Proof.
    induction l as [|lit l IH]; intros j pending gs pend errs E kg I; cbn [nodeset_graphs] in E.
    { injection E as <- _ _. destruct I. }
    unfold generate_graph_nodeset in E.
    destruct (add_nodeset_entries nodes lit []) as [entries| | | |]; try discriminate E. cbn [bind] in E.
    destruct (generate_member_graphs attrs j entries [] [] []) as [[[g ed] er]| | | |] eqn:G; try discriminate E. cbn [bind] in E.
    destruct (nodeset_graphs _ _ _ _ l _) as [[[gs' p'] er']| | | |] eqn:R; try discriminate E. cbn [bind] in E. injection E as <- _ _.
    apply in_app_iff in I. destruct I as [I|I]; [|exact (IH _ _ _ _ _ R kg I)].
    apply in_map_iff in I. destruct I as ([m g'] & <- & I). cbn [fst snd].
    apply (member_graphs_source _ _ _ _ _ _ _ _ G); [intros ? ? []|exact I].
  Qed.
  Lemma first_graphs_source : forall gs errs, first_graphs nodes sets attrs literals = Val (gs, errs) ->
    forall kg, In kg gs -> source kg.
  Proof.
    intros gs errs E kg I. unfold first_graphs in E.
    destruct (node_graphs nodes sets attrs 0 nodes []) as [[[g1 p1] e1]| | | |] eqn:R1; try discriminate E. cbn [bind] in E.
    destruct (nodeset_graphs nodes sets attrs 0 literals p1) as [[[g2 p2] e2]| | | |] eqn:R2; try discriminate E. cbn [bind] in E.
    injection E as <- _. apply in_app_iff in I. destruct I as [I|I].
    - refine (node_graphs_source _ _ _ _ _ _ _ R1 kg I). auto.
    - exact (nodeset_graphs_source _ _ _ _ _ _ R2 kg I).
  Qed.

  (** The vertices of the nodeset itself are the same in the graphs of all
      members. *)
  Lemma filter_other : forall j g o a, o <> OType (TSet j) ->
    filter (is_of (OType (TSet j))) (g_nodes (find_or_add g o a)) = filter (is_of (OType (TSet j))) (g_nodes g).
  Proof.
    intros j g o a N. unfold find_or_add. destruct (GRlookup_node _ _ g o a); [reflexivity|]. cbn [GRadd_node g_nodes].
    rewrite filter_app. cbn [filter]. unfold is_of at 2. cbn [fst]. destruct (occurrence_dec o (OType (TSet j))); [contradiction|].
    apply app_nil_r.
  Qed.
  Lemma add_edge_nodes : forall s x y, g_nodes (b_graph (add_edge s x y)) = g_nodes (b_graph s).
  Proof. intros [[g ed] er] x y. unfold add_edge, GRadd_edge. destruct (check_cycle _ _ _ _ _ _); reflexivity. Qed.
  Lemma add_member_own : forall j m s k s', In (OType (TSet j), (TSet j, k)) (g_nodes (b_graph s)) ->
    add_member_attribute attrs j m s k = Val s' ->
    filter (is_of (OType (TSet j))) (g_nodes (b_graph s')) = filter (is_of (OType (TSet j))) (g_nodes (b_graph s)).
  Proof.
    intros j m [[g ed] er] k s' I E. unfold add_member_attribute in E. unfold b_graph in I. cbn [fst snd] in I, E.
    destruct (nth_error _ k) as [x|]; [|discriminate E].
    assert (Eg : find_or_add g (OType (TSet j)) (TSet j, k) = g).
    { unfold find_or_add. rewrite (lookup_node_spec occurrence_dec aptr_dec).
      destruct (in_dec _ _ _); [reflexivity|contradiction]. }
    rewrite Eg in E. destruct (get_equivalent_attribute attrs x m) as [b|]; [|discriminate E]. apply Val_inj in E. subst s'.
    unfold b_graph at 2. cbn [fst].
    rewrite <- (filter_other j g (OType (TNode m)) b) by discriminate.
    destruct (at_is_inherited x), (at_is_synthesized x); rewrite ?add_edge_nodes; reflexivity.
  Qed.
  Lemma add_members_own : forall j m l s s', (forall k, In k l -> In (OType (TSet j), (TSet j, k)) (g_nodes (b_graph s))) ->
    add_member_attributes attrs j m s l = Val s' ->
    filter (is_of (OType (TSet j))) (g_nodes (b_graph s')) = filter (is_of (OType (TSet j))) (g_nodes (b_graph s)).
  Proof.
    intros j m. induction l as [|k l IH]; intros s s' H E; cbn [add_member_attributes] in E; [injection E as <-; reflexivity|].
    destruct (add_member_attribute attrs j m s k) as [s1| | | |] eqn:E1; try discriminate E. cbn [bind] in E.
    assert (F := add_member_own j m s k s1 (H k (or_introl eq_refl)) E1). rewrite <- F. apply IH; [|exact E].
    intros k' I. assert (I' := H k' (or_intror I)).
    assert (X : In (OType (TSet j), (TSet j, k')) (filter (is_of (OType (TSet j))) (g_nodes (b_graph s1)))).
    { rewrite F. apply filter_In. split; [exact I'|]. unfold is_of. cbn [fst]. destruct (occurrence_dec _ _); [reflexivity|contradiction]. }
    apply filter_In in X. apply X.
  Qed.
  Lemma member_own : forall j m base st, generate_graph_member attrs j m base = Val st ->
    filter (is_of (OType (TSet j))) (g_nodes (b_graph st)) =
    filter (is_of (OType (TSet j))) (own_vertices attrs (OType (TSet j)) (TSet j)).
  Proof.
    intros j m base st E. unfold generate_graph_member in E. rewrite !add_attributes_spec in E. cbn [GRnew g_nodes g_edges app] in E.
    destruct (add_member_attributes _ _ _ _ _) as [[[g ed] er]| | | |] eqn:E1; try discriminate E. cbn [bind] in E.
    unfold close_building in E. destruct (close_closes occurrence_dec aptr_dec g ed) as (c & Ec & C). rewrite Ec in E. cbn [bind] in E.
    injection E as <-. unfold b_graph at 1. cbn [fst]. rewrite (c_nodes _ _ _ _ _ C).
    apply add_members_own in E1.
    - unfold b_graph in E1. cbn [fst g_nodes] in E1. rewrite E1, filter_app.
      assert (X : filter (is_of (OType (TSet j))) (own_vertices attrs (OType (TNode m)) (TSet j)) = []).
      { unfold own_vertices. induction (positions in_grammar (attributes_of attrs (TSet j))) as [|k l IH]; [reflexivity|]. exact IH. }
      rewrite X. apply app_nil_r.
    - intros k I. unfold b_graph. cbn [fst g_nodes]. apply in_app_iff. left. unfold own_vertices. apply in_map_iff.
      exists k. auto.
  Qed.
End Sources.

(** ** Graphs that look the same *)

(** ... to the partitioning of the attributes of one occurrence, *)
Definition same_own (o : occurrence) (g1 g2 : ag_graph) : Prop :=
  filter (is_of o) (g_nodes g1) = filter (is_of o) (g_nodes g2) /\
  forall x, In x (filter (is_of o) (g_nodes g1)) -> ag_dependencies g1 x = ag_dependencies g2 x.
(** ... and to the generation of visits. *)
Definition same_graph (g1 g2 : ag_graph) : Prop :=
  g_nodes g1 = g_nodes g2 /\
  forall x, GRget_node_dependencies occurrence_dec aptr_dec g1 x = GRget_node_dependencies occurrence_dec aptr_dec g2 x.

Section Same.
  Variable attrs : pra.

  Lemma partition_loop_same : forall g1 g2 fuel t queue, (forall x, In x queue -> ag_dependencies g1 x = ag_dependencies g2 x) ->
    partition_loop attrs fuel g1 t queue = partition_loop attrs fuel g2 t queue.
  Proof.
    intros g1 g2. induction fuel as [|fuel IH]; intros t [|x queue] H; try reflexivity. cbn [partition_loop].
    assert (Hq : forall z, In z queue -> ag_dependencies g1 z = ag_dependencies g2 z) by (intros z Z; apply H; right; exact Z).
    assert (Hx := H x (or_introl eq_refl)). rewrite Hx.
    destruct (attribute_at attrs (snd x)) as [d|]; [|reflexivity].
    destruct (negb _); [apply IH, Hq|]. destruct (ag_dependencies g2 x) as [|y deps]; [apply IH, Hq|].
    destruct (highest attrs t (y :: deps) 0 true) as [[mx as_]| | | |]; try reflexivity. cbn [bind].
    destruct (negb as_); [|apply IH, Hq]. apply IH. intros z Z. apply in_app_iff in Z. destruct Z as [Z|[<-|[]]]; [auto|]. apply H. left. reflexivity.
  Qed.
  Lemma partition_same : forall o g1 g2, same_own o g1 g2 -> partition_nodes attrs g1 o = partition_nodes attrs g2 o.
  Proof.
    intros o g1 g2 [F D]. unfold partition_nodes. rewrite <- F. apply partition_loop_same. exact D.
  Qed.
  Lemma collect_same : forall o g1 g2 tab, same_own o g1 g2 -> collect_visits attrs g1 o tab = collect_visits attrs g2 o tab.
  Proof. intros o g1 g2 tab [F _]. unfold collect_visits. rewrite F. reflexivity. Qed.

  Variable nodes : list inode.
  Variable sets : list inodeset.
  Variable literals : list literal.
  Variable vt : visits_table.

  Lemma lookup_all_same : forall g1 g2 o l, g_nodes g1 = g_nodes g2 -> lookup_all g1 o l = lookup_all g2 o l.
  Proof.
    intros g1 g2 o l N. induction l as [|x l IH]; [reflexivity|]. cbn [lookup_all]. unfold GRlookup_node. rewrite N, IH. reflexivity.
  Qed.
  Lemma visit_loop_same : forall g1 g2 node, same_graph g1 g2 -> forall k scheduled w l,
    visit_loop nodes sets attrs literals vt g1 node k scheduled w l = visit_loop nodes sets attrs literals vt g2 node k scheduled w l.
  Proof.
    intros g1 g2 node [N D]. induction k as [|k IH]; intros scheduled [queue queued] l; cbn [visit_loop];
      destruct (drop_scheduled scheduled queue) as [|x q]; try reflexivity.
    assert (S : sched_dependencies nodes sets attrs vt g1 node scheduled (q, queued) x =
                sched_dependencies nodes sets attrs vt g2 node scheduled (q, queued) x).
    { unfold sched_dependencies. destruct x as [x|o n]; [rewrite D; reflexivity|].
      destruct (child_visits nodes sets vt o) as [vs| | | |]; try reflexivity. cbn [bind]. destruct (nth_error vs n) as [v|]; [|reflexivity].
      rewrite (lookup_all_same g1 g2 o (v_inputs v) N). reflexivity. }
    rewrite S. destruct (sched_dependencies _ _ _ _ g2 _ _ _ _) as [[[q' qd'] u]| | | |]; try reflexivity. cbn [bind].
    destruct u; [apply IH|].
    assert (M : mark_scheduled nodes sets vt g1 scheduled x = mark_scheduled nodes sets vt g2 scheduled x).
    { unfold mark_scheduled. destruct x as [x|o n]; [reflexivity|].
      destruct (child_visits nodes sets vt o) as [vs| | | |]; try reflexivity. cbn [bind]. destruct (nth_error vs n) as [v|]; [|reflexivity].
      rewrite (lookup_all_same g1 g2 o (v_outputs v) N). reflexivity. }
    rewrite M. destruct (mark_scheduled _ _ _ g2 _ _) as [sc| | | |]; try reflexivity. cbn [bind].
    destruct (add_visit_sequence _ _ _ _ _ _ _ _) as [l'| | | |]; try reflexivity. cbn [bind]. apply IH.
  Qed.
  Lemma generate_same : forall g1 g2 max i n, same_graph g1 g2 ->
    generate_visits nodes sets attrs literals max vt g1 i n = generate_visits nodes sets attrs literals max vt g2 i n.
  Proof.
    intros g1 g2 max i n S. unfold generate_visits. destruct (visits_of vt (TNode i)) as [vs|]; [|reflexivity].
    generalize (@nil item). induction vs as [|v vs IH]; intros scheduled; [reflexivity|]. cbn [generate_sequences].
    assert (G : generate_visit nodes sets attrs literals vt g1 (OType (TNode i)) max i n scheduled v (match vs with [] => true | _ => false end) =
                generate_visit nodes sets attrs literals vt g2 (OType (TNode i)) max i n scheduled v (match vs with [] => true | _ => false end)).
    { unfold generate_visit. destruct (match vs with [] => true | _ => false end).
      - destruct (all_child_visits _ _ _ _ _ _) as [m| | | |]; try reflexivity. cbn [bind]. apply visit_loop_same. exact S.
      - cbn [bind]. apply visit_loop_same. exact S. }
    rewrite G. destruct (generate_visit _ _ _ _ _ g2 _ _ _ _ _ _ _) as [r| | | |]; try reflexivity. cbn [bind]. rewrite IH. reflexivity.
  Qed.
End Same.

(** Tables of graphs that look the same. *)
Definition same_table (gs1 gs2 : list (graph_key * ag_graph)) : Prop := forall t,
  match first_graph gs1 t, first_graph gs2 t with
  | None, None => True
  | Some g1, Some g2 => same_own (OType t) g1 g2 /\ match t with TNode _ => same_graph g1 g2 | TSet _ => True end
  | _, _ => False
  end.

Lemma visits_same : forall nodes sets attrs literals max gs1 gs2, same_table gs1 gs2 ->
  SAVvisits nodes sets attrs literals max gs1 = SAVvisits nodes sets attrs literals max gs2.
Proof.
  intros nodes sets attrs literals max gs1 gs2 S. unfold SAVvisits, partition_all, collect_all.
  assert (Ep : forall l, partition_types attrs gs1 l = partition_types attrs gs2 l).
  { induction l as [|t l IH]; [reflexivity|]. cbn [partition_types]. assert (St := S t).
    destruct (first_graph gs1 t) as [g1|], (first_graph gs2 t) as [g2|]; try contradiction.
    - rewrite (partition_same attrs _ _ _ (proj1 St)), IH. reflexivity.
    - rewrite IH. reflexivity. }
  rewrite Ep. destruct (partition_types attrs gs2 _) as [tables| | | |]; try reflexivity. cbn [bind].
  assert (Ec : forall l, collect_types attrs gs1 tables l = collect_types attrs gs2 tables l).
  { induction l as [|t l IH]; [reflexivity|]. cbn [collect_types]. assert (St := S t).
    destruct (first_graph gs1 t) as [g1|], (first_graph gs2 t) as [g2|]; try contradiction.
    - rewrite (collect_same attrs _ _ _ _ (proj1 St)), IH. reflexivity.
    - rewrite IH. reflexivity. }
  rewrite Ec. destruct (collect_types attrs gs2 tables _) as [vt0| | | |]; try reflexivity. cbn [bind].
  destruct (generate_empty_visits nodes sets literals vt0) as [vt| | | |]; try reflexivity. cbn [bind].
  assert (Eg : forall l i, generate_all nodes sets attrs literals max vt gs1 i l = generate_all nodes sets attrs literals max vt gs2 i l).
  { induction l as [|n l IH]; intros i; [reflexivity|]. cbn [generate_all]. assert (St := S (TNode i)).
    destruct (first_graph gs1 (TNode i)) as [g1|], (first_graph gs2 (TNode i)) as [g2|]; try contradiction; [|reflexivity].
    rewrite (generate_same attrs nodes sets literals vt g1 g2 max i n (proj2 St)), IH. reflexivity. }
  rewrite Eg. reflexivity.
Qed.

Lemma dependencies_own : forall g x, ag_dependencies g x =
  rev (filter (fun d => negb (veq occurrence_dec aptr_dec d x) && GRlookup_edge occurrence_dec aptr_dec g d x false)
              (filter (is_of (fst x)) (g_nodes g))).
Proof.
  intros g x. unfold GRget_inter_node_dependencies. f_equal. induction (g_nodes g) as [|d l IH]; [reflexivity|]. cbn [filter].
  change (same_occurrence occurrence_dec d x) with (is_of (fst x) d). destruct (is_of (fst x) d).
  - cbn [filter]. rewrite andb_true_r, IH. reflexivity.
  - rewrite andb_false_r, andb_false_l. exact IH.
Qed.

Section Specification.
  Variable a : ast.
  Variable s : pra.
  Variable lits : list literal.
  Hypothesis P : parsed_ast a.
  Hypothesis U : unmarked a.
  Hypothesis B : before_scheduling a = Val (s, lits).
  Variables shuffle1 shuffle2 : list (graph_key * ag_graph) -> list (graph_key * ag_graph).
  Hypothesis Sh1 : forall l, Permutation (shuffle1 l) l.
  Hypothesis Sh2 : forall l, Permutation (shuffle2 l) l.
  Notation gnt := (get_node_type (a_nodes a) (a_nodesets a)).

  Theorem accepted_any_order : forall gs1, dependency_graphs shuffle1 a = Val (gs1, []) ->
    exists gs2, dependency_graphs shuffle2 a = Val (gs2, []).
  Proof.
    destruct (before_scheduling_input a s lits P U B) as (G & GE & Lit & Mem & Cov).
    destruct (graphs_whole (a_nodes a) (a_nodesets a) s lits G GE Lit Cov shuffle1 Sh1)
      as (g1 & e1 & ps1 & gs0 & errs0 & R1 & F1 & _ & N1 & _ & Pr1 & _ & _ & Q1).
    destruct (graphs_whole (a_nodes a) (a_nodesets a) s lits G GE Lit Cov shuffle2 Sh2)
      as (g2 & e2 & ps2 & gs0' & errs0' & R2 & F2 & _ & _ & M2 & Pr2 & _).
    rewrite F1 in F2. injection F2 as <- <-. unfold dependency_graphs. rewrite B. cbn [bind fst snd].
    intros gs1 E. rewrite R1 in E. injection E as -> ->. rewrite R2. destruct e2 as [|e e2]; [eauto|]. exfalso.
    destruct (M2 (N1 eq_refl)) as (p & x & y & D & D1 & D2); [discriminate|].
    assert (Sim := productions_similar _ _ _ _ ps2 ps1 Pr2 Pr1).
    destruct (Sim p (depends_in _ _ _ _ _ D1)) as (q & Iq & Sq).
    destruct (Forall2_in_l _ _ _ _ Q1 Iq) as (kg & _ & _ & _ & _ & _ & _ & H). destruct (H eq_refl) as [An H3].
    destruct (H3 x y (depends_similar gnt ps2 ps1 Sim p x y D1 q Iq Sq)) as [Z|X1]; [contradiction|].
    destruct (H3 y x (depends_similar gnt ps2 ps1 Sim p y x D2 q Iq Sq)) as [Z|X2]; [congruence|].
    exact (An x y D X1 X2).
  Qed.

  Variables gs1 gs2 : list (graph_key * ag_graph).
  Hypothesis A1 : dependency_graphs shuffle1 a = Val (gs1, []).
  Hypothesis A2 : dependency_graphs shuffle2 a = Val (gs2, []).

  Lemma common_source : exists gs0, (forall kg, In kg gs0 -> source (a_nodes a) (a_nodesets a) s kg) /\
    (forall v, In v (map nodes_of_graph gs1) <-> In v (map nodes_of_graph gs0)) /\
    (forall v, In v (map nodes_of_graph gs2) <-> In v (map nodes_of_graph gs0)).
  Proof.
    destruct (before_scheduling_input a s lits P U B) as (G & GE & Lit & Mem & Cov).
    destruct (graphs_whole (a_nodes a) (a_nodesets a) s lits G GE Lit Cov shuffle1 Sh1)
      as (g1 & e1 & ps1 & gs0 & errs0 & R1 & F1 & K1 & _).
    destruct (graphs_whole (a_nodes a) (a_nodesets a) s lits G GE Lit Cov shuffle2 Sh2)
      as (g2 & e2 & ps2 & gs0' & errs0' & R2 & F2 & K2 & _).
    rewrite F1 in F2. injection F2 as <- <-.
    assert (X1 := A1). assert (X2 := A2). unfold dependency_graphs in X1, X2. rewrite B in X1, X2. cbn [bind fst snd] in X1, X2.
    rewrite R1 in X1. injection X1 as -> ->. rewrite R2 in X2. injection X2 as -> ->.
    exists gs0. split; [exact (first_graphs_source _ _ _ _ _ _ F1)|]. rewrite K1, K2.
    split; intros v; (split; apply Permutation_in; [|apply Permutation_sym]); apply Permutation_map; auto.
  Qed.

  Lemma some_productions : exists ps, productions (a_nodes a) (a_nodesets a) (attributes_of s) (member_of a) ps.
  Proof.
    destruct (before_scheduling_input a s lits P U B) as (G & _).
    exact (proj1 (cycles_reported a s lits shuffle1 gnt P U B Sh1 (get_node_type_right _ _ _ G))).
  Qed.

  Lemma keys_agree : forall gsa gsb, (forall v, In v (map nodes_of_graph gsa) <-> In v (map nodes_of_graph gsb)) ->
    forall t g, first_graph gsb t = Some g -> first_graph gsa t <> None.
  Proof.
    intros gsa gsb H t g Fg N. destruct (first_graph_in gsb t g Fg) as (k & I & K).
    apply (in_map nodes_of_graph) in I. apply H in I. apply in_map_iff in I. destruct I as (kg & E & I).
    apply (first_graph_none gsa t N kg I). unfold nodes_of_graph in E. cbn [fst snd] in E. injection E as -> _. exact K.
  Qed.

  Theorem tables_same : same_table gs1 gs2.
  Proof.
    destruct common_source as (gs0 & Src & I1 & I2). destruct some_productions as (ps & Pr).
    destruct (before_scheduling_input a s lits P U B) as (G & _). assert (Ty := get_node_type_right _ _ _ G).
    intros t. destruct (first_graph gs1 t) as [g1|] eqn:F1; destruct (first_graph gs2 t) as [g2|] eqn:F2; [|
      apply (keys_agree gs2 gs1 (fun v => iff_trans (I2 v) (iff_sym (I1 v))) t g1 F1 F2)|
      apply (keys_agree gs1 gs2 (fun v => iff_trans (I1 v) (iff_sym (I2 v))) t g2 F2 F1)|exact I].
    destruct (first_graph_in gs1 t g1 F1) as (k1 & Ik1 & K1). destruct (first_graph_in gs2 t g2 F2) as (k2 & Ik2 & K2).
    assert (S1 : exists h, source (a_nodes a) (a_nodesets a) s (k1, h) /\ g_nodes h = g_nodes g1).
    { assert (X := Ik1). apply (in_map nodes_of_graph) in X. apply I1 in X. apply in_map_iff in X. destruct X as ([k h] & E & X).
      unfold nodes_of_graph in E. cbn [fst snd] in E. injection E as -> E. exists h. split; [exact (Src _ X)|exact E]. }
    assert (S2 : exists h, source (a_nodes a) (a_nodesets a) s (k2, h) /\ g_nodes h = g_nodes g2).
    { assert (X := Ik2). apply (in_map nodes_of_graph) in X. apply I2 in X. apply in_map_iff in X. destruct X as ([k h] & E & X).
      unfold nodes_of_graph in E. cbn [fst snd] in E. injection E as -> E. exists h. split; [exact (Src _ X)|exact E]. }
    destruct S1 as (h1 & S1 & N1). destruct S2 as (h2 & S2 & N2).
    destruct t as [i|j].
    - destruct k1 as [i1|]; [|discriminate K1]. destruct k2 as [i2|]; [|discriminate K2]. injection K1 as ->. injection K2 as ->.
      destruct S1 as (n1 & st1 & Hn1 & G1 & E1). destruct S2 as (n2 & st2 & Hn2 & G2 & E2). cbn [snd] in E1, E2.
      rewrite Hn1 in Hn2. injection Hn2 as <-. rewrite G1 in G2. apply Val_inj in G2. subst st2.
      assert (N : g_nodes g1 = g_nodes g2) by congruence.
      destruct (graph_facts a s lits shuffle1 gnt P U B Sh1 Ty gs1 A1 ps Pr _ Ik1) as (p1 & Ip1 & Rp1 & _ & Pl1 & _ & _ & _ & L1 & M1).
      destruct (graph_facts a s lits shuffle2 gnt P U B Sh2 Ty gs2 A2 ps Pr _ Ik2) as (p2 & Ip2 & Rp2 & _ & Pl2 & _ & _ & _ & L2 & M2).
      cbn [fst snd key_of] in *.
      assert (Np : forall p, In p ps -> p_root p = OType (TNode i) -> node_production (a_nodes a) (a_nodesets a) (attributes_of s) i n1 p).
      { intros p Ip Rp. destruct (pr_only _ _ _ _ _ Pr p Ip) as [(i' & n & Hn & Np)|(j & m & _ & M)].
        - assert (R := np_root _ _ _ _ _ _ Np). rewrite Rp in R. injection R as <-. rewrite Hn1 in Hn. injection Hn as <-. exact Np.
        - assert (R := mp_root _ _ _ _ M). rewrite Rp in R. discriminate R. }
      assert (Sim := node_production_similar _ _ _ (member_of a) i n1 p1 p2 (Np p1 Ip1 Rp1) (Np p2 Ip2 Rp2)).
      assert (Sim' := node_production_similar _ _ _ (member_of a) i n1 p2 p1 (Np p2 Ip2 Rp2) (Np p1 Ip1 Rp1)).
      assert (Refl := productions_similar _ _ _ _ ps ps Pr Pr).
      assert (Ed : forall x y, x <> y -> has_edge occurrence_dec aptr_dec g1 x y = has_edge occurrence_dec aptr_dec g2 x y).
      { intros x y D. apply eq_true_iff_eq. split; intros H.
        - destruct (M2 x y (depends_similar gnt ps ps Refl p1 x y (L1 x y H) p2 Ip2 Sim)) as [Z|Z]; [contradiction|exact Z].
        - destruct (M1 x y (depends_similar gnt ps ps Refl p2 x y (L2 x y H) p1 Ip1 Sim')) as [Z|Z]; [contradiction|exact Z]. }
      assert (Ff : forall d x, negb (veq occurrence_dec aptr_dec d x) && GRlookup_edge occurrence_dec aptr_dec g1 d x false =
                               negb (veq occurrence_dec aptr_dec d x) && GRlookup_edge occurrence_dec aptr_dec g2 d x false).
      { intros d x. destruct (veq occurrence_dec aptr_dec d x) eqn:V; [reflexivity|]. cbn [negb andb].
        rewrite !(lookup_plain occurrence_dec aptr_dec) by assumption. apply Ed. apply veq_neq in V. exact V. }
      split; [split|split].
      + rewrite N. reflexivity.
      + intros x _. rewrite !dependencies_own, N. f_equal. apply filter_ext. intros d. apply Ff.
      + exact N.
      + intros x. unfold GRget_node_dependencies. rewrite N. f_equal. apply filter_ext. intros d. apply Ff.
    - split; [|exact I]. destruct k1 as [|j1 m1]; [discriminate K1|]. destruct k2 as [|j2 m2]; [discriminate K2|]. injection K1 as ->. injection K2 as ->.
      destruct S1 as (b1 & st1 & G1 & E1). destruct S2 as (b2 & st2 & G2 & E2). cbn [snd] in E1, E2.
      assert (N : filter (is_of (OType (TSet j))) (g_nodes g1) = filter (is_of (OType (TSet j))) (g_nodes g2)).
      { rewrite <- N1, <- N2, E1, E2. rewrite (member_own s j m1 b1 st1 G1), (member_own s j m2 b2 st2 G2). reflexivity. }
      destruct (type_facts a s lits shuffle1 gnt P U B Sh1 Ty gs1 A1 ps Pr (TSet j) g1 F1) as (_ & Pl1 & O1 & L1).
      destruct (type_facts a s lits shuffle2 gnt P U B Sh2 Ty gs2 A2 ps Pr (TSet j) g2 F2) as (_ & Pl2 & O2 & L2).
      assert (Own : forall x, In x (filter (is_of (OType (TSet j))) (g_nodes g1)) <-> In x (own g1 (OType (TSet j)))).
      { intros x. reflexivity. }
      split; [exact N|]. intros x Ix. assert (Fx : fst x = OType (TSet j)) by (apply (O1 x), Own, Ix).
      rewrite !dependencies_own, Fx, <- N. f_equal. apply filter_ext_in. intros d Id.
      destruct (veq occurrence_dec aptr_dec d x) eqn:V; [reflexivity|]. cbn [negb andb]. apply veq_neq in V.
      rewrite !(lookup_plain occurrence_dec aptr_dec) by assumption.
      apply Own, O1 in Id. apply Own, O1 in Ix. destruct x as [ox bx], d as [od bd]. cbn [fst snd] in *.
      destruct Ix as [-> Ax]. destruct Id as [-> Ad].
      apply eq_true_iff_eq. assert (Nb : bd <> bx) by congruence.
      exact (iff_trans (L1 bd bx Ad Ax Nb) (iff_sym (L2 bd bx Ad Ax Nb))).
  Qed.
End Specification.
