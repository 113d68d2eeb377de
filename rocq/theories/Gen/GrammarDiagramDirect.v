(** The normal edges of the graph of a production are the dependencies its
    equations state, to the end (C66). *)

From Coq Require Import List Ascii Bool Arith Lia Permutation.
From Verif Require Import Sched.GraphModel Sched.GraphSpec Sched.GraphProof Sched.TreeProof Sched.InduceProof
  Sched.ScheduleModel Sched.ScheduleSpec Sched.ScheduleProof Sched.ScheduleGraphs Sched.PartitionModel
  Sched.PartitionSpec Sched.PartitionProof Sched.PartitionGrammar.
From Verif Require Import Base.Outcome Palm.StrModel Front.Syntax Front.SetsSpec Front.PropagateModel Front.PropagateSpec
  Front.PropagateProof Front.NodesetPassesProof Front.ProductRulesModel Front.ProductRulesProof Sched.FrontendModel Sched.FrontendProof
  Sched.CycleProof Sched.OrderProof Gen.GrammarDiagramGraphs.
Import ListNotations.
Local Open Scope outcome_scope.

(** ** Normal edges stay, and none is added *)
Definition keeps {O A} (g g' : graph O A) : Prop :=
  incl (g_edges g) (g_edges g') /\ forall e, In e (g_edges g') -> etype e = GRnormal -> In e (g_edges g).
Lemma keeps_refl : forall {O A} (g : graph O A), keeps g g.
Proof. intros O A g. split; [apply incl_refl|auto]. Qed.
Lemma keeps_tran : forall {O A} (g1 g2 g3 : graph O A), keeps g1 g2 -> keeps g2 g3 -> keeps g1 g3.
Proof. intros O A g1 g2 g3 [H1 H2] [H3 H4]. split; [eapply incl_tran; eassumption|auto]. Qed.

Section Edges.
  Context {O A T K : Type}.
  Variable O_dec : forall x y : O, {x = y} + {x <> y}.
  Variable A_dec : forall x y : A, {x = y} + {x <> y}.
  Variable T_dec : forall x y : T, {x = y} + {x <> y}.
  Variable gnt : O -> T.

  Lemma add_edge_keeps : forall (g : graph O A) x y, keeps g (add_edge_internal g x y GRinduced).
  Proof.
    intros g x y. split.
    - intros e I. cbn [add_edge_internal g_edges]. apply in_or_app. auto.
    - intros e I N. cbn [add_edge_internal g_edges] in I. apply in_app_or in I. destruct I as [I|[<-|[]]]; [exact I|discriminate].
  Qed.
  Lemma close_pair_keeps : forall st ij, keeps (cl_graph st) (cl_graph (close_pair O_dec A_dec st ij)).
  Proof.
    intros st [i j]. unfold close_pair. destruct (cl_error st); [apply keeps_refl|].
    destruct (_ || _); [apply keeps_refl|]. destruct (existsb _ _); [|apply keeps_refl]. cbn [cl_graph]. apply add_edge_keeps.
  Qed.
  Lemma close_pairs_keep : forall l st, keeps (cl_graph st) (cl_graph (fold_left (close_pair O_dec A_dec) l st)).
  Proof.
    induction l as [|ij l IH]; intros st; cbn [fold_left]; [apply keeps_refl|]. eapply keeps_tran; [apply close_pair_keeps|apply IH].
  Qed.
  Lemma close_loop_keeps : forall fuel g added c, close_loop O_dec A_dec fuel g added = Val c -> keeps g (cl_graph c).
  Proof.
    induction fuel as [|fuel IH]; intros g added c H; cbn [close_loop] in H; [discriminate|].
    assert (X := close_pairs_keep (list_prod (g_nodes g) (g_nodes g)) (mk_closing g added false None)). cbn [cl_graph] in X.
    destruct (cl_error (fold_left _ _ _)); [injection H as <-; exact X|].
    destruct (cl_changed (fold_left _ _ _)); [|injection H as <-; exact X]. eapply keeps_tran; [exact X|]. exact (IH _ _ _ H).
  Qed.
  Lemma add_induced_at_keeps : forall e st x, keeps (fst st) (fst (add_induced_at O_dec A_dec T_dec gnt e st x)).
  Proof.
    intros e [g errs] x. unfold add_induced_at. destruct (T_dec _ _); [|apply keeps_refl].
    destruct (GRlookup_node _ _ g _ (in_from e)); [|apply keeps_refl]. destruct (GRlookup_node _ _ g _ (in_to e)); [|apply keeps_refl].
    destruct (GRlookup_edge _ _ _ _ _ _); [apply keeps_refl|]. cbn [fst]. unfold GRadd_edge. destruct (check_cycle _ _ _ _ _ _); [apply keeps_refl|].
    apply add_edge_keeps.
  Qed.
  Lemma add_induced_keeps : forall es st, keeps (fst st) (fst (fold_left (add_induced_edge O_dec A_dec T_dec gnt) es st)).
  Proof.
    assert (X : forall e l st, keeps (fst st) (fst (fold_left (add_induced_at O_dec A_dec T_dec gnt e) l st))).
    { intros e. induction l as [|x l IH]; intros st; cbn [fold_left]; [apply keeps_refl|]. eapply keeps_tran; [apply add_induced_at_keeps|apply IH]. }
    induction es as [|e es IH]; intros st; cbn [fold_left]; [apply keeps_refl|]. eapply keeps_tran; [apply (X e (g_nodes (fst st)) st)|apply IH].
  Qed.
  Lemma round_keeps : forall (gs : list (K * graph O A)) es pending gs' pd errs,
    induce_round O_dec A_dec T_dec gnt gs es pending = Val (gs', pd, errs) ->
    Forall2 (fun kg kg' => fst kg = fst kg' /\ keeps (snd kg) (snd kg')) gs gs'.
  Proof.
    induction gs as [|[k g] gs IH]; intros es pending gs' pd errs R; cbn [induce_round] in R.
    - injection R as <- <- <-. constructor.
    - destruct (add_induced_edges O_dec A_dec T_dec gnt g es) as [[[g1 added] e1]| | | |] eqn:E1; cbn [bind] in R; try discriminate.
      destruct (induce_round _ _ _ _ gs es _) as [[[gs2 pd2] e2]| | | |] eqn:R2; cbn [bind] in R; try discriminate. injection R as <- <- <-.
      constructor; [|exact (IH _ _ _ _ _ R2)]. cbn [fst snd]. split; [reflexivity|]. unfold add_induced_edges in E1.
      destruct (GRclose_transitivity _ _ _ _) as [c| | | |] eqn:C; cbn [bind] in E1; try discriminate. injection E1 as <- _ _.
      eapply keeps_tran; [apply (add_induced_keeps es (g, []))|]. exact (close_loop_keeps _ _ _ _ C).
  Qed.
  Lemma keeps_trans : forall l1 l2 l3 : list (K * graph O A),
    Forall2 (fun kg kg' => fst kg = fst kg' /\ keeps (snd kg) (snd kg')) l1 l2 ->
    Forall2 (fun kg kg' => fst kg = fst kg' /\ keeps (snd kg) (snd kg')) l2 l3 ->
    Forall2 (fun kg kg' => fst kg = fst kg' /\ keeps (snd kg) (snd kg')) l1 l3.
  Proof.
    intros l1 l2 l3 H. revert l3. induction H as [|x y l1 l2 [E1 E2] H IH]; intros l3 H3; inversion H3 as [|y' z l2' l3' [E3 E4] H4]; subst; constructor.
    - split; [congruence|]. eapply keeps_tran; eassumption.
    - apply IH. assumption.
  Qed.
  Lemma loop_keeps : forall fuel (gs : list (K * graph O A)) pending gs' errs,
    induce_loop O_dec A_dec T_dec gnt fuel gs pending = Val (gs', errs) ->
    Forall2 (fun kg kg' => fst kg = fst kg' /\ keeps (snd kg) (snd kg')) gs gs'.
  Proof.
    assert (Z : forall gs : list (K * graph O A), Forall2 (fun kg kg' => fst kg = fst kg' /\ keeps (snd kg) (snd kg')) gs gs).
    { induction gs; constructor; auto. split; [reflexivity|apply keeps_refl]. }
    induction fuel as [|fuel IH]; intros gs pending gs' errs R; (destruct pending as [|e pending]; [injection R as <- <-; apply Z|]); [discriminate R|].
    cbn [induce_loop] in R. destruct (induce_round _ _ _ _ gs (e :: pending) []) as [[[gs1 pd] e1]| | | |] eqn:R1; try discriminate R.
    cbn [bind] in R. destruct (induce_loop _ _ _ _ fuel gs1 pd) as [[gs2 e2]| | | |] eqn:R2; try discriminate R. cbn [bind] in R.
    injection R as <- <-. exact (keeps_trans _ _ _ (round_keeps _ _ _ _ _ _ R1) (IH _ _ _ _ R2)).
  Qed.
End Edges.

(** ** Stated dependencies *)
Definition states (D : list adep) (g : ag_graph) : Prop := forall x y, In (x, y) D <-> In (mk_edge x y GRnormal) (g_edges g).
Definition grows (s s' : building) : Prop := (b_errs s' = [] -> b_errs s = []) /\ keeps (b_graph s) (b_graph s').
(** [D] is what is added. *)
Definition adds (D : list adep) (s s' : building) : Prop := (b_errs s' = [] -> b_errs s = []) /\
  incl (g_edges (b_graph s)) (g_edges (b_graph s')) /\
  (b_errs s' = [] -> forall x y, In (x, y) D -> In (mk_edge x y GRnormal) (g_edges (b_graph s'))) /\
  (forall x y, In (mk_edge x y GRnormal) (g_edges (b_graph s')) -> In (mk_edge x y GRnormal) (g_edges (b_graph s)) \/ In (x, y) D).

Lemma states_keeps : forall D g g', states D g -> keeps g g' -> states D g'.
Proof. intros D g g' H [I J] x y. rewrite (H x y). split; [apply I|]. intros K. apply J; [exact K|reflexivity]. Qed.
Lemma grows_refl : forall s, grows s s.
Proof. split; [auto|apply keeps_refl]. Qed.
Lemma grows_trans : forall s1 s2 s3, grows s1 s2 -> grows s2 s3 -> grows s1 s3.
Proof. intros s1 s2 s3 [H1 H2] [H3 H4]. split; [auto|eapply keeps_tran; eassumption]. Qed.
Lemma adds_nothing : forall s s', grows s s' -> adds [] s s'.
Proof.
  intros s s' (H & I & J). split; [exact H|]. split; [exact I|]. split; [intros _ x y []|]. intros x y K. left. apply J; [exact K|reflexivity].
Qed.
Lemma adds_states : forall D s s', adds D s s' -> g_edges (b_graph s) = [] -> b_errs s' = [] -> states D (b_graph s').
Proof.
  intros D s s' (_ & _ & H1 & H2) E Z x y. split; [apply H1, Z|]. intros I. destruct (H2 x y I) as [J|J]; [|exact J]. rewrite E in J. destruct J.
Qed.
Lemma adds_app : forall D1 D2 s1 s2 s3, adds D1 s1 s2 -> adds D2 s2 s3 -> adds (D1 ++ D2) s1 s3.
Proof.
  intros D1 D2 s1 s2 s3 (H1 & H2 & H3 & H4) (K1 & K2 & K3 & K4). split; [auto|]. split; [eapply incl_tran; eassumption|]. split.
  - intros Z x y I. apply in_app_or in I. destruct I as [I|I]; auto.
  - intros x y I. rewrite in_app_iff. destruct (K4 x y I) as [J|J]; [|auto]. destruct (H4 x y J); auto.
Qed.
Lemma add_edge_adds : forall s x y, adds [(x, y)] s (add_edge s x y).
Proof.
  intros [[g edges] errs] x y. unfold adds, add_edge, b_errs, b_graph. cbn [fst snd]. unfold GRadd_edge.
  destruct (check_cycle _ _ _ _ _ _); cbn [fst snd report].
  - split; [intros H; apply app_eq_nil in H; apply H|]. split; [apply incl_refl|]. split; [|auto].
    intros H. apply app_eq_nil in H. destruct H as [_ H]. discriminate.
  - cbn [add_edge_internal g_edges]. split; [auto|]. split; [intros e I; apply in_or_app; auto|]. split.
    + intros _ u v [E|[]]. injection E as <- <-. apply in_or_app. right. now left.
    + intros u v I. apply in_app_or in I. destruct I as [I|[E|[]]]; [auto|]. injection E as <- <-. right. now left.
Qed.
Lemma adds_same : forall D s g edges edges' errs, adds D s (g, edges, errs) -> adds D s (g, edges', errs).
Proof. intros D s g edges edges' errs H. exact H. Qed.
Lemma close_grows : forall s s', close_building s = Val s' -> grows s s'.
Proof.
  intros [[g edges] errs] s' H. unfold close_building in H. destruct (GRclose_transitivity _ _ _ _) as [c| | | |] eqn:C; cbn [bind] in H; try discriminate.
  injection H as <-. split; unfold b_errs, b_graph; cbn [fst snd].
  - destruct (cl_error c); cbn [report]; [|auto]. intros H. apply app_eq_nil in H. apply H.
  - exact (close_loop_keeps _ _ _ _ _ _ C).
Qed.

Section Grammar.
  Variable nodes : list inode.
  Variable sets : list inodeset.
  Variable attrs : pra.
  Notation arg_deps := (arg_deps nodes sets attrs).
  Notation equation_deps := (equation_deps nodes sets attrs).

  Lemma argument_adds : forall i n y s r s', add_argument nodes sets attrs i n y s r = Val s' -> adds (arg_deps i n y r) s s'.
  Proof.
    intros i n y s r s' H. unfold add_argument in H. unfold ScheduleProof.arg_deps.
    destruct (resolve nodes sets attrs i n r) as [x|]; [|discriminate]. destruct (attribute_at attrs (snd x)) as [d|]; [|discriminate].
    destruct (in_grammar d); cbn [negb] in H.
    - destruct s as [[g edges] errs]. destruct x as [o b]. cbn [fst snd] in H. rewrite lookup_node_spec in H. destruct (in_dec _ _ _); [|discriminate].
      assert (X := add_edge_adds (g, edges, errs) (o, b) y). destruct (add_edge (g, edges, errs) (o, b) y) as [[g' edges'] errs'].
      injection H as <-. exact X.
    - injection H as <-. apply adds_nothing, grows_refl.
  Qed.
  Lemma arguments_add : forall i n y l s s', add_arguments nodes sets attrs i n y s l = Val s' -> adds (flat_map (arg_deps i n y) l) s s'.
  Proof.
    intros i n y. induction l as [|r l IH]; intros s s' H; cbn [add_arguments flat_map] in *.
    - injection H as <-. apply adds_nothing, grows_refl.
    - destruct (add_argument nodes sets attrs i n y s r) as [s1| | | |] eqn:E; cbn [bind] in H; try discriminate.
      exact (adds_app _ _ _ _ _ (argument_adds _ _ _ _ _ _ E) (IH _ _ H)).
  Qed.
  Lemma equations_add : forall i n l s s', add_equations nodes sets attrs i n s l = Val s' -> adds (flat_map (equation_deps i n) l) s s'.
  Proof.
    intros i n. induction l as [|e l IH]; intros s s' H; cbn [add_equations flat_map] in *.
    - injection H as <-. apply adds_nothing, grows_refl.
    - unfold ScheduleProof.equation_deps at 1. destruct (resolve nodes sets attrs i n (eq_rule e)) as [[o b]|]; [|discriminate].
      cbn [fst snd] in H. rewrite lookup_node_spec in H. destruct (in_dec _ _ _); [|discriminate].
      destruct (add_arguments nodes sets attrs i n (o, b) s (eq_args e)) as [s1| | | |] eqn:E; cbn [bind] in H; try discriminate.
      exact (adds_app _ _ _ _ _ (arguments_add _ _ _ _ _ _ E) (IH _ _ H)).
  Qed.
  Lemma children_edges : forall i l k g g', add_children nodes sets attrs i k g l = Val g' -> g_edges g' = g_edges g.
  Proof.
    intros i. induction l as [|c l IH]; intros k g g' H; cbn [add_children] in H; [injection H as <-; reflexivity|].
    destruct (find_type _ _ _) as [t|]; [|discriminate]. rewrite (IH _ _ _ H), add_attributes_spec. reflexivity.
  Qed.
  Lemma node_graph_states : forall i n s, generate_graph_node nodes sets attrs i n = Val s -> b_errs s = [] -> states (node_deps nodes sets attrs i n) (b_graph s).
  Proof.
    intros i n s H Z. unfold generate_graph_node in H. destruct (add_children _ _ _ _ _ _ _) as [g| | | |] eqn:Ec; cbn [bind] in H; try discriminate.
    destruct (add_equations _ _ _ _ _ _ _) as [s1| | | |] eqn:E; cbn [bind] in H; try discriminate.
    destruct (close_grows _ _ H) as [H1 H2]. assert (X := equations_add _ _ _ _ _ E).
    refine (states_keeps _ _ _ (adds_states _ _ _ X _ (H1 Z)) H2). unfold b_graph. cbn [fst]. rewrite (children_edges _ _ _ _ _ Ec), add_attributes_spec. reflexivity.
  Qed.

  Lemma found_grows : forall g edges errs o b, grows (g, edges, errs) (find_or_add g o b, edges, errs).
  Proof. intros g edges errs o b. split; [auto|]. unfold b_graph. cbn [fst]. unfold keeps. rewrite (proj1 (find_or_add_spec g o b)). split; [apply incl_refl|auto]. Qed.
  Lemma member_attribute_adds : forall j m s k s', add_member_attribute attrs j m s k = Val s' -> adds (attribute_deps attrs j m k) s s'.
  Proof.
    intros j m s k s' H. unfold add_member_attribute in H. unfold attribute_deps. destruct (nth_error _ k) as [x|]; [|discriminate].
    destruct s as [[g edges] errs]. destruct (get_equivalent_attribute attrs x m) as [b|]; [|discriminate]. cbn [fst snd] in H.
    apply Val_inj in H. subst s'.
    apply (adds_app [] _ _ (find_or_add (find_or_add g (OType (TSet j)) (TSet j, k)) (OType (TNode m)) b, edges, errs)).
    { apply adds_nothing. eapply grows_trans; apply found_grows. }
    set (s0 := (_, edges, errs)).
    eapply adds_app.
    - instantiate (1 := if at_is_inherited x then add_edge s0 (set_vertex j k) (OType (TNode m), b) else s0).
      destruct (at_is_inherited x); [apply add_edge_adds|apply adds_nothing, grows_refl].
    - destruct (at_is_synthesized x); [apply add_edge_adds|apply adds_nothing, grows_refl].
  Qed.
  Lemma member_attributes_add : forall j m l s s', add_member_attributes attrs j m s l = Val s' -> adds (flat_map (attribute_deps attrs j m) l) s s'.
  Proof.
    intros j m. induction l as [|k l IH]; intros s s' H; cbn [add_member_attributes flat_map] in *.
    - injection H as <-. apply adds_nothing, grows_refl.
    - destruct (add_member_attribute attrs j m s k) as [s1| | | |] eqn:E; cbn [bind] in H; try discriminate.
      exact (adds_app _ _ _ _ _ (member_attribute_adds _ _ _ _ _ E) (IH _ _ H)).
  Qed.
  Lemma member_graph_states : forall j m base s, generate_graph_member attrs j m base = Val s -> b_errs s = [] -> states (member_deps attrs j m) (b_graph s).
  Proof.
    intros j m base s H Z. unfold generate_graph_member in H.
    destruct (add_member_attributes _ _ _ _ _) as [s1| | | |] eqn:E; cbn [bind] in H; try discriminate.
    destruct (close_grows _ _ H) as [H1 H2]. assert (X := member_attributes_add _ _ _ _ _ E).
    refine (states_keeps _ _ _ (adds_states _ _ _ X _ (H1 Z)) H2). unfold b_graph. cbn [fst]. rewrite !add_attributes_spec. reflexivity.
  Qed.

  Definition entry_states (kg : graph_key * ag_graph) : Prop :=
    match fst kg with
    | KNode i => exists n, nth_error nodes i = Some n /\ states (node_deps nodes sets attrs i n) (snd kg)
    | KMember j m => states (member_deps attrs j m) (snd kg)
    end.
  Lemma node_graphs_state : forall l i pending gs p, (forall k n, nth_error l k = Some n -> nth_error nodes (i + k) = Some n) ->
    node_graphs nodes sets attrs i l pending = Val (gs, p, []) -> forall kg, In kg gs -> entry_states kg.
  Proof.
    induction l as [|n l IH]; intros i pending gs p Hl H; cbn [node_graphs] in H.
    - injection H as <- <-. intros kg [].
    - destruct (generate_graph_node nodes sets attrs i n) as [[[g e1] er1]| | | |] eqn:E; cbn [bind] in H; try discriminate.
      destruct (node_graphs nodes sets attrs (S i) l _) as [[[g2 p2] er2]| | | |] eqn:E2; cbn [bind] in H; try discriminate.
      injection H as <- <- Z. apply app_eq_nil in Z. destruct Z as [-> ->]. intros kg [<-|I].
      + cbn [entry_states fst snd]. exists n. split; [rewrite <- (Nat.add_0_r i); apply Hl; reflexivity|]. exact (node_graph_states _ _ _ E eq_refl).
      + refine (IH _ _ _ _ _ E2 kg I). intros k q Hk. replace (S i + k) with (i + S k) by lia. apply Hl. exact Hk.
  Qed.
  Lemma member_graphs_state : forall j entries graphs edges errs gs ed, generate_member_graphs attrs j entries graphs edges errs = Val (gs, ed, []) ->
    errs = [] /\ ((forall mg, In mg graphs -> states (member_deps attrs j (fst mg)) (snd mg)) ->
    forall mg, In mg gs -> states (member_deps attrs j (fst mg)) (snd mg)).
  Proof.
    intros j entries. induction entries as [|m entries IH]; intros graphs edges errs gs ed H; cbn [generate_member_graphs] in H.
    - injection H as <- <- ->. auto.
    - destruct (generate_graph_member attrs j m edges) as [[[g e1] er1]| | | |] eqn:E; cbn [bind] in H; try discriminate.
      destruct (IH _ _ _ _ _ H) as [Z X]. apply app_eq_nil in Z. destruct Z as [-> ->]. split; [reflexivity|]. intros Hg. apply X.
      intros mg [<-|I]; [|apply Hg, I]. cbn [fst snd]. exact (member_graph_states _ _ _ _ E eq_refl).
  Qed.
  Lemma nodeset_graphs_state : forall l j pending gs p, nodeset_graphs nodes sets attrs j l pending = Val (gs, p, []) ->
    forall kg, In kg gs -> entry_states kg.
  Proof.
    induction l as [|lit l IH]; intros j pending gs p H; cbn [nodeset_graphs] in H.
    - injection H as <- <-. intros kg [].
    - destruct (generate_graph_nodeset nodes attrs j lit) as [[[g1 e1] er1]| | | |] eqn:E; cbn [bind] in H; try discriminate.
      destruct (nodeset_graphs nodes sets attrs (S j) l _) as [[[g2 p2] er2]| | | |] eqn:E2; cbn [bind] in H; try discriminate.
      injection H as <- <- Z. apply app_eq_nil in Z. destruct Z as [-> ->].
      intros kg I. apply in_app_iff in I. destruct I as [I|I]; [|exact (IH _ _ _ _ E2 kg I)].
      apply in_map_iff in I. destruct I as (mg & <- & I). unfold generate_graph_nodeset in E.
      destruct (add_nodeset_entries nodes lit []) as [es| | | |]; cbn [bind] in E; try discriminate.
      cbn [entry_states fst snd]. destruct (member_graphs_state _ _ _ _ _ _ _ E) as [_ X]. apply X; [intros ? []|exact I].
  Qed.
End Grammar.

Section Specification.
  Variable a : ast.
  Variable s : pra.
  Variable lits : list literal.
  Variable shuffle : list (graph_key * ag_graph) -> list (graph_key * ag_graph).
  Hypothesis P : parsed_ast a.
  Hypothesis U : unmarked a.
  Hypothesis B : before_scheduling a = Val (s, lits).
  Hypothesis Sh : forall l, Permutation (shuffle l) l.
  Variable gs : list (graph_key * ag_graph).
  Hypothesis R : dependency_graphs shuffle a = Val (gs, []).

  Theorem direct_edges : forall kg p x y, In kg gs -> own_production a s (fst kg) p -> 
    (In (x, y) (p_deps p) <-> In (mk_edge x y GRnormal) (g_edges (snd kg))).
  Proof.
    destruct (before_scheduling_input a s lits P U B) as (G & GE & Lit & Mem & Cov).
    unfold dependency_graphs in R. rewrite B in R. cbn [bind fst snd] in R. unfold SAVgraphs in R.
    destruct (node_graphs (a_nodes a) (a_nodesets a) s 0 (a_nodes a) []) as [[[g1 p1] er1]| | | |] eqn:E1; cbn [bind] in R; try discriminate.
    destruct (nodeset_graphs (a_nodes a) (a_nodesets a) s 0 lits p1) as [[[g2 p2] er2]| | | |] eqn:E2; cbn [bind] in R; try discriminate.
    destruct (induce_loop _ _ _ _ _ _ _) as [[gs3 er3]| | | |] eqn:E3; cbn [bind fst snd] in R; try discriminate.
    injection R as -> Z. apply app_eq_nil in Z. destruct Z as [-> Z]. apply app_eq_nil in Z. destruct Z as [-> ->].
    assert (K := loop_keeps _ _ _ _ _ _ _ _ _ E3).
    intros kg p x y Ik Ho. destruct (Forall2_in_r _ _ _ _ K Ik) as (kg0 & I0 & Ek & Keep).
    apply (Permutation_in _ (Sh _)) in I0.
    assert (X : entry_states (a_nodes a) (a_nodesets a) s kg0).
    { apply in_app_or in I0. destruct I0 as [I0|I0].
      - refine (node_graphs_state _ _ _ _ _ _ _ _ _ E1 kg0 I0). intros k n H. exact H.
      - exact (nodeset_graphs_state _ _ _ _ _ _ _ _ E2 kg0 I0). }
    unfold entry_states in X. rewrite Ek in X. destruct (fst kg) as [i|j m]; cbn [own_production] in Ho.
    - destruct X as (n & Hn & X). destruct Ho as (n' & Hn' & N). rewrite Hn in Hn'. injection Hn' as <-.
      rewrite (np_deps _ _ _ _ _ _ N), <- (node_deps_iff _ _ _ G i n x y Hn). apply (states_keeps _ _ _ X Keep).
    - destruct Ho as (_ & M). rewrite (mp_deps _ _ _ _ M), <- (member_deps_iff _ _ _ G j m x y). apply (states_keeps _ _ _ X Keep).
  Qed.
End Specification.
