(** The graphs that are drawn (C66): which vertices they have, and how many a
    node has. *)

From Coq Require Import List Ascii Bool Arith Lia Permutation.
From Verif Require Import Sched.GraphModel Sched.GraphSpec Sched.GraphProof Sched.TreeProof Sched.InduceProof
  Sched.ScheduleModel Sched.ScheduleSpec Sched.ScheduleProof Sched.ScheduleGraphs Sched.PartitionModel
  Sched.PartitionSpec Sched.PartitionProof Sched.PartitionGrammar.
From Verif Require Import Base.Outcome Palm.StrModel Front.Syntax Front.SetsSpec Front.PropagateModel Front.PropagateSpec
  Front.PropagateProof Front.NodesetPassesProof Front.ProductRulesModel Front.ProductRulesProof Sched.FrontendModel Sched.FrontendProof
  Sched.CycleProof.
Import ListNotations.
Local Open Scope outcome_scope.

Section Vertices.
  Variable nodes : list inode.
  Variable sets : list inodeset.
  Variable attrs : pra.
  Hypothesis G : grammar_input nodes sets attrs.
  Notation attributes_of := (attributes_of attrs).
  Notation of_grammar := (of_grammar attributes_of).

  (** A vertex of the graph of a member. *)
  Definition member_vertex (j m : nat) (x : ag_vertex) : Prop :=
    fst x = OType (TSet j) \/
    (fst x = OType (TNode m) /\ (fst (snd x) = TNode m \/ (fst (snd x) = TSet j /\ of_grammar (snd x)))).
  Lemma member_attributes_val : forall j m l s s', add_member_attributes attrs j m s l = Val s' ->
    forall k, In k l -> exists x, nth_error (attributes_of (TSet j)) k = Some x /\ covered_by attrs m x.
  Proof.
    induction l as [|k l IH]; intros s s' H q Iq; [destruct Iq|]. cbn [add_member_attributes] in H.
    destruct (add_member_attribute attrs j m s k) as [s1| | | |] eqn:E; cbn [bind] in H; try discriminate.
    destruct Iq as [<-|Iq]; [|exact (IH _ _ H q Iq)]. unfold add_member_attribute in E.
    destruct (nth_error _ k) as [x|] eqn:Ex; [|discriminate]. exists x. split; [reflexivity|]. destruct s as [[g ed] er].
    destruct (get_equivalent_attribute attrs x m) as [b|] eqn:Eb; [|discriminate]. exists b. exact Eb.
  Qed.
  Lemma member_graph_vertices : forall j m base s, generate_graph_member attrs j m base = Val s ->
    forall x, In x (g_nodes (b_graph s)) -> member_vertex j m x.
  Proof.
    intros j m base s H x Ix. unfold generate_graph_member in H. rewrite !add_attributes_spec in H. cbn [GRnew g_nodes g_edges app] in H.
    set (V0 := own_vertices attrs (OType (TSet j)) (TSet j) ++ own_vertices attrs (OType (TNode m)) (TSet j)) in *.
    destruct (add_member_attributes attrs j m _ _) as [s1| | | |] eqn:E; cbn [bind] in H; try discriminate.
    assert (C := member_attributes_val _ _ _ _ _ E).
    destruct (add_member_attributes_built attrs j m _ [] base (mk_graph V0 [], base, []) C) as (s2 & E2 & B & _ & Ns); [apply built_nothing; reflexivity|].
    rewrite E in E2. injection E2 as <-. destruct (close_building_finished _ _ s1 B) as (s3 & E3 & F). rewrite H in E3. injection E3 as <-.
    rewrite (f_nodes _ _ _ _ F) in Ix. apply Ns in Ix. cbn [b_graph fst g_nodes] in Ix. unfold V0 in Ix. rewrite in_app_iff, !own_vertices_in in Ix.
    destruct Ix as [[(E1 & _)|(E1 & E2 & Gx)]|(k & d & b & _ & _ & Hb & [ -> | -> ])].
    - left. exact E1.
    - right. auto.
    - left. reflexivity.
    - right. split; [reflexivity|]. left. cbn [fst snd]. apply (equivalent_iff _ _ _ G) in Hb. apply Hb.
  Qed.

  Definition member_entry (kg : graph_key * ag_graph) : Prop := exists j m, fst kg = KMember j m /\
    forall x, In x (g_nodes (snd kg)) -> member_vertex j m x.
  Lemma member_graphs_vertices : forall j entries graphs edges errs gs ed er,
    generate_member_graphs attrs j entries graphs edges errs = Val (gs, ed, er) ->
    (forall mg, In mg graphs -> forall x, In x (g_nodes (snd mg)) -> member_vertex j (fst mg) x) ->
    forall mg, In mg gs -> forall x, In x (g_nodes (snd mg)) -> member_vertex j (fst mg) x.
  Proof.
    intros j entries. induction entries as [|m entries IH]; intros graphs edges errs gs ed er H Hg; cbn [generate_member_graphs] in H.
    - injection H as <- <- <-. exact Hg.
    - destruct (generate_graph_member attrs j m edges) as [[[g e1] er1]| | | |] eqn:E; cbn [bind] in H; try discriminate.
      apply (IH _ _ _ _ _ _ H). intros mg [<-|I]; [|apply Hg, I]. cbn [fst snd]. exact (member_graph_vertices _ _ _ _ E).
  Qed.
  Lemma nodeset_graphs_vertices : forall l j pending gs p er, nodeset_graphs nodes sets attrs j l pending = Val (gs, p, er) ->
    forall kg, In kg gs -> member_entry kg.
  Proof.
    induction l as [|lit l IH]; intros j pending gs p er H; cbn [nodeset_graphs] in H.
    - injection H as <- <- <-. intros kg [].
    - destruct (generate_graph_nodeset nodes attrs j lit) as [[[g1 e1] er1]| | | |] eqn:E; cbn [bind] in H; try discriminate.
      destruct (nodeset_graphs nodes sets attrs (S j) l _) as [[[g2 p2] er2]| | | |] eqn:E2; cbn [bind] in H; try discriminate.
      injection H as <- <- <-. intros kg I. apply in_app_iff in I. destruct I as [I|I]; [|exact (IH _ _ _ _ _ E2 kg I)].
      apply in_map_iff in I. destruct I as (mg & <- & I). unfold generate_graph_nodeset in E.
      destruct (add_nodeset_entries nodes lit []) as [es| | | |]; cbn [bind] in E; try discriminate.
      exists j, (fst mg). split; [reflexivity|]. cbn [snd]. apply (member_graphs_vertices _ _ _ _ _ _ _ _ E); [intros ? []|exact I].
  Qed.
  Lemma node_graphs_keys : forall l i pending gs p er, node_graphs nodes sets attrs i l pending = Val (gs, p, er) ->
    map fst gs = map KNode (seq i (length l)).
  Proof.
    induction l as [|n l IH]; intros i pending gs p er H; cbn [node_graphs] in H.
    - injection H as <- <- <-. reflexivity.
    - destruct (generate_graph_node nodes sets attrs i n) as [[[g e1] er1]| | | |]; cbn [bind] in H; try discriminate.
      destruct (node_graphs nodes sets attrs (S i) l _) as [[[g2 p2] er2]| | | |] eqn:E2; cbn [bind] in H; try discriminate.
      injection H as <- <- <-. cbn [map fst length seq]. f_equal. exact (IH _ _ _ _ _ E2).
  Qed.
End Vertices.

Section Specification.
  Variable a : ast.
  Variable s : pra.
  Variable lits : list literal.
  Variable shuffle : list (graph_key * ag_graph) -> list (graph_key * ag_graph).
  Variable ty : occurrence -> option target.
  Hypothesis P : parsed_ast a.
  Hypothesis U : unmarked a.
  Hypothesis B : before_scheduling a = Val (s, lits).
  Hypothesis Sh : forall l, Permutation (shuffle l) l.
  Hypothesis Ty : typing (a_nodes a) (a_nodesets a) ty.
  Variable gs : list (graph_key * ag_graph).
  Hypothesis R : dependency_graphs shuffle a = Val (gs, []).
  Variable ps : list (production occurrence aptr).
  Hypothesis Pr : productions (a_nodes a) (a_nodesets a) (attributes_of s) (member_of a) ps.
  Notation gnt := (get_node_type (a_nodes a) (a_nodesets a)).

  (** The production a graph stands for. *)
  Definition own_production (k : graph_key) (p : production occurrence aptr) : Prop :=
    match k with
    | KNode i => exists n, nth_error (a_nodes a) i = Some n /\ node_production (a_nodes a) (a_nodesets a) (attributes_of s) i n p
    | KMember j m => member_of a j m /\ member_production (attributes_of s) j m p
    end.
  Record fits (kg : graph_key * ag_graph) (p : production occurrence aptr) : Prop := {
    fi_in : In p ps;
    fi_own : own_production (fst kg) p;
    fi_plain : plain (snd kg);
    fi_vertices : forall x, In x (p_vertices p) <-> In x (g_nodes (snd kg)) /\ proper_vertex (a_nodes a) (a_nodesets a) x;
    fi_tidy : forall x, In x (g_nodes (snd kg)) -> proper_vertex (a_nodes a) (a_nodesets a) x \/ exists j, p_root p = OType (TSet j);
    fi_sound : forall x y, AE (snd kg) x y -> depends_on ty ps p x y;
    fi_complete : forall x y, depends_on ty ps p x y -> x = y \/ AE (snd kg) x y }.

  Lemma own_root : forall k p, own_production k p -> p_root p = OType (key_of k).
  Proof.
    intros [i|j m] p H; cbn [own_production key_of] in *.
    - destruct H as (n & _ & N). apply (np_root _ _ _ _ _ _ N).
    - destruct H as (_ & M). apply (mp_root _ _ _ _ M).
  Qed.
  Theorem graphs_fit : (forall kg, In kg gs -> exists p, fits kg p) /\ (forall p, In p ps -> exists kg, In kg gs /\ fits kg p).
  Proof.
    destruct (before_scheduling_input a s lits P U B) as (G & GE & Lit & Mem & Cov).
    destruct (graphs_right (a_nodes a) (a_nodesets a) s lits G GE Lit Cov shuffle Sh)
      as (gs' & errs & qs & R' & Qr & C1 & C2 & F).
    unfold dependency_graphs in R. rewrite B in R. cbn [bind fst snd] in R. rewrite R in R'. injection R' as <- <-.
    assert (Qr' := productions_member _ _ _ _ _ qs Mem Qr).
    assert (S1 := productions_similar _ _ _ _ ps qs Pr Qr'). assert (S2 := productions_similar _ _ _ _ qs ps Qr' Pr).
    assert (Tr : forall kg q p, belongs (a_nodes a) (a_nodesets a) s lits kg q -> tidy (a_nodes a) (a_nodesets a) q (g_nodes (snd kg)) ->
      (forall x, In x (p_vertices q) <-> In x (g_nodes (snd kg)) /\ proper_vertex (a_nodes a) (a_nodesets a) x) ->
      plain (snd kg) -> (forall x y, AE (snd kg) x y -> depends_on gnt qs q x y) ->
      (forall x y, depends_on gnt qs q x y -> x = y \/ AE (snd kg) x y) -> In q qs -> In p ps -> own_production (fst kg) p -> fits kg p).
    { intros kg q p Hb (_ & Td) Hv Hp H1 H3 Iq Ip Ho.
      assert (Sim : similar q p).
      { unfold belongs in Hb. unfold own_production in Ho. destruct (fst kg) as [i|j m].
        - destruct Hb as (n & Hn & Nq). destruct Ho as (n' & Hn' & Np). rewrite Hn in Hn'. injection Hn' as <-.
          exact (node_production_similar _ _ _ (member_of a) i n q p Nq Np).
        - destruct Hb as (M & Mq). destruct Ho as (M' & Mp). exact (member_production_similar _ (member_of a) j m q p Mq Mp). }
      assert (Sim' : similar p q) by (destruct Sim as [Sa Sb]; split; intros z; symmetry; [apply Sa|apply Sb]).
      assert (Rq : p_root q = p_root p).
      { rewrite (own_root _ _ Ho). unfold belongs in Hb. destruct (fst kg) as [i|j m]; cbn [key_of].
        - destruct Hb as (n & _ & N). apply (np_root _ _ _ _ _ _ N).
        - destruct Hb as (_ & M). apply (mp_root _ _ _ _ M). }
      split; auto.
      - intros x. rewrite <- Hv. symmetry. apply Sim.
      - intros x Ix. destruct (Td x Ix) as [T|(_ & j & Tj)]; [left; exact T|]. right. exists j. rewrite <- Rq. exact Tj.
      - intros x y D. apply (depends_ext gnt ty); [intros o; symmetry; apply (typing_gnt a s lits ty P U B Ty)|].
        apply (depends_similar gnt qs ps S2 q x y); auto.
      - intros x y D. apply H3. apply (depends_ext ty gnt); [apply (typing_gnt a s lits ty P U B Ty)|].
        apply (depends_similar ty ps qs S1 p x y); auto. }
    split.
    - intros kg Ik. destruct (Forall2_in_r _ _ _ _ F Ik) as (q & Iq & Hb & Ht & Hv & Hp & H1 & H2). destruct (H2 eq_refl) as [An H3].
      assert (X : exists p, In p ps /\ own_production (fst kg) p).
      { unfold belongs in Hb. unfold own_production. destruct (fst kg) as [i|j m].
        - destruct Hb as (n & Hn & _). destruct (pr_nodes _ _ _ _ _ Pr i n Hn) as (p & Ip & Np). exists p. eauto.
        - destruct Hb as (M & _). destruct (pr_members _ _ _ _ _ Pr j m) as (p & Ip & Mp); [apply Mem, M|]. exists p. split; [exact Ip|].
          split; [apply Mem, M|exact Mp]. }
      destruct X as (p & Ip & Ho). exists p. exact (Tr kg q p Hb Ht Hv Hp H1 H3 Iq Ip Ho).
    - intros p Ip.
      assert (X : exists k q, In q qs /\ own_production k p /\ own_production k q).
      { destruct (pr_only _ _ _ _ _ Pr p Ip) as [(i & n & Hn & N)|(j & m & Hm & M)].
        - destruct (pr_nodes _ _ _ _ _ Qr i n Hn) as (q & Iq & Nq). exists (KNode i), q. cbn [own_production]. eauto 10.
        - assert (Hm' := Hm). apply Mem in Hm'. destruct (pr_members _ _ _ _ _ Qr j m Hm') as (q & Iq & Nq).
          exists (KMember j m), q. cbn [own_production]. auto. }
      destruct X as (k & q & Iq & Op & Oq). destruct (Forall2_in_l _ _ _ _ F Iq) as (kg & Ik & Hb & Ht & Hv & Hp & H1 & H2).
      destruct (H2 eq_refl) as [An H3]. exists kg. split; [exact Ik|].
      assert (Ek : fst kg = k).
      { unfold belongs in Hb. destruct (fst kg) as [i|j m], k as [i'|j' m']; cbn [own_production] in Oq.
        - destruct Hb as (n & _ & N). destruct Oq as (n' & _ & N'). assert (Q := np_root _ _ _ _ _ _ N). rewrite (np_root _ _ _ _ _ _ N') in Q. congruence.
        - destruct Hb as (n & _ & N). destruct Oq as (_ & N'). assert (Q := np_root _ _ _ _ _ _ N). rewrite (mp_root _ _ _ _ N') in Q. congruence.
        - destruct Hb as (_ & N). destruct Oq as (n' & _ & N'). assert (Q := mp_root _ _ _ _ N). rewrite (np_root _ _ _ _ _ _ N') in Q. congruence.
        - destruct Hb as (_ & N). destruct Oq as (_ & N'). assert (Q := mp_root _ _ _ _ N). rewrite (mp_root _ _ _ _ N') in Q.
          assert (Q2 := mp_kids _ _ _ _ N). rewrite (mp_kids _ _ _ _ N') in Q2. congruence. }
      subst k. exact (Tr kg q p Hb Ht Hv Hp H1 H3 Iq Ip Op).
  Qed.

  Theorem graphs_vertices : (forall j m g, In (KMember j m, g) gs -> forall x, In x (g_nodes g) -> member_vertex s j m x) /\
    (forall i, length (filter (fun kg => if target_dec (key_of (fst kg)) (TNode i) then true else false) gs) <= 1).
  Proof.
    destruct (before_scheduling_input a s lits P U B) as (G & GE & Lit & Mem & Cov).
    destruct (graphs_whole (a_nodes a) (a_nodesets a) s lits G GE Lit Cov shuffle Sh)
      as (gs' & errs & qs & gs0 & errs0 & R' & F0 & Hn & _).
    unfold dependency_graphs in R. rewrite B in R. cbn [bind fst snd] in R. rewrite R in R'. injection R' as <- <-.
    unfold first_graphs in F0.
    destruct (node_graphs (a_nodes a) (a_nodesets a) s 0 (a_nodes a) []) as [[[g1 p1] er1]| | | |] eqn:E1; cbn [bind] in F0; try discriminate.
    destruct (nodeset_graphs (a_nodes a) (a_nodesets a) s 0 lits p1) as [[[g2 p2] er2]| | | |] eqn:E2; cbn [bind] in F0; try discriminate.
    injection F0 as <- <-.
    assert (K1 := node_graphs_keys _ _ _ _ _ _ _ _ _ E1). assert (K2 := nodeset_graphs_vertices _ _ _ G _ _ _ _ _ _ E2). split.
    - intros j m g I x Ix. assert (J : In (nodes_of_graph (KMember j m, g)) (map nodes_of_graph gs)) by (apply in_map; exact I).
      rewrite Hn in J. apply in_map_iff in J. destruct J as ([k g0] & E & J). unfold nodes_of_graph in E. cbn [fst snd] in E. injection E as -> E.
      apply (Permutation_in _ (Sh _)) in J. apply in_app_iff in J. destruct J as [J|J].
      + apply (in_map fst) in J. rewrite K1 in J. cbn [fst] in J. apply in_map_iff in J. destruct J as (? & J & _). discriminate.
      + destruct (K2 _ J) as (j' & m' & Q & H). cbn [fst snd] in *. injection Q as <- <-. apply H. rewrite E. exact Ix.
    - intros i.
      assert (Hk : map fst gs = map fst (shuffle (g1 ++ g2))).
      { assert (X := f_equal (map fst) Hn). rewrite !map_map in X. exact X. }
      set (f := fun k => if target_dec (key_of k) (TNode i) then true else false).
      assert (L : forall l : list (graph_key * ag_graph), length (filter (fun kg => if target_dec (key_of (fst kg)) (TNode i) then true else false) l) = length (filter f (map fst l))).
      { induction l as [|kg l IH]; [reflexivity|]. cbn [map filter]. unfold f at 1. destruct (target_dec _ _); cbn [length]; rewrite IH; reflexivity. }
      rewrite L, Hk, <- L.
      assert (Pm : Permutation (filter f (map fst (shuffle (g1 ++ g2)))) (filter f (map fst (g1 ++ g2)))).
      { assert (X := Permutation_map fst (Sh (g1 ++ g2))). revert X. generalize (map fst (shuffle (g1 ++ g2))) (map fst (g1 ++ g2)).
        intros l l' X. induction X; cbn [filter].
        - constructor.
        - destruct (f x); [constructor|]; exact IHX.
        - destruct (f x), (f y); try apply Permutation_refl. apply perm_swap.
        - eapply Permutation_trans; eassumption. }
      rewrite L, (Permutation_length Pm), map_app, filter_app, app_length, K1.
      assert (Z : filter f (map fst g2) = []).
      { clear - K2. induction g2 as [|kg l IH]; [reflexivity|]. cbn [map filter]. destruct (K2 kg (or_introl eq_refl)) as (j & m & E & _).
        unfold f at 1. rewrite E. cbn [key_of]. destruct (target_dec _ _); [discriminate|]. apply IH. intros x I. apply K2. right. exact I. }
      rewrite Z. cbn [length]. rewrite Nat.add_0_r. generalize (seq_NoDup (length (a_nodes a)) 0). generalize (seq 0 (length (a_nodes a))).
      intros l N. assert (X : forall l, ~ In i l -> filter f (map KNode l) = []).
      { induction l0 as [|q l0 IH]; intros H; [reflexivity|]. cbn [map filter]. unfold f at 1. cbn [key_of].
        destruct (target_dec _ _) as [E|E]; [|apply IH; intros I; apply H; right; exact I].
        exfalso. apply H. left. congruence. }
      induction N as [|q l Hq N IH]; cbn [map filter length]; [lia|]. unfold f at 1. cbn [key_of].
      destruct (target_dec _ _) as [E|E]; [|exact IH]. injection E as ->. cbn [length]. rewrite (X l Hq). cbn [length]. lia.
  Qed.
End Specification.
