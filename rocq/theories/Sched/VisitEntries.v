(** The entries of the visit sequences: what is done for each type a child may
    have, and which equation an evaluation uses (C34). *)

From Coq Require Import List Ascii Bool Arith Lia Permutation.
From Verif Require Import Sched.GraphModel Sched.GraphSpec Sched.GraphProof Sched.TreeProof Sched.InduceProof
  Sched.ScheduleModel Sched.ScheduleSpec Sched.ScheduleProof Sched.ScheduleGraphs Sched.PartitionModel
  Sched.PartitionSpec Sched.PartitionProof Sched.PartitionGrammar Sched.VisitModel Sched.VisitSpec Sched.VisitProof
  Sched.EmptyVisitProof Sched.VisitComplete Sched.VisitGrammar.
From Verif Require Import Base.Outcome Palm.StrModel Front.Syntax Front.SetsSpec Front.NodesetTableModel Front.PropagateModel Front.PropagateSpec
  Front.PropagateProof Front.NodesetPassesProof Front.ProductRulesModel Front.ProductRulesSpec Front.ProductRulesProof Sched.FrontendModel Sched.FrontendProof
  Sched.CycleProof.
Import ListNotations.
Local Open Scope outcome_scope.

Section Entries.
  Variable nodes : list inode.
  Variable sets : list inodeset.
  Variable attrs : pra.
  Variable literals : list literal.
  Variable vt : visits_table.
  Variable g : ag_graph.
  Variable node : occurrence.
  Notation make_entry := (make_entry nodes sets attrs literals vt node).
  Definition made (e : VisitModel.entry) : Prop := exists x, make_entry x = Val (Some e).

  Lemma add_visit_sequence_made : forall l x l', add_visit_sequence nodes sets attrs literals vt node l x = Val l' ->
    (forall e, In e l -> made e) -> forall e, In e l' -> made e.
  Proof.
    intros l x l' H M e I. unfold add_visit_sequence in H. destruct (make_entry x) as [[e'|]| | | |] eqn:E; try discriminate; cbn [bind] in H.
    - unfold append_entry in H. destruct (rev l) as [|last r] eqn:Rl.
      + injection H as <-. destruct I as [<-|[]]. exists x. exact E.
      + destruct (is_dummy last); [discriminate|]. injection H as <-. apply in_app_iff in I. destruct I as [I|[<-|[]]]; [auto|]. exists x. exact E.
    - injection H as <-. auto.
  Qed.
  Lemma visit_loop_made : forall iter S w l S' l', visit_loop nodes sets attrs literals vt g node iter S w l = Val (S', l') ->
    (forall e, In e l -> made e) -> forall e, In e l' -> made e.
  Proof.
    intros iter. induction iter as [|iter IH]; intros S [q queued] l S' l' H M; cbn [visit_loop] in H;
      (destruct (drop_scheduled S q) as [|x q']; [injection H as <- <-; exact M|]); [discriminate|].
    destruct (sched_dependencies nodes sets attrs vt g node S (q', queued) x) as [[[q1 queued1] un]| | | |]; try discriminate. cbn [bind] in H.
    destruct un; [exact (IH _ _ _ _ _ H M)|].
    destruct (mark_scheduled nodes sets vt g S x) as [S1| | | |]; try discriminate. cbn [bind] in H.
    destruct (add_visit_sequence nodes sets attrs literals vt node l x) as [l1| | | |] eqn:Ea; try discriminate. cbn [bind] in H.
    apply (IH _ _ _ _ _ H). exact (add_visit_sequence_made l x l1 Ea M).
  Qed.
  Lemma sequences_made : forall max i n vs S res, generate_sequences nodes sets attrs literals vt g node max i n S vs = Val res ->
    forall r e, In r res -> In e (snd r) -> made e.
  Proof.
    intros max i n vs. induction vs as [|v vs IH]; intros S res H r e Ir Ie; cbn [generate_sequences] in H.
    - injection H as <-. destruct Ir.
    - destruct (generate_visit nodes sets attrs literals vt g node max i n S v _) as [[S1 l]| | | |] eqn:E; try discriminate. cbn [bind fst snd] in H.
      destruct (generate_sequences nodes sets attrs literals vt g node max i n S1 vs) as [rest| | | |] eqn:E2; try discriminate.
      cbn [bind] in H. injection H as <-. destruct Ir as [<-|Ir]; [|exact (IH _ _ E2 r e Ir Ie)]. cbn [snd] in Ie.
      unfold generate_visit in E. destruct (if match vs with [] => true | _ => false end then _ else _) as [more| | | |]; try discriminate.
      cbn [bind] in E. apply (visit_loop_made _ _ _ _ _ _ E); [intros e' []|exact Ie].
  Qed.

  Lemma nodeset_alternatives_right : forall k l alts, nodeset_alternatives nodes vt k l = Val alts ->
    Forall2 (fun r alt => exists ws, find_node nodes r = Some (fst alt) /\ visits_of vt (TNode (fst alt)) = Some ws /\ snd alt = (k <? length ws))
      (listed l) alts.
  Proof.
    intros k l. induction l as [|r u IHu w IHw]; intros alts H; cbn [nodeset_alternatives listed] in *.
    - injection H as <-. constructor.
    - destruct (find_node nodes r) as [m|] eqn:F; [|discriminate]. destruct (visits_of vt (TNode m)) as [ws|] eqn:Q; [|discriminate].
      destruct (nodeset_alternatives nodes vt k u) as [x| | | |]; try discriminate. cbn [bind] in H.
      destruct (nodeset_alternatives nodes vt k w) as [y| | | |]; try discriminate. cbn [bind] in H. injection H as <-.
      constructor; [exists ws; cbn [fst snd]; auto|]. apply Forall2_app; auto.
  Qed.
End Entries.

Section Specification.
  Variable a : ast.
  Variable s : pra.
  Variable lits : list literal.
  Variable shuffle : list (graph_key * ag_graph) -> list (graph_key * ag_graph).
  Variable ty : occurrence -> option target.
  Hypothesis P : parsed_ast a.
  Hypothesis U : unmarked a.
  Hypothesis B : before_scheduling a = Val (s, lits).
  Hypothesis Sh : forall l, Permutation (shuffle l) l.
  Hypothesis Ty : typing (a_nodes a) (a_nodesets a) ty.
  Variable gs : list (graph_key * ag_graph).
  Hypothesis R : dependency_graphs shuffle a = Val (gs, []).
  Variable ps : list (production occurrence aptr).
  Hypothesis Pr : productions (a_nodes a) (a_nodesets a) (attributes_of s) (member_of a) ps.
  Notation gnt := (get_node_type (a_nodes a) (a_nodesets a)).
  Variable vt : visits_table.
  Variable all : list (list (visit * list VisitModel.entry)).
  Variable max : nat.
  Hypothesis V : SAVvisits (a_nodes a) (a_nodesets a) s lits max gs = Val (vt, all).

  (** What is done for each type a child may have: all of them are dealt with,
      each once, and the visit is made if the type has that many visits. *)
  Definition alternatives_right (o : occurrence) (k : nat) (alts : list (nat * bool)) : Prop :=
    NoDup (map fst alts) /\
    (forall m, In m (map fst alts) <-> ty o = Some (TNode m) \/ exists j, ty o = Some (TSet j) /\ member_of a j m) /\
    (forall m b, In (m, b) alts -> exists ws, visits_of vt (TNode m) = Some ws /\ (b = true <-> k < length ws)).

  Lemma alternatives_of_set : forall j l k alts, nth_error lits j = Some l -> nodeset_alternatives (a_nodes a) vt k l = Val alts ->
    NoDup (map fst alts) /\ (forall m, In m (map fst alts) <-> member_of a j m) /\
    (forall m b, In (m, b) alts -> exists ws, visits_of vt (TNode m) = Some ws /\ (b = true <-> k < length ws)).
  Proof.
    intros j l k alts Hl E. apply nodeset_alternatives_right in E.
    destruct (before_scheduling_input a s lits P U B) as (G & _ & Lit & Mem & _).
    assert (D := literals_distinct a s lits P U B l (nth_error_In _ _ Hl)). unfold no_member_twice in D.
    assert (X : forall m, In m (map fst alts) <-> exists r, In r (listed l) /\ find_node (a_nodes a) r = Some m).
    { clear - E. induction E as [|r alt ids alts (ws & F & _) E IH]; intros m; cbn [map In].
      - split; [intros []|intros (r & [] & _)].
      - rewrite IH. split.
        + intros [<-|(r' & I & F')]; [exists r|exists r']; auto.
        + intros (r' & [<-|I] & F'); [left; congruence|right; eauto]. }
    split; [|split].
    - clear X Hl. induction E as [|r alt ids alts (ws & F & _) E IH]; cbn [map] in *; [constructor|].
      inversion D as [|? ? Dr D' Q]; subst. constructor; [|exact (IH D')]. intros I. apply Dr.
      assert (Z : exists r', In r' ids /\ find_node (a_nodes a) r' = Some (fst alt)).
      { clear - E I. induction E as [|r' alt' ids alts (ws & F & _) E IH]; [destruct I|]. cbn [map In] in I. destruct I as [<-|I]; [exists r'; split; [left; reflexivity|exact F]|].
        destruct (IH I) as (r'' & I' & F'). exists r''. split; [right; exact I'|exact F']. }
      destruct Z as (r' & I' & F'). apply (find_node_iff _ _ _ G) in F. apply (find_node_iff _ _ _ G) in F'.
      destruct F as (n1 & H1 & S1). destruct F' as (n2 & H2 & S2). rewrite H1 in H2. injection H2 as <-.
      unfold same_id in *. rewrite <- S1, S2. apply in_map. exact I'.
    - intros m. rewrite X, <- Mem. split.
      + intros (r & I & F). apply (find_node_iff _ _ _ G) in F. destruct F as (n & Hn & Sn). exists l, n. split; [exact Hl|]. split; [exact Hn|].
        unfold names_in. unfold same_id in Sn. rewrite Sn. apply in_map. exact I.
      + intros (lit & n & Hlit & Hn & I). rewrite Hl in Hlit. injection Hlit as <-. unfold names_in in I. apply in_map_iff in I.
        destruct I as (r & Qr & Ir). exists r. split; [exact Ir|]. apply (find_node_iff _ _ _ G). exists n. split; [exact Hn|]. unfold same_id. congruence.
    - clear D X Hl. intros m b I. induction E as [|r alt ids alts (ws & F & Q & Qb) E IH]; [destruct I|]. destruct I as [->|I]; [|auto].
      cbn [fst snd] in *. exists ws. split; [exact Q|]. rewrite Qb. apply Nat.ltb_lt.
  Qed.

  Lemma entries_made : forall i n res, nth_error (a_nodes a) i = Some n -> nth_error all i = Some res ->
    forall r e, In r res -> In e (snd r) -> made (a_nodes a) (a_nodesets a) s lits vt (OType (TNode i)) e.
  Proof.
    intros i n res Hn Hr r e Ir Ie. destruct (SAVvisits_parts a s lits gs max vt all V) as (tables & vt0 & E1 & E2 & E3 & E4).
    destruct (generate_all_right a s lits gs vt max _ 0 all E4) as [_ X]. destruct (X i n Hn) as (g & res' & _ & Hr' & E). cbn [Nat.add] in *.
    rewrite Hr in Hr'. injection Hr' as <-. unfold generate_visits in E. destruct (visits_of vt (TNode i)) as [vs|]; [|discriminate].
    exact (sequences_made _ _ _ _ _ _ _ _ _ _ _ _ _ E r e Ir Ie).
  Qed.

  (** An action of the sequences is performed at some point. *)
  Lemma action_performed : forall res r e, In r res -> In e (snd r) ->
    exists k done, performed (actions res) k done (action_of e).
  Proof.
    intros res r e Ir Ie. apply In_nth_error in Ir. destruct Ir as (k & Hk). apply in_split in Ie. destruct Ie as (u & w & Q).
    exists k. eexists. exists (map action_of u), (map action_of w). split; [|reflexivity].
    unfold actions. rewrite nth_error_map, Hk. cbn [option_map]. rewrite Q, map_app. reflexivity.
  Qed.

  Lemma node_schedule_of : forall i n, nth_error (a_nodes a) i = Some n -> exists p res, In p ps /\
    node_production (a_nodes a) (a_nodesets a) (attributes_of s) i n p /\ nth_error all i = Some res /\
    schedule (OType (TNode i)) (children i n) (visits_by ty vt) (fun x y => x <> y /\ depends_on ty ps p x y) (actions res).
  Proof.
    intros i n Hn. destruct (SAVvisits_parts a s lits gs max vt all V) as (tables & vt0 & E1 & E2 & E3 & E4).
    destruct (pr_nodes _ _ _ _ _ Pr i n Hn) as (p & Ip & Np).
    destruct (visits_right a s lits shuffle ty P U B Sh Ty gs R ps Pr tables vt0 vt E1 E2 E3 max all E4 i n p Hn Ip Np) as (res & Hr & _ & Sc).
    exists p, res. auto.
  Qed.

  Theorem entries_right : forall i n res, nth_error (a_nodes a) i = Some n -> nth_error all i = Some res ->
    forall r o k alts, In r res -> In (EVisit o k alts) (snd r) -> alternatives_right o k alts.
  Proof.
    intros i n res Hn Hr r o k alts Ir Ie. destruct (entries_made i n res Hn Hr r _ Ir Ie) as (x & E).
    destruct (node_schedule_of i n Hn) as (p & res' & Ip & Np & Hr' & Sc). rewrite Hr in Hr'. injection Hr' as <-.
    assert (Hgnt := typing_gnt a s lits ty P U B Ty o).
    destruct x as [y|o' k']; cbn [make_entry] in E.
    - destruct (attribute_at s (snd y)) as [d|]; [|discriminate]. destruct (negb _ && _); discriminate.
    - destruct (gnt o') as [t|] eqn:T; [|discriminate]. destruct t as [m|j].
      + injection E as <- <- <-. unfold alternatives_right. rewrite Hgnt, T. cbn [map fst]. split; [repeat constructor; intros []|].
        split.
        * intros m'. split; [intros [<-|[]]; auto|]. intros [Q|(j & Q & _)]; [injection Q as <-; left; reflexivity|discriminate].
        * intros m' b [Q|[]]. injection Q as <- <-.
          destruct (action_performed res r _ Ir Ie) as (kk & done & Pf). cbn [action_of] in Pf.
          destruct (sc_visit _ _ _ _ _ Sc kk done o' k' Pf) as (_ & _ & v & Hv & _).
          unfold visits_by in Hv. rewrite Hgnt, T in Hv. destruct (visits_of vt (TNode m)) as [ws|]; [|destruct k'; discriminate].
          exists ws. split; [reflexivity|]. split; [intros _|reflexivity]. rewrite <- (map_length attributes_only). apply nth_error_Some. congruence.
      + destruct (nth_error lits j) as [l|] eqn:Hl; [|discriminate].
        destruct (nodeset_alternatives (a_nodes a) vt k' l) as [al| | | |] eqn:Ea; try discriminate. cbn [bind] in E.
        assert (Qa : o' = o /\ k' = k /\ al = alts) by (destruct al; [discriminate|]; injection E as <- <- <-; auto).
        destruct Qa as (-> & -> & ->). destruct (alternatives_of_set j l k alts Hl Ea) as (A1 & A2 & A3).
        split; [exact A1|]. split; [|exact A3]. intros m. rewrite A2, Hgnt, T. split; [eauto|].
        intros [Q|(j' & Q & M)]; [discriminate|]. injection Q as <-. exact M.
  Qed.

  (** An attribute is computed by an equation of the node, unless it is an
      inherited attribute of the node itself. *)
  Theorem evaluations_right : forall i n res, nth_error (a_nodes a) i = Some n -> nth_error all i = Some res ->
    forall r x, In r res -> In (EEval x) (snd r) ->
    (fst x = OType (TNode i) /\ inherited (attributes_of s) (snd x)) \/
    (exists e, In e (nd_equations n) /\ stands_for (a_nodes a) (a_nodesets a) (attributes_of s) i n (eq_rule e) x).
  Proof.
    intros i n res Hn Hr r x Ir Ie.
    destruct (SAVvisits_parts a s lits gs max vt all V) as (tables & vt0 & E1 & E2 & E3 & E4).
    destruct (generate_all_right a s lits gs vt max _ 0 all E4) as [_ X]. destruct (X i n Hn) as (g & res' & Fg & Hr' & E). cbn [Nat.add] in *.
    rewrite Hr in Hr'. injection Hr' as <-. unfold generate_visits in E. destruct (visits_of vt (TNode i)) as [vs|] eqn:Q; [|discriminate].
    destruct (pr_nodes _ _ _ _ _ Pr i n Hn) as (p & Ip & Np).
    destruct (node_facts a s lits shuffle ty P U B Sh Ty gs R ps Pr i n p g Hn Ip Np Fg) as (Pl & Hv & _).
    destruct (table_right a s lits shuffle ty P U B Sh Ty gs R ps Pr tables vt0 vt E1 E2 E3) as [_ T]. destruct (T _ vs Q) as (T1 & T2 & T3 & _).
    assert (Vx : In x (g_nodes g)).
    { apply (node_evaluates (a_nodes a) (a_nodesets a) s lits vt g i n) with (max := max) (vs := vs) (res := res).
      - exact (set_has_members a s lits shuffle ty P U B Sh Ty gs R ps Pr tables vt0 vt E1 E2 E3).
      - intros y Iy. apply Hv in Iy. apply (np_vertices _ _ _ _ _ _ Np) in Iy. destruct Iy as [Iy _].
        rewrite (np_root _ _ _ _ _ _ Np) in Iy. destruct Iy as [Iy|Iy]; [left; congruence|right].
        apply (np_kids _ _ _ _ _ _ Np) in Iy. destruct Iy as (k & Lk & Qk). rewrite Qk. unfold kids. apply in_map. apply in_seq. lia.
      - intros v y Iv Iy. apply (T1 v y Iv Iy).
      - intros v y Iv Iy. destruct (T1 v y Iv) as [Oy Ay]; [apply in_app_iff; auto|]. apply Hv.
        destruct y as [o b]. cbn [fst snd] in *. subst o. apply (root_vertices a s gs ps Pr (TNode i) g Fg p Ip (np_root _ _ _ _ _ _ Np)). exact Ay.
      - exact E.
      - apply in_concat. exists (map action_of (snd r)). split.
        + unfold sequences. apply (in_map (fun r => map action_of (snd r))). exact Ir.
        + change (Evaluate x) with (action_of (EEval x)). apply in_map. exact Ie. }
    apply Hv in Vx. apply (np_vertices _ _ _ _ _ _ Np) in Vx. destruct Vx as (Ox & Tx & Gx). rewrite (np_root _ _ _ _ _ _ Np) in Ox.
    destruct (before_scheduling_input a s lits P U B) as (G & Eqs & _).
    assert (Ll : exists l, In (n, l) (combine (a_nodes a) (p_nodes s)) /\ attributes_of s (TNode i) = l).
    { destruct (nth_error (p_nodes s) i) as [l|] eqn:Hl.
      - exists l. split; [apply (nth_error_In _ i); apply nth_error_combine_some; assumption|]. cbn [attributes_of]. apply nth_error_nth. exact Hl.
      - apply nth_error_None in Hl. rewrite (gi_len_nodes _ _ _ G) in Hl. assert (i < length (a_nodes a)) by (apply nth_error_Some; congruence). lia. }
    destruct Ll as (l & Il & Ql). specialize (Eqs n l Il). destruct Ox as [Ox|Ox].
    - destruct x as [o b]. cbn [fst snd] in *. subst o. cbn [typed] in Tx. destruct Gx as [Gx|(d & D & Sy)]; [left; auto|right].
      rewrite <- Tx, Ql in D. destruct (g_synthesized _ _ _ _ Eqs d (nth_error_In _ _ D) Sy) as (e & Ie' & Ae & Se).
      exists e. split; [exact Ie'|]. split; [exact Tx|]. split; [|rewrite Ae; reflexivity]. exists d. cbn [snd]. split; [rewrite <- Tx, Ql; exact D|].
      unfold same_id in *. congruence.
    - right. apply (np_kids _ _ _ _ _ _ Np) in Ox. destruct Ox as (k & Lk & Ok).
      assert (Inh : exists d, nth_error (attributes_of s (fst (snd x))) (snd (snd x)) = Some d /\ at_is_inherited d = true).
      { destruct Gx as [(d & D & I)|(d & D & Sy)]; [eauto|]. exfalso.
        destruct (entries_made i n res Hn Hr r _ Ir Ie) as (y & M). destruct y as [y|o' k']; cbn [make_entry] in M.
        - destruct (attribute_at s (snd y)) as [d'|] eqn:Ad; [|discriminate].
          destruct (occurrence_dec (fst y) (OType (TNode i))) as [Qo|Qo]; cbn [negb andb] in M.
          + injection M as ->. rewrite Ok in Qo. discriminate.
          + destruct (at_is_synthesized d') eqn:Sd; [discriminate|]. injection M as ->. change (attribute_at s (snd x) = Some d) in D. congruence.
        - destruct (gnt o') as [[m|j]|]; try discriminate. destruct (nth_error lits j); [|discriminate].
          destruct (nodeset_alternatives _ vt k' l0) as [[|]| | | |]; discriminate. }
      destruct Inh as (d & D & Id).
      destruct (nth_error (nd_children n) k) as [c|] eqn:Hc; [|apply nth_error_None in Hc; lia].
      assert (Ha : has_attributes (combine (a_nodes a) (p_nodes s)) (combine (a_nodesets a) (p_sets s)) (ch_type c) (attributes_of s (fst (snd x)))).
      { rewrite Ok in Tx. cbn [typed] in Tx. destruct Tx as (n' & c' & Hn' & Hc' & Hx). rewrite Hn in Hn'. injection Hn' as <-.
        rewrite Hc in Hc'. injection Hc' as <-. destruct (fst (snd x)) as [m|j]; cbn [has_name attributes_of] in *; destruct Hx as (z & Hz & Sz); [left|right].
        - exists z. split; [|exact Sz]. apply (nth_error_In _ m). apply nth_error_combine_some; [exact Hz|]. apply nth_error_nth'.
          rewrite (gi_len_nodes _ _ _ G). apply nth_error_Some. congruence.
        - exists z. split; [|exact Sz]. apply (nth_error_In _ j). apply nth_error_combine_some; [exact Hz|]. apply nth_error_nth'.
          rewrite (gi_len_sets _ _ _ G). apply nth_error_Some. congruence. }
      destruct (g_inherited _ _ _ _ Eqs c _ d (nth_error_In _ _ Hc) Ha (nth_error_In _ _ D) Id) as (e & cn & Ie' & Ae & Sc & Se).
      exists e. split; [exact Ie'|]. split; [exact Tx|]. split.
      + exists d. split; [exact D|]. unfold same_id in *. congruence.
      + rewrite Ae. exists k, c. split; [exact Ok|]. split; [exact Hc|]. unfold same_id in *. congruence.
  Qed.

  (** Which types are visited at all: those with attributes of the grammar and
      those that have such a type below them. *)
  Definition part (t t' : target) : Prop :=
    match t with
    | TNode i => exists k, typed (a_nodes a) (a_nodesets a) (OChild i k) t'
    | TSet j => exists m, member_of a j m /\ t' = TNode m
    end.
  Inductive leads_to_attributes : target -> Prop :=
  | lta_own : forall t b, has_production ps t -> attribute_of_type (attributes_of s) t b -> leads_to_attributes t
  | lta_part : forall t t', part t t' -> leads_to_attributes t' -> leads_to_attributes t.

  Theorem visited_right : 
    (forall t, has_production ps t <-> exists vs, visits_of vt t = Some vs) /\
    (forall t vs, visits_of vt t = Some vs -> (vs <> [] <-> leads_to_attributes t)).
  Proof.
    destruct (SAVvisits_parts a s lits gs max vt all V) as (tables & vt0 & E1 & E2 & E3 & E4).
    destruct (table_right a s lits shuffle ty P U B Sh Ty gs R ps Pr tables vt0 vt E1 E2 E3) as [T0 T]. split; [exact T0|].
    destruct (partitions_right a s lits shuffle ty P U B Sh Ty gs R ps Pr) as (tables' & vt0' & E1' & E2' & H1 & H2 & H3 & H4).
    rewrite E1 in E1'. injection E1' as <-. rewrite E2 in E2'. injection E2' as <-.
    assert (D : forall t, visits_of vt0 t <> None -> In t (all_types (length (a_nodes a)) (length (a_nodesets a)))).
    { intros t Q. apply (production_type a s ps Pr). apply H2.
      change (visits_of_type vt0 t) with (visits_of vt0 t). destruct (visits_of vt0 t) as [vs|]; [eauto|congruence]. }
    assert (X := generate_empty_visits_right _ _ _ _ vt E3 D).
    destruct (before_scheduling_input a s lits P U B) as (G & _ & Lit & Mem & _).
    assert (Bl : forall t t', below (a_nodes a) (a_nodesets a) lits t t' <-> part t t').
    { intros [i|j] t'; cbn [below part].
      - split.
        + intros (n & k & Hn & L & Gt). exists k. apply Ty. rewrite (typing_gnt a s lits ty P U B Ty). exact Gt.
        + intros (k & Tk). assert (Tk' := Tk). destruct Tk' as (n & c & Hn & Hc & _). exists n, k. split; [exact Hn|]. split; [apply nth_error_Some; congruence|].
          rewrite <- (typing_gnt a s lits ty P U B Ty). apply Ty. exact Tk.
      - split.
        + intros (lit & r & m & Hl & Ir & F & ->). exists m. split; [|reflexivity]. apply Mem. apply (find_node_iff _ _ _ G) in F.
          destruct F as (n & Hn & Sn). exists lit, n. split; [exact Hl|]. split; [exact Hn|]. unfold names_in. unfold same_id in Sn. rewrite Sn. apply in_map. exact Ir.
        + intros (m & M & ->). apply Mem in M. destruct M as (lit & n & Hl & Hn & I). unfold names_in in I. apply in_map_iff in I.
          destruct I as (r & Qr & Ir). exists lit, r, m. split; [exact Hl|]. split; [exact Ir|]. split; [|reflexivity].
          apply (find_node_iff _ _ _ G). exists n. split; [exact Hn|]. unfold same_id. congruence. }
    (* the visits before: some attribute *)
    assert (Own : forall t v vs, visits_of vt0 t = Some (v :: vs) -> exists b, attribute_of_type (attributes_of s) t b).
    { intros t v vs Q. destruct (proj1 (H1 t)) as (tab & Qt); [apply H2; eauto|]. destruct (H4 t tab _ Qt Q) as [_ [_ _ _ V4]].
      destruct V4 as (b & Hb & _); [discriminate|]. eauto. }
    assert (Own' : forall t b vs, visits_of vt0 t = Some vs -> attribute_of_type (attributes_of s) t b -> vs <> []).
    { intros t b vs Q Hb. destruct (proj1 (H1 t)) as (tab & Qt); [apply H2; eauto|]. destruct (H4 t tab _ Qt Q) as [_ [_ _ V3 _]].
      destruct (V3 b Hb) as (k & L & _). rewrite map_length in L. intros ->. cbn in L. lia. }
    assert (Re : forall t, reached (a_nodes a) (a_nodesets a) lits vt0 t -> leads_to_attributes t).
    { intros t Rt. induction Rt as [t v vs Q|t t' Bt Rt IH].
      - destruct (Own t v vs Q) as (b & Hb). apply (lta_own t b); [apply H2; eauto|exact Hb].
      - apply (lta_part t t'); [apply Bl; exact Bt|exact IH]. }
    assert (Le : forall t, leads_to_attributes t -> reached (a_nodes a) (a_nodesets a) lits vt0 t).
    { intros t Lt. induction Lt as [t b Ht Hb|t t' Bt Lt IH].
      - apply H2 in Ht. destruct Ht as (vs & Q). assert (Ne := Own' t b vs Q Hb). destruct vs as [|v vs]; [congruence|].
        exact (reached_own _ _ _ _ t v vs Q).
      - apply (reached_below _ _ _ _ t t'); [apply Bl; exact Bt|exact IH]. }
    intros t vs Q. specialize (X t). destruct (visits_of vt0 t) as [[|v ws]|] eqn:Q0.
    - destruct X as [(Rt & X)|(Rt & X)]; rewrite X in Q; injection Q as <-.
      + split; [intros _; exact (Re t Rt)|discriminate].
      + split; [congruence|]. intros Lt. destruct (Rt (Le t Lt)).
    - rewrite X in Q. injection Q as <-. split; [|discriminate]. intros _. apply Re. exact (reached_own _ _ _ _ t v ws Q0).
    - congruence.
  Qed.
End Specification.
