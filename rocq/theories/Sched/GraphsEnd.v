(** The attribute scheduler ends whatever the passes before it reported (C48):
    closing a graph, the exchange of induced dependencies and, if no cycle was
    reported, the partitioning of the attributes end. *)

From Coq Require Import List Ascii Bool Arith Lia Permutation.
From Verif Require Import Base.Outcome Palm.StrModel Front.Syntax Front.PropagateModel Front.ProductRulesModel
  Sched.GraphModel Sched.GraphSpec Sched.GraphProof Sched.TreeProof Sched.InduceProof Sched.ScheduleModel Sched.ScheduleProof Sched.ScheduleGraphs
  Sched.PartitionModel Sched.PartitionSpec Sched.PartitionProof.
Import ListNotations.
Local Open Scope outcome_scope.

Notation ag_antisym := (antisym occurrence_dec aptr_dec).
Notation ag_closed := (closed occurrence_dec aptr_dec).

(** The computation ends; if it has a value, [Q] holds of it. *)
Definition ends {A} (m : outcome A) (Q : A -> Prop) : Prop := m <> NoFuel /\ forall x, m = Val x -> Q x.
Lemma ends_val : forall A (x : A) (Q : A -> Prop), Q x -> ends (Val x) Q.
Proof. intros A x Q H. split; [discriminate|]. intros y E. injection E as <-. exact H. Qed.
Lemma ends_undef : forall A (Q : A -> Prop), ends Undef Q.
Proof. split; discriminate. Qed.
Lemma ends_exited : forall A (Q : A -> Prop), ends Exited Q.
Proof. split; discriminate. Qed.
Lemma ends_bind : forall A B (m : outcome A) (f : A -> outcome B) (Q : A -> Prop) (R : B -> Prop),
  ends m Q -> (forall x, Q x -> ends (f x) R) -> ends (bind m f) R.
Proof.
  intros A B [x| | | |] f Q R [N H] K; cbn [bind]; try (split; discriminate); [apply K, H; reflexivity|destruct (N eq_refl)].
Qed.

(** What a graph of the type [t] holds: its own attributes are positions in
    the attributes of [t]; unless an error was reported, there are not edges
    both ways. *)
Section Graphs.
  Variable nodes : list inode.
  Variable sets : list inodeset.
  Variable attrs : pra.
  Variable literals : list literal.
  Notation attributes_of := (attributes_of attrs).

  Definition own_vertex (t : target) (x : ag_vertex) : Prop :=
    fst x = OType t -> fst (snd x) = t /\ snd (snd x) < length (attributes_of t).
  Definition holds (t : target) (g : ag_graph) (errs : list ag_error) : Prop :=
    plain g /\ (errs = [] -> ag_antisym g) /\ forall x, In x (g_nodes g) -> own_vertex t x.
  Definition built (t : target) (s : building) : Prop := holds t (fst (fst s)) (snd s).

  Lemma positions_from_lt : forall X (f : X -> bool) l k i, In i (positions_from f k l) -> i < k + length l.
  Proof.
    intros X f. induction l as [|x l IH]; intros k i I; cbn [positions_from length] in *; [destruct I|].
    destruct (f x); [destruct I as [<-|I]; [lia|]|]; apply IH in I; lia.
  Qed.
  Lemma positions_lt : forall X (f : X -> bool) l i, In i (positions f l) -> i < length l.
  Proof. intros X f l i I. exact (positions_from_lt X f l 0 i I). Qed.

  Lemma holds_new : forall t, holds t GRnew [].
  Proof. intros t. split; [intros e []|]. split; [intros _ x y _ H; discriminate H|intros x []]. Qed.
  Lemma holds_node : forall t g errs x, holds t g errs -> own_vertex t x -> holds t (GRadd_node g x) errs.
  Proof.
    intros t g errs x (P & A & V) O. split; [exact P|]. split; [exact A|]. intros y I. cbn [GRadd_node g_nodes] in I.
    apply in_app_iff in I. destruct I as [I|[<-|[]]]; auto.
  Qed.
  Lemma holds_attributes : forall t g errs o t', holds t g errs -> (o = OType t -> t' = t) ->
    holds t (add_attributes attrs g o t') errs.
  Proof.
    intros t g errs o t' H O. unfold add_attributes. assert (L := positions_lt _ in_grammar (attributes_of t')).
    revert g H L. induction (positions in_grammar (attributes_of t')) as [|k l IH]; intros g H L; cbn [fold_left]; [exact H|].
    apply IH; [|intros i I; apply L; right; exact I]. apply holds_node; [exact H|]. intros E. cbn [fst snd] in *.
    rewrite <- (O E). split; [reflexivity|]. apply L. left. reflexivity.
  Qed.
  Lemma holds_edge : forall t s x y, built t s -> built t (add_edge s x y).
  Proof.
    intros t [[g edges] errs] x y (P & A & V). unfold built, add_edge, GRadd_edge. cbn [fst snd] in *.
    destruct (check_cycle _ _ g x y GRnormal) as [e|] eqn:C; cbn [fst snd report].
    - split; [exact P|]. split; [|exact V]. intros Z. destruct errs; discriminate Z.
    - split; [apply plain_add; [left; reflexivity|exact P]|]. split; [|exact V]. intros Z u v N H1 H2.
      apply (E_add occurrence_dec aptr_dec) in H1. apply (E_add occurrence_dec aptr_dec) in H2.
      assert (Ny := check_cycle_none _ _ _ _ _ _ C).
      destruct H1 as [H1|[<- <-]].
      + destruct H2 as [H2|[<- <-]]; [exact (A Z u v N H1 H2)|]. exact (Ny H1).
      + destruct H2 as [H2|[-> _]]; [exact (Ny H2)|]. apply N. reflexivity.
  Qed.

  Lemma argument_ends : forall t i n y s r, built t s -> ends (add_argument nodes sets attrs i n y s r) (built t).
  Proof.
    intros t i n y s r B. unfold add_argument. destruct (resolve _ _ _ i n r) as [x|]; [|apply ends_undef].
    destruct (attribute_at _ _) as [d|]; [|apply ends_undef]. destruct (negb (in_grammar d)); [apply ends_val, B|].
    assert (H := fun z => holds_edge t s z y B).
    destruct s as [[g edges] errs]. destruct (GRlookup_node _ _ _ _ _) as [z|]; [|apply ends_undef]. specialize (H z).
    destruct (add_edge (g, edges, errs) z y) as [[g' edges'] errs']. apply ends_val. exact H.
  Qed.
  Lemma arguments_end : forall t i n y l s, built t s -> ends (add_arguments nodes sets attrs i n y s l) (built t).
  Proof.
    intros t i n y. induction l as [|r l IH]; intros s B; cbn [add_arguments]; [apply ends_val, B|].
    eapply ends_bind; [apply argument_ends, B|exact (IH)].
  Qed.
  Lemma equations_end : forall t i n l s, built t s -> ends (add_equations nodes sets attrs i n s l) (built t).
  Proof.
    intros t i n. induction l as [|e l IH]; intros s B; cbn [add_equations]; [apply ends_val, B|].
    destruct (resolve _ _ _ i n _) as [y|]; [|apply ends_undef]. destruct (GRlookup_node _ _ _ _ _) as [z|]; [|apply ends_undef].
    eapply ends_bind; [apply arguments_end, B|exact IH].
  Qed.
  Lemma children_end : forall t i l k g, holds (TNode t) g [] -> ends (add_children nodes sets attrs i k g l) (fun g => holds (TNode t) g []).
  Proof.
    intros t i. induction l as [|c l IH]; intros k g H; cbn [add_children]; [apply ends_val, H|].
    destruct (find_type _ _ _) as [t'|]; [|apply ends_undef]. apply IH. apply holds_attributes; [exact H|discriminate].
  Qed.

  (** ... and closed, after closing *)
  Definition finished (t : target) (g : ag_graph) (errs : list ag_error) : Prop :=
    holds t g errs /\ (errs = [] -> ag_closed g).

  Lemma closing_ends : forall t s, built t s -> ends (close_building s) (fun s => finished t (fst (fst s)) (snd s)).
  Proof.
    intros t [[g edges] errs] (P & A & V). unfold close_building. cbn [fst snd] in *.
    destruct (close_closes occurrence_dec aptr_dec g edges) as (c & E & C). rewrite E. cbn [bind]. apply ends_val. cbn [fst snd].
    split; [split; [exact (c_plain _ _ _ _ _ C P)|split]|].
    - intros Z. unfold report in Z. destruct (cl_error c) eqn:Ec; [destruct errs; discriminate Z|].
      exact (c_antisym _ _ _ _ _ C Ec (A Z)).
    - rewrite (c_nodes _ _ _ _ _ C). exact V.
    - intros Z. unfold report in Z. destruct (cl_error c) eqn:Ec; [destruct errs; discriminate Z|]. exact (c_closed _ _ _ _ _ C Ec).
  Qed.

  Lemma node_graph_ends : forall i n,
    ends (generate_graph_node nodes sets attrs i n) (fun s => finished (TNode i) (fst (fst s)) (snd s)).
  Proof.
    intros i n. unfold generate_graph_node. eapply ends_bind.
    - apply (children_end i). apply holds_attributes; [apply holds_new|reflexivity].
    - intros g H. eapply ends_bind; [apply (equations_end (TNode i)); exact H|]. apply closing_ends.
  Qed.

  Lemma entries_end : forall l entries, ends (add_nodeset_entries nodes l entries) (fun _ => True).
  Proof.
    induction l as [|r l1 IH1 l2 IH2]; intros entries; cbn [add_nodeset_entries]; [apply ends_val, I|].
    destruct (find_node nodes r); [|apply ends_undef]. eapply ends_bind; [apply IH1|]. intros x _. apply IH2.
  Qed.
  Lemma found_or_added : forall t g errs o a, holds t g errs -> own_vertex t (o, a) -> holds t (find_or_add g o a) errs.
  Proof. intros t g errs o a H V. unfold find_or_add. destruct (GRlookup_node _ _ _ _ _); [exact H|apply holds_node; assumption]. Qed.
  Lemma member_attribute_ends : forall j m s k, built (TSet j) s -> ends (add_member_attribute attrs j m s k) (built (TSet j)).
  Proof.
    intros j m [[g edges] errs] k B. unfold add_member_attribute. destruct (nth_error (attributes_of (TSet j)) k) as [x|] eqn:X; [|apply ends_undef].
    assert (L : k < length (attributes_of (TSet j))) by (apply nth_error_Some; rewrite X; discriminate).
    destruct (get_equivalent_attribute attrs x m) as [a|] eqn:G; [|apply ends_undef]. cbn [fst snd]. apply ends_val.
    set (n1 := (OType (TSet j), (TSet j, k))). set (n2 := (OType (TNode m), a)).
    set (g2 := find_or_add (find_or_add g (OType (TSet j)) (TSet j, k)) (OType (TNode m)) a).
    assert (B1 : built (TSet j) (g2, edges, errs)).
    { unfold built. cbn [fst snd]. apply found_or_added; [apply found_or_added; [exact B|]|].
      - intros _. split; [reflexivity|exact L].
      - discriminate. }
    assert (B2 : built (TSet j) (if at_is_inherited x then add_edge (g2, edges, errs) n1 n2 else (g2, edges, errs)))
      by (destruct (at_is_inherited x); [apply holds_edge, B1|exact B1]).
    destruct (at_is_synthesized x); [apply holds_edge, B2|exact B2].
  Qed.
  Lemma member_attributes_end : forall j m l s, built (TSet j) s -> ends (add_member_attributes attrs j m s l) (built (TSet j)).
  Proof.
    intros j m. induction l as [|k l IH]; intros s B; cbn [add_member_attributes]; [apply ends_val, B|].
    eapply ends_bind; [apply member_attribute_ends, B|exact IH].
  Qed.
  Lemma member_graph_ends : forall j m edges,
    ends (generate_graph_member attrs j m edges) (fun s => finished (TSet j) (fst (fst s)) (snd s)).
  Proof.
    intros j m edges. unfold generate_graph_member. eapply ends_bind; [|apply closing_ends]. apply member_attributes_end.
    unfold built. cbn [fst snd]. apply holds_attributes; [|discriminate]. apply holds_attributes; [apply holds_new|reflexivity].
  Qed.

  Lemma finished_weaken : forall t g errs errs', finished t g errs -> (errs' = [] -> errs = []) -> finished t g errs'.
  Proof. intros t g errs errs' ((P & A & V) & C) H. split; [split; [exact P|split; [|exact V]]|]; intros Z; auto. Qed.

  Lemma member_graphs_end : forall j entries graphs edges errs,
    (forall mg, In mg graphs -> finished (TSet j) (snd mg) errs) ->
    ends (generate_member_graphs attrs j entries graphs edges errs)
      (fun s => forall mg, In mg (fst (fst s)) -> finished (TSet j) (snd mg) (snd s)).
  Proof.
    intros j. induction entries as [|m entries IH]; intros graphs edges errs H; cbn [generate_member_graphs]; [apply ends_val, H|].
    eapply ends_bind; [apply member_graph_ends|]. intros [[g edges'] errs'] F. cbn [fst snd] in F. apply IH.
    intros mg [<-|I]; [apply (finished_weaken _ _ errs' _ F)|apply (finished_weaken _ _ errs _ (H mg I))];
      intros Z; apply app_eq_nil in Z; apply Z.
  Qed.
  Lemma nodeset_graph_ends : forall j l,
    ends (generate_graph_nodeset nodes attrs j l) (fun s => forall mg, In mg (fst (fst s)) -> finished (TSet j) (snd mg) (snd s)).
  Proof.
    intros j l. unfold generate_graph_nodeset. eapply ends_bind; [apply entries_end|]. intros entries _. apply member_graphs_end. intros mg [].
  Qed.

  Definition all_finished (gs : list (graph_key * ag_graph)) (errs : list ag_error) : Prop :=
    forall kg, In kg gs -> finished (key_of (fst kg)) (snd kg) errs.

  Lemma all_node_graphs_end : forall l i pending,
    ends (node_graphs nodes sets attrs i l pending) (fun r => all_finished (fst (fst r)) (snd r)).
  Proof.
    induction l as [|n l IH]; intros i pending; cbn [node_graphs]; [apply ends_val; intros kg []|].
    eapply ends_bind; [apply node_graph_ends|]. intros [[g edges] errs] F. cbn [fst snd] in F.
    eapply ends_bind; [apply IH|]. intros [[gs pending'] errs'] G. cbn [fst snd] in G. apply ends_val. cbn [fst snd].
    intros kg [<-|I]; [apply (finished_weaken _ _ errs _ F)|apply (finished_weaken _ _ errs' _ (G kg I))];
      intros Z; apply app_eq_nil in Z; apply Z.
  Qed.
  Lemma all_nodeset_graphs_end : forall l j pending,
    ends (nodeset_graphs nodes sets attrs j l pending) (fun r => all_finished (fst (fst r)) (snd r)).
  Proof.
    induction l as [|lit l IH]; intros j pending; cbn [nodeset_graphs]; [apply ends_val; intros kg []|].
    eapply ends_bind; [apply nodeset_graph_ends|]. intros [[graphs edges] errs] F. cbn [fst snd] in F.
    eapply ends_bind; [apply IH|]. intros [[gs pending'] errs'] G. cbn [fst snd] in G. apply ends_val. cbn [fst snd].
    intros kg I. apply in_app_iff in I. destruct I as [I|I].
    - apply in_map_iff in I. destruct I as (mg & <- & I). cbn [fst snd key_of]. apply (finished_weaken _ _ errs _ (F mg I)).
      intros Z. apply app_eq_nil in Z. apply Z.
    - apply (finished_weaken _ _ errs' _ (G kg I)). intros Z. apply app_eq_nil in Z. apply Z.
  Qed.

  Notation gnt := (get_node_type nodes sets).
  Notation ag_round := (round_spec occurrence_dec aptr_dec type_dec gnt).

  Lemma round_finished : forall (gs : list (graph_key * ag_graph)) es pending gs' pd errs0 errs,
    all_finished gs errs0 -> induce_round occurrence_dec aptr_dec type_dec gnt gs es pending = Val (gs', pd, errs) ->
    (errs = [] -> errs0 = [] -> all_finished gs' []) /\ (forall kg, In kg gs' -> plain (snd kg)) /\
    (forall kg x, In kg gs' -> In x (g_nodes (snd kg)) -> own_vertex (key_of (fst kg)) x).
  Proof.
    induction gs as [|[k g] gs IH]; intros es pending gs' pd errs0 errs H R; cbn [induce_round] in R.
    - injection R as <- <- <-. split; [intros _ _ kg []|]. split; [intros kg []|intros kg x []].
    - destruct (H (k, g) (or_introl eq_refl)) as ((P & A & V) & C). cbn [fst snd] in *.
      destruct (induces_spec occurrence_dec aptr_dec type_dec gnt es g P) as (g1 & added & e1 & E1 & Ind). rewrite E1 in R. cbn [bind] in R.
      destruct (induce_round _ _ _ _ gs es _) as [[[gs2 pd2] e2]| | | |] eqn:R2; try discriminate R. cbn [bind] in R. injection R as <- <- <-.
      destruct (IH _ _ _ _ errs0 _ (fun kg I => H kg (or_intror I)) R2) as (I1 & I2 & I3).
      assert (V' : forall x, In x (g_nodes g1) -> own_vertex (key_of k) x) by (rewrite (i_nodes _ _ _ _ _ _ _ _ Ind); exact V).
      split; [|split].
      + intros Z Z0. apply app_eq_nil in Z. destruct Z as [-> ->]. intros kg [<-|I]; [|exact (I1 eq_refl Z0 kg I)]. cbn [fst snd].
        split; [split; [exact (i_plain _ _ _ _ _ _ _ _ Ind)|split; [|exact V']]|].
        * intros _. exact (i_antisym _ _ _ _ _ _ _ _ Ind eq_refl (A Z0)).
        * intros _. exact (i_closed _ _ _ _ _ _ _ _ Ind eq_refl).
      + intros kg [<-|I]; [exact (i_plain _ _ _ _ _ _ _ _ Ind)|exact (I2 kg I)].
      + intros kg x [<-|I] Ix; [exact (V' x Ix)|exact (I3 kg x I Ix)].
  Qed.

  (** Without any error the final graphs are closed and have no cycle. *)
  Lemma loop_finished : forall fuel (gs : list (graph_key * ag_graph)) pending gs',
    all_finished gs [] -> induce_loop occurrence_dec aptr_dec type_dec gnt fuel gs pending = Val (gs', []) -> all_finished gs' [].
  Proof.
    induction fuel as [|fuel IH]; intros gs pending gs' H R; (destruct pending as [|e pending]; [injection R as <-; exact H|]); [discriminate R|].
    cbn [induce_loop] in R. destruct (induce_round _ _ _ _ gs (e :: pending) []) as [[[gs1 pd] e1]| | | |] eqn:R1; try discriminate R.
    cbn [bind] in R. destruct (induce_loop _ _ _ _ fuel gs1 pd) as [[gs2 e2]| | | |] eqn:R2; try discriminate R. cbn [bind] in R.
    injection R as <- Z. apply app_eq_nil in Z. destruct Z as [-> ->].
    destruct (round_finished gs (e :: pending) [] gs1 pd [] [] H R1) as (F & _). exact (IH gs1 pd gs2 (F eq_refl eq_refl) R2).
  Qed.

  Theorem SAVgraphs_end : forall shuffle, (forall l, Permutation (shuffle l) l) ->
    ends (SAVgraphs nodes sets attrs literals shuffle) (fun r => snd r = [] -> all_finished (fst r) []).
  Proof.
    intros shuffle Sh. unfold SAVgraphs. eapply ends_bind; [apply all_node_graphs_end|]. intros [[gs pending] errs] F. cbn [fst snd] in F.
    eapply ends_bind; [apply all_nodeset_graphs_end|]. intros [[gs' pending'] errs'] F'. cbn [fst snd] in F'.
    set (all := shuffle (gs ++ gs')).
    assert (In_all : forall kg, In kg all -> In kg gs \/ In kg gs').
    { intros kg I. apply in_app_iff. exact (Permutation_in kg (Sh _) I). }
    destruct (loop_ends occurrence_dec aptr_dec type_dec gnt (induce_fuel all) all pending') as ([gs2 errs2] & R).
    { intros kg I. destruct (In_all kg I) as [J|J]; [apply (F kg J)|apply (F' kg J)]. }
    { apply total_bound. }
    rewrite R. cbn [bind fst snd]. apply ends_val. cbn [fst snd]. intros Z. apply app_eq_nil in Z. destruct Z as [-> Z].
    apply app_eq_nil in Z. destruct Z as [-> ->]. refine (loop_finished _ _ _ _ _ R). intros kg I.
    destruct (In_all kg I) as [J|J]; [apply (F kg J)|apply (F' kg J)].
  Qed.

  (** *** The partitions *)

  (** Names of the attributes of a type are distinct. *)
  Hypothesis Names : forall t, NoDup (map (fun x => ID_LWR (at_name x)) (attributes_of t)).

  Lemma names_at : forall t i j x y, nth_error (attributes_of t) i = Some x -> nth_error (attributes_of t) j = Some y ->
    ID_LWR (at_name x) = ID_LWR (at_name y) -> i = j.
  Proof.
    intros t i j x y Hi Hj E. assert (N := proj1 (NoDup_nth_error _) (Names t)). apply N.
    - rewrite map_length. apply nth_error_Some. rewrite Hi. discriminate.
    - rewrite !nth_error_map, Hi, Hj. cbn [option_map]. rewrite E. reflexivity.
  Qed.

  Lemma partition_ends : forall t g, finished t g [] -> exists p, partition_nodes attrs g (OType t) = Val p.
  Proof.
    intros t g ((P & A & V) & C). specialize (A eq_refl). specialize (C eq_refl).
    assert (At : forall x, In x (own g (OType t)) -> fst x = OType t /\ fst (snd x) = t /\
              exists d, nth_error (attributes_of t) (snd (snd x)) = Some d /\ attribute_at attrs (snd x) = Some d).
    { intros x I. apply in_own in I. destruct I as [I E]. destruct (V x I E) as [E1 L]. split; [exact E|]. split; [exact E1|].
      destruct (nth_error (attributes_of t) (snd (snd x))) as [d|] eqn:D.
      - exists d. split; [reflexivity|]. unfold attribute_at. rewrite E1. exact D.
      - apply nth_error_None in D. lia. }
    destruct (partition_right attrs g (OType t)) as (p & E & _); [| |exact P| |eauto].
    - intros x I. destruct (At x I) as (_ & _ & d & _ & D). eauto.
    - intros x y Ix Iy. unfold vname. destruct (At x Ix) as (O1 & T1 & d1 & N1 & D1). destruct (At y Iy) as (O2 & T2 & d2 & N2 & D2).
      rewrite D1, D2. intros Q. assert (J := names_at t _ _ _ _ N1 N2 Q). destruct x as [o1 [t1 k1]], y as [o2 [t2 k2]]. cbn [fst snd] in *. congruence.
    - intros x y z Ix Iy Iz [N1 H1] [N2 H2]. apply in_own in Ix, Iy, Iz.
      destruct (vertex_dec occurrence_dec aptr_dec x z) as [->|N]; [destruct (A _ _ N1 H1 H2)|]. split; [exact N|].
      exact (C x y z (proj1 Ix) (proj1 Iy) (proj1 Iz) N1 N2 N H1 H2).
  Qed.

  Lemma partition_types_end : forall gs l, all_finished gs [] -> partition_types attrs gs l <> NoFuel.
  Proof.
    intros gs l F. induction l as [|t l IH]; cbn [partition_types]; [discriminate|].
    destruct (first_graph gs t) as [g|] eqn:G; [|destruct t; [discriminate|exact IH]].
    unfold first_graph in G. destruct (List.find _ gs) as [[k g']|] eqn:Fi; [|discriminate]. injection G as <-. apply find_some in Fi.
    destruct Fi as [I Q]. cbn [fst snd] in Q. destruct (target_dec (key_of k) t) as [<-|]; [|discriminate].
    destruct (partition_ends _ _ (F _ I)) as (p & E). cbn [fst snd] in E. rewrite E. cbn [bind].
    destruct (partition_types attrs gs l) as [r| | | |]; cbn [bind]; congruence.
  Qed.
  Lemma collect_loop_ends : forall table l vs, collect_loop attrs table vs l <> NoFuel.
  Proof.
    intros table. induction l as [|x l IH]; intros vs; cbn [collect_loop]; [discriminate|].
    destruct table as [t|]; [|discriminate]. destruct (attribute_at _ _) as [d|]; [|discriminate]. cbn zeta.
    destruct (_ =? 0); [discriminate|apply IH].
  Qed.
  Lemma collect_types_end : forall gs tables l, collect_types attrs gs tables l <> NoFuel.
  Proof.
    intros gs tables. induction l as [|t l IH]; cbn [collect_types]; [discriminate|].
    destruct (first_graph gs t) as [g|]; [|destruct t; [discriminate|exact IH]].
    destruct (collect_visits attrs g (OType t) (table_of tables t)) as [v| | | |] eqn:E; cbn [bind]; try discriminate.
    - destruct (collect_types attrs gs tables l) as [r| | | |]; cbn [bind]; congruence.
    - unfold collect_visits in E. destruct (collect_loop_ends _ _ _ E).
  Qed.
End Graphs.
