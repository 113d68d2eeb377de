(** The partition numbers and visits of the types of a specification (C33). *)

From Coq Require Import List Ascii Bool Arith Lia Permutation.
From Verif Require Import Sched.GraphModel Sched.GraphSpec Sched.GraphProof Sched.TreeProof Sched.InduceProof
  Sched.ScheduleModel Sched.ScheduleSpec Sched.ScheduleProof Sched.ScheduleGraphs Sched.PartitionModel
  Sched.PartitionSpec Sched.PartitionProof.
From Verif Require Import Base.Outcome Palm.StrModel Front.Syntax Front.SetsSpec Front.PropagateModel Front.PropagateSpec
  Front.PropagateProof Front.NodesetPassesProof Front.ProductRulesModel Front.ProductRulesProof Sched.FrontendModel Sched.FrontendProof
  Sched.CycleProof.
Import ListNotations.
Local Open Scope outcome_scope.

(** The class of an attribute in a table. *)
Definition class_of (s : pra) (tab : partition_table) (b : aptr) : nat :=
  match attribute_at s b with Some x => partition_of tab (ID_LWR (at_name x)) | None => 0 end.
Definition visits_of_type (vt : visits_table) (t : target) : option (list visit) :=
  match List.find (fun e => if target_dec (fst e) t then true else false) vt with
  | Some e => Some (snd e)
  | None => None
  end.
Definition attributes_only (v : visit) : list aptr * list aptr := (map snd (v_inputs v), map snd (v_outputs v)).

Lemma Forall2_in_r : forall {X Y} (R : X -> Y -> Prop) l l' y, Forall2 R l l' -> In y l' -> exists x, In x l /\ R x y.
Proof.
  intros X Y R l l' y F. induction F as [|a b l l' H F IH]; intros I; [destruct I|]. destruct I as [<-|I].
  - exists a. split; [left; reflexivity|exact H].
  - destruct (IH I) as (x & Ix & Hx). exists x. split; [right; exact Ix|exact Hx].
Qed.
Lemma Forall2_in_l : forall {X Y} (R : X -> Y -> Prop) l l' x, Forall2 R l l' -> In x l -> exists y, In y l' /\ R x y.
Proof.
  intros X Y R l l' x F. induction F as [|a b l l' H F IH]; intros I; [destruct I|]. destruct I as [<-|I].
  - exists b. split; [left; reflexivity|exact H].
  - destruct (IH I) as (y & Iy & Hy). exists y. split; [right; exact Iy|exact Hy].
Qed.

Lemma least_ext : forall {A B} (f : B -> A) (atA : A -> Prop) (atB : B -> Prop) (synA : A -> Prop) (synB : B -> Prop) (needA : A -> A -> Prop) (needB : B -> B -> Prop) (numA : A -> nat) (numB : B -> nat),
  (forall b c : B, {b = c} + {b <> c}) ->
  (forall b, atB b -> atA (f b)) -> (forall x, atA x -> exists b, atB b /\ f b = x) ->
  (forall b, atB b -> (synB b <-> synA (f b))) ->
  (forall x y, needA x y -> x <> y) ->
  (forall b c, atB b -> atB c -> b <> c -> (needB b c <-> needA (f b) (f c))) ->
  (forall b, atB b -> numB b = numA (f b)) ->
  (forall other : B -> nat, exists other' : A -> nat, forall b, atB b -> other b = other' (f b)) ->
  least_partitioning atA synA needA numA -> least_partitioning atB synB needB numB.
Proof.
  intros A B f atA atB synA synB needA needB numA numB Dec Ha Hs Hsyn Hir Hn Hnum Hext [[P1 P2 P3 P4] L]. split.
  - split.
    + intros b Hb. rewrite Hnum by exact Hb. auto.
    + intros b Hb Sb. rewrite Hnum by exact Hb. apply P2; [auto|]. apply Hsyn; assumption.
    + intros b Hb Sb. rewrite Hnum by exact Hb. apply P3; [auto|]. rewrite <- Hsyn; assumption.
    + intros b c Hb Hc N. destruct (Dec b c) as [->|Nbc]; [apply le_n|]. rewrite !Hnum by assumption. apply P4; auto. apply Hn; assumption.
  - intros other [O1 O2 O3 O4] b Hb. destruct (Hext other) as (other' & E'). rewrite Hnum, E' by exact Hb. apply L; [|auto].
    split.
    + intros x Hx. destruct (Hs x Hx) as (c & Hc & <-). rewrite <- E' by exact Hc. auto.
    + intros x Hx Sx. destruct (Hs x Hx) as (c & Hc & <-). rewrite <- E' by exact Hc. apply O2; [exact Hc|]. apply Hsyn; assumption.
    + intros x Hx Sx. destruct (Hs x Hx) as (c & Hc & <-). rewrite <- E' by exact Hc. apply O3; [exact Hc|]. rewrite Hsyn; assumption.
    + intros x y Hx Hy N. destruct (Hs x Hx) as (c & Hc & <-). destruct (Hs y Hy) as (d & Hd & <-).
      rewrite <- !E' by assumption. apply O4; auto. apply Hn; auto. intros ->. exact (Hir _ _ N eq_refl).
Qed.

Section Specification.
  Variable a : ast.
  Variable s : pra.
  Variable lits : list literal.
  Variable shuffle : list (graph_key * ag_graph) -> list (graph_key * ag_graph).
  Variable ty : occurrence -> option target.
  Hypothesis P : parsed_ast a.
  Hypothesis U : unmarked a.
  Hypothesis B : before_scheduling a = Val (s, lits).
  Hypothesis Sh : forall l, Permutation (shuffle l) l.
  Hypothesis Ty : typing (a_nodes a) (a_nodesets a) ty.
  Variable gs : list (graph_key * ag_graph).
  Hypothesis R : dependency_graphs shuffle a = Val (gs, []).
  Variable ps : list (production occurrence aptr).
  Hypothesis Pr : productions (a_nodes a) (a_nodesets a) (attributes_of s) (member_of a) ps.

  Notation of_grammar := (of_grammar (attributes_of s)).
  Notation gnt := (get_node_type (a_nodes a) (a_nodesets a)).
  Notation attribute_of_type := (attribute_of_type (attributes_of s)).

  Lemma typing_gnt : forall o, ty o = gnt o.
  Proof. destruct (before_scheduling_input a s lits P U B) as (G & _). exact (typing_unique _ _ _ G ty Ty). Qed.

  (** The graph of a type and the dependencies of the productions. *)
  Lemma graph_facts : forall kg, In kg gs ->
    exists p, In p ps /\ p_root p = OType (key_of (fst kg)) /\ NoDup (g_nodes (snd kg)) /\ plain (snd kg) /\
      (forall x, In x (p_vertices p) <-> In x (g_nodes (snd kg)) /\ proper_vertex (a_nodes a) (a_nodesets a) x) /\
      (forall x, In x (g_nodes (snd kg)) -> proper_vertex (a_nodes a) (a_nodesets a) x \/
         (fst x <> p_root p /\ exists j, p_root p = OType (TSet j))) /\
      antisym occurrence_dec aptr_dec (snd kg) /\
      (forall x y, AE (snd kg) x y -> depends_on ty ps p x y) /\
      (forall x y, depends_on ty ps p x y -> x = y \/ AE (snd kg) x y).
  Proof.
    destruct (before_scheduling_input a s lits P U B) as (G & GE & Lit & Mem & Cov).
    destruct (graphs_right (a_nodes a) (a_nodesets a) s lits G GE Lit Cov shuffle Sh)
      as (gs' & errs & qs & R' & Qr & C1 & C2 & F).
    unfold dependency_graphs in R. rewrite B in R. cbn [bind fst snd] in R. rewrite R in R'. injection R' as <- <-.
    assert (Qr' := productions_member _ _ _ _ _ qs Mem Qr).
    assert (S1 := productions_similar _ _ _ _ ps qs Pr Qr'). assert (S2 := productions_similar _ _ _ _ qs ps Qr' Pr).
    intros kg Ik. destruct (Forall2_in_r _ _ _ _ F Ik) as (q & Iq & Hb & (Nd & Td) & Hv & Hp & H1 & H2). destruct (H2 eq_refl) as [An H3].
    assert (X : exists p, In p ps /\ similar q p /\ p_root p = p_root q /\ p_root p = OType (key_of (fst kg))).
    { unfold belongs in Hb. destruct (fst kg) as [i|j m]; cbn [key_of].
      - destruct Hb as (n & Hn & Nq'). destruct (pr_nodes _ _ _ _ _ Pr i n Hn) as (p & Ip & Np). exists p. split; [exact Ip|].
        split; [exact (node_production_similar _ _ _ (member_of a) i n q p Nq' Np)|]. rewrite (np_root _ _ _ _ _ _ Np), (np_root _ _ _ _ _ _ Nq'). auto.
      - destruct Hb as (M & Mq). destruct (pr_members _ _ _ _ _ Pr j m) as (p & Ip & Mp); [apply Mem, M|]. exists p. split; [exact Ip|].
        split; [exact (member_production_similar _ (member_of a) j m q p Mq Mp)|]. rewrite (mp_root _ _ _ _ Mp), (mp_root _ _ _ _ Mq). auto. }
    destruct X as (p & Ip & Sim & Rq & Rp). exists p. split; [exact Ip|]. split; [exact Rp|]. split; [exact Nd|]. split; [exact Hp|].
    split; [|split; [|split; [exact An|]]].
    - intros x. rewrite <- Hv. symmetry. apply Sim.
    - intros x Ix. destruct (Td x Ix) as [T|(T & j & Tj)]; [left; exact T|]. right. rewrite Rq. split; [exact T|]. exists j. exact Tj.
    - assert (Sim' : similar p q) by (destruct Sim as [Sa Sb]; split; intros z; symmetry; [apply Sa|apply Sb]).
      split; intros x y D.
      + apply (depends_ext gnt ty); [intros o; symmetry; apply typing_gnt|].
        apply (depends_similar gnt qs ps S2 q x y); auto.
      + apply H3. apply (depends_ext ty gnt); [apply typing_gnt|].
        apply (depends_similar ty ps qs S1 p x y); auto.
  Qed.

  Lemma first_graph_in : forall t g, first_graph gs t = Some g -> exists k, In (k, g) gs /\ key_of k = t.
  Proof.
    intros t g H. unfold first_graph in H. destruct (List.find _ gs) as [[k g']|] eqn:F; [|discriminate]. injection H as <-.
    apply find_some in F. destruct F as [I F]. cbn [fst snd] in *. destruct (target_dec (key_of k) t); [|discriminate]. exists k. auto.
  Qed.
  Lemma first_graph_none : forall t, first_graph gs t = None -> forall kg, In kg gs -> key_of (fst kg) <> t.
  Proof.
    intros t H kg I Q. unfold first_graph in H. destruct (List.find _ gs) as [e|] eqn:F; [discriminate|].
    assert (X := find_none _ _ F kg I). cbn beta in X. destruct (target_dec _ _); [discriminate|contradiction].
  Qed.

  Lemma production_key : forall p, In p ps -> exists kg, In kg gs /\ p_root p = OType (key_of (fst kg)).
  Proof.
    destruct (before_scheduling_input a s lits P U B) as (G & GE & Lit & Mem & Cov).
    destruct (graphs_right (a_nodes a) (a_nodesets a) s lits G GE Lit Cov shuffle Sh)
      as (gs' & errs & qs & R' & Qr & C1 & C2 & F).
    unfold dependency_graphs in R. rewrite B in R. cbn [bind fst snd] in R. rewrite R in R'. injection R' as <- <-.
    intros p Ip. destruct (pr_only _ _ _ _ _ Pr p Ip) as [(i & n & Hn & N)|(j & m & Hm & M)].
    - destruct (pr_nodes _ _ _ _ _ Qr i n Hn) as (q & Iq & Nq). destruct (Forall2_in_l _ _ _ _ F Iq) as (kg & Ik & Hb & _).
      exists kg. split; [exact Ik|]. rewrite (np_root _ _ _ _ _ _ N). rewrite <- (np_root _ _ _ _ _ _ Nq).
      unfold belongs in Hb. destruct (fst kg); cbn [key_of].
      + destruct Hb as (n' & _ & Nb). apply (np_root _ _ _ _ _ _ Nb).
      + destruct Hb as (_ & Mb). apply (mp_root _ _ _ _ Mb).
    - apply Mem in Hm. destruct (pr_members _ _ _ _ _ Qr j m Hm) as (q & Iq & Nq). destruct (Forall2_in_l _ _ _ _ F Iq) as (kg & Ik & Hb & _).
      exists kg. split; [exact Ik|]. rewrite (mp_root _ _ _ _ M). rewrite <- (mp_root _ _ _ _ Nq).
      unfold belongs in Hb. destruct (fst kg); cbn [key_of].
      + destruct Hb as (n' & _ & Nb). apply (np_root _ _ _ _ _ _ Nb).
      + destruct Hb as (_ & Mb). apply (mp_root _ _ _ _ Mb).
  Qed.

  (** Own vertices of a type, in its first graph. *)
  Section Type_.
    Variable t : target.
    Variable g : ag_graph.
    Hypothesis Fg : first_graph gs t = Some g.
    Notation own := (own g (OType t)).

    Lemma root_vertices : forall p, In p ps -> p_root p = OType t -> forall b,
      In (OType t, b) (p_vertices p) <-> attribute_of_type t b.
    Proof.
      intros p Ip Rp b. unfold PartitionSpec.attribute_of_type. destruct (pr_only _ _ _ _ _ Pr p Ip) as [(i & n & Hn & N)|(j & m & Hm & M)].
      - rewrite (np_vertices _ _ _ _ _ _ N), Rp. cbn [fst snd In typed]. split; intros H; intuition congruence.
      - rewrite (mp_vertices _ _ _ _ M). rewrite (mp_root _ _ _ _ M) in Rp. injection Rp as <-. split.
        + intros [(_ & X)|(X & _)]; [exact X|discriminate].
        + intros X. left. split; [reflexivity|exact X].
    Qed.

    Lemma type_facts : NoDup (g_nodes g) /\ plain g /\ (forall x, In x own <-> fst x = OType t /\ attribute_of_type t (snd x)) /\
      (forall b c, attribute_of_type t b -> attribute_of_type t c -> b <> c -> (AE g (OType t, b) (OType t, c) <-> needs ty ps b c)).
    Proof.
      destruct (first_graph_in t g Fg) as (k & Ik & Kt). destruct (graph_facts (k, g) Ik) as (p & Ip & Rp & Nd & Pl & Hv & Hr & _ & He1 & He2).
      cbn [fst snd] in *. rewrite Kt in Rp. split; [exact Nd|]. split; [exact Pl|]. split.
      - intros [o b]. rewrite in_own. cbn [fst snd]. split.
        + intros [I ->]. split; [reflexivity|]. destruct (Hr _ I) as [Px|[Nx _]]; [|exfalso; apply Nx; cbn [fst]; congruence].
          apply (root_vertices p Ip Rp). apply Hv. auto.
        + intros [-> Ab]. split; [|reflexivity]. apply (root_vertices p Ip Rp), Hv in Ab. apply Ab.
      - intros b c Hb Hc Nbc. split; [intros D; exists p, (OType t); apply He1, D|].
        intros (p' & o' & D). destruct (He2 (OType t, b) (OType t, c)) as [Q|X]; [|congruence|exact X]. apply (dep_induced _ _ p p' (OType t) o'); auto.
        + assert (Gp : forall q, In q ps -> good_production q) by (intros q Iq; exact (production_good a s lits P U B ps q Pr Iq)).
          assert (Ip' := depends_in _ _ _ _ _ D). apply (depends_vertices ty ps Gp) in D. destruct D as [D _].
          assert (Tb : typed (a_nodes a) (a_nodesets a) o' (fst b)).
          { destruct (pr_only _ _ _ _ _ Pr p' Ip') as [(i & n & Hn & N)|(j & m & Hm & M)].
            - apply (np_vertices _ _ _ _ _ _ N) in D. apply D.
            - apply (mp_vertices _ _ _ _ M) in D. destruct D as [(-> & -> & _)|(-> & b' & X & Y & _)]; [reflexivity|].
              cbn [typed]. symmetry. exact Y. }
          apply Ty in Tb. rewrite Tb. destruct Hb as [<- _]. symmetry. apply Ty. reflexivity.
        + apply (root_vertices p Ip Rp). exact Hb.
        + apply (root_vertices p Ip Rp). exact Hc.
    Qed.

    Lemma attribute_at_of : forall b, of_grammar b -> exists d, attribute_at s b = Some d.
    Proof. intros b [(d & H & _)|(d & H & _)]; exists d; exact H. Qed.
    Lemma vname_injective : forall x y, In x own -> In y own -> vname s x = vname s y -> x = y.
    Proof.
      destruct (before_scheduling_input a s lits P U B) as (G & _).
      destruct type_facts as (_ & _ & Ho & _). intros [o b] [o' b'] Ix Iy. apply Ho in Ix. apply Ho in Iy. cbn [fst snd] in *.
      destruct Ix as (-> & Tb & Gb). destruct Iy as (-> & Tb' & Gb'). unfold vname. cbn [snd].
      destruct (attribute_at_of b Gb) as (d & Hd). destruct (attribute_at_of b' Gb') as (d' & Hd'). rewrite Hd, Hd'.
      destruct b as [t1 k1], b' as [t2 k2]. cbn [fst] in Tb, Tb'. subst t1 t2. intros Q. f_equal. f_equal.
      unfold ScheduleModel.attribute_at in Hd, Hd'. cbn [fst snd] in Hd, Hd'.
      apply (name_pos_unique _ (fun x => ID_LWR (at_name x)) (attributes_of s t) k1 k2 d d'); auto.
      destruct t as [i|j]; cbn [attributes_of] in *.
      - destruct (Nat.lt_ge_cases i (length (p_nodes s))) as [L|L].
        + apply (gi_node_attrs _ _ _ G). apply nth_In. exact L.
        + rewrite (nth_overflow _ _ L) in Hd. destruct k1; discriminate.
      - destruct (Nat.lt_ge_cases j (length (p_sets s))) as [L|L].
        + apply (gi_set_attrs _ _ _ G). apply nth_In. exact L.
        + rewrite (nth_overflow _ _ L) in Hd. destruct k1; discriminate.
    Qed.

    Lemma type_partition : exists tab, partition_nodes s g (OType t) = Val tab /\
      least_partitioning (attribute_of_type t) (synthesized (attributes_of s)) (needs ty ps) (class_of s tab) /\
      (forall x, In x own -> 2 <= number s tab x).
    Proof.
      destruct type_facts as (Nd & Pl & Ho & He).
      assert (Vb : forall b, attribute_of_type t b -> In (OType t, b) own).
      { intros b Hb. apply Ho. auto. }
      assert (Vx : forall x, In x own -> exists b, attribute_of_type t b /\ (OType t, b) = x).
      { intros [o b] Ix. apply Ho in Ix. cbn [fst snd] in Ix. destruct Ix as [-> Hb]. exists b. auto. }
      destruct (partition_right s g (OType t)) as (tab & Ep & L).
      - intros x Ix. apply Ho in Ix. destruct Ix as (_ & _ & Gx). exact (attribute_at_of _ Gx).
      - exact vname_injective.
      - exact Pl.
      - intros x y z Ix Iy Iz. destruct (first_graph_in t g Fg) as (k & Ik & _).
        destruct (graph_facts (k, g) Ik) as (p & _ & _ & _ & _ & _ & _ & An & E1 & E2).
        cbn [snd] in *. intros [N1 H1] [N2 H2]. assert (N3 : x <> z) by (intros ->; exact (An z y N1 H1 H2)).
        split; [exact N3|]. destruct (E2 x z) as [Q|X]; [|contradiction|exact X].
        exact (dep_trans _ _ _ _ _ _ (E1 _ _ H1) (E1 _ _ H2)).
      - exists tab. split; [exact Ep|]. split.
        + apply (least_ext (fun b : aptr => (OType t, b)) (fun x => In x own) (attribute_of_type t)
                  (vsyn s) _ (needed g) _ (number s tab) _); auto.
          * apply aptr_dec.
          * intros b _. unfold synthesized, attribute_is, vsyn, ScheduleModel.attribute_at. cbn [snd]. tauto.
          * intros x y [N _]. exact N.
          * intros b c Hb Hc N. unfold needed. rewrite <- He by assumption. split; [intros X; split; [congruence|exact X]|tauto].
          * intros b Hb. unfold class_of, number, vname. cbn [snd]. destruct (attribute_at_of b (proj2 Hb)) as (d & ->). reflexivity.
          * intros other. exists (fun x : ag_vertex => other (snd x)). intros b _. reflexivity.
        + destruct L as [[L1 _ _ _] _]. exact L1.
    Qed.

    Lemma type_visits : forall tab, (forall x, In x own -> 2 <= number s tab x) ->
      exists vs, collect_visits s g (OType t) (Some tab) = Val vs /\
        (forall v x, In v vs -> In x (v_inputs v ++ v_outputs v) -> fst x = OType t) /\
        visiting (attribute_of_type t) (inherited (attributes_of s)) (class_of s tab) (map attributes_only vs).
    Proof.
      intros tab L. destruct type_facts as (Nd & Pl & Ho & He).
      destruct (collect_right s g (OType t)) with (t := tab) as (vs & Ec & V).
      - intros x Ix. apply Ho in Ix. destruct Ix as (_ & _ & Gx). exact (attribute_at_of _ Gx).
      - exact Nd.
      - exact L.
      - exists vs. split; [exact Ec|]. destruct V as [V1 V2 V3 V4].
        assert (Hnum : forall b, attribute_of_type t b -> class_of s tab b = number s tab (OType t, b)).
        { intros b Hb. unfold class_of, number, vname. cbn [snd]. destruct (attribute_at_of b (proj2 Hb)) as (d & ->). reflexivity. }
        assert (Hpair : forall k b, attribute_of_type t b -> (class_pair (class_of s tab) k b <-> class_pair (number s tab) k (OType t, b))).
        { intros k b Hb. unfold class_pair. rewrite Hnum by exact Hb. tauto. }
        assert (Hinh : forall b, inherited (attributes_of s) b <-> vinh s (OType t, b)).
        { intros b. unfold inherited, attribute_is, vinh, ScheduleModel.attribute_at. cbn [snd]. tauto. }
        assert (At : forall k i u, nth_error (map attributes_only vs) k = Some (i, u) -> exists i' u',
                  nth_error (map as_lists vs) k = Some (i', u') /\ i = map snd i' /\ u = map snd u').
        { intros k i u H. rewrite nth_error_map in *. destruct (nth_error vs k) as [v|]; [|discriminate]. injection H as <- <-.
          exists (v_inputs v), (v_outputs v). auto. }
        assert (Nm : forall l : list ag_vertex, NoDup l -> (forall x, In x l -> fst x = OType t) -> NoDup (map snd l)).
        { clear. intros l N. induction N as [|x l Nx N IH]; intros H; cbn [map]; [constructor|]. constructor.
          - intros I. apply in_map_iff in I. destruct I as (y & Q & Iy). apply Nx. replace x with y; [exact Iy|].
            destruct x as [o b], y as [o' b']. cbn [snd] in Q. assert (X := H _ (or_introl eq_refl)). assert (Y := H _ (or_intror Iy)).
            cbn [fst] in X, Y. congruence.
          - apply IH. intros y Iy. apply H. right. exact Iy. }
        assert (Im : forall (l : list ag_vertex) b, (forall x, In x l -> fst x = OType t) -> (In b (map snd l) <-> In (OType t, b) l)).
        { clear. intros l b H. rewrite in_map_iff. split.
          - intros ([o b'] & Q & I). cbn [snd] in Q. subst b'. assert (X := H _ I). cbn [fst] in X. subst o. exact I.
          - intros I. exists (OType t, b). auto. }
        split.
        { intros v x Iv Ix. apply In_nth_error in Iv. destruct Iv as (k & Hk).
          assert (Hl : nth_error (map as_lists vs) k = Some (v_inputs v, v_outputs v)) by (rewrite nth_error_map, Hk; reflexivity).
          apply in_app_iff in Ix. destruct Ix as [Ix|Ix].
          - apply (proj2 (V1 _ _ _ Hl)) in Ix. apply (Ho x), Ix.
          - apply (proj2 (V2 _ _ _ Hl)) in Ix. apply (Ho x), Ix. }
        split.
        + intros k i u H. destruct (At k i u H) as (i' & u' & H' & -> & ->). destruct (V1 k i' u' H') as [N1 I1].
          assert (Fo : forall x, In x i' -> fst x = OType t) by (intros x Ix; apply I1 in Ix; apply (Ho x), Ix).
          split; [apply Nm; assumption|]. intros b. rewrite Im by exact Fo. rewrite I1, Ho. cbn [fst snd]. rewrite Hinh. split.
          * intros ((_ & X) & Y & Z). split; [exact X|]. split; [exact Y|]. apply Hpair; assumption.
          * intros (X & Y & Z). split; [auto|]. split; [exact Y|]. apply Hpair; assumption.
        + intros k i u H. destruct (At k i u H) as (i' & u' & H' & -> & ->). destruct (V2 k i' u' H') as [N1 I1].
          assert (Fo : forall x, In x u' -> fst x = OType t) by (intros x Ix; apply I1 in Ix; apply (Ho x), Ix).
          split; [apply Nm; assumption|]. intros b. rewrite Im by exact Fo. rewrite I1, Ho. cbn [fst snd]. rewrite Hinh. split.
          * intros ((_ & X) & Y & Z). split; [exact X|]. split; [exact Y|]. apply Hpair; assumption.
          * intros (X & Y & Z). split; [auto|]. split; [exact Y|]. apply Hpair; assumption.
        + intros b Hb. destruct (V3 (OType t, b)) as (k & Lk & Ck); [apply Ho; auto|]. exists k. rewrite map_length in *.
          split; [exact Lk|]. apply Hpair; assumption.
        + intros Ne. destruct V4 as (x & Ix & Cx); [intros Q; apply Ne; apply map_eq_nil in Q; subst vs; reflexivity|].
          apply Ho in Ix. destruct x as [o b]. cbn [fst snd] in Ix. destruct Ix as [-> Hb]. exists b. split; [exact Hb|].
          rewrite map_length in *. apply Hpair; assumption.
    Qed.
  End Type_.

  Notation has_production := (has_production ps).
  Lemma has_production_graph : forall t, has_production t <-> exists g, first_graph gs t = Some g.
  Proof.
    intros t. split.
    - intros (p & Ip & Rp). destruct (first_graph gs t) as [g|] eqn:F; [eauto|]. exfalso.
      destruct (production_key p Ip) as (kg & Ik & Rk). apply (first_graph_none t F kg Ik). congruence.
    - intros (g & F). destruct (first_graph_in t g F) as (k & Ik & <-). destruct (graph_facts (k, g) Ik) as (p & Ip & Rp & _).
      exists p. auto.
  Qed.
  Lemma production_type : forall t, has_production t -> In t (all_types (length (a_nodes a)) (length (a_nodesets a))).
  Proof.
    intros t (p & Ip & Rp). unfold all_types. apply in_app_iff. destruct (pr_only _ _ _ _ _ Pr p Ip) as [(i & n & Hn & N)|(j & m & Hm & M)].
    - rewrite (np_root _ _ _ _ _ _ N) in Rp. injection Rp as <-. left. apply in_map. apply in_seq.
      assert (i < length (a_nodes a)) by (apply nth_error_Some; congruence). lia.
    - rewrite (mp_root _ _ _ _ M) in Rp. injection Rp as <-. right. apply in_map. apply in_seq.
      destruct Hm as (st & n & S & Hj & _). assert (j < length (a_nodesets a)) by (apply nth_error_Some; congruence). lia.
  Qed.
  Lemma node_has_graph : forall i, In (TNode i) (all_types (length (a_nodes a)) (length (a_nodesets a))) ->
    exists g, first_graph gs (TNode i) = Some g.
  Proof.
    intros i I. apply has_production_graph. unfold all_types in I. apply in_app_iff in I. destruct I as [I|I].
    - apply in_map_iff in I. destruct I as (i' & Q & I). injection Q as <-. apply in_seq in I.
      destruct (nth_error (a_nodes a) i') as [n|] eqn:Hn; [|apply nth_error_None in Hn; lia].
      destruct (pr_nodes _ _ _ _ _ Pr i' n Hn) as (p & Ip & Np). exists p. split; [exact Ip|]. apply (np_root _ _ _ _ _ _ Np).
    - apply in_map_iff in I. destruct I as (j & Q & _). discriminate.
  Qed.
  Lemma all_types_nodup : forall n m, NoDup (all_types n m).
  Proof.
    intros n m. unfold all_types.
    assert (X : forall l : list target, NoDup l -> (forall x, In x l -> exists j, x = TSet j) -> forall k st, NoDup (map TNode (seq st k) ++ l)).
    { intros l N H k. induction k as [|k IH]; intros st; cbn [seq map app]; [exact N|]. constructor; [|apply IH].
      intros I. apply in_app_iff in I. destruct I as [I|I].
      - apply in_map_iff in I. destruct I as (i & Q & I). injection Q as <-. apply in_seq in I. lia.
      - destruct (H _ I) as (j & Q). discriminate. }
    apply X.
    - apply FinFun.Injective_map_NoDup; [intros x y Q; injection Q; auto|apply seq_NoDup].
    - intros x I. apply in_map_iff in I. destruct I as (j & <- & _). eauto.
  Qed.

  Definition good_table (t : target) (tab : partition_table) : Prop :=
    least_partitioning (attribute_of_type t) (synthesized (attributes_of s)) (needs ty ps) (class_of s tab) /\
    forall g, first_graph gs t = Some g -> forall x, In x (own g (OType t)) -> 2 <= number s tab x.
  Lemma partition_types_right : forall l, NoDup l -> (forall i, In (TNode i) l -> exists g, first_graph gs (TNode i) = Some g) ->
    exists tables, partition_types s gs l = Val tables /\
      (forall t, In t l /\ has_production t <-> exists tab, table_of tables t = Some tab) /\
      (forall t tab, table_of tables t = Some tab -> good_table t tab).
  Proof.
    intros l N. induction N as [|t l Nt N IH]; intros Hn.
    - exists []. split; [reflexivity|]. split; [|intros t tab Q; discriminate]. intros t. split; [intros ([] & _)|intros (tab & Q); discriminate].
    - destruct IH as (tables & Et & H1 & H2); [intros i Ii; apply Hn; right; exact Ii|].
      cbn [partition_types]. destruct (first_graph gs t) as [g|] eqn:F.
      + destruct (type_partition t g F) as (tab & Ep & L & L2). rewrite Ep, Et. cbn [bind]. exists ((t, tab) :: tables). split; [reflexivity|].
        assert (X : forall t', table_of ((t, tab) :: tables) t' = if target_dec t t' then Some tab else table_of tables t').
        { intros t'. unfold table_of. cbn [List.find fst]. destruct (target_dec t t'); reflexivity. }
        split.
        * intros t'. rewrite X. destruct (target_dec t t') as [->|Q].
          -- split; [eauto|]. intros _. split; [left; reflexivity|]. apply has_production_graph. eauto.
          -- rewrite <- H1. cbn [In]. intuition congruence.
        * intros t' tab'. rewrite X. destruct (target_dec t t') as [<-|Q]; [|apply H2]. intros Q. injection Q as <-.
          split; [exact L|]. intros g' F'. rewrite F in F'. injection F' as <-. exact L2.
      + destruct t as [i|j].
        * exfalso. destruct (Hn i (or_introl eq_refl)) as (g & Q). congruence.
        * rewrite Et. exists tables. split; [reflexivity|]. split; [|exact H2]. intros t'. rewrite <- H1. cbn [In]. split; [|intuition].
          intros [[<-|I] Hp]; [|auto]. apply has_production_graph in Hp. destruct Hp as (g & Q). congruence.
  Qed.

  Lemma collect_types_right : forall tables, (forall t, has_production t <-> exists tab, table_of tables t = Some tab) ->
    (forall t tab, table_of tables t = Some tab -> good_table t tab) ->
    forall l, NoDup l -> (forall i, In (TNode i) l -> exists g, first_graph gs (TNode i) = Some g) ->
    exists vt, collect_types s gs tables l = Val vt /\
      (forall t, In t l /\ has_production t <-> exists vs, visits_of_type vt t = Some vs) /\
      (forall t vs, visits_of_type vt t = Some vs -> exists tab, table_of tables t = Some tab /\
         (forall v x, In v vs -> In x (v_inputs v ++ v_outputs v) -> fst x = OType t) /\
         visiting (attribute_of_type t) (inherited (attributes_of s)) (class_of s tab) (map attributes_only vs)).
  Proof.
    intros tables T1 T2 l N. induction N as [|t l Nt N IH]; intros Hn.
    - exists []. split; [reflexivity|]. split; [|intros t tab Q; discriminate]. intros t. split; [intros ([] & _)|intros (tab & Q); discriminate].
    - destruct IH as (vt & Et & H1 & H2); [intros i Ii; apply Hn; right; exact Ii|].
      cbn [collect_types]. destruct (first_graph gs t) as [g|] eqn:F.
      + destruct (proj1 (T1 t)) as (tab & Etab); [apply has_production_graph; eauto|].
        destruct (T2 t tab Etab) as [L L2].
        destruct (type_visits t g F tab (L2 g F)) as (vs & Ec & Vo & V). rewrite Etab, Ec, Et. cbn [bind].
        exists ((t, vs) :: vt). split; [reflexivity|].
        assert (X : forall t', visits_of_type ((t, vs) :: vt) t' = if target_dec t t' then Some vs else visits_of_type vt t').
        { intros t'. unfold visits_of_type. cbn [List.find fst]. destruct (target_dec t t'); reflexivity. }
        split.
        * intros t'. rewrite X. destruct (target_dec t t') as [->|Q].
          -- split; [eauto|]. intros _. split; [left; reflexivity|]. apply has_production_graph. eauto.
          -- rewrite <- H1. cbn [In]. intuition congruence.
        * intros t' vs'. rewrite X. destruct (target_dec t t') as [<-|Q]; [|apply H2]. intros Q. injection Q as <-.
          exists tab. auto.
      + destruct t as [i|j].
        * exfalso. destruct (Hn i (or_introl eq_refl)) as (g & Q). congruence.
        * rewrite Et. exists vt. split; [reflexivity|]. split; [|exact H2]. intros t'. rewrite <- H1. cbn [In]. split; [|intuition].
          intros [[<-|I] Hp]; [|auto]. apply has_production_graph in Hp. destruct Hp as (g & Q). congruence.
  Qed.

  Theorem partitions_right :
    exists tables vt, partition_all s (length (a_nodes a)) (length (a_nodesets a)) gs = Val tables /\
      collect_all s (length (a_nodes a)) (length (a_nodesets a)) gs tables = Val vt /\
      (forall t, has_production t <-> exists tab, table_of tables t = Some tab) /\
      (forall t, has_production t <-> exists vs, visits_of_type vt t = Some vs) /\
      (forall t tab, table_of tables t = Some tab ->
         least_partitioning (attribute_of_type t) (synthesized (attributes_of s)) (needs ty ps) (class_of s tab)) /\
      (forall t tab vs, table_of tables t = Some tab -> visits_of_type vt t = Some vs ->
         (forall v x, In v vs -> In x (v_inputs v ++ v_outputs v) -> fst x = OType t) /\
         visiting (attribute_of_type t) (inherited (attributes_of s)) (class_of s tab) (map attributes_only vs)).
  Proof.
    unfold partition_all, collect_all.
    destruct (partition_types_right _ (all_types_nodup (length (a_nodes a)) (length (a_nodesets a))) node_has_graph) as (tables & E1 & H1 & H2).
    assert (H1' : forall t, has_production t <-> exists tab, table_of tables t = Some tab).
    { intros t. rewrite <- H1. split; [|tauto]. intros Hp. split; [apply production_type|]; exact Hp. }
    destruct (collect_types_right tables H1' H2 _ (all_types_nodup (length (a_nodes a)) (length (a_nodesets a))) node_has_graph)
      as (vt & E2 & H3 & H4).
    exists tables, vt. split; [exact E1|]. split; [exact E2|]. split; [exact H1'|]. split.
    { intros t. rewrite <- H3. split; [|tauto]. intros Hp. split; [apply production_type|]; exact Hp. }
    split; [intros t tab Q; apply (H2 t tab Q)|].
    intros t tab vs Q1 Q2. destruct (H4 t vs Q2) as (tab' & Q1' & V). rewrite Q1 in Q1'. injection Q1' as <-. exact V.
  Qed.
End Specification.
