(** Cycles in terms of any list of the productions (C32). *)

From Coq Require Import List Ascii Bool Arith Lia Permutation.
From Verif Require Import Sched.GraphModel Sched.GraphSpec Sched.GraphProof Sched.TreeProof Sched.InduceProof
  Sched.ScheduleModel Sched.ScheduleSpec Sched.ScheduleProof Sched.ScheduleGraphs.
From Verif Require Import Base.Outcome Front.Syntax Front.SetsSpec Front.PropagateModel
  Front.NodesetPassesProof Front.ProductRulesModel Front.ProductRulesProof Sched.FrontendModel Sched.FrontendProof.
Import ListNotations.
Local Open Scope outcome_scope.

Lemma depends_ext : forall {O A T} (f g : O -> T) (ps : list (production O A)) p x y, (forall o, f o = g o) ->
  depends_on f ps p x y -> depends_on g ps p x y.
Proof.
  intros O A T f g ps p x y H D. induction D as [p x y Ip I|p x y z _ IH1 _ IH2|p p' o o' a b Ip D IH Ty I1 I2].
  - apply dep_direct; assumption.
  - exact (dep_trans _ _ _ _ _ _ IH1 IH2).
  - apply (dep_induced _ _ _ p' o o'); auto. rewrite <- !H. exact Ty.
Qed.
Lemma circular_ext : forall {O A T} (f g : O -> T) (ps : list (production O A)), (forall o, f o = g o) ->
  circular f ps -> circular g ps.
Proof. intros O A T f g ps H (p & x & D). exists p, x. exact (depends_ext f g ps p x x H D). Qed.

(** Productions with the same attributes and rules. *)
Definition similar {O A} (p q : production O A) : Prop :=
  (forall x, In x (p_vertices p) <-> In x (p_vertices q)) /\ (forall d, In d (p_deps p) <-> In d (p_deps q)).
Definition all_similar {O A} (ps qs : list (production O A)) : Prop :=
  forall p, In p ps -> exists q, In q qs /\ similar p q.

Lemma depends_similar : forall {O A T} (ty : O -> T) (ps qs : list (production O A)), all_similar ps qs ->
  forall p x y, depends_on ty ps p x y -> forall q, In q qs -> similar p q -> depends_on ty qs q x y.
Proof.
  intros O A T ty ps qs S p x y D. induction D as [p x y Ip I|p x y z _ IH1 _ IH2|p p' o o' a b Ip D IH Ty I1 I2]; intros q Iq [Sv Sd].
  - apply dep_direct; [exact Iq|]. apply Sd, I.
  - apply (dep_trans _ _ _ _ y); [apply IH1|apply IH2]; (exact Iq || split; assumption).
  - destruct (S p' (depends_in _ _ _ _ _ D)) as (q' & Iq' & S').
    apply (dep_induced _ _ _ q' o o'); auto; apply Sv; assumption.
Qed.
Lemma circular_similar : forall {O A T} (ty : O -> T) (ps qs : list (production O A)), all_similar ps qs ->
  circular ty ps -> circular ty qs.
Proof.
  intros O A T ty ps qs S (p & x & D). destruct (S p (depends_in _ _ _ _ _ D)) as (q & Iq & Sq).
  exists q, x. exact (depends_similar ty ps qs S p x x D q Iq Sq).
Qed.

Section Productions.
  Variable nodes : list inode.
  Variable sets : list inodeset.
  Variable attributes : target -> list attribute.
  Variable member : nat -> nat -> Prop.
  Notation productions := (productions nodes sets attributes member).

  Lemma node_production_similar : forall i n p q, node_production nodes sets attributes i n p ->
    node_production nodes sets attributes i n q -> similar p q.
  Proof.
    intros i n p q [P1 P2 P3 P4] [Q1 Q2 Q3 Q4]. split.
    - intros x. rewrite P3, Q3. rewrite P1, Q1. cbn [In]. rewrite P2, Q2. tauto.
    - intros [x y]. rewrite P4, Q4. tauto.
  Qed.
  Lemma member_production_similar : forall j m p q, member_production attributes j m p ->
    member_production attributes j m q -> similar p q.
  Proof.
    intros j m p q [P1 P2 P3 P4] [Q1 Q2 Q3 Q4]. split.
    - intros [o a]. rewrite P3, Q3. tauto.
    - intros [x y]. rewrite P4, Q4. tauto.
  Qed.
  Lemma productions_similar : forall ps qs, productions ps -> productions qs -> all_similar ps qs.
  Proof.
    intros ps qs [P1 P2 P3] [Q1 Q2 Q3] p Ip. destruct (P1 p Ip) as [(i & n & Hn & N)|(j & m & Hm & M)].
    - destruct (Q2 i n Hn) as (q & Iq & Nq). exists q. split; [exact Iq|]. exact (node_production_similar i n p q N Nq).
    - destruct (Q3 j m Hm) as (q & Iq & Mq). exists q. split; [exact Iq|]. exact (member_production_similar j m p q M Mq).
  Qed.
  Lemma similar_no_self : forall ps qs, all_similar qs ps -> no_self_dependency ps -> no_self_dependency qs.
  Proof.
    intros ps qs S N q x Iq D. destruct (S q Iq) as (p & Ip & _ & Sd). apply (N p x Ip). apply Sd, D.
  Qed.
End Productions.

Lemma productions_member : forall nodes sets attributes (m m' : nat -> nat -> Prop) ps, (forall i j, m i j <-> m' i j) ->
  productions nodes sets attributes m ps -> productions nodes sets attributes m' ps.
Proof.
  intros nodes sets attributes m m' ps H [P1 P2 P3]. split.
  - intros p Ip. destruct (P1 p Ip) as [X|(j & k & M & X)]; [left; exact X|]. right. exists j, k. split; [apply H, M|exact X].
  - exact P2.
  - intros j k M. apply P3, H, M.
Qed.

Section Specification.
  Variable a : ast.
  Variable s : pra.
  Variable lits : list literal.
  Variable shuffle : list (graph_key * ag_graph) -> list (graph_key * ag_graph).
  Variable ty : occurrence -> option target.
  Hypothesis P : parsed_ast a.
  Hypothesis U : unmarked a.
  Hypothesis B : before_scheduling a = Val (s, lits).
  Hypothesis Sh : forall l, Permutation (shuffle l) l.
  Hypothesis Ty : typing (a_nodes a) (a_nodesets a) ty.

  Notation productions_of_a := (productions (a_nodes a) (a_nodesets a) (attributes_of s) (member_of a)).

  Theorem cycles_reported :
    (exists ps, productions_of_a ps) /\
    exists gs errs, dependency_graphs shuffle a = Val (gs, errs) /\
      forall ps, productions_of_a ps ->
        (errs <> [] -> circular ty ps) /\
        (no_self_dependency ps -> circular ty ps -> errs <> []).
  Proof.
    destruct (before_scheduling_input a s lits P U B) as (G & GE & Lit & Mem & Cov).
    destruct (graphs_right (a_nodes a) (a_nodesets a) s lits G GE Lit Cov shuffle Sh)
      as (gs & errs & ps & R & Pr & C1 & C2 & _).
    assert (Pr' := productions_member _ _ _ _ _ ps Mem Pr).
    assert (T : forall o, ty o = get_node_type (a_nodes a) (a_nodesets a) o) by exact (typing_unique _ _ _ G ty Ty).
    split; [exists ps; exact Pr'|]. exists gs, errs. unfold dependency_graphs. rewrite B. cbn [bind fst snd].
    split; [exact R|]. intros qs Q.
    assert (S1 := productions_similar _ _ _ _ ps qs Pr' Q). assert (S2 := productions_similar _ _ _ _ qs ps Q Pr').
    split.
    - intros N. apply (circular_similar ty ps qs S1).
      apply (circular_ext (get_node_type (a_nodes a) (a_nodesets a)) ty ps); [intros o; symmetry; apply T|]. apply C1, N.
    - intros Ns C N. apply C2; [exact N|apply (similar_no_self qs ps S1 Ns)|].
      apply (circular_ext ty _ ps T). apply (circular_similar ty qs ps S2). exact C.
  Qed.

  Lemma production_good : forall ps p, productions_of_a ps -> In p ps -> good_production p.
  Proof.
    intros ps p Q Ip.
    destruct (before_scheduling_input a s lits P U B) as (G & GE & Lit & Mem & Cov).
    assert (X : forall i n, nth_error (a_nodes a) i = Some n ->
              exists q, node_production (a_nodes a) (a_nodesets a) (attributes_of s) i n q /\ good_production q).
    { intros i n Hn. destruct (node_graph _ _ _ G GE i n Hn) as (q & st & _ & N & [Ge _ _ _]). eauto. }
    assert (Y : forall j m, member_of a j m -> exists q, member_production (attributes_of s) j m q /\ good_production q).
    { intros j m M. apply Mem in M. destruct (member_graph (a_nodes a) (a_nodesets a) s G j m []) as (q & st & _ & N & [Ge _ _ _]); [|eauto].
      intros b Hb Gb. apply Cov; assumption. }
    destruct (pr_only _ _ _ _ _ Q p Ip) as [(i & n & Hn & N)|(j & m & Hm & M)].
    - destruct (X i n Hn) as (q & Nq & Gq). destruct N as [N1 N2 N3 N4], Nq as [Q1 Q2 Q3 Q4], Gq as [G1 G2 G3]. split.
      + rewrite N1. intros I. apply N2 in I. destruct I as (k & _ & I). discriminate.
      + intros x I. apply N3 in I. apply I.
      + intros x y I. apply N4, Q4, G3 in I. destruct I as [I1 I2]. apply Q3 in I1. apply Q3 in I2. rewrite !N3.
        rewrite Q1 in I1, I2. rewrite N1. cbn [In] in *. rewrite Q2 in I1, I2. rewrite !N2. tauto.
    - destruct (Y j m Hm) as (q & Nq & Gq). destruct M as [N1 N2 N3 N4], Nq as [Q1 Q2 Q3 Q4], Gq as [G1 G2 G3]. split.
      + rewrite N1, N2. intros [I|[]]. discriminate.
      + intros [o b] I. apply N3 in I. rewrite N1, N2. cbn [fst In]. destruct I as [(-> & _)|(-> & _)]; auto.
      + intros [o b] [o' b'] I. apply N4, Q4, G3 in I. rewrite !Q3 in I. rewrite !N3. exact I.
  Qed.

  Theorem accepted_order : forall gs, dependency_graphs shuffle a = Val (gs, []) ->
    forall ps, productions_of_a ps -> no_self_dependency ps ->
    forall t, good_tree ty ps t -> deterministic t -> exists l, evaluation_order t l.
  Proof.
    intros gs R ps Q Ns t Gt Dt. destruct cycles_reported as (_ & gs' & errs & R' & C).
    rewrite R in R'. injection R' as <- <-. destruct (C ps Q) as [_ C2].
    apply (order_exists occurrence_dec aptr_dec ty ps); auto.
    - intros p Ip. exact (production_good ps p Q Ip).
    - intros Ci. apply (C2 Ns Ci). reflexivity.
  Qed.

  (** [no_self_dependency] can be computed. *)
  Definition reads_itself (d : adep) : bool := veq occurrence_dec aptr_dec (fst d) (snd d).
  Definition no_self_check : bool :=
    forallb (fun p => forallb (fun d => negb (reads_itself d)) (node_deps (a_nodes a) (a_nodesets a) s (fst p) (snd p)))
      (combine (seq 0 (length (a_nodes a))) (a_nodes a)).
  Lemma no_self_checked : no_self_check = true -> forall ps, productions_of_a ps -> no_self_dependency ps.
  Proof.
    intros H ps Q p x Ip D. destruct (before_scheduling_input a s lits P U B) as (G & _).
    destruct (pr_only _ _ _ _ _ Q p Ip) as [(i & n & Hn & N)|(j & m & Hm & M)].
    - apply (np_deps _ _ _ _ _ _ N) in D. apply (node_deps_iff _ _ _ G i n x x Hn) in D.
      unfold no_self_check in H. rewrite forallb_forall in H.
      assert (I : In (i, n) (combine (seq 0 (length (a_nodes a))) (a_nodes a))).
      { apply (nth_error_In _ i). apply nth_error_combine_some; [|exact Hn].
        assert (L : i < length (a_nodes a)) by (apply nth_error_Some; congruence).
        rewrite (nth_error_nth' (seq 0 (length (a_nodes a))) 0) by (rewrite seq_length; exact L). rewrite seq_nth by exact L. reflexivity. }
      specialize (H _ I). cbn [fst snd] in H. rewrite forallb_forall in H. specialize (H _ D).
      unfold reads_itself, veq in H. cbn [fst snd] in H. destruct (occurrence_dec _ _); [|contradiction].
      destruct (aptr_dec _ _); [discriminate|contradiction].
    - apply (mp_deps _ _ _ _ M) in D. destruct D as (b & c & _ & [(_ & X & Y)|(_ & X & Y)]); rewrite X in Y; discriminate.
  Qed.
End Specification.
