(** The attributes of nodesets and their members after the semantic passes
    (C51). *)

From Coq Require Import List Ascii Bool Arith Lia Relations.
From Verif Require Import Base.Outcome Palm.StrModel Front.Syntax Front.SetsModel Front.SetsSpec Front.SetsProof Front.SetsTotal
  Front.SymbolTableModel Front.SymbolTableSpec Front.SymbolTableProof Front.CheckExistanceModel Front.CheckExistanceSpec Front.CheckExistanceProof
  Front.NodesetTableModel Front.NodesetTableSpec Front.NodesetTableProof
  Front.PropagateModel Front.PropagateSpec Front.PropagateProof Front.PropagateWalk
  Front.NodesetPassesModel Front.NodesetPassesProof Front.CheckAttributesModel Front.CheckAttributesSpec Front.CheckAttributesProof
  Front.ProductRulesModel Front.ProductRulesSpec Front.ProductRulesProof Sched.FrontendModel Sched.FrontendProof
  Gen.TravChildSpec Gen.CompileSpec Gen.CompileVerdict Gen.CompileLegal Gen.AccessModel Gen.AccessSpec.
Import ListNotations.
Local Open Scope outcome_scope.

(** The same attribute as far as accessors are concerned. *)
Definition alike (x y : attribute) : Prop := like x y /\ same_type x y.

Lemma alike_refl : forall x, alike x x.
Proof. intros x. split; [apply like_refl|]. split; [reflexivity|]. intros _. reflexivity. Qed.
Lemma copy_alike : forall x y, copy_of x y -> alike x y.
Proof. intros x y C. split; [apply copy_like, C|]. destruct C as (_ & T & R & _). split; [congruence|]. intros _. congruence. Qed.
Lemma reach_alike : forall x y, same_id (at_name y) (at_name x) -> copy_of x y \/ may_redeclare x y -> alike x y.
Proof.
  intros x y N [H|H]; [apply copy_alike, H|]. split; [apply reach_like; auto|]. apply H.
Qed.
Lemma alike_sym : forall x y, alike x y -> alike y x.
Proof.
  intros x y ((N & I & S) & T & R). unfold alike, like, same_type, same_id in *. repeat split; try congruence.
  intros H. symmetry. apply R. congruence.
Qed.
Lemma alike_trans : forall x y z, alike x y -> alike y z -> alike x z.
Proof.
  intros x y z ((N & I & S) & T & R) ((N' & I' & S') & T' & R'). unfold alike, like, same_type, same_id in *. repeat split; try congruence.
  intros H. rewrite R by exact H. apply R'. rewrite <- T. exact H.
Qed.
Lemma resolve_alike : forall a x y, alike x y -> alike (resolve a x) (resolve a y).
Proof.
  intros a x y ((N & I & S) & T & R). unfold alike, like, same_type, same_id in *. cbn. repeat split; auto.
  - rewrite <- T. unfold resolved_type. destruct (at_type x) eqn:E; auto. rewrite R by (right; right; left; reflexivity). reflexivity.
  - intros K. apply R. unfold resolved_type in K. destruct (at_type x); cbn in *; intuition discriminate.
Qed.
Lemma alike_classic : forall x y, alike x y -> is_classic y = is_classic x.
Proof. intros x y ((_ & I & S) & _). unfold is_classic. congruence. Qed.
Lemma alike_type : forall x y, alike x y -> print_type y = print_type x.
Proof.
  intros x y (_ & T & R). unfold print_type. rewrite <- T. destruct (at_type x); try reflexivity; rewrite R; cbn; auto.
Qed.

Lemma zip_nth : forall A B C (f : A -> B -> C) l m i z, nth_error (zip f l m) i = Some z <->
  exists x y, nth_error l i = Some x /\ nth_error m i = Some y /\ z = f x y.
Proof.
  intros A B C f. induction l as [|x l IH]; intros m i z; cbn [zip].
  - split; [destruct i; discriminate|]. intros (x & y & E & _). destruct i; discriminate.
  - destruct m as [|y m].
    + split; [destruct i; discriminate|]. intros (x' & y & _ & E & _). destruct i; discriminate.
    + destruct i as [|i]; cbn [nth_error]; [|apply IH]. split.
      * intros E. injection E as <-. eauto.
      * intros (x' & y' & E1 & E2 & ->). congruence.
Qed.

Lemma zip_map : forall A B C D (f : A -> B -> C) (g : C -> D) (k : A -> D) l m, (forall x y, g (f x y) = k x) ->
  length m = length l -> map g (zip f l m) = map k l.
Proof.
  intros A B C D f g k l m H. revert m. induction l as [|x l IH]; intros [|y m] L; cbn in *; try discriminate; try reflexivity.
  rewrite H, IH by lia. reflexivity.
Qed.

(** A union contains what it refers to. *)
Lemma union_contains : forall sets e S, denotes sets e S -> ~ not_only_unions e ->
  forall id, In id (references e) -> exists m T, In m sets /\ ID_LWR (ns_name m) = ID_LWR id /\
    denotes sets (ns_expr m) T /\ forall x, T x -> S x.
Proof.
  intros sets e S D. induction D as [ids S H|m id S Im E D IH|e1 e2 A B S DA IHA DB IHB H|e1 e2 A B S DA IHA DB IHB H|e1 e2 A B S DA IHA DB IHB H];
    intros N id' I; cbn in *.
  - destruct I.
  - destruct I as [<-|[]]. exists m, S. auto.
  - apply in_app_iff in I. destruct I as [I|I].
    + destruct (IHA ltac:(tauto) id' I) as (m & T & H1 & H2 & H3 & H4). exists m, T. repeat split; auto. intros x Tx. apply H. left. auto.
    + destruct (IHB ltac:(tauto) id' I) as (m & T & H1 & H2 & H3 & H4). exists m, T. repeat split; auto. intros x Tx. apply H. right. auto.
  - tauto.
  - tauto.
Qed.

Section Accepted.
  Variable a : ast.
  Hypothesis P : parsed_ast a.
  Hypothesis U : unmarked a.
  Variable s : pra.
  Variable lits : list literal.
  Hypothesis B : before_scheduling a = Val (s, lits).

  Fact all_passes : exists t ts, is_val (check_names a) = true /\ NCTast (a_nodesets a) = Val t /\ n_errors t = [] /\
    unwrap a = Val (ts, lits) /\ PRAast (a_nodes a) (a_nodesets a) (combine (n_tables t) lits) = Val s /\ p_errors s = [] /\
    CHAast (combine (a_nodes a) (p_nodes s)) (combine (combine (a_nodesets a) (n_illegal t)) (p_sets s)) = [].
  Proof.
    assert (H := B). unfold before_scheduling in H.
    destruct (nodeset_passes a) as [s0| | | |] eqn:Ep; try discriminate. cbn [bind] in H.
    destruct (NCTast (a_nodesets a)) as [t| | | |] eqn:Et; try discriminate. cbn [bind] in H.
    destruct (unwrap a) as [[ts ls]| | | |] eqn:Eu; try discriminate. cbn [bind snd] in H.
    destruct (CHAast _ _) as [|e0 es0] eqn:Ec; try discriminate.
    destruct (CPRast _ _ s0) as [r'| | | |] eqn:Er; try discriminate. cbn [bind] in H.
    destruct (c_errors r') as [|e1 es1]; try discriminate.
    assert (E1 : s0 = s) by congruence. assert (E2 : ls = lits) by congruence. subst s0 ls.
    destruct (passes_val a s Ep) as (t' & ts' & ls' & C & Et' & En & Eu' & Epr & Es).
    assert (t' = t) by congruence. subst t'. assert (ts' = ts) by congruence. assert (ls' = lits) by congruence. subst ts' ls'.
    exists t, ts. repeat (split; [assumption || reflexivity|]). exact Ec.
  Qed.

  Fact accepted_grammar : grammar_input (a_nodes a) (a_nodesets a) s.
  Proof.
    destruct all_passes as (t & ts & C & Et & En & Eu & Epr & Es & _). exact (grammar a P U t ts lits C Et En Eu s Epr Es).
  Qed.
  Fact accepted_literals : length lits = length (a_nodesets a) /\
    forall i m lit, nth_error (a_nodesets a) i = Some m -> nth_error lits i = Some lit -> right_set (a_nodesets a) (ns_expr m) lit.
  Proof. destruct all_passes as (t & ts & C & Et & En & Eu & _). exact (literals a P U t ts lits C Et En Eu). Qed.
  Fact accepted_unique : names_unique (a_nodesets a).
  Proof. destruct all_passes as (t & ts & C & _). exact (unique a C). Qed.
  Fact accepted_names : distinct_names (all_names a).
  Proof. destruct all_passes as (t & ts & C & _). apply (checked_names a C). Qed.

  (** Nodes *)
  Lemma given_has : forall i n k x, nth_error (a_nodes a) i = Some n -> given_by a n k x ->
    exists y, In y (nth i (p_nodes s) []) /\ alike x y.
  Proof.
    intros i n k x Hn G. destruct all_passes as (t & ts & C & Et & En & Eu & Epr & Es & _).
    destruct (node_carries a P U t ts lits C Et En Eu s Epr Es i n Hn) as [_ Reach _ _].
    destruct (Reach x) as (y & Iy & Sy & R); [apply (to_node_given a P U t ts lits C Et En Eu); eauto|].
    exists y. split; [exact Iy|]. apply reach_alike; assumption.
  Qed.
  Lemma node_final : forall i n x, nth_error (a_nodes a) i = Some n -> node_attribute a n x ->
    exists y, In y (nth i (p_nodes s) []) /\ alike x y.
  Proof.
    intros i n x Hn [O|(k & G & _)]; [|eapply given_has; eassumption].
    destruct all_passes as (t & ts & C & Et & En & Eu & Epr & Es & _).
    destruct (node_carries a P U t ts lits C Et En Eu s Epr Es i n Hn) as [Own _ _ _].
    exists x. split; [apply Own, O|apply alike_refl].
  Qed.
  Lemma node_declared : forall i n y, nth_error (a_nodes a) i = Some n -> In y (nth i (p_nodes s) []) ->
    exists x, node_attribute a n x /\ alike x y.
  Proof.
    intros i n y Hn Iy. destruct all_passes as (t & ts & C & Et & En & Eu & Epr & Es & _).
    assert (X : In (n, nth i (p_nodes s) []) (combine (a_nodes a) (p_nodes s))).
    { apply (nodes_at a P U t ts lits C Et En Eu s Epr Es). eauto. }
    destruct (proj1 (node_has a P U t ts lits C Et En Eu s Epr Es n _ X) y Iy) as (x & A & [->|Cx]).
    - exists y. split; [exact A|apply alike_refl].
    - exists x. split; [exact A|apply copy_alike, Cx].
  Qed.

  (** Nodesets *)
  Lemma set_final : forall k m i x, nth_error (a_nodesets a) k = Some m -> set_given_by a k i x ->
    exists y, In y (nth k (p_sets s) []) /\ alike x y.
  Proof.
    intros k m i x Hm [(m' & Hm' & Ix) D]. destruct all_passes as (t & ts & C & Et & En & Eu & Epr & Es & _).
    destruct (set_carries a P U t ts lits C Et En Eu s Epr Es k m Hm) as [Own Reach _ _]. destruct D as [->|D].
    - rewrite Hm in Hm'. injection Hm' as <-. exists x. split; [exact (Own x Ix)|apply alike_refl].
    - destruct (Reach x) as (y & Iy & Sy & R).
      + assert (G : declares_attribute a i x /\ built_from (a_nodesets a) i k) by (split; [exists m'; auto|exact D]).
        apply (set_source_iff a P U t ts lits C Et En Eu k i x) in G. destruct G as (p & E & Hx).
        unfold to_nodeset. apply in_flat_map. exists p. split; [eapply nth_error_In; exact E|exact Hx].
      + exists y. split; [exact Iy|apply reach_alike; assumption].
  Qed.
  Lemma set_declared : forall k m y, nth_error (a_nodesets a) k = Some m -> In y (nth k (p_sets s) []) ->
    exists i x, set_given_by a k i x /\ alike x y.
  Proof.
    intros k m y Hm Iy. destruct all_passes as (t & ts & C & Et & En & Eu & Epr & Es & _).
    destruct (proj1 (set_has a P U t ts lits C Et En Eu s Epr Es k m Hm) y Iy) as (i & x & G & [->|Cx]).
    - exists i, y. split; [exact G|apply alike_refl].
    - exists i, x. split; [exact G|apply copy_alike, Cx].
  Qed.

  (** What has the attributes of a nodeset is part of it. *)
  Lemma part_members : forall i k x, set_given_by a k i x -> forall m, nth_error (a_nodesets a) k = Some m ->
    forall S, denotes (a_nodesets a) (ns_expr m) S ->
    exists mi Si, nth_error (a_nodesets a) i = Some mi /\ denotes (a_nodesets a) (ns_expr mi) Si /\ forall z, S z -> Si z.
  Proof.
    intros i k x [D Q]. destruct all_passes as (t & ts & C & Et & En & Eu & Epr & Es & Ec).
    assert (Un := checked_unions a P U t ts lits C Et En Eu s Epr Es Ec).
    destruct Q as [->|Q]; [intros m Hm S DS; exists m, S; auto|].
    assert (Part : forall j k', refers (a_nodesets a) j k' -> (j = i \/ built_from (a_nodesets a) i j) ->
      forall m, nth_error (a_nodesets a) k' = Some m -> forall S, denotes (a_nodesets a) (ns_expr m) S ->
      exists mj Sj, nth_error (a_nodesets a) j = Some mj /\ denotes (a_nodesets a) (ns_expr mj) Sj /\ forall z, S z -> Sj z).
    { intros j k' (n & m' & id & Hj & Hk & Iid & Eid) Rj m Hm S DS. rewrite Hm in Hk. injection Hk as <-.
      destruct (numbered_at a P U t ts lits C Et En Eu j n Hj) as (lit & _ & (Dn & _)).
      exists n, (names_in lit). split; [exact Hj|]. split; [exact Dn|].
      assert (N : ~ not_only_unions (ns_expr n)).
      { apply (Un j n i x Hj). split; [exact D|]. destruct Rj as [->|Rj]; auto. }
      destruct (union_contains _ _ _ Dn N id Iid) as (m2 & T & Im2 & Em2 & DT & Sub).
      assert (m2 = m).
      { apply (NoDup_key _ _ (fun z => ID_LWR (ns_name z)) _ _ _ accepted_unique Im2 (nth_error_In _ _ Hm)). congruence. }
      subst m2. intros z Sz. apply Sub. apply (denotes_unique _ _ _ _ accepted_unique DS DT). exact Sz. }
    apply clos_trans_tn1_iff in Q. induction Q as [k R|j k R Q IH].
    - apply Part; auto.
    - intros m Hm S DS. destruct (Part j k R) with (m := m) (S := S) as (mj & Sj & Hj & Dj & Sub); auto.
      { right. apply clos_trans_tn1_iff. exact Q. }
      destruct (IH mj Hj Sj Dj) as (mi & Si & Hi & Di & Sub2). exists mi, Si. auto.
  Qed.

  Lemma member_given : forall k m i x S n, nth_error (a_nodesets a) k = Some m -> set_given_by a k i x ->
    denotes (a_nodesets a) (ns_expr m) S -> S (ID_LWR (nd_name n)) -> given_by a n i x.
  Proof.
    intros k m i x S n Hm G D M. destruct (part_members i k x G m Hm S D) as (mi & Si & Hi & Di & Sub).
    destruct G as [(m' & Hm' & Ix) _]. rewrite Hi in Hm'. injection Hm' as <-. exists mi, Si. auto.
  Qed.

  (** Members have the attributes of their nodesets. *)
  Lemma member_final : forall k m y n i lit, nth_error (a_nodesets a) k = Some m -> In y (nth k (p_sets s) []) ->
    nth_error lits k = Some lit -> nth_error (a_nodes a) i = Some n -> In (ID_LWR (nd_name n)) (map ID_LWR (listed lit)) ->
    exists z, In z (nth i (p_nodes s) []) /\ alike y z.
  Proof.
    intros k m y n i lit Hm Iy Hl Hn M. destruct (set_declared k m y Hm Iy) as (j & x & G & A).
    destruct (proj2 accepted_literals k m lit Hm Hl) as (D & _).
    destruct (given_has i n j x Hn) as (z & Iz & Az); [eapply member_given; eauto|].
    exists z. split; [exact Iz|]. eapply alike_trans; [apply alike_sym, A|exact Az].
  Qed.
  Lemma members_exist : forall k lit id, nth_error lits k = Some lit -> In id (listed lit) ->
    exists i n, nth_error (a_nodes a) i = Some n /\ same_id (nd_name n) id.
  Proof.
    intros k lit id Hl I. destruct all_passes as (t & ts & C & Et & En & Eu & Epr & Es & Ec).
    assert (X := input a P U t ts lits C Et En Eu).
    destruct (tables a t C Et En) as (Lt & _). destruct accepted_literals as (Ll & _).
    destruct (nth_error (n_tables t) k) as [tb|] eqn:Etb.
    2:{ apply nth_error_None in Etb. assert (k < length lits) by (apply nth_error_Some; congruence). lia. }
    destruct (pi_members _ _ _ X tb lit) as (_ & M).
    { eapply nth_error_In. apply (nth_error_combine_some _ _ _ _ k tb lit); assumption. }
    destruct (M id I) as (n & In_n & Sn). apply In_nth_error in In_n. destruct In_n as (i & Hn). eauto.
  Qed.

  (** ** The tree after the passes *)
  Let fa := finished a s lits.

  Lemma final_node : forall n', In n' (a_nodes fa) <->
    exists i n, nth_error (a_nodes a) i = Some n /\ n' = with_attributes n (map (resolve a) (nth i (p_nodes s) [])).
  Proof.
    intros n'. cbn [fa finished a_nodes]. split.
    - intros I. apply In_nth_error in I. destruct I as (i & E). apply zip_nth in E. destruct E as (n & l & E1 & E2 & ->).
      exists i, n. split; [exact E1|]. rewrite <- (nth_error_nth _ _ [] E2). change (@nil attribute) with (map (resolve a) []) at 1. rewrite map_nth. reflexivity.
    - intros (i & n & E & ->). apply (nth_error_In _ i). apply zip_nth. exists n, (map (resolve a) (nth i (p_nodes s) [])).
      split; [exact E|]. split; [|reflexivity]. apply map_nth_error, nth_error_nth'. rewrite (gi_len_nodes _ _ _ accepted_grammar).
      apply nth_error_Some. congruence.
  Qed.
  Lemma final_set : forall m', In m' (a_nodesets fa) <->
    exists k m lit, nth_error (a_nodesets a) k = Some m /\ nth_error lits k = Some lit /\
      m' = with_members m (lit, map (resolve a) (nth k (p_sets s) [])).
  Proof.
    intros m'. cbn [fa finished a_nodesets]. split.
    - intros I. apply In_nth_error in I. destruct I as (k & E). apply zip_nth in E. destruct E as (m & [lit l] & E1 & E2 & ->).
      apply nth_error_combine in E2. cbn [fst snd] in E2. destruct E2 as [E2 E3]. exists k, m, lit.
      split; [exact E1|]. split; [exact E2|]. rewrite <- (nth_error_nth _ _ [] E3). change (@nil attribute) with (map (resolve a) []) at 1. rewrite map_nth. reflexivity.
    - intros (k & m & lit & E & El & ->). apply (nth_error_In _ k). apply zip_nth. exists m, (lit, map (resolve a) (nth k (p_sets s) [])).
      split; [exact E|]. split; [|reflexivity]. apply nth_error_combine_some; [exact El|]. apply map_nth_error, nth_error_nth'.
      rewrite (gi_len_sets _ _ _ accepted_grammar). apply nth_error_Some. congruence.
  Qed.

  Lemma final_names : all_names fa = all_names a.
  Proof.
    unfold all_names, declarations. cbn [fa finished a_phases a_traversals a_passes a_nodes a_nodesets a_enums].
    rewrite !flat_map_app. do 3 f_equal.
    assert (F1 : forall (l : list inode), flat_map names_of (map DNode l) = map nd_name l).
    { induction l as [|x l IH]; [reflexivity|]. cbn. rewrite IH. reflexivity. }
    assert (F2 : forall (l : list inodeset), flat_map names_of (map DNodeset l) = map ns_name l).
    { induction l as [|x l IH]; [reflexivity|]. cbn. rewrite IH. reflexivity. }
    rewrite !F1, !F2. destruct accepted_literals as (Ll & _). destruct accepted_grammar as [G1 G2 _ _ _ _ _].
    rewrite (zip_map _ _ _ _ with_attributes nd_name nd_name), (zip_map _ _ _ _ with_members ns_name ns_name); auto.
    - rewrite combine_length, map_length. lia.
    - rewrite map_length. lia.
  Qed.

  Lemma final_members : distinct_members fa.
  Proof.
    intros n' I. apply final_node in I. destruct I as (i & n & Hn & ->). cbn [nd_attributes nd_children with_attributes].
    assert (In_n := nth_error_In _ _ Hn).
    unfold distinct_names. rewrite map_app. apply NoDup_app_all. rewrite !map_map.
    destruct accepted_grammar as [G1 _ _ G4 _ G6 _]. split; [|split].
    - apply G4. apply nth_In. rewrite G1. apply nth_error_Some. congruence.
    - apply G6, In_n.
    - intros z Z1 Z2. apply in_map_iff in Z1, Z2. destruct Z1 as (y & <- & Iy). cbn [at_name resolve] in *. destruct Z2 as (c & Sc & Ic).
      destruct (node_declared i n y Hn Iy) as (x & A & ((Nx & _) & _)). unfold same_id in Nx.
      destruct all_passes as (t & ts & C & Et & En & Eu & Epr & Es & Ec).
      destruct A as [O|(k & G & _)].
      + assert (D := r_node_members _ (rules a C) n In_n).
        unfold distinct_names in D. rewrite map_app in D. apply NoDup_app_all in D. destruct D as (_ & _ & D).
        apply (D (ID_LWR (at_name x))); rewrite map_map.
        * exact (in_map (fun z => ID_LWR (at_name z)) _ _ O).
        * rewrite <- Nx, <- Sc. exact (in_map (fun z => ID_LWR (ch_name z)) _ _ Ic).
      + destruct (PRAast_right _ _ _ (input a P U t ts lits C Et En Eu)) as (s' & Ep' & Agr & _).
        assert (s' = s) by congruence. subst s'. apply Agr in Es. destruct Es as (AgN & _).
        destruct (of_node_agrees a P U t ts lits C Et En Eu n In_n (AgN n In_n)) as (_ & X & _).
        apply (X k x c G Ic). unfold same_id. congruence.
  Qed.
  Lemma final_sets : forall m, In m (a_nodesets fa) -> distinct_names (map at_name (ns_attributes m)).
  Proof.
    intros m I. apply final_set in I. destruct I as (k & m0 & lit & Hm & Hl & ->). cbn [ns_attributes with_members snd].
    unfold distinct_names. rewrite !map_map. cbn [at_name resolve]. destruct accepted_grammar as [_ G2 _ _ G5 _ _]. apply G5. apply nth_In. rewrite G2.
    apply nth_error_Some. congruence.
  Qed.
End Accepted.
