(** The passes before the scheduler accept exactly the legal specifications
    (C48). *)

From Coq Require Import List Ascii Bool Arith Lia Relations.
From Verif Require Import Base.Outcome Palm.StrModel Front.Syntax Front.SetsModel Front.SetsSpec Front.SetsProof Front.SetsTotal
  Front.SymbolTableSpec Front.SymbolTableProof Front.CheckExistanceModel Front.CheckExistanceSpec Front.CheckExistanceProof
  Front.NodesetTableModel Front.NodesetTableSpec Front.NodesetTableProof
  Front.PropagateModel Front.PropagateSpec Front.PropagateProof Front.PropagateWalk
  Front.NodesetPassesModel Front.NodesetPassesProof Front.CheckAttributesModel Front.CheckAttributesSpec Front.CheckAttributesProof
  Front.ProductRulesModel Front.ProductRulesSpec Front.ProductRulesProof Sched.FrontendModel Sched.FrontendProof
  Gen.CompileSpec Gen.CompileVerdict.
Import ListNotations.
Local Open Scope outcome_scope.

(** The same attribute, as far as equations are concerned. *)
Definition like (x y : attribute) : Prop := same_id (at_name y) (at_name x) /\
  at_is_inherited y = at_is_inherited x /\ at_is_synthesized y = at_is_synthesized x.

Lemma like_refl : forall x, like x x.
Proof. intros x. repeat split. Qed.
Lemma copy_like : forall x y, copy_of x y -> like x y.
Proof. intros x y (N & _ & _ & _ & I & S & _). split; [unfold same_id; congruence|]. split; assumption. Qed.
Lemma reach_like : forall x y, same_id (at_name y) (at_name x) -> copy_of x y \/ may_redeclare x y -> like x y.
Proof.
  intros x y N [H|((F1 & F2) & (F3 & F4) & _)]; [apply copy_like, H|]. split; [exact N|]. split; congruence.
Qed.

Section Propagated.
  Variable a : ast.
  Hypothesis P : parsed_ast a.
  Hypothesis U : unmarked a.
  Variable t : nct.
  Variable ts : list (option literal).
  Variable ls : list literal.
  Hypothesis C : is_val (check_names a) = true.
  Hypothesis Et : NCTast (a_nodesets a) = Val t.
  Hypothesis En : n_errors t = [].
  Hypothesis Eu : unwrap a = Val (ts, ls).
  Variable s : pra.
  Hypothesis Epr : PRAast (a_nodes a) (a_nodesets a) (combine (n_tables t) ls) = Val s.
  Hypothesis Es : p_errors s = [].

  Let sets := a_nodesets a.
  Let l := combine (n_tables t) ls.
  Let NODES := combine (a_nodes a) (p_nodes s).
  Let SETS := combine (a_nodesets a) (p_sets s).

  Fact passed : nodeset_passes a = Val s.
  Proof.
    unfold nodeset_passes. destruct (check_names a) as [ste| | | |]; try discriminate. cbn [bind]. rewrite Et. cbn [bind].
    rewrite En, Eu. cbn [bind snd]. rewrite Epr. cbn [bind]. rewrite Es. reflexivity.
  Qed.
  Fact grammar : grammar_input (a_nodes a) (a_nodesets a) s.
  Proof. exact (passes_grammar a s P U passed). Qed.
  Fact node_carries : forall i n, nth_error (a_nodes a) i = Some n -> carries (nd_attributes n) (to_node sets l n) (nth i (p_nodes s) []).
  Proof.
    destruct (PRAast_right _ _ _ (input a P U t ts ls C Et En Eu)) as (s' & Ep' & _ & Q). rewrite Epr in Ep'. injection Ep' as <-.
    apply (Q Es).
  Qed.
  Fact set_carries : forall k m, nth_error sets k = Some m -> carries (ns_attributes m) (to_nodeset sets l k) (nth k (p_sets s) []).
  Proof.
    destruct (PRAast_right _ _ _ (input a P U t ts ls C Et En Eu)) as (s' & Ep' & _ & Q). rewrite Epr in Ep'. injection Ep' as <-.
    apply (Q Es).
  Qed.

  Lemma nodes_at : forall n L, In (n, L) NODES <-> exists i, nth_error (a_nodes a) i = Some n /\ L = nth i (p_nodes s) [].
  Proof.
    intros n L. split.
    - intros I. apply In_nth_error in I. destruct I as (i & E). apply nth_error_combine in E. cbn [fst snd] in E. exists i.
      split; [apply E|]. symmetry. apply nth_error_nth. apply E.
    - intros (i & E & ->). apply (nth_error_In _ i). apply nth_error_combine_some; [exact E|]. apply nth_error_nth'.
      rewrite (gi_len_nodes _ _ _ grammar). apply nth_error_Some. congruence.
  Qed.
  Lemma sets_at : forall m L, In (m, L) SETS <-> exists k, nth_error sets k = Some m /\ L = nth k (p_sets s) [].
  Proof.
    intros n L. split.
    - intros I. apply In_nth_error in I. destruct I as (i & E). apply nth_error_combine in E. cbn [fst snd] in E. exists i.
      split; [apply E|]. symmetry. apply nth_error_nth. apply E.
    - intros (i & E & ->). apply (nth_error_In _ i). apply nth_error_combine_some; [exact E|]. apply nth_error_nth'.
      rewrite (gi_len_sets _ _ _ grammar). apply nth_error_Some. fold sets. congruence.
  Qed.

  (** The attributes of a node after propagation are those it has. *)
  Lemma node_has : forall n L, In (n, L) NODES ->
    (forall y, In y L -> exists x, node_attribute a n x /\ (x = y \/ copy_of x y)) /\
    (forall x, node_attribute a n x -> exists y, In y L /\ like x y).
  Proof.
    intros n L I. apply nodes_at in I. destruct I as (i & Hn & ->). destruct (node_carries i n Hn) as [Own Reach Only Dis]. split.
    - intros y Iy. destruct (Only y Iy) as [O|(x & Ix & Cx)]; [exists y; split; [left; exact O|left; reflexivity]|].
      apply (to_node_given a P U t ts ls C Et En Eu) in Ix. destruct Ix as (k & Gx).
      destruct (in_dec (list_eq_dec ascii_dec) (ID_LWR (at_name x)) (map (fun o => ID_LWR (at_name o)) (nd_attributes n))) as [H|H].
      + apply in_map_iff in H. destruct H as (o & So & Io). exists o. split; [left; exact Io|]. left.
        apply (NoDup_key _ _ (fun z => ID_LWR (at_name z)) _ _ _ Dis (Own o Io) Iy). destruct (copy_like _ _ Cx) as (Sy & _).
        unfold same_id in Sy. congruence.
      + exists x. split; [|right; exact Cx]. right. exists k. split; [exact Gx|]. intros o Io So. apply H. rewrite <- So.
        exact (in_map (fun z => ID_LWR (at_name z)) _ _ Io).
    - intros x [O|(k & Gx & _)]; [exists x; split; [exact (Own x O)|apply like_refl]|].
      destruct (Reach x) as (y & Iy & Sy & R); [apply (to_node_given a P U t ts ls C Et En Eu); eauto|].
      exists y. split; [exact Iy|apply reach_like; assumption].
  Qed.
  Lemma set_has : forall k m, nth_error sets k = Some m ->
    (forall y, In y (nth k (p_sets s) []) -> exists i x, set_given_by a k i x /\ (x = y \/ copy_of x y)) /\
    (forall i x, set_given_by a k i x -> exists y, In y (nth k (p_sets s) []) /\ like x y).
  Proof.
    intros k m Hm. destruct (set_carries k m Hm) as [Own Reach Only Dis].
    assert (Src : forall x, In x (to_nodeset sets l k) <-> exists i, declares_attribute a i x /\ built_from sets i k).
    { intros x. unfold to_nodeset. rewrite in_flat_map. split.
      - intros (p & I & Hx). apply In_nth_error in I. destruct I as (i & E). exists i.
        apply (set_source_iff a P U t ts ls C Et En Eu k i x). exists p. auto.
      - intros (i & G). apply (set_source_iff a P U t ts ls C Et En Eu k i x) in G. destruct G as (p & E & Hx). exists p.
        split; [eapply nth_error_In; exact E|exact Hx]. }
    split.
    - intros y Iy. destruct (Only y Iy) as [O|(x & Ix & Cx)].
      + exists k, y. split; [|left; reflexivity]. split; [exists m; auto|left; reflexivity].
      + apply Src in Ix. destruct Ix as (i & D & B). exists i, x. split; [split; auto|right; exact Cx].
    - intros i x [(m' & Hm' & Ix) [->|B]].
      + fold sets in Hm'. rewrite Hm in Hm'. injection Hm' as <-. exists x. split; [exact (Own x Ix)|apply like_refl].
      + destruct (Reach x) as (y & Iy & Sy & R); [apply Src; exists i; split; [exists m'; auto|exact B]|].
        exists y. split; [exact Iy|apply reach_like; assumption].
  Qed.
  Lemma copies_like : forall x y, x = y \/ copy_of x y -> like x y.
  Proof. intros x y [->|H]; [apply like_refl|apply copy_like, H]. Qed.

  Lemma type_has : forall id,
    (forall lc y, has_attributes NODES SETS id lc -> In y lc -> exists x, type_attribute a id x /\ like x y) /\
    (forall x, type_attribute a id x -> exists lc y, has_attributes NODES SETS id lc /\ In y lc /\ like x y).
  Proof.
    intros id. split.
    - intros lc y [(n & I & S)|(m & I & S)] Iy.
      + destruct (proj1 (node_has n lc I) y Iy) as (x & A & L). exists x. split; [|apply copies_like, L]. left. exists n.
        split; [|auto]. apply in_combine_l in I. exact I.
      + apply sets_at in I. destruct I as (k & Hm & ->). destruct (proj1 (set_has k m Hm) y Iy) as (i & x & G & L).
        exists x. split; [|apply copies_like, L]. right. exists k, m, i. auto.
    - intros x [(n & I & S & A)|(k & m & i & Hm & S & G)].
      + apply In_nth_error in I. destruct I as (i & E). assert (IN : In (n, nth i (p_nodes s) []) NODES) by (apply nodes_at; eauto).
        destruct (proj2 (node_has n _ IN) x A) as (y & Iy & L). exists (nth i (p_nodes s) []), y. split; [|auto]. left. exists n. auto.
      + destruct (proj2 (set_has k m Hm) i x G) as (y & Iy & L). exists (nth k (p_sets s) []), y. split; [|auto]. right. exists m.
        split; [apply sets_at; eauto|exact S].
  Qed.

  Lemma meant_iff : forall n L r, In (n, L) NODES ->
    (forall x, meant a n r x -> exists y, refers_to NODES SETS n L r y /\ like x y) /\
    (forall y, refers_to NODES SETS n L r y -> exists x, meant a n r x /\ like x y).
  Proof.
    intros n L r I. split.
    - intros x (S & M). destruct (ar_inode r) as [cn|] eqn:E.
      + destruct M as (c & Ic & Sc & T). destruct (proj2 (type_has (ch_type c)) x T) as (lc & y & H & Iy & Lk). exists y. split; [|exact Lk].
        apply (refers_child _ _ _ _ _ _ cn c lc); auto. destruct Lk as (Sy & _). unfold same_id in *. congruence.
      + destruct (proj2 (node_has n L I) x M) as (y & Iy & Lk). exists y. split; [|exact Lk].
        apply refers_this; auto. destruct Lk as (Sy & _). unfold same_id in *. congruence.
    - intros y [E Iy S|cn c lc E Ic Sc H Iy S].
      + destruct (proj1 (node_has n L I) y Iy) as (x & A & Lk). apply copies_like in Lk. exists x. split; [|exact Lk].
        split; [destruct Lk as (Sy & _); unfold same_id in *; congruence|]. rewrite E. exact A.
      + destruct (proj1 (type_has (ch_type c)) lc y H Iy) as (x & T & Lk). exists x. split; [|exact Lk].
        split; [destruct Lk as (Sy & _); unfold same_id in *; congruence|]. rewrite E. exists c. auto.
  Qed.

  Lemma equations_iff : forall n L, In (n, L) NODES ->
    (good_equations NODES SETS n L <->
     (forall x, node_attribute a n x -> at_is_synthesized x = true -> exists e, In e (nd_equations n) /\ equation_for e None (at_name x)) /\
     (forall c x, In c (nd_children n) -> type_attribute a (ch_type c) x -> at_is_inherited x = true ->
        exists e, In e (nd_equations n) /\ equation_for e (Some (ch_name c)) (at_name x)) /\
     (forall e, In e (nd_equations n) -> exists x, meant a n (eq_rule e) x /\
        (if ar_inode (eq_rule e) then at_is_inherited x = true else at_is_synthesized x = true)) /\
     (forall e r, In e (nd_equations n) -> In r (eq_args e) -> exists x, meant a n r x)).
  Proof.
    intros n L I. split.
    - intros [G1 G2 G3 G4]. split; [|split; [|split]].
      + intros x A Sx. destruct (proj2 (node_has n L I) x A) as (y & Iy & N & _ & Sy).
        destruct (G1 y Iy) as (e & Ie & E & S); [congruence|]. exists e. split; [exact Ie|]. split; [unfold same_id in *; congruence|].
        rewrite E. exact Logic.I.
      + intros c x Ic T Hx. destruct (proj2 (type_has (ch_type c)) x T) as (lc & y & H & Iy & N & Hy & _).
        destruct (G2 c lc y Ic H Iy) as (e & cn & Ie & E & Sc & S); [congruence|]. exists e. split; [exact Ie|].
        split; [unfold same_id in *; congruence|]. rewrite E. exact Sc.
      + intros e Ie. destruct (G3 e Ie) as (y & R & K). destruct (proj2 (meant_iff n L (eq_rule e) I) y R) as (x & M & N & X1 & X2).
        exists x. split; [exact M|]. destruct (ar_inode (eq_rule e)); congruence.
      + intros e r Ie Ir. destruct (G4 e r Ie Ir) as (y & R). destruct (proj2 (meant_iff n L r I) y R) as (x & M & _). eauto.
    - intros (G1 & G2 & G3 & G4). constructor.
      + intros y Iy Sy. destruct (proj1 (node_has n L I) y Iy) as (x & A & Lk). apply copies_like in Lk. destruct Lk as (N & _ & X).
        destruct (G1 x A) as (e & Ie & S & E); [congruence|]. exists e. split; [exact Ie|].
        destruct (ar_inode (eq_rule e)); [destruct E|]. split; [reflexivity|]. unfold same_id in *. congruence.
      + intros c lc y Ic H Iy Hy. destruct (proj1 (type_has (ch_type c)) lc y H Iy) as (x & T & N & X & _).
        destruct (G2 c x Ic T) as (e & Ie & S & E); [congruence|]. destruct (ar_inode (eq_rule e)) as [cn|] eqn:Ec; [|destruct E].
        exists e, cn. split; [exact Ie|]. split; [exact Ec|]. split; [exact E|]. unfold same_id in *. congruence.
      + intros e Ie. destruct (G3 e Ie) as (x & M & K). destruct (proj1 (meant_iff n L (eq_rule e) I) x M) as (y & R & N & X1 & X2).
        exists y. split; [exact R|]. destruct (ar_inode (eq_rule e)); congruence.
      + intros e r Ie Ir. destruct (G4 e r Ie Ir) as (x & M). destruct (proj1 (meant_iff n L r I) x M) as (y & R & _). eauto.
  Qed.

  (** checkAttributes: the operators. *)
  Lemma illegal_at : forall k m, nth_error sets k = Some m -> nth_error (n_illegal t) k = Some (nth k (n_illegal t) false) ->
    In (m, nth k (n_illegal t) false, nth k (p_sets s) []) (combine (combine sets (n_illegal t)) (p_sets s)).
  Proof.
    intros k m Hm Hi. apply (nth_error_In _ k). apply nth_error_combine_some; [apply nth_error_combine_some; assumption|].
    apply nth_error_nth'. rewrite (gi_len_sets _ _ _ grammar). apply nth_error_Some. fold sets. congruence.
  Qed.

  Definition unions_only : Prop := forall k m i x, nth_error sets k = Some m -> set_given_by a k i x -> ~ not_only_unions (ns_expr m).

  Lemma checked_unions : CHAast NODES (combine (combine sets (n_illegal t)) (p_sets s)) = [] -> unions_only.
  Proof.
    intros H k m i x Hm G Bad. apply CHAast_accepts in H. destruct H as [_ H].
    destruct (proj2 (set_has k m Hm) i x G) as (y & Iy & _).
    destruct (tables a t C Et En) as (_ & _ & _ & Q). apply (Q k m Hm) in Bad.
    assert (Hi : nth_error (n_illegal t) k = Some (nth k (n_illegal t) false)).
    { destruct (nth_error (n_illegal t) k) as [b|] eqn:E; [rewrite (nth_error_nth _ _ false E); reflexivity|].
      apply nth_error_None in E. rewrite nth_overflow in Bad by exact E. discriminate. }
    destruct (H _ _ _ (illegal_at k m Hm Hi)) as [X _]. rewrite (X Bad) in Iy. destruct Iy.
  Qed.

  Lemma rules_checked : attribute_rules a -> unions_only -> CHAast NODES (combine (combine sets (n_illegal t)) (p_sets s)) = [].
  Proof.
    intros [R1 R2 R3] Un. apply CHAast_accepts. split.
    - intros n L I x L' ->. destruct (proj1 (node_has n _ I) x (or_introl eq_refl)) as (z & A & Cz).
      assert (In_n : In n (a_nodes a)) by (apply in_combine_l in I; exact I). split.
      + intros (Rt & Inh). assert (X := R2 n z In_n Rt A). destruct (copies_like _ _ Cz) as (_ & Y & _). congruence.
      + intros Pr. destruct Cz as [->|Cz]; [|destruct Cz as (_ & _ & _ & _ & _ & _ & _ & Z); congruence].
        destruct A as [O|(i & (m & S & Hm & Ix & _) & _)]; [exact (R1 n x In_n O)|]. apply (R3 i x). exists m. auto.
    - intros m ill L I. apply In_nth_error in I. destruct I as (k & E). apply nth_error_combine in E. cbn [fst snd] in E.
      destruct E as [E1 E2]. apply nth_error_combine in E1. cbn [fst snd] in E1. destruct E1 as [Hm Hi].
      assert (EL : nth k (p_sets s) [] = L) by (apply nth_error_nth; exact E2). split.
      + intros ->. destruct L as [|y L]; [reflexivity|exfalso].
        destruct (proj1 (set_has k m Hm) y) as (i & x & G & _); [rewrite EL; left; reflexivity|].
        apply (Un k m i x Hm G). apply (proj2 (proj2 (proj2 (tables a t C Et En))) k m Hm).
        rewrite (nth_error_nth _ _ false Hi). reflexivity.
      + intros x L' -> Pr. destruct (proj1 (set_has k m Hm) x) as (i & z & [D _] & Cz); [rewrite EL; left; reflexivity|].
        destruct Cz as [->|Cz]; [apply (R3 i x D)|destruct Cz as (_ & _ & _ & _ & _ & _ & _ & Z); congruence].
  Qed.
End Propagated.

Theorem accepted_legal : forall a r, parsed_ast a -> unmarked a -> before_scheduling a = Val r ->
  (forall i x, declares_attribute a i x -> at_in_constructor x = false) -> legal a.
Proof.
  intros a r P U H Con. unfold before_scheduling in H.
  destruct (nodeset_passes a) as [s| | | |] eqn:Ep; try discriminate. cbn [bind] in H.
  destruct (NCTast (a_nodesets a)) as [t| | | |] eqn:Et; try discriminate. cbn [bind] in H.
  destruct (unwrap a) as [[ts ls]| | | |] eqn:Eu; try discriminate. cbn [bind snd] in H.
  destruct (CHAast _ _) as [|e0 es0] eqn:Ec; try discriminate.
  destruct (CPRast _ _ s) as [r'| | | |] eqn:Er; try discriminate. cbn [bind] in H.
  destruct (c_errors r') as [|e1 es1] eqn:Ece; try discriminate.
  destruct (passes_val a s Ep) as (t' & ts' & ls' & C & Et' & En & Eu' & Epr & Es).
  rewrite Et in Et'. injection Et' as <-. rewrite Eu in Eu'. injection Eu' as <- <-.
  destruct (PRAast_right _ _ _ (input a P U t ts ls C Et En Eu)) as (s' & Ep' & Agr & _). rewrite Epr in Ep'. injection Ep' as <-.
  apply Agr in Es as Es'. destruct Es' as (AgN & AgS).
  destruct (checked_names a C) as (N1 & N2 & N3).
  destruct (product_rules_right a s P U Ep) as (r'' & Er' & I & _). rewrite Er in Er'. injection Er' as <-.
  assert (Eq : forall n, In n (a_nodes a) -> exists L, In (n, L) (combine (a_nodes a) (p_nodes s)) /\
     good_equations (combine (a_nodes a) (p_nodes s)) (combine (a_nodesets a) (p_sets s)) n L).
  { intros n In_n. apply In_nth_error in In_n. destruct In_n as (i & Hn). exists (nth i (p_nodes s) []).
    assert (X : In (n, nth i (p_nodes s) []) (combine (a_nodes a) (p_nodes s))).
    { apply (nodes_at a P U t ts ls C Et En Eu s Epr Es). eauto. }
    split; [exact X|]. apply (proj1 I Ece _ _ X). }
  assert (Eq' := fun n In_n => match Eq n In_n with ex_intro _ L (conj X G) => proj1 (equations_iff a P U t ts ls C Et En Eu s Epr Es n L X) G end).
  constructor; auto.
  - apply (tables a t C Et En).
  - exact (checked_unions a P U t ts ls C Et En Eu s Epr Es Ec).
  - intros n i x j y In_n. apply (of_node_agrees a P U t ts ls C Et En Eu n In_n (AgN n In_n)). exact Con.
  - intros n i x o In_n. apply (of_node_agrees a P U t ts ls C Et En Eu n In_n (AgN n In_n)).
  - intros n i x c In_n. apply (of_node_agrees a P U t ts ls C Et En Eu n In_n (AgN n In_n)).
  - intros k i x j y Lk. destruct (nth_error (a_nodesets a) k) as [m|] eqn:Hm; [|apply nth_error_None in Hm; lia].
    apply (nodeset_agrees_iff a P U t ts ls C Et En Eu k m Hm). exact (AgS k m Hm).
  - intros n x In_n. apply (Eq' n In_n).
  - intros n c x In_n. apply (Eq' n In_n).
  - intros n e In_n. apply (Eq' n In_n).
  - intros n e r0 In_n. apply (Eq' n In_n).
Qed.

Theorem legal_accepted : forall a, parsed_ast a -> unmarked a -> declared_before_use (a_nodesets a) ->
  legal a -> attribute_rules a -> is_val (before_scheduling a) = true.
Proof.
  intros a P U B L R. destruct L as [L1 L2 L3 L4 L5 L6 L7 L8 L9 L10 L11 L12 L13].
  assert (C : is_val (check_names a) = true) by (apply check_names_accepts; auto).
  destruct (NCTast_right (a_nodesets a) (unique a C) (resolve a C)) as (t & Et & _ & Q1 & _).
  assert (En : n_errors t = []).
  { destruct (n_errors t) as [|e es]; [reflexivity|]. destruct L4. apply Q1. discriminate. }
  destruct (unwrap_defined a (unique a C) B) as (ts & ls & Eu).
  { intros tr e id It Ee Iid. apply is_nodeset_in. apply (r_trav_nodes _ L3 tr e It Ee). exact Iid. }
  destruct (PRAast_right _ _ _ (input a P U t ts ls C Et En Eu)) as (s & Epr & Agr & _).
  assert (Es : p_errors s = []).
  { apply Agr. split.
    - intros n In_n. apply (node_agrees_of a P U t ts ls C Et En Eu n In_n); [intros i x j y|intros i x o|intros i x c]; eauto.
    - intros k m Hm. apply (nodeset_agrees_iff a P U t ts ls C Et En Eu k m Hm). intros i x j y. apply L9. apply nth_error_Some. congruence. }
  assert (Ep := passed a t ts ls C Et En Eu s Epr Es).
  destruct (product_rules_right a s P U Ep) as (r & Er & I & _).
  unfold before_scheduling. rewrite Ep. cbn [bind]. rewrite Et. cbn [bind]. rewrite Eu. cbn [bind snd].
  rewrite (rules_checked a P U t ts ls C Et En Eu s Epr Es R L5). rewrite Er. cbn [bind].
  rewrite (proj2 I); [reflexivity|]. intros n L IL. assert (In_n : In n (a_nodes a)) by (apply in_combine_l in IL; exact IL).
  apply (equations_iff a P U t ts ls C Et En Eu s Epr Es n L IL). split; [eauto|]. split; [eauto|]. split; eauto.
Qed.

(** The passes end with a result or an error message, if no two passes have
    the same function. *)
Theorem passes_end : forall a, parsed_ast a -> unmarked a -> declared_before_use (a_nodesets a) ->
  distinct_names (pass_functions a) -> (exists r, before_scheduling a = Val r) \/ before_scheduling a = Exited.
Proof.
  intros a P U B Df. unfold before_scheduling.
  assert (NP : (exists s, nodeset_passes a = Val s) \/ nodeset_passes a = Exited).
  { unfold nodeset_passes. destruct (check_names_accepts a) as [_ CE].
    destruct (is_val (check_names a)) eqn:C; [|rewrite (CE Df eq_refl); right; reflexivity].
    destruct (NCTast_right (a_nodesets a) (unique a C) (resolve a C)) as (t & Et & _).
    destruct (check_names a) as [ste| | | |] eqn:Ec; try discriminate. cbn [bind]. rewrite Et. cbn [bind].
    destruct (n_errors t) as [|e es] eqn:En; [|right; reflexivity]. rewrite <- Ec in C.
    destruct (unwrap_defined a (unique a C) B) as (ts & ls & Eu).
    { intros tr e id It Ee Iid. apply is_nodeset_in. apply (r_trav_nodes _ (rules a C) tr e It Ee). exact Iid. }
    rewrite Eu. cbn [bind snd]. destruct (PRAast_right _ _ _ (input a P U t ts ls C Et En Eu)) as (s & Epr & _). rewrite Epr. cbn [bind].
    destruct (p_errors s); [left; eauto|right; reflexivity]. }
  destruct NP as [(s & Ep)|Ep]; rewrite Ep; [|right; reflexivity]. cbn [bind].
  destruct (passes_val a s Ep) as (t & ts & ls & C & Et & En & Eu & Epr & Es). rewrite Et. cbn [bind]. rewrite Eu. cbn [bind snd].
  destruct (CHAast _ _); [|right; reflexivity].
  destruct (product_rules_right a s P U Ep) as (r & Er & _). rewrite Er. cbn [bind].
  destruct (c_errors r); [left; eauto|right; reflexivity].
Qed.
