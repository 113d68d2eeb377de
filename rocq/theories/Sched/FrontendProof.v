(** What the passes before it guarantee to the attribute scheduler (C32). *)

From Coq Require Import List Ascii Bool Arith Lia Permutation Relations.
From Verif Require Import Sched.GraphModel Sched.GraphSpec Sched.GraphProof Sched.TreeProof Sched.InduceProof
  Sched.ScheduleModel Sched.ScheduleSpec Sched.ScheduleProof Sched.ScheduleGraphs.
From Verif Require Import Base.Outcome Palm.StrModel Front.Syntax Front.SetsModel Front.SetsSpec Front.SetsProof
  Front.SymbolTableProof Front.CheckExistanceModel Front.CheckExistanceSpec Front.CheckExistanceProof
  Front.NodesetTableModel Front.NodesetTableSpec Front.NodesetTableProof
  Front.PropagateModel Front.PropagateSpec Front.PropagateProof Front.PropagateWalk
  Front.NodesetPassesModel Front.NodesetPassesProof Front.CheckAttributesModel Front.CheckAttributesProof
  Front.ProductRulesModel Front.ProductRulesSpec Front.ProductRulesProof Sched.FrontendModel.
Import ListNotations.
Local Open Scope outcome_scope.

(** In a union every part is contained. *)
Lemma union_contains : forall sets e S id n T, names_unique sets -> ~ not_only_unions e -> In id (references e) ->
  denotes sets e S -> In n sets -> ID_LWR (ns_name n) = ID_LWR id -> denotes sets (ns_expr n) T ->
  forall x, T x -> S x.
Proof.
  intros sets e S id n T U. revert S. induction e as [l|r|o a IHa b IHb]; intros S N I D Hn Sn Dn x Tx.
  - destruct I.
  - destruct I as [<-|[]]. apply (denotes_unique sets (EReference r) S T U D); [|exact Tx].
    apply (den_reference sets n); assumption.
  - cbn [references] in I. apply in_app_iff in I.
    inversion D as [| |a' b' A B S' Da Db Q|a' b' A B S' Da Db Q|a' b' A B S' Da Db Q]; subst; cbn [not_only_unions] in N; try tauto.
    apply Q. destruct I as [I|I]; [left|right]; [eapply IHa|eapply IHb]; eauto; tauto.
Qed.

Lemma to_nodeset_in : forall sets l k x, In x (to_nodeset sets l k) <->
  exists i m tb lit, nth_error sets i = Some m /\ nth_error l i = Some (tb, lit) /\ In k tb /\ In x (ns_attributes m).
Proof.
  intros sets l k x. unfold to_nodeset, numbered. rewrite in_flat_map. split.
  - intros ([m [tb lit]] & H & Hx). cbn [fst snd] in Hx.
    destruct (in_dec Nat.eq_dec k tb) as [I|]; [|easy]. apply In_nth_error in H. destruct H as [i H].
    apply nth_error_combine in H. exists i, m, tb, lit. tauto.
  - intros (i & m & tb & lit & H1 & H2 & H3 & H4). exists (m, (tb, lit)).
    split; [eapply nth_error_In; apply nth_error_combine_some; eassumption|].
    cbn [fst snd]. destruct (in_dec _ _ _); [assumption|contradiction].
Qed.

(** Every attribute of a nodeset is there in its members. *)
Definition members_carry (a : ast) (s : pra) : Prop := forall j m x, member_of a j m -> In x (attributes_of s (TSet j)) ->
  exists y, In y (attributes_of s (TNode m)) /\ same_id (at_name y) (at_name x) /\
    at_is_inherited y = at_is_inherited x /\ at_is_synthesized y = at_is_synthesized x.

Theorem before_scheduling_members : forall a s lits, parsed_ast a -> unmarked a -> before_scheduling a = Val (s, lits) ->
  grammar_input (a_nodes a) (a_nodesets a) s /\
  (forall n l, In (n, l) (combine (a_nodes a) (p_nodes s)) ->
     good_equations (combine (a_nodes a) (p_nodes s)) (combine (a_nodesets a) (p_sets s)) n l) /\
  (forall lit id, In lit lits -> In id (listed lit) -> exists n, In n (a_nodes a) /\ same_id (nd_name n) id) /\
  (forall j m, in_nodeset (a_nodes a) lits j m <-> member_of a j m) /\
  members_carry a s.
Proof.
  intros a s lits P U H. unfold before_scheduling in H.
  destruct (nodeset_passes a) as [s'| | | |] eqn:Ep; try discriminate. cbn [bind] in H.
  destruct (NCTast (a_nodesets a)) as [t| | | |] eqn:Et; try discriminate. cbn [bind] in H.
  destruct (unwrap a) as [[ts ls]| | | |] eqn:Eu; try discriminate. cbn [bind snd] in H.
  destruct (CHAast _ _) as [|e0 es0] eqn:Ec; try discriminate.
  destruct (CPRast _ _ s') as [r| | | |] eqn:Er; try discriminate. cbn [bind] in H.
  destruct (c_errors r) as [|e1 es1] eqn:Ece; try discriminate. injection H as -> ->. rename lits into ls.
  assert (G := passes_grammar a s P U Ep). split; [exact G|].
  split.
  { destruct (product_rules_right a s P U Ep) as (r' & Er' & I & _). rewrite Er in Er'. injection Er' as <-. apply I, Ece. }
  destruct (passes_val a s Ep) as (t' & ts' & ls' & C & Et' & En & Eu' & Epr & Es).
  rewrite Et in Et'. injection Et' as <-. rewrite Eu in Eu'. injection Eu' as <- <-.
  destruct (passes_input a t ts ls P U C Et En Eu) as (I & F & LT).
  destruct (Forall2_nth_r _ _ _ _ _ F) as [LF NF].
  destruct (check_names_accepts a) as [CA _]. apply CA in C. destruct C as (C1 & C2 & R).
  destruct (declared_distinct a C1) as [D1 D2].
  assert (SR : sets_resolve (a_nodesets a)).
  { intros n id Hn Hid. apply is_nodeset_in. apply (r_nodeset_exprs _ R n Hn). exact Hid. }
  destruct (NCTast_right (a_nodesets a) D2 SR) as (t' & Et' & Lt & Q1 & Q2 & Q3).
  rewrite Et in Et'. injection Et' as <-. specialize (Q2 En).
  assert (Mem : forall j m, in_nodeset (a_nodes a) ls j m <-> member_of a j m).
  { intros j m. split.
    - intros (lit & n & Hl & Hn & X). destruct (nth_error (a_nodesets a) j) as [st|] eqn:Hj.
      + exists st, n, (names_in lit). destruct (NF j st lit Hj Hl) as [D _]. auto.
      + apply nth_error_None in Hj. assert (j < length ls) by (apply nth_error_Some; congruence). lia.
    - intros (st & n & S & Hj & Hn & D & X). destruct (nth_error ls j) as [lit|] eqn:Hl.
      + exists lit, n. destruct (NF j st lit Hj Hl) as [D' _]. split; [exact Hl|]. split; [exact Hn|].
        apply (denotes_unique _ _ _ _ D2 D' D). exact X.
      + apply nth_error_None in Hl. assert (j < length (a_nodesets a)) by (apply nth_error_Some; congruence). lia. }
  split; [|split; [exact Mem|]].
  { intros lit id Il Iid. apply In_nth_error in Il. destruct Il as (j & Hl).
    assert (j < length ls) by (apply nth_error_Some; congruence).
    destruct (nth_error (n_tables t) j) as [tb|] eqn:Htb; [|apply nth_error_None in Htb; lia].
    apply (pi_members _ _ _ I tb lit); [|exact Iid].
    apply (nth_error_In _ j). apply nth_error_combine_some; assumption. }
  (* the attributes of the nodesets *)
  destruct (PRAast_right _ _ _ I) as (s' & Ep' & _ & Q). rewrite Epr in Ep'. injection Ep' as <-.
  destruct (Q Es) as [_ Qs].
  (* a nodeset with attributes is a union *)
  assert (Legal : forall j st, nth_error (a_nodesets a) j = Some st -> nth j (p_sets s) [] <> [] -> ~ not_only_unions (ns_expr st)).
  { intros j st Hj Ne Bad. apply (Q3 j st Hj) in Bad. apply CHAast_accepts in Ec. destruct Ec as [_ Ec].
    assert (Lj : j < length (a_nodesets a)) by (apply nth_error_Some; congruence).
    assert (Hi : nth_error (n_illegal t) j = Some true).
    { destruct (nth_error (n_illegal t) j) as [b|] eqn:Hb.
      - rewrite (nth_error_nth _ _ false Hb) in Bad. congruence.
      - apply nth_error_None in Hb. rewrite nth_overflow in Bad by exact Hb. discriminate. }
    assert (Hp : nth_error (p_sets s) j = Some (nth j (p_sets s) [])).
    { apply nth_error_nth'. rewrite (gi_len_sets _ _ _ G). exact Lj. }
    destruct (Ec st true (nth j (p_sets s) [])) as [X _].
    - apply (nth_error_In _ j). apply nth_error_combine_some; [|exact Hp].
      apply nth_error_combine_some; assumption.
    - apply Ne, X. reflexivity. }
  (* all parts of a nodeset with attributes are contained in it *)
  assert (Sub : forall i k, built_from (a_nodesets a) i k -> forall sti stk x A B, nth_error (a_nodesets a) i = Some sti ->
      nth_error (a_nodesets a) k = Some stk -> In x (ns_attributes sti) -> denotes (a_nodesets a) (ns_expr sti) A ->
      denotes (a_nodesets a) (ns_expr stk) B -> forall y, B y -> A y).
  { assert (Step : forall i k st stk x A B, refers (a_nodesets a) i k -> nth_error (a_nodesets a) i = Some st ->
      nth_error (a_nodesets a) k = Some stk -> In x (nth i (p_sets s) []) -> denotes (a_nodesets a) (ns_expr st) A ->
      denotes (a_nodesets a) (ns_expr stk) B -> forall y, B y -> A y).
    { intros i k st stk x A B (n & m & id & Hn & Hm & Iid & Sm) Hi Hk Hx DA DB. rewrite Hi in Hn. injection Hn as <-.
      rewrite Hk in Hm. injection Hm as <-.
      apply (union_contains (a_nodesets a) (ns_expr st) A id stk B D2); auto; [|eapply nth_error_In; exact Hk].
      apply (Legal i); [exact Hi|]. intros Z. rewrite Z in Hx. destruct Hx. }
    intros i k Bt. apply clos_trans_tn1 in Bt. induction Bt as [k Rk|k k' Rk Bt IH]; intros sti stk x A B Hi Hk Hx DA DB.
    - apply (Step i k sti stk x A B); auto. apply (ca_own _ _ _ (Qs i sti Hi)), Hx.
    - assert (Rk' := Rk). destruct Rk' as (n & m & id & Hn & Hm & Iid & Sm).
      assert (Ln : k < length ls) by (rewrite <- LF; apply nth_error_Some; congruence).
      destruct (nth_error ls k) as [lit|] eqn:Hl; [|apply nth_error_None in Hl; lia].
      destruct (NF k n lit Hn Hl) as [Dn _].
      assert (Li : i < length (a_nodesets a)) by (apply nth_error_Some; congruence).
      assert (Hxk : exists x', In x' (nth k (p_sets s) [])).
      { destruct (ca_reach _ _ _ (Qs k n Hn) x) as (x' & Hx' & _); [|eauto].
        apply to_nodeset_in.
        destruct (nth_error (n_tables t) i) as [tb|] eqn:Htb; [|apply nth_error_None in Htb; lia].
        destruct (nth_error ls i) as [liti|] eqn:Hli; [|apply nth_error_None in Hli; lia].
        exists i, sti, tb, liti. split; [exact Hi|]. split; [apply nth_error_combine_some; assumption|].
        split; [|exact Hx]. destruct (Q2 i Li) as [_ Qb]. unfold table_of in Qb. rewrite (nth_error_nth _ _ [] Htb) in Qb.
        apply Qb. apply clos_tn1_trans. exact Bt. }
      destruct Hxk as (x' & Hx').
      intros y By. apply (IH sti n x A (names_in lit)); auto.
      apply (Step k k' n stk x' (names_in lit) B); auto. }
  intros j m x Mj Hx. assert (Mj' := Mj). destruct Mj' as (st & n & S & Hj & Hn & D & Sx). cbn [attributes_of] in Hx.
  destruct (passes_reach a s P U Ep m n Hn) as (_ & Reach & _).
  (* the declaration it comes from *)
  assert (Or : exists i sti x' A, nth_error (a_nodesets a) i = Some sti /\ In x' (ns_attributes sti) /\
             denotes (a_nodesets a) (ns_expr sti) A /\ A (ID_LWR (nd_name n)) /\ at_name x = at_name x' /\
             at_is_inherited x' = at_is_inherited x /\ at_is_synthesized x' = at_is_synthesized x).
  { destruct (ca_only _ _ _ (Qs j st Hj) x Hx) as [O|(x' & Hx' & Cx)].
    - exists j, st, x, S. auto 10.
    - apply to_nodeset_in in Hx'. destruct Hx' as (i & sti & tb & lit & Hi & Hl & Ij & Hx').
      apply nth_error_combine in Hl. cbn [fst snd] in Hl. destruct Hl as [Htb Hl].
      destruct (NF i sti lit Hi Hl) as [Di _].
      exists i, sti, x', (names_in lit). split; [exact Hi|]. split; [exact Hx'|]. split; [exact Di|]. split.
      + apply (Sub i j) with (sti := sti) (stk := st) (x := x') (B := S); auto.
        assert (Li : i < length (a_nodesets a)) by (apply nth_error_Some; congruence).
        destruct (Q2 i Li) as [_ Qb]. unfold table_of in Qb. rewrite (nth_error_nth _ _ [] Htb) in Qb. apply Qb, Ij.
      + destruct Cx as (X1 & _ & _ & _ & X2 & X3 & _). auto. }
  destruct Or as (i & sti & x' & A & Hi & Hx' & DA & Ax & Nx & Inh & Syn).
  destruct (Reach sti x' A (nth_error_In _ _ Hi) Hx' DA Ax) as (y & Hy & Sy & Cy).
  exists y. split; [exact Hy|]. split; [rewrite Nx; exact Sy|]. destruct Cy as [(_ & _ & _ & _ & C3 & C4 & _)|((F1 & F2) & (F3 & F4) & _)]; split; congruence.
Qed.
Theorem before_scheduling_input : forall a s lits, parsed_ast a -> unmarked a -> before_scheduling a = Val (s, lits) ->
  grammar_input (a_nodes a) (a_nodesets a) s /\
  (forall n l, In (n, l) (combine (a_nodes a) (p_nodes s)) ->
     good_equations (combine (a_nodes a) (p_nodes s)) (combine (a_nodesets a) (p_sets s)) n l) /\
  (forall lit id, In lit lits -> In id (listed lit) -> exists n, In n (a_nodes a) /\ same_id (nd_name n) id) /\
  (forall j m, in_nodeset (a_nodes a) lits j m <-> member_of a j m) /\
  members_covered (attributes_of s) (in_nodeset (a_nodes a) lits).
Proof.
  intros a s lits P U H. destruct (before_scheduling_members a s lits P U H) as (G & Q & L & Mem & C).
  split; [exact G|]. split; [exact Q|]. split; [exact L|]. split; [exact Mem|].
  intros j m [tg k] Mj Ta Ga. cbn [fst] in Ta. subst tg.
  assert (Hx : exists x, nth_error (attributes_of s (TSet j)) k = Some x).
  { destruct Ga as [(x & X & Y)|(x & X & Y)]; cbn [fst snd] in X; eauto. }
  destruct Hx as (x & Hx). destruct (C j m x (proj1 (Mem j m) Mj) (nth_error_In _ _ Hx)) as (y & Hy & Sy & _).
  apply In_nth_error in Hy. destruct Hy as (ky & Hy). exists (TNode m, ky).
  split; [reflexivity|]. split; [reflexivity|]. split; [exact Ga|]. exists x. split; [exact Hx|].
  exists y. split; [exact Hy|exact Sy].
Qed.

(** No nodeset lists a member twice. *)
Lemma literals_distinct : forall a s lits, parsed_ast a -> unmarked a -> before_scheduling a = Val (s, lits) ->
  forall lit, In lit lits -> no_member_twice lit.
Proof.
  intros a s lits P U H. unfold before_scheduling in H.
  destruct (nodeset_passes a) as [s'| | | |] eqn:Ep; try discriminate. cbn [bind] in H.
  destruct (NCTast (a_nodesets a)) as [t| | | |] eqn:Et; try discriminate. cbn [bind] in H.
  destruct (unwrap a) as [[ts ls]| | | |] eqn:Eu; try discriminate. cbn [bind snd] in H.
  destruct (CHAast _ _) as [|e0 es0] eqn:Ec; try discriminate.
  destruct (CPRast _ _ s') as [r| | | |] eqn:Er; try discriminate. cbn [bind] in H.
  destruct (c_errors r) as [|e1 es1] eqn:Ece; try discriminate. injection H as -> ->. rename lits into ls.
  destruct (passes_val a s Ep) as (t' & ts' & ls' & C & Et' & En & Eu' & Epr & Es).
  rewrite Et in Et'. injection Et' as <-. rewrite Eu in Eu'. injection Eu' as <- <-.
  destruct (passes_input a t ts ls P U C Et En Eu) as (I & F & LT).
  intros lit Il. apply In_nth_error in Il. destruct Il as (j & Hl).
  assert (j < length ls) by (apply nth_error_Some; congruence).
  destruct (Forall2_nth_r _ _ _ _ _ F) as [LF _].
  destruct (nth_error (n_tables t) j) as [tb|] eqn:Htb; [|apply nth_error_None in Htb; lia].
  apply (pi_members _ _ _ I tb lit). apply (nth_error_In _ j). apply nth_error_combine_some; assumption.
Qed.
