(** The nodes of a tree have the members that accessors need. *)

From Coq Require Import String.
From Coq Require Import List Ascii NArith ZArith Bool Lia.
From Verif Require Import Base.Outcome Base.Heap Palm.StrModel Front.Syntax Front.SetsModel Front.SetsSpec Front.SetsProof
  Front.SymbolTableSpec Front.SymbolTableProof Front.PropagateModel Front.PropagateSpec Front.NodesetPassesProof
  Front.ProductRulesProof Sched.FrontendModel
  Gen.NodesModel Gen.NodesSpec Gen.NodesProof Gen.TravChildSpec Gen.TravChildProof Gen.CompileSpec Gen.CompileVerdict Gen.CompileLegal
  Gen.AccessModel Gen.AccessSpec Gen.AccessMembers Gen.AccessProof Gen.AccessWhole.
Import Gen.TravChildSpec Front.SetsSpec.
Import ListNotations.
Local Open Scope list_scope.

Lemma name_eqb_same : forall x, name_eqb x x = true.
Proof. intros x. unfold name_eqb. destruct (list_eq_dec ascii_dec x x); [reflexivity|congruence]. Qed.

Lemma kids_assoc : forall nodes h cs kvs ts fp, rep_kids nodes h cs kvs ts fp -> forall c, In c cs ->
  exists q, assoc (ID_LWR (ch_name c)) kvs = Some (Ptr q).
Proof.
  intros nodes h cs kvs ts fp R. induction R as [|c cs kvs ts fps R IH|c cs x t fp kvs ts fps R1 R IH]; intros c0 I; [destruct I| |];
    cbn [assoc]; destruct (name_eqb (ID_LWR (ch_name c)) (ID_LWR (ch_name c0))) eqn:E; eauto;
    (destruct I as [->|I]; [rewrite name_eqb_same in E; discriminate|auto]).
Qed.
Lemma attributes_assoc : forall h ats fs cs fp, rep_attributes h ats fs cs fp -> NoDup (map (fun x => ID_LWR (at_name x)) ats) ->
  forall x, In x ats -> exists f c fp', assoc (ID_LWR (at_name x)) fs = Some f /\ rep_attribute h x f c fp'.
Proof.
  intros h ats fs cs fp R. induction R as [|x ats f fs c cs fp fps R1 R IH]; intros ND x0 I; [destruct I|]. cbn [map] in ND.
  inversion ND as [|u v N ND' Eu]; subst. cbn [assoc]. destruct (name_eqb (ID_LWR (at_name x)) (ID_LWR (at_name x0))) eqn:E.
  - destruct I as [->|I]; [eauto|]. exfalso. apply N. apply name_eqb_true in E. rewrite E. apply in_map_iff. eauto.
  - destruct I as [->|I]; [rewrite name_eqb_same in E; discriminate|eauto].
Qed.

Section Tree.
  Variable a : ast.
  Hypothesis P : parsed_ast a.
  Hypothesis U : unmarked a.
  Variable s : pra.
  Variable lits : list literal.
  Hypothesis B : before_scheduling a = Val (s, lits).
  Let fa := finished a s lits.

  Lemma nodes_once : forall n n', In n (a_nodes fa) -> In n' (a_nodes fa) -> ID_LWR (nd_name n) = ID_LWR (nd_name n') -> n = n'.
  Proof.
    intros n n' I I' E. assert (N := accepted_names a s lits B). rewrite <- (final_names a P U s lits B) in N.
    apply declared_distinct in N. destruct N as [ND _]. fold fa in ND. revert n n' I I' E.
    induction (a_nodes fa) as [|m l IH]; [intros ? ? []|]. inversion ND as [|? ? Nm ND']; subst.
    intros n n' [->|I] [->|I'] E; auto.
    - destruct Nm. rewrite E. apply in_map_iff; eauto.
    - destruct Nm. rewrite <- E. apply in_map_iff; eauto.
  Qed.

  Lemma tree_node : forall h p t fp n, rep (a_nodes fa) h p t fp -> In n (a_nodes fa) -> has_type h p n ->
    nd_children n <> [] \/ nd_attributes n <> [] ->
    exists d ks fs, node_at h n p d ks fs /\
      (forall c, In c (nd_children n) -> exists q, assoc (ID_LWR (ch_name c)) ks = Some (Ptr q)) /\
      (forall x, In x (nd_attributes n) -> exists f c fp', assoc (ID_LWR (at_name x)) fs = Some f /\ rep_attribute h x f c fp').
  Proof.
    intros h p t fp n R In_ (e & Lp & T) Some_. destruct R as [p n' e' file pos kids attrs ffp kfp afp dfp kvs fs I' L' T' _ _ _ D K A].
    assert (e' = e) by congruence. subst e'. assert (n' = n); [|subst n'].
    { apply nodes_once; [exact I'|exact In_|congruence]. }
    inversion D as [? ? E1 E2|? ? ? ? d Sm Ed Ld Ek]; subst; [destruct Some_; congruence|].
    exists d, kvs, fs. split; [|split].
    - split; [exists e; auto|exact Ld].
    - eapply kids_assoc, K.
    - eapply attributes_assoc; [exact A|]. assert (M := final_members a P U s lits B n In_).
      unfold distinct_names in M. rewrite !map_app, !map_map in M. apply NoDup_app_all in M. first [exact (proj1 (proj2 M)) | exact (proj1 M)].
  Qed.

  Hypothesis DA : distinct_accessors fa.
  Hypothesis DF : distinct_functions fa.

  Theorem tree_members : forall h p t fp n, rep (a_nodes fa) h p t fp -> In n (a_nodes a) -> has_type h p n ->
    (forall c, In c (nd_children n) -> exists d q, child_is h n p d (ch_name c) (Ptr q)) /\
    (forall id x, meant_for a id x n -> exists d f, attribute_is h n p d (at_name x) f /\
       ((classic x /\ exists v, f = Classic v /\ v <> Raw) \/ (~ classic x /\ exists b v, f = Evaluated (Some b) v))).
  Proof.
    intros h p t fp n R In_ T. split.
    - intros c Ic. apply In_nth_error in In_. destruct In_ as (i & Hn). assert (In' := node_at_final a P U s lits B i n Hn).
      destruct (tree_node h p t fp _ R In' T) as (d & ks & fs & N & K & _).
      { left. cbn. destruct (nd_children n); [destruct Ic|discriminate]. }
      destruct (K c Ic) as (q & E). exists d, q, ks, fs. split; [exact N|exact E].
    - intros id x M. assert (T' := T). destruct T' as (e & Lp & Te).
      destruct (use_meant a P U s lits B DA DF true true h id x n p e M Lp Te) as (n' & z & In' & Nn & Iz & Az & _).
      destruct (tree_node h p t fp n' R In') as (d & ks & fs & N & _ & K).
      { exists e. rewrite Nn. auto. }
      { right. destruct (nd_attributes n'); [destruct Iz|discriminate]. }
      destruct (K z Iz) as (f & c & fp' & E & Rz). exists d, f. split.
      { exists ks, fs. split; [unfold node_at in *; rewrite Nn in N; exact N|].
        assert (Sz : ID_LWR (at_name z) = ID_LWR (at_name x)) by apply Az. rewrite <- Sz. exact E. }
      assert (C := alike_classic _ _ Az). change (is_classic (resolve a x)) with (is_classic x) in C. assert (Ag : is_ag z = negb (is_classic x)).
      { rewrite <- C. unfold is_ag, is_classic. destruct (at_is_inherited z), (at_is_synthesized z); reflexivity. }
      destruct (is_classic x) eqn:Cx; cbn in Ag.
      + left. split; [apply classic_iff, Cx|]. inversion Rz as [v s' ? ? ? Rt| | | |]; subst; try congruence; eexists; (split; [reflexivity|]);
          try discriminate. inversion Rt; discriminate.
      + right. split; [intros K'; apply classic_iff in K'; congruence|]. inversion Rz; subst; try congruence; eauto.
  Qed.
End Tree.
