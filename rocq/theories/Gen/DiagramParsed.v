(** The types of attributes in the trees of the parser (C63). *)

From Coq Require Import List Ascii Bool.
From Verif Require Import Palm.StrModel Front.Syntax Front.SetsModel Front.SetsSpec Front.FileModel
  Front.ParserModel Front.ParserDecls Front.ParserElse Gen.PhasesSpec Gen.CompileParsed.
Import ListNotations.

Lemma attribute_no_link : forall ts x, g_attribute ts x -> at_type x <> AT_link.
Proof.
  intros ts x H. inversion H; subst; cbn [at_type new_attribute]; try discriminate;
    match goal with K : g_primitive _ _ |- _ => inversion K; subst; discriminate end.
Qed.
Lemma attributes_no_link : forall ts l, g_attributebody ts l -> forall x, In x l -> at_type x <> AT_link.
Proof. intros ts l H. inversion H; subst. eapply right_list_all; [exact attribute_no_link|eassumption]. Qed.

Record no_link (p : parser) : Prop := {
  nl_nodes : forall n x, In n (AST_INODES p) -> In x (nd_attributes (pn_node n)) -> at_type x <> AT_link;
  nl_sets : forall n x, In n (AST_INODESETS p) -> In x (ns_attributes (pset_nodeset n)) -> at_type x <> AT_link }.

Lemma add_traversal_link : forall s t, no_link s -> no_link (add_traversal (next_traversal s) t).
Proof. intros s t [A B]. constructor; cbn; auto. Qed.

Lemma phases_link :
  (forall s ts p s', g_phase s ts p s' -> no_link s -> no_link s') /\
  (forall s ts l s', g_actionsbody s ts l s' -> no_link s -> no_link s') /\
  (forall s ts l s', g_actions s ts l s' -> no_link s -> no_link s') /\
  (forall s ts l s', g_action s ts l s' -> no_link s -> no_link s').
Proof.
  apply phase_mutind; intros; auto; try (apply add_traversal_link; assumption).
  - destruct H0 as [A B]. constructor; cbn; auto.
  - destruct (H0 H1) as [A B]. constructor; cbn; auto.
Qed.

Lemma node_link : forall ts n, g_node ts n -> forall x, In x (nd_attributes n) -> at_type x <> AT_link.
Proof.
  intros ts n H. inversion H; subst; cbn [pn_node nd_attributes]; first [eapply attributes_no_link; eassumption|intros ? []].
Qed.
Lemma nodeset_link : forall ts n, g_nodeset ts n -> forall x, In x (ns_attributes (pset_nodeset n)) -> at_type x <> AT_link.
Proof.
  intros ts n H. inversion H; subst; cbn [pset_nodeset ns_attributes]; first [eapply attributes_no_link; eassumption|intros ? []].
Qed.

Lemma entry_link : forall s ts s', g_entry s ts s' -> no_link s -> no_link s'.
Proof.
  intros s ts s' H R. inversion H as [s0 t0 p s1 G|s0 t0 p G|s0 t0 t G|s0 t0 n G|s0 t0 n G|s0 t0 e G]; subst.
  - destruct (proj1 phases_link _ _ _ _ G R) as [A B]. constructor; cbn; auto.
  - destruct R as [A B]. constructor; cbn; auto.
  - apply add_traversal_link; assumption.
  - destruct R as [A B]. constructor; cbn; auto. intros m x [<-|I]; [eapply node_link; exact G|apply A, I].
  - destruct R as [A B]. constructor; cbn; auto. intros m x [<-|I]; [eapply nodeset_link; exact G|apply B, I].
  - destruct R as [A B]. constructor; cbn; auto.
Qed.

Theorem no_link_read : forall t p, reads_file t p -> forall x, written_attribute (ast_of p) x -> at_type x <> AT_link.
Proof.
  intros t p H.
  assert (R : no_link p).
  { destruct H as (ts & s & ks & _ & _ & H).
    assert (E : forall s ts s', g_entries s ts s' -> no_link s -> no_link s') by (intros s0 ts0 s1 G; induction G; eauto using entry_link).
    apply (E _ _ _ H). constructor; cbn; contradiction. }
  destruct R as [A B]. intros x [(n & I & Ix)|(m & I & Ix)].
  - unfold ast_of in I. cbn [a_nodes] in I. apply in_map_iff in I. destruct I as (m & <- & I). exact (A m x I Ix).
  - unfold ast_of in I. cbn [a_nodesets] in I. apply in_map_iff in I. destruct I as (m' & <- & I). exact (B m' x I Ix).
Qed.
