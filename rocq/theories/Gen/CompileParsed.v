(** Every tree that the parser delivers is in the range of the theorems about
    the later passes (C48). *)

From Coq Require Import List Ascii Bool.
From Verif Require Import Palm.StrModel Front.Syntax Front.SetsModel Front.SetsSpec Front.NodesetPassesProof Front.FileModel
  Front.ParserModel Front.ParserDecls Front.ParserElse Gen.TablesProof.
Import ListNotations.

Lemma right_list_all : forall A sep (item : tokens -> A -> Prop) (Q : A -> Prop),
  (forall ts v, item ts v -> Q v) -> forall ts l, right_list sep item ts l -> forall x, In x l -> Q x.
Proof.
  intros A sep item Q H ts l R. induction R as [ts v us vs I R IH|ts v I]; intros x [<-|Ix]; eauto. destruct Ix.
Qed.

Lemma attribute_unmarked : forall ts x, g_attribute ts x -> at_is_propagated x = false.
Proof. intros ts x H. inversion H; subst; reflexivity. Qed.
Lemma attributes_unmarked : forall ts l, g_attributebody ts l -> forall x, In x l -> at_is_propagated x = false.
Proof. intros ts l H. inversion H; subst. eapply right_list_all; [exact attribute_unmarked|eassumption]. Qed.

Lemma sets_parsed :
  (forall ts e, g_setexpr ts e -> parsed e) /\ (forall ts e, g_setprimary ts e -> parsed e) /\
  (forall ts e, g_setoperation ts e -> parsed e).
Proof.
  apply g_sets_min; intros; auto.
  - destruct (literals_form _ _ H) as (n & _ & _ & ->). exists n. reflexivity.
  - exact I.
  - split; assumption.
Qed.

(** What holds of the declarations read so far. *)
Record in_range (p : parser) : Prop := {
  ir_sets : forall n, In n (AST_INODESETS p) -> parsed (ns_expr (pset_nodeset n));
  ir_unmarked : forall n x, In n (AST_INODESETS p) -> In x (ns_attributes (pset_nodeset n)) -> at_is_propagated x = false;
  ir_trav : forall t e, In t (AST_ITRAVERSALS p) -> tv_nodes (pt_traversal t) = Some e -> parsed e;
  ir_uids : forall t, In t (AST_ITRAVERSALS p) -> tv_uid (pt_traversal t) <> None }.

Lemma traversal_range : forall x ts t, g_traversal x ts t ->
  (forall e, tv_nodes (pt_traversal t) = Some e -> parsed e) /\ tv_uid (pt_traversal t) <> None.
Proof.
  intros x ts t H. inversion H; subst; cbn [pt_traversal tv_nodes tv_uid]; (split; [|discriminate]); intros e0 E; try discriminate;
    injection E as <-; match goal with K : g_traversalnodes _ _ |- _ => inversion K; subst; eapply (proj1 sets_parsed); eassumption end.
Qed.

Lemma add_traversal_range : forall s x ts t, in_range s -> g_traversal x ts t -> in_range (add_traversal (next_traversal s) t).
Proof.
  intros s x ts t [A B C D] H. destruct (traversal_range _ _ _ H) as [H1 H2].
  constructor; cbn [add_traversal next_traversal AST_INODESETS AST_ITRAVERSALS]; auto.
  - intros t' e [<-|I]; auto. eapply C; exact I.
  - intros t' [<-|I]; auto.
Qed.

Lemma phases_range :
  (forall s ts p s', g_phase s ts p s' -> in_range s -> in_range s') /\
  (forall s ts l s', g_actionsbody s ts l s' -> in_range s -> in_range s') /\
  (forall s ts l s', g_actions s ts l s' -> in_range s -> in_range s') /\
  (forall s ts l s', g_action s ts l s' -> in_range s -> in_range s').
Proof.
  apply phase_mutind; intros; auto; try (eapply add_traversal_range; eassumption).
  - destruct H0 as [A B C D]. constructor; cbn; auto.
  - destruct (H0 H1) as [A B C D]. constructor; cbn; auto.
Qed.

Lemma nodeset_range : forall ts n, g_nodeset ts n -> parsed (ns_expr (pset_nodeset n)) /\
  forall x, In x (ns_attributes (pset_nodeset n)) -> at_is_propagated x = false.
Proof.
  intros ts n H. inversion H; subst; cbn [pset_nodeset ns_expr ns_attributes];
    (split; [eapply (proj1 sets_parsed); eassumption|]); first [eapply attributes_unmarked; eassumption|intros x []].
Qed.

Lemma entry_range : forall s ts s', g_entry s ts s' -> in_range s -> in_range s'.
Proof.
  intros s ts s' H R. inversion H as [s0 t0 p s1 G|s0 t0 p G|s0 t0 t G|s0 t0 n G|s0 t0 n G|s0 t0 e G]; subst.
  - destruct (proj1 phases_range _ _ _ _ G R) as [A B C D]. constructor; cbn; auto.
  - destruct R as [A B C D]. constructor; cbn; auto.
  - eapply add_traversal_range; eassumption.
  - destruct R as [A B C D]. constructor; cbn; auto.
  - destruct R as [A B C D]. destruct (nodeset_range _ _ G) as [G1 G2]. constructor; cbn [add_nodeset AST_INODESETS AST_ITRAVERSALS]; auto.
    + intros m [<-|I]; auto.
    + intros m x [<-|I]; auto. apply B. exact I.
  - destruct R as [A B C D]. constructor; cbn; auto.
Qed.

Lemma entries_range : forall s ts s', g_entries s ts s' -> in_range s -> in_range s'.
Proof. intros s ts s' H. induction H; intros R; eauto using entry_range. Qed.

Theorem tree_in_range : forall t p, reads_file t p -> parsed_ast (ast_of p) /\ unmarked (ast_of p) /\ uids_present (ast_of p).
Proof.
  intros t p H.
  assert (R : in_range p).
  { destruct H as (ts & s & ks & _ & _ & H). apply (entries_range _ _ _ H). constructor; cbn; contradiction. }
  destruct R as [A B C D]. unfold parsed_ast, unmarked, uids_present, ast_of. cbn [a_nodesets a_traversals].
  split; [split|split].
  - intros n I. apply in_map_iff in I. destruct I as (m & <- & I). exact (A m I).
  - intros x e I. apply in_map_iff in I. destruct I as (m & <- & I). exact (C m e I).
  - intros n x I. apply in_map_iff in I. destruct I as (m & <- & I). exact (B m x I).
  - intros x I. apply in_map_iff in I. destruct I as (m & <- & I). exact (D m I).
Qed.
