(** Proofs about checkAttributes (C29). *)

From Coq Require Import List Ascii Bool Arith.
From Verif Require Import Base.Outcome Front.Syntax Front.CheckExistanceProof
  Front.CheckAttributesModel Front.CheckAttributesSpec.
Import ListNotations.

Lemma CHAattribute_node : forall n x,
  CHAattribute false (nd_is_root n) x = [] <-> node_attribute_rule n x.
Proof.
  intros n x. unfold CHAattribute, node_attribute_rule, grammar_rule, of_grammar.
  destruct (at_is_inherited x), (nd_is_root n), (at_is_propagated x), (at_in_constructor x),
    (at_is_synthesized x), (at_lifetimes x); cbn; intuition congruence.
Qed.

Lemma CHAattribute_nodeset : forall x,
  CHAattribute true false x = [] <-> nodeset_attribute_rule x.
Proof.
  intros x. unfold CHAattribute, nodeset_attribute_rule, grammar_rule, of_grammar.
  destruct (at_is_inherited x), (at_is_propagated x), (at_in_constructor x),
    (at_is_synthesized x), (at_lifetimes x); cbn; intuition congruence.
Qed.

Definition first_only (P : attribute -> Prop) (l : list attribute) : Prop :=
  forall x l', l = x :: l' -> P x.

Lemma CHAattributes_nil : forall b r l P, (forall x, CHAattribute b r x = [] <-> P x) ->
  (CHAattributes b r l = [] <-> first_only P l).
Proof.
  intros b r [|y l] P H; cbn.
  - split; [intros _ x l' E; discriminate|reflexivity].
  - rewrite H. split; [intros Hy x l' E; now injection E as <- <-|intros F; now apply (F y l)].
Qed.

Theorem CHAast_accepts : forall nodes sets,
  CHAast nodes sets = [] <->
  (forall n l, In (n, l) nodes -> first_only (node_attribute_rule n) l) /\
  (forall m ill l, In (m, ill, l) sets ->
     (ill = true -> l = []) /\ first_only nodeset_attribute_rule l).
Proof.
  intros nodes sets. unfold CHAast. rewrite app_nil_iff, !flat_map_nil_iff. split.
  - intros [H1 H2]. split.
    + intros n l H. apply (CHAattributes_nil false (nd_is_root n)); [apply CHAattribute_node|].
      exact (H1 (n, l) H).
    + intros m ill l H. specialize (H2 (m, ill, l) H). cbn [fst snd] in H2. unfold CHAinodeset in H2.
      apply app_nil_iff in H2. destruct H2 as [H2 H3]. split.
      * intros ->. destruct l; [reflexivity|discriminate].
      * apply (CHAattributes_nil true false); [apply CHAattribute_nodeset|assumption].
  - intros [H1 H2]. split.
    + intros [n l] H. cbn [fst snd]. apply (CHAattributes_nil _ _ _ _ (CHAattribute_node n)). auto.
    + intros [[m ill] l] H. cbn [fst snd]. destruct (H2 m ill l H) as [G1 G2].
      unfold CHAinodeset. apply app_nil_iff. split.
      * destruct ill; [|reflexivity]. now rewrite G1.
      * apply (CHAattributes_nil _ _ _ _ CHAattribute_nodeset). assumption.
Qed.

(** With at most one attribute per list the check is complete. *)
Theorem CHAast_accepts_short : forall nodes sets,
  (forall n l, In (n, l) nodes -> length l <= 1) ->
  (forall m ill l, In (m, ill, l) sets -> length l <= 1) ->
  (CHAast nodes sets = [] <->
   (forall n l x, In (n, l) nodes -> In x l -> node_attribute_rule n x) /\
   (forall m ill l, In (m, ill, l) sets ->
      (ill = true -> l = []) /\ forall x, In x l -> nodeset_attribute_rule x)).
Proof.
  intros nodes sets L1 L2. rewrite CHAast_accepts.
  assert (F : forall P l, length l <= 1 -> (first_only P l <-> forall x, In x l -> P x)).
  { intros P [|y [|z l]] L.
    - split; [easy|]. intros _ x l' E. discriminate.
    - split; [intros G x [<-|[]]; now apply (G y [])|]. intros G x l' E. injection E as <- <-. apply G. cbn; auto.
    - cbn in L. exfalso. inversion L as [|? C]. inversion C. }
  split; intros [H1 H2]; split.
  - intros n l x Hn. now apply (F _ l (L1 n l Hn)), H1.
  - intros m ill l Hm. destruct (H2 m ill l Hm) as [G1 G2]. split; [assumption|].
    now apply (F _ l (L2 m ill l Hm)).
  - intros n l Hn. apply (F _ l (L1 n l Hn)). intros x. now apply H1.
  - intros m ill l Hm. destruct (H2 m ill l Hm) as [G1 G2]. split; [assumption|].
    now apply (F _ l (L2 m ill l Hm)).
Qed.
