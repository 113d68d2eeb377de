(** Nothing else than what [alike] compares is printed (C68). *)

From Coq Require Import String.
From Coq Require Import List Ascii Bool Arith ZArith.
From Verif Require Import Base.Outcome Front.LexerModel Front.ScannerModel Front.Syntax Front.MessageModel
  Gen.ShowAstModel Gen.ShowAstSpec Gen.ShowAstProof Gen.ShowAstWhole.
Import ListNotations.
Local Open Scope list_scope.

Lemma each_same : forall {A B} (p : A -> text) (v : A -> B), (forall x y, v x = v y -> p x = p y) ->
  forall l m, map v l = map v m -> each p l = each p m.
Proof.
  intros A B p v E. induction l as [|x l IH]; intros [|y m] H; cbn [map] in H; try discriminate H; trivial.
  injection H as H1 H2. cbn [each flat_map]. rewrite (E x y H1). f_equal. now apply IH.
Qed.
Lemma literal_same : forall k x y, members x = members y -> PRTsetliteral k x = PRTsetliteral k y.
Proof.
  intros k. assert (E : forall l, PRTsetliteral k l = each (fun n => PrintIndent k ++ n ++ nl) (members l)).
  { induction l as [|n x IHx y IHy]; [reflexivity|]. cbn [PRTsetliteral members each flat_map]. rewrite IHx, IHy. unfold each.
    rewrite flat_map_app, <- !app_assoc. reflexivity. }
  intros x y H. now rewrite !E, H.
Qed.
Lemma phase_same : forall x y, shown_phase x = shown_phase y -> PRTiphase x = PRTiphase y.
Proof. intros [n g c a] [m h d b] H. unfold shown_phase in H. cbn in H. injection H as -> ->. reflexivity. Qed.
Lemma traversal_same : forall x y, shown_traversal x = shown_traversal y -> PRTitraversal x = PRTitraversal y.
Proof.
  intros [n i l d] [m j k e] H. unfold shown_traversal in H. cbn [ft_name ft_index ft_nodes] in H.
  apply pair_equal_spec in H. destruct H as [H L]. injection H as -> ->.
  unfold PRTitraversal. cbn [ft_name ft_index ft_nodes]. now rewrite (literal_same 8 l k L).
Qed.
Lemma lifetime_same : forall k x y, shown_lifetime x = shown_lifetime y -> PRTilifetime k x = PRTilifetime k y.
Proof.
  intros k [t b e] [u c f] H. unfold shown_lifetime in H. cbn [fl_type fl_begin fl_end] in H. injection H as T -> ->.
  unfold PRTilifetime. cbn [fl_type fl_begin fl_end]. destruct t, u; try discriminate T; reflexivity.
Qed.
Lemma type_same : forall t u i j, shown_type t i = shown_type u j -> print_attribute_type t i = print_attribute_type u j.
Proof. intros t u i j H. destruct t, u; cbn in H; try discriminate H; try reflexivity; injection H as ->; reflexivity. Qed.
Lemma attribute_same : forall k x y, shown_attribute x = shown_attribute y -> PRTattribute k x = PRTattribute k y.
Proof.
  intros k [n t r c s i l] [m u q d z j o] H. unfold shown_attribute in H.
  cbn [fa_name fa_type fa_reference fa_constructor fa_synthesized fa_inherited fa_lifetimes] in H.
  repeat (apply pair_equal_spec in H; destruct H as [H ?]).
  match goal with X : (_, _, _) = (_, _, _) |- _ => injection X as -> -> -> end.
  match goal with X : map shown_lifetime _ = _ |- _ => rename X into L end. subst. unfold PRTattribute.
  cbn [fa_name fa_type fa_reference fa_constructor fa_synthesized fa_inherited fa_lifetimes]. rewrite (type_same _ _ _ _ H).
  assert (E := each_same _ _ (lifetime_same (k + 4)) _ _ L). destruct l, o; try discriminate L; [reflexivity|]. now rewrite E.
Qed.
Lemma reference_same : forall x y, shown_reference x = shown_reference y -> PRTattribute_reference x = PRTattribute_reference y.
Proof.
  intros [i t a] [j u b] H. unfold shown_reference, PRTattribute_reference in *. cbn [fr_inode fr_type fr_attribute] in *.
  destruct i, j; try discriminate H; [injection H as -> -> ->|injection H as ->]; reflexivity.
Qed.
Lemma cons_inv : forall {A} (x y : A) l m, x :: l = y :: m -> x = y /\ l = m.
Proof. intros A x y l m H. injection H as -> ->. auto. Qed.
Lemma references_same : forall l m, map shown_reference l = map shown_reference m -> PRTreferences l = PRTreferences m.
Proof.
  induction l as [|x l IH]; intros [|y m] H; cbn [map] in H; try discriminate H; trivial. apply cons_inv in H. destruct H as [H1 H2].
  apply reference_same in H1. specialize (IH m H2). cbn [PRTreferences]. rewrite H1, IH. destruct l, m; try discriminate H2; reflexivity.
Qed.
Lemma equation_same : forall k x y, shown_equation x = shown_equation y -> PRTequation k x = PRTequation k y.
Proof.
  intros k [r a] [q b] H. unfold shown_equation in H. cbn [fe_rule fe_args] in H. apply pair_equal_spec in H. destruct H as [H1 H2].
  unfold PRTequation. cbn [fe_rule fe_args]. now rewrite (reference_same r q H1), (references_same a b H2).
Qed.
Lemma alternative_same : forall x y, shown_alternative x = shown_alternative y -> alternative x = alternative y.
Proof.
  intros [c n i|n] [d m j|m] H; cbn [shown_alternative] in H; try discriminate H; cbn [alternative]; unfold visit_label.
  - injection H as H1 H2 ->. now rewrite H1, H2.
  - now injection H as ->.
Qed.
Lemma alternatives_same : forall l m k, map shown_alternative l = map shown_alternative m -> PRTalternatives k l = PRTalternatives k m.
Proof.
  induction l as [|x l IH]; intros [|y m] k H; cbn [map] in H; try discriminate H; trivial. apply cons_inv in H. destruct H as [H1 H2].
  cbn [PRTalternatives]. now rewrite (alternative_same x y H1), (IH m (k + 4) H2).
Qed.
Lemma step_same : forall k x y, shown_step x = shown_step y -> step_text k x = step_text k y.
Proof.
  intros k [r|c n i l] [q|d m j o] H; cbn [shown_step] in H; try discriminate H; [reflexivity|].
  injection H as H1 H2 -> H4. cbn [step_text alternative]. unfold visit_label. now rewrite H1, H2, (alternatives_same l o (k + 4) H4).
Qed.
Lemma visit_same : forall k x y, shown_visit x = shown_visit y -> visit_text k x = visit_text k y.
Proof.
  intros k [n i a b q] [m j c d z] H. unfold shown_visit in H. cbn [fv_node fv_index fv_inputs fv_outputs fv_sequence] in H.
  repeat (apply pair_equal_spec in H; destruct H as [H ?]). unfold visit_text, visit_label.
  cbn [fv_node fv_index fv_inputs fv_outputs fv_sequence]. subst j.
  rewrite H, (references_same a c), (references_same b d), (each_same _ _ (step_same (k + 4)) q z); trivial.
Qed.
Lemma node_same : forall x y, shown_node x = shown_node y -> node_text x = node_text y.
Proof.
  intros [n i c a e v] [m j d b f w] H. unfold shown_node in H. cbn [fn_name fn_index fn_children fn_attributes fn_equations fn_visits] in H.
  repeat (apply pair_equal_spec in H; destruct H as [H ?]). subst. unfold node_text.
  cbn [fn_name fn_index fn_children fn_attributes fn_equations fn_visits].
  rewrite (each_same (PRTchild 8) fc_name) with (l := c) (m := d); trivial.
  - rewrite (each_same _ _ (attribute_same 8) a b), (each_same _ _ (equation_same 8) e f), (each_same _ _ (visit_same 4) v w); trivial.
  - intros x y E. unfold PRTchild. now rewrite E.
Qed.
Lemma nodeset_same : forall x y, shown_nodeset x = shown_nodeset y -> PRTinodeset x = PRTinodeset y.
Proof.
  intros [n i l t a] [m j k u b] H. unfold shown_nodeset in H. cbn [fz_name fz_illegal fz_expr fz_table fz_attributes] in H.
  repeat (apply pair_equal_spec in H; destruct H as [H ?]). subst. unfold PRTinodeset. cbn [fz_name fz_illegal fz_expr fz_table fz_attributes].
  rewrite (each_same _ _ (attribute_same 8) a b), (literal_same 4 l k); trivial.
Qed.
Lemma alike_text : forall a b, alike a b -> ast_text a = ast_text b.
Proof.
  intros a b [E1 E2 E3 E4 E5 E6 E7]. unfold ast_text, reach_text.
  rewrite (each_same _ _ phase_same _ _ E1), (each_same _ _ traversal_same _ _ E2), (each_same _ _ node_same _ _ E4),
    (each_same _ _ nodeset_same _ _ E5), E6, E7.
  assert (P : PRTipass (z_passes a) = PRTipass (z_passes b)).
  { destruct (z_passes a), (z_passes b); cbn in E3; try discriminate E3; [reflexivity|]. injection E3 as E3. cbn [PRTipass]. now rewrite E3. }
  now rewrite P.
Qed.
