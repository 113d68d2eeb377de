(** The nodes of an accepted specification. *)

From Coq Require Import String.
From Coq Require Import List Ascii NArith ZArith Bool.
From Verif Require Import Base.Outcome Base.Heap Palm.StrModel Front.Syntax Front.ParserModel Front.FileModel Front.FileSpec Front.FileNamesSpec
  Front.ScannerSpec Front.ScannerModel Front.SymbolTableSpec Front.PropagateModel Front.PropagateSpec
  Front.NodesetPassesProof Sched.FrontendModel
  Gen.NodesModel Gen.NodesSpec Gen.NodesProof Gen.NodesBuild Gen.NodesProps
  Gen.TravChildSpec Gen.CompileSpec Gen.CompileVerdict Gen.CompileLegal Gen.CompileParsed
  Gen.AccessModel Gen.AccessSpec Gen.AccessMembers Gen.AccessProof Gen.AccessTree Gen.IdentifierProps
  Gen.LifecycleModel Gen.LifecycleSpec.
Import ListNotations.
Local Open Scope list_scope.

Section File.
  Variable t : ScannerModel.text.
  Variable p : parser.
  Hypothesis F : reads_file t p.
  Let a := ast_of p.
  Variable s : pra.
  Variable lits : list Syntax.literal.
  Hypothesis B : before_scheduling a = Val (s, lits).
  Let fa := finished a s lits.

  Lemma final_attribute : forall n' y, In n' (a_nodes fa) -> In y (nd_attributes n') ->
    exists n x, In n (a_nodes a) /\ node_attribute a n x /\ nd_children n' = nd_children n /\ at_name y = at_name x /\
      at_type y = resolved_type a (at_type x) (at_type_reference x) /\ at_in_constructor y = at_in_constructor x /\ in_grammar y = in_grammar x.
  Proof.
    intros n' y I Iy. destruct (tree_in_range t p F) as (P & U & _). apply (final_node a P U s lits B) in I. destruct I as (i & n & Hn & ->).
    cbn [nd_attributes with_attributes nd_children] in *. apply in_map_iff in Iy. destruct Iy as (z & <- & Iz).
    destruct (all_passes a s lits B) as (t0 & ts & C & Et & En & Eu & Epr & Es & _).
    assert (X : In (n, nth i (p_nodes s) []) (combine (a_nodes a) (p_nodes s))).
    { apply (nodes_at a P U t0 ts lits C Et En Eu s Epr Es). eauto. }
    destruct (proj1 (node_has a P U t0 ts lits C Et En Eu s Epr Es n _ X) z Iz) as (x & A & [->|Cx]).
    - exists n, z. split; [eapply nth_error_In, Hn|]. split; [exact A|]. repeat split; reflexivity.
    - destruct Cx as (C1 & C2 & C3 & C4 & C5 & C6 & _). exists n, x. split; [eapply nth_error_In, Hn|]. split; [exact A|].
      cbn [resolve at_name at_type at_in_constructor]. unfold in_grammar. cbn [at_is_inherited at_is_synthesized resolve].
      rewrite C1, C2, C3, C4, C5, C6. repeat split; reflexivity.
  Qed.
  Lemma attribute_named : forall n x, In n (a_nodes a) -> node_attribute a n x -> In (at_name x) (tree_names a).
  Proof.
    intros n x I A. unfold tree_names. rewrite !in_app_iff. destruct A as [Ix|(k & (m & S & Hm & Ix & _) & _)].
    - do 3 right. left. apply in_flat_map. exists n. split; [exact I|]. right. rewrite !in_app_iff. right. left.
      apply in_flat_map. exists x. split; [exact Ix|]. apply in_or_app. right. left. reflexivity.
    - do 4 right. left. apply in_flat_map. exists m. split; [eapply nth_error_In, Hm|]. right.
      apply in_flat_map. exists x. split; [exact Ix|]. apply in_or_app. right. left. reflexivity.
  Qed.
  Lemma not_node : forall x, In x (tree_names a) -> x <> node_variable.
  Proof.
    intros x I E. destruct (C53_names_partial t p F) as [N _]. destruct (N x I) as ((_ & K & _) & _). apply K. rewrite E. vm_compute. tauto.
  Qed.
  Lemma resolved_user : forall ty r, resolved_type a ty r = AT_user -> ty = AT_user.
  Proof. intros ty r E. unfold resolved_type in E. destruct ty; try discriminate; try reflexivity. destruct (names_node a r); discriminate. Qed.
  Lemma resolved_string : forall ty r, resolved_type a ty r = AT_string -> ty = AT_string.
  Proof. intros ty r E. unfold resolved_type in E. destruct ty; try discriminate; try reflexivity. destruct (names_node a r); discriminate. Qed.

  Lemma file_names_once : NoDup (map (fun n => ID_LWR (nd_name n)) (a_nodes fa)).
  Proof.
    destruct (tree_in_range t p F) as (P & U & _). assert (N := accepted_names a s lits B). rewrite <- (final_names a P U s lits B) in N.
    apply declared_distinct in N. exact (proj1 N).
  Qed.
  Lemma file_members : Forall NodesSpec.distinct_members (a_nodes fa).
  Proof.
    destruct (tree_in_range t p F) as (P & U & _). rewrite Forall_forall. intros n I. assert (M := final_members a P U s lits B n I).
    unfold distinct_names in M. rewrite map_app, !map_map in M. unfold NodesSpec.distinct_members.
    eapply Permutation.Permutation_NoDup; [apply Permutation.Permutation_app_comm|exact M].
  Qed.
  Lemma file_constructors : usable_names a -> Forall usable_constructor (a_nodes fa).
  Proof.
    intros Us. rewrite Forall_forall. intros n' I. split.
    - intros c Ic Cc. destruct (tree_in_range t p F) as (P & U & _). apply (final_node a P U s lits B) in I. destruct I as (i & n & Hn & ->).
      cbn [nd_children with_attributes] in Ic. apply (proj1 (Us n (nth_error_In _ _ Hn)) c Ic Cc).
    - intros y Iy Cy. destruct (final_attribute n' y I Iy) as (n & x & In_ & A & _ & E1 & E2 & E3 & E4).
      destruct (proj2 (Us n In_) x A) as [G Lo]; [congruence|]. split; [congruence|]. split.
      + rewrite E1. apply not_node. eapply attribute_named; eassumption.
      + intros T. rewrite E1. apply Lo. rewrite E2 in T. eapply resolved_user, T.
  Qed.
  Lemma file_good : usable_names a -> good_nodes (a_nodes fa).
  Proof. intros Us. split; [exact file_names_once|]. split; [exact file_members|exact (file_constructors Us)]. Qed.
  Lemma file_free : no_computed_strings a -> Forall free_compiles (a_nodes fa).
  Proof.
    intros Ns. rewrite Forall_forall. intros n' I y Iy T. destruct (final_attribute n' y I Iy) as (n & x & In_ & A & _ & E1 & E2 & E3 & E4).
    change (in_grammar y = false). rewrite E4. apply (Ns n x In_ A). rewrite E2 in T. eapply resolved_string, T.
  Qed.
End File.
