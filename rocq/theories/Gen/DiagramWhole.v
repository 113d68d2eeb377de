(** Proofs for C63: the diagram of an accepted specification. *)

From Coq Require Import String.
From Coq Require Import List Ascii Bool Arith Lia.
From Verif Require Import Base.Outcome Palm.StrModel Front.ScannerSpec Front.Syntax Front.SetsModel Front.SetsSpec
  Front.SymbolTableModel Front.SymbolTableSpec Front.CheckExistanceModel Front.CheckExistanceSpec Front.CheckExistanceProof
  Front.PropagateModel Front.PropagateSpec Front.NodesetPassesProof Front.FileSpec Front.FileNamesSpec Sched.FrontendModel
  Gen.TravChildSpec Gen.CompileSpec Gen.CompileVerdict Gen.CompileLegal Gen.PhasesSpec Gen.PhasesWhole
  Gen.AccessModel Gen.AccessSpec Gen.AccessMembers Gen.DiagramModel Gen.DiagramSpec Gen.DiagramSets Gen.DiagramProof.
Import Front.SetsSpec Gen.DiagramSpec.
Import ListNotations.
Local Open Scope list_scope.

(** ** Names *)
Lemma letter_start : forall c, is_letter c -> word_start c = true.
Proof.
  unfold is_letter. apply Forall_forall. repeat constructor.
Qed.
Lemma word_chars : forall c, in_word c -> word_char c = true.
Proof.
  intros c [L|[D| ->]].
  - unfold word_char. rewrite (letter_start c L). reflexivity.
  - revert c D. unfold is_digit. apply Forall_forall. repeat constructor.
  - reflexivity.
Qed.
Lemma identifier_plain : forall x, identifier_ok x -> plain_word x.
Proof.
  intros x (c & r & -> & L & F). exists c, r. split; [reflexivity|]. split; [exact (letter_start c L)|].
  revert F. apply Forall_impl. exact word_chars.
Qed.
Lemma lower_start : forall c, word_start (lower_byte c) = word_start c.
Proof. intros [[] [] [] [] [] [] [] []]; reflexivity. Qed.
Lemma lower_char : forall c, word_char (lower_byte c) = word_char c.
Proof. intros [[] [] [] [] [] [] [] []]; reflexivity. Qed.
Lemma same_plain : forall x y, same_id x y -> plain_word x -> plain_word y.
Proof.
  intros x y E (c & r & -> & L & F). unfold same_id, ID_LWR in E. destruct y as [|d q]; [discriminate|]. cbn [map] in E. injection E as E1 E2.
  exists d, q. split; [reflexivity|]. split; [rewrite <- lower_start, <- E1, lower_start; exact L|].
  clear -E2 F. revert q E2. induction F as [|e r H F IH]; intros [|d q] E; try discriminate; constructor.
  - cbn [map] in E. injection E as E1 E2. rewrite <- lower_char, <- E1, lower_char. exact H.
  - cbn [map] in E. injection E as E1 E2. apply IH, E2.
Qed.
Lemma keyword_iff : forall w, is_keyword w = true <-> In (ID_LWR w) keywords.
Proof.
  intros w. unfold is_keyword. rewrite existsb_exists. split.
  - intros (k & I & E). destruct (list_eq_dec ascii_dec k (ID_LWR w)) as [->|]; [exact I|discriminate].
  - intros I. exists (ID_LWR w). split; [exact I|]. destruct (list_eq_dec ascii_dec (ID_LWR w) (ID_LWR w)); congruence.
Qed.
Lemma same_good : forall x y, same_id x y -> good_word x -> good_word y.
Proof.
  intros x y E [W K]. split; [exact (same_plain x y E W)|]. unfold is_keyword in *. rewrite <- E. exact K.
Qed.

Lemma order_listed : forall l id, In id (order l) <-> In id (listed l).
Proof.
  induction l as [|r x IHx y IHy]; intros id; cbn [order listed In]; [tauto|]. rewrite !in_app_iff, IHx, IHy. tauto.
Qed.
Lemma NoDup_swap : forall A (l m : list A), NoDup (l ++ m) -> NoDup (m ++ l).
Proof.
  intros A l m H. apply (Permutation.Permutation_NoDup (l := l ++ m)); [apply Permutation.Permutation_app_comm|exact H].
Qed.
Lemma order_permutes : forall l, Permutation.Permutation (listed l) (order l).
Proof.
  induction l as [|r x IHx y IHy]; cbn [order listed]; [constructor|]. constructor.
  eapply Permutation.perm_trans; [apply Permutation.Permutation_app; eassumption|]. apply Permutation.Permutation_app_comm.
Qed.

(** ** Every statement once *)
Definition source (st : statement) : text := match st with Vertex x | Edge x _ _ => x end.
Lemma blocks_once : forall (l : list (text * list statement)), NoDup (map fst l) ->
  (forall b, In b l -> NoDup (snd b) /\ forall st, In st (snd b) -> source st = fst b) -> NoDup (concat (map snd l)).
Proof.
  induction l as [|b l IH]; intros N H; cbn [map concat]; [constructor|]. cbn [map] in N. apply NoDup_cons_iff in N. destruct N as [N1 N2].
  apply NoDup_app_all. split; [apply H; left; reflexivity|]. split; [apply IH; [exact N2|intros b' I; apply H; right; exact I]|].
  intros st I1 I2. apply in_concat in I2. destruct I2 as (k & Ik & Is). apply in_map_iff in Ik. destruct Ik as (b' & <- & Ib').
  apply N1. apply in_map_iff. exists b'. split; [|exact Ib'].
  rewrite <- (proj2 (H b' (or_intror Ib')) st Is). exact (proj2 (H b (or_introl eq_refl)) st I1).
Qed.
Lemma link_once : forall n l, NoDup (map at_name l) -> NoDup (concat (map (link_drawn n) l)).
Proof.
  intros n. induction l as [|x l IH]; intros N; cbn [map concat]; [constructor|]. cbn [map] in N. apply NoDup_cons_iff in N. destruct N as [N1 N2].
  apply NoDup_app_all. split; [|split; [apply IH, N2|]].
  - unfold link_drawn. destruct (at_type x); try constructor. destruct (at_type_reference x); repeat constructor. intros [].
  - intros st I1 I2. apply N1. apply in_concat in I2. destruct I2 as (k & Ik & Is). apply in_map_iff in Ik. destruct Ik as (y & <- & Iy).
    unfold link_drawn in I1, Is. destruct (at_type x); try now destruct I1. destruct (at_type_reference x); [|destruct I1].
    destruct I1 as [<-|[]]. destruct (at_type y); try now destruct Is. destruct (at_type_reference y); [|destruct Is].
    destruct Is as [E|[]]. cbn [drawn] in E. injection E as _ E. apply in_map_iff. exists y. split; assumption.
Qed.
Lemma child_once : forall n l, NoDup (map ch_name l) -> NoDup (map (fun c => drawn n (Child (ch_type c) (ch_name c))) l).
Proof.
  intros n. induction l as [|c l IH]; intros N; cbn [map] in *; [constructor|]. apply NoDup_cons_iff in N. destruct N as [N1 N2].
  constructor; [|apply IH, N2]. intros I. apply in_map_iff in I. destruct I as (d & E & Id). cbn [drawn] in E. injection E as _ E.
  apply N1. apply in_map_iff. exists d. split; assumption.
Qed.
Lemma in_links : forall n l st, In st (concat (map (link_drawn n) l)) <->
  exists x r, In x l /\ at_type x = AT_link /\ at_type_reference x = Some r /\ st = drawn (nd_name n) (Link r (at_name x)).
Proof.
  intros n l st. rewrite in_concat. split.
  - intros (k & Ik & Is). apply in_map_iff in Ik. destruct Ik as (x & <- & Ix). unfold link_drawn in Is.
    destruct (at_type x) eqn:T; try now destruct Is. destruct (at_type_reference x) as [r|] eqn:R; [|destruct Is]. destruct Is as [<-|[]].
    exists x, r. auto.
  - intros (x & r & Ix & T & R & ->). exists (link_drawn n x). split; [apply in_map, Ix|]. unfold link_drawn. rewrite T, R. left. reflexivity.
Qed.

Section Whole.
  Variable a : ast.
  Hypothesis P : parsed_ast a.
  Hypothesis U : unmarked a.
  Variable s : pra.
  Variable lits : list literal.
  Hypothesis B : before_scheduling a = Val (s, lits).
  Hypothesis N : Forall name_ok (tree_names a).
  Hypothesis L : forall x, written_attribute a x -> at_type x <> AT_link.
  Let fa := finished a s lits.

  Lemma a_rules : obeys_rules a.
  Proof. destruct (all_passes a s lits B) as (t & ts & C & _). apply (checked_names a C). Qed.

  (** *** Names *)
  Definition declared : list ident := map nd_name (a_nodes a) ++ map ns_name (a_nodesets a).
  Lemma distinct_declared : forall b, distinct_names (all_names b) -> NoDup (map ID_LWR (map nd_name (a_nodes b) ++ map ns_name (a_nodesets b))).
  Proof.
    intros b D. unfold distinct_names, all_names, declarations in D.
    assert (F1 : forall (l : list inode), flat_map names_of (map DNode l) = map nd_name l).
    { induction l as [|n l IH]; cbn; [reflexivity|]. now rewrite IH. }
    assert (F2 : forall (l : list inodeset), flat_map names_of (map DNodeset l) = map ns_name l).
    { induction l as [|n l IH]; cbn; [reflexivity|]. now rewrite IH. }
    rewrite !flat_map_app, F1, F2, !map_app in D. rewrite map_app.
    do 3 (apply NoDup_app_all in D; destruct D as (_ & D & _)). rewrite app_assoc in D. apply NoDup_app_all in D. apply D.
  Qed.
  Lemma declared_node : forall n, In n (a_nodes a) -> In (nd_name n) declared.
  Proof. intros n I. apply in_app_iff. left. apply in_map, I. Qed.
  Lemma declared_set : forall m, In m (a_nodesets a) -> In (ns_name m) declared.
  Proof. intros m I. apply in_app_iff. right. apply in_map, I. Qed.
  Lemma refers_declared : forall id, is_node a id \/ is_nodeset a id -> exists x, In x declared /\ same_id x id.
  Proof.
    intros id [H|H].
    - apply is_node_in in H. destruct H as (n & I & E). exists (nd_name n). split; [apply declared_node, I|exact E].
    - apply is_nodeset_in in H. destruct H as (n & I & E). exists (ns_name n). split; [apply declared_set, I|exact E].
  Qed.
  Lemma named : forall x, In x (tree_names a) -> plain_word x.
  Proof. intros x I. apply identifier_plain. apply (proj1 (Forall_forall _ _) N x I). Qed.
  Lemma declared_plain : forall x, In x declared -> plain_word x.
  Proof.
    intros x I. apply named. unfold tree_names. rewrite !in_app_iff. apply in_app_iff in I. destruct I as [I|I]; apply in_map_iff in I;
      destruct I as (n & <- & I); [do 3 right; left|do 4 right; left]; apply in_flat_map; exists n; (split; [exact I|left; reflexivity]).
  Qed.
  Lemma child_plain : forall n c, In n (a_nodes a) -> In c (nd_children n) -> plain_word (ch_name c).
  Proof.
    intros n c I Ic. apply named. unfold tree_names. rewrite !in_app_iff. do 3 right. left. apply in_flat_map. exists n. split; [exact I|].
    right. apply in_app_iff. left. apply in_flat_map. exists c. split; [exact Ic|]. right. left. reflexivity.
  Qed.
  Lemma attribute_in : forall x, written_attribute a x -> forall y, In y (attribute_names x) -> plain_word y.
  Proof.
    intros x W y Iy. apply named. unfold tree_names. rewrite !in_app_iff. destruct W as [(n & I & Ix)|(m & I & Ix)].
    - do 3 right. left. apply in_flat_map. exists n. split; [exact I|]. right. rewrite !in_app_iff. right. left. apply in_flat_map. eauto.
    - do 4 right. left. apply in_flat_map. exists m. split; [exact I|]. right. apply in_flat_map. eauto.
  Qed.
  Lemma attribute_plain : forall x, written_attribute a x -> plain_word (at_name x).
  Proof. intros x W. apply (attribute_in x W). apply in_app_iff. right. left. reflexivity. Qed.
  Lemma attribute_written : forall n x, In n (a_nodes a) -> node_attribute a n x -> written_attribute a x.
  Proof.
    intros n x I [O|(i & (m & S & Em & Ix & _) & _)]; [left; eauto|]. right. exists m. split; [exact (nth_error_In _ _ Em)|exact Ix].
  Qed.

  (** *** Links *)
  Lemma alike_link : forall x y, alike x y -> is_link a x -> is_link a y.
  Proof.
    intros x y ((_ & _) & T & R) K. unfold is_link in *. rewrite <- T. destruct K as [K|(K & H)]; [left; exact K|right].
    split; [exact K|]. rewrite <- R by (rewrite K; cbn; auto). exact H.
  Qed.
  Lemma link_reference : forall n x, In n (a_nodes a) -> node_attribute a n x -> is_link a x ->
    at_type x = AT_link_or_enum /\ exists r, at_type_reference x = Some r /\ (is_node a r \/ is_nodeset a r).
  Proof.
    intros n x I A [K|K]; [|exact K]. exfalso. exact (L x (attribute_written n x I A) K).
  Qed.
  Lemma final_link : forall i n y, nth_error (a_nodes a) i = Some n -> In y (nth i (p_nodes s) []) -> at_type (resolve a y) = AT_link ->
    exists x r, node_attribute a n x /\ alike x y /\ is_link a x /\ at_type_reference x = Some r /\ at_type_reference (resolve a y) = Some r /\
      (is_node a r \/ is_nodeset a r).
  Proof.
    intros i n y Hn Iy T. apply link_iff in T. destruct (node_declared a P U s lits B i n y Hn Iy) as (x & A & K).
    assert (Lx := alike_link y x (alike_sym _ _ K) T). destruct (link_reference n x (nth_error_In _ _ Hn) A Lx) as (Tx & r & Er & D).
    exists x, r. split; [exact A|]. split; [exact K|]. split; [exact Lx|]. split; [exact Er|]. split; [|exact D].
    cbn [resolve at_type_reference]. destruct K as (_ & _ & R). rewrite <- R; [exact Er|]. rewrite Tx. cbn. auto.
  Qed.

  (** *** The words of the diagram *)
  Section Words.
    Hypothesis F : free_of_keywords a.
    Lemma declared_good : forall x, In x declared -> good_word x.
    Proof.
      intros x I. split; [exact (declared_plain x I)|]. destruct (is_keyword x) eqn:E; [|reflexivity].
      apply keyword_iff in E. elim (F x I E).
    Qed.
    Lemma refers_good : forall id, is_node a id \/ is_nodeset a id -> good_word id.
    Proof. intros id H. destruct (refers_declared id H) as (x & I & E). exact (same_good x id E (declared_good x I)). Qed.
    Lemma finished_good : good_names fa.
    Proof.
      constructor.
      - intros n' I. apply (final_node a P U s lits B) in I. destruct I as (i & n & Hn & ->). apply declared_good, (declared_node n).
        exact (nth_error_In _ _ Hn).
      - intros n' c I Ic. apply (final_node a P U s lits B) in I. destruct I as (i & n & Hn & ->). cbn [with_attributes nd_children] in Ic.
        assert (In_n := nth_error_In _ _ Hn). split; [|exact (child_plain n c In_n Ic)].
        apply refers_good. exact (r_children _ a_rules n c In_n Ic).
      - intros n' y I Iy T. apply (final_node a P U s lits B) in I. destruct I as (i & n & Hn & ->). cbn [with_attributes nd_attributes] in Iy.
        apply in_map_iff in Iy. destruct Iy as (z & <- & Iz). destruct (final_link i n z Hn Iz T) as (x & r & A & K & _ & _ & Er & D).
        split; [|exists r; split; [exact Er|exact (refers_good r D)]]. cbn [resolve at_name].
        apply (same_plain (at_name x)); [symmetry; apply K|]. apply attribute_plain. exact (attribute_written n x (nth_error_In _ _ Hn) A).
      - intros m' I. apply (final_set a P U s lits B) in I. destruct I as (k & m & lit & Hm & Hl & ->). apply declared_good, (declared_set m).
        exact (nth_error_In _ _ Hm).
      - intros m' l id I E Ii. apply (final_set a P U s lits B) in I. destruct I as (k & m & lit & Hm & Hl & ->).
        cbn [with_members ns_expr fst] in E. injection E as <-.
        destruct (members_exist a P U s lits B k lit id Hl Ii) as (i & n & Hn & E). apply (same_good (nd_name n) id E).
        apply declared_good, declared_node. exact (nth_error_In _ _ Hn).
    Qed.
  End Words.

  (** *** The text exists *)
  Lemma diagram_val : exists u, GDast fa = Val u.
  Proof.
    assert (M : forall A C (f : A -> outcome C) l, (forall x, In x l -> exists y, f x = Val y) -> exists r, map_val f l = Val r).
    { intros A C f l H. induction l as [|x l IH]; [exists []; reflexivity|]. cbn [map_val].
      destruct (H x (or_introl eq_refl)) as (y & ->). cbn [bind]. destruct IH as (r & ->); [intros z I; apply H; right; exact I|]. eexists. reflexivity. }
    unfold GDast. destruct (M _ _ GDinode (a_nodes fa)) as (l & ->); [|eexists; reflexivity].
    intros n' I. apply (final_node a P U s lits B) in I. destruct I as (i & n & Hn & ->). unfold GDinode. cbn [with_attributes nd_attributes].
    match goal with |- context [map_val ?f ?l] => destruct (M _ _ f l) as (k & ->); [|eexists; reflexivity] end.
    intros y Iy. unfold GDattribute. destruct (at_type y) eqn:T; try (eexists; reflexivity).
    apply in_map_iff in Iy. destruct Iy as (z & <- & Iz). destruct (final_link i n z Hn Iz T) as (_ & r & _ & _ & _ & _ & -> & _). eexists. reflexivity.
  Qed.

  (** *** What the diagram shows *)
  Lemma in_drawn : forall st, In st (all_drawn fa) <->
    (exists i n, nth_error (a_nodes a) i = Some n /\ In st (node_drawn (with_attributes n (map (resolve a) (nth i (p_nodes s) []))))) \/
    (exists k m lit, nth_error (a_nodesets a) k = Some m /\ nth_error lits k = Some lit /\
      In st (set_drawn (with_members m (lit, map (resolve a) (nth k (p_sets s) []))))).
  Proof.
    intros st. unfold all_drawn. rewrite in_app_iff, !in_concat. split.
    - intros [(l & Il & Is)|(l & Il & Is)]; apply in_map_iff in Il; destruct Il as (n' & <- & I).
      + left. apply (final_node a P U s lits B) in I. destruct I as (i & n & Hn & ->). eauto.
      + right. apply (final_set a P U s lits B) in I. destruct I as (k & m & lit & Hm & Hl & ->). eauto 6.
    - intros [(i & n & Hn & Is)|(k & m & lit & Hm & Hl & Is)]; [left|right]; eexists; (split; [|exact Is]); apply in_map.
      + apply (final_node a P U s lits B). eauto.
      + apply (final_set a P U s lits B). eauto 6.
  Qed.
  Lemma in_node_drawn : forall n l st, In st (node_drawn (with_attributes n l)) <->
    st = Vertex (nd_name n) \/ (exists c, In c (nd_children n) /\ st = drawn (nd_name n) (Child (ch_type c) (ch_name c))) \/
    (exists x r, In x l /\ at_type x = AT_link /\ at_type_reference x = Some r /\ st = drawn (nd_name n) (Link r (at_name x))).
  Proof.
    intros n l st. unfold node_drawn. cbn [In with_attributes nd_name nd_children nd_attributes]. rewrite in_app_iff, in_map_iff, in_links.
    cbn [with_attributes nd_name]. split.
    - intros [E|[(c & E & I)|H]]; [left; now symmetry|right; left; exists c; auto|right; right; exact H].
    - intros [E|[(c & E & I)|H]]; [left; now symmetry|right; left; exists c; auto|right; right; exact H].
  Qed.
  Lemma in_set_drawn : forall m lit l st, In st (set_drawn (with_members m (lit, l))) <->
    st = Vertex (ns_name m) \/ exists id, In id (listed lit) /\ st = drawn (ns_name m) (Member id).
  Proof.
    intros m lit l st. unfold set_drawn. cbn [In with_members ns_name ns_expr fst]. rewrite in_map_iff. split.
    - intros [E|(id & E & I)]; [left; now symmetry|right]. apply order_listed in I. exists id. auto.
    - intros [E|(id & I & E)]; [left; now symmetry|right]. apply order_listed in I. exists id. auto.
  Qed.
  Lemma drawn_edge : forall x r, exists y at_, drawn x r = Edge x y at_.
  Proof. intros x [t n|t n|n]; cbn [drawn]; eauto. Qed.

  Theorem diagram_shows : shows a (all_drawn fa).
  Proof.
    constructor.
    - intros x. rewrite in_drawn. change (map nd_name (a_nodes a) ++ map ns_name (a_nodesets a)) with declared. split.
      + intros [(i & n & Hn & I)|(k & m & lit & Hm & Hl & I)].
        * apply in_node_drawn in I. destruct I as [E|[(c & _ & E)|(y & r & _ & _ & _ & E)]]; try discriminate. injection E as ->.
          apply declared_node. exact (nth_error_In _ _ Hn).
        * apply in_set_drawn in I. destruct I as [E|(id & _ & E)]; try discriminate. injection E as ->.
          apply declared_set. exact (nth_error_In _ _ Hm).
      + intros I. apply in_app_iff in I. destruct I as [I|I]; apply in_map_iff in I; destruct I as (n & <- & I); apply In_nth_error in I; destruct I as (i & Hn).
        * left. exists i, n. split; [exact Hn|]. apply in_node_drawn. auto.
        * right. destruct (accepted_literals a P U s lits B) as (Ll & _).
          destruct (nth_error lits i) as [lit|] eqn:El.
          2: { apply nth_error_None in El. assert (i < List.length (a_nodesets a)) by (apply nth_error_Some; congruence). lia. }
          exists i, n, lit. split; [exact Hn|]. split; [exact El|]. apply in_set_drawn. auto.
    - intros x y at_ I. apply in_drawn in I. destruct I as [(i & n & Hn & I)|(k & m & lit & Hm & Hl & I)].
      + assert (In_n := nth_error_In _ _ Hn). apply in_node_drawn in I. destruct I as [E|[(c & Ic & E)|(z & r & Iz & T & R & E)]]; try discriminate.
        * assert (Ex : x = nd_name n) by (cbn [drawn] in E; congruence). subst x. exists (Child (ch_type c) (ch_name c)), (Child (ch_type c) (ch_name c)).
          split; [apply has_child; assumption|]. split; [split; reflexivity|exact E].
        * assert (Ex : x = nd_name n) by (cbn [drawn] in E; congruence). subst x.
          apply in_map_iff in Iz. destruct Iz as (z0 & <- & Iz). destruct (final_link i n z0 Hn Iz T) as (w & q & A & K & Lw & Ew & Eq & D).
          assert (q = r) by congruence. subst q. exists (Link r (at_name w)), (Link r (at_name z0)).
          split; [apply (has_link a n w r); assumption|]. split; [|exact E]. split; [reflexivity|]. symmetry. apply K.
      + apply in_set_drawn in I. destruct I as [E|(id & Ii & E)]; try discriminate.
        assert (Ex : x = ns_name m) by (cbn [drawn] in E; congruence). subst x. exists (Member id), (Member id).
        split; [|split; [reflexivity|exact E]]. destruct (accepted_literals a P U s lits B) as (_ & R). destruct (R k m lit Hm Hl) as (D & _).
        apply (has_member a m (names_in lit)); [exact (nth_error_In _ _ Hm)|exact D|]. apply in_map, Ii.
    - intros x r H. destruct H as [n c I Ic|n x r I A K E|m S k I D H].
      + apply In_nth_error in I. destruct I as (i & Hn). exists (Child (ch_type c) (ch_name c)). split; [split; reflexivity|].
        apply in_drawn. left. exists i, n. split; [exact Hn|]. apply in_node_drawn. right. left. eauto.
      + assert (In_n := I). apply In_nth_error in I. destruct I as (i & Hn). destruct (node_final a P U s lits B i n x Hn A) as (y & Iy & Al).
        destruct (link_reference n x In_n A K) as (Tx & r' & Er & _). assert (r' = r) by congruence. subst r'.
        exists (Link r (at_name y)). split; [split; [reflexivity|symmetry; apply Al]|].
        apply in_drawn. left. exists i, n. split; [exact Hn|]. apply in_node_drawn. right. right. exists (resolve a y), r.
        split; [apply in_map, Iy|]. split; [apply link_iff; exact (alike_link x y Al K)|]. split; [|reflexivity].
        cbn [resolve at_type_reference]. destruct Al as (_ & _ & R). rewrite <- R; [exact E|]. rewrite Tx. cbn. auto.
      + assert (Im := I). apply In_nth_error in I. destruct I as (i & Hm). destruct (accepted_literals a P U s lits B) as (Ll & R).
        destruct (nth_error lits i) as [lit|] eqn:El.
        2: { apply nth_error_None in El. assert (i < List.length (a_nodesets a)) by (apply nth_error_Some; congruence). lia. }
        destruct (R i m lit Hm El) as (D' & _).
        assert (X : names_in lit (ID_LWR k)) by exact (proj1 (SetsProof.denotes_unique _ _ _ _ (accepted_unique a s lits B) D D' _) H).
        apply in_map_iff in X. destruct X as (id & E & Ii). exists (Member id). split; [symmetry; exact E|].
        apply in_drawn. right. exists i, m, lit. split; [exact Hm|]. split; [exact El|]. apply in_set_drawn. right. eauto.
    - unfold all_drawn.
      pose (blocks := map (fun n => (nd_name n, node_drawn n)) (a_nodes fa) ++ map (fun m => (ns_name m, set_drawn m)) (a_nodesets fa)).
      replace (concat (map node_drawn (a_nodes fa)) ++ concat (map set_drawn (a_nodesets fa))) with (concat (map snd blocks)).
      2: { unfold blocks. rewrite map_app, !map_map, concat_app. reflexivity. }
      apply blocks_once.
      + unfold blocks. rewrite map_app, !map_map. cbn [fst].
        apply (NoDup_map_inv ID_LWR). apply distinct_declared. unfold fa. rewrite (final_names a P U s lits B). exact (accepted_names a s lits B).
      + assert (Fm := final_members a P U s lits B). intros b Ib. unfold blocks in Ib. apply in_app_iff in Ib.
        destruct Ib as [Ib|Ib]; apply in_map_iff in Ib; destruct Ib as (n & <- & I); cbn [fst snd].
        * specialize (Fm n I). unfold distinct_names in Fm. rewrite map_app in Fm. apply NoDup_app_all in Fm. destruct Fm as (F1 & F2 & _).
          apply NoDup_map_inv in F1. apply NoDup_map_inv in F2. split.
          -- unfold node_drawn. constructor.
             ++ intros I0. apply in_app_iff in I0. rewrite in_map_iff, in_links in I0.
                destruct I0 as [(c & E & _)|(x & r & _ & _ & _ & E)]; discriminate.
             ++ apply NoDup_app_all. split; [|split].
                ** apply child_once. assumption.
                ** apply link_once. assumption.
                ** intros st I1 I2. rewrite in_map_iff in I1. rewrite in_links in I2.
                   destruct I1 as (c & <- & _). destruct I2 as (x & r & _ & _ & _ & E). discriminate.
          -- intros st [<-|I0]; [reflexivity|]. apply in_app_iff in I0. rewrite in_map_iff, in_links in I0.
             destruct I0 as [(c & <- & _)|(x & r & _ & _ & _ & ->)]; reflexivity.
        * split.
          -- unfold set_drawn. constructor.
             ++ destruct (ns_expr n); try (intros []). rewrite in_map_iff. intros (id & E & _). discriminate.
             ++ apply (final_set a P U s lits B) in I. destruct I as (k & m & lit & Hm & Hl & ->). cbn [with_members ns_expr ns_name fst].
                destruct (accepted_literals a P U s lits B) as (_ & R). destruct (R k m lit Hm Hl) as (_ & D). apply NoDup_map_inv in D.
                apply FinFun.Injective_map_NoDup.
                ** intros x y E. cbn [drawn] in E. congruence.
                ** exact (Permutation.Permutation_NoDup (order_permutes lit) D).
          -- intros st [<-|I0]; [reflexivity|]. destruct (ns_expr n); try (destruct I0). apply in_map_iff in I0. destruct I0 as (id & <- & _). reflexivity.
  Qed.

  (** *** Both ends of edges *)
  Theorem diagram_closed : spelled_alike a -> closed (all_drawn fa).
  Proof.
    intros Sp x y at_ I.
    assert (V : forall z, In z declared -> In (Vertex z) (all_drawn fa)) by (intros z; apply (sh_vertices _ _ diagram_shows)).
    apply in_drawn in I. destruct I as [(i & n & Hn & I)|(k & m & lit & Hm & Hl & I)].
    - assert (In_n := nth_error_In _ _ Hn). apply in_node_drawn in I. destruct I as [E|[(c & Ic & E)|(z & r & Iz & T & R & E)]]; try discriminate.
      + cbn [drawn] in E. injection E as -> -> _. split; [apply V, declared_node, In_n|].
        destruct (refers_declared (ch_type c)) as (x & Ix & Ex); [exact (r_children _ a_rules n c In_n Ic)|].
        rewrite (Sp x (ch_type c) Ix Ex); [apply V, Ix|]. left. eauto.
      + cbn [drawn] in E. injection E as -> -> _. split; [apply V, declared_node, In_n|].
        apply in_map_iff in Iz. destruct Iz as (z0 & <- & Iz). destruct (final_link i n z0 Hn Iz T) as (w & q & A & K & Lw & Ew & Eq & D).
        assert (q = r) by congruence. subst q. destruct (refers_declared r D) as (x & Ix & Ex). rewrite (Sp x r Ix Ex); [apply V, Ix|].
        right. destruct (attribute_written n w In_n A) as [(n' & I' & Iw)|(m' & I' & Iw)]; [left|right; left]; eauto.
    - apply in_set_drawn in I. destruct I as [E|(id & Ii & E)]; try discriminate. cbn [drawn] in E. injection E as -> -> _.
      split; [apply V, declared_set; exact (nth_error_In _ _ Hm)|].
      destruct (members_exist a P U s lits B k lit id Hl Ii) as (i & n & Hn & E).
      assert (Ix := declared_node n (nth_error_In _ _ Hn)). rewrite (Sp (nd_name n) id Ix E); [apply V, Ix|].
      right. right. right. destruct (all_passes a s lits B) as (t & ts & _ & _ & _ & Eu & _).
      exact (unwrap_written a ts lits Eu lit id (nth_error_In _ _ Hl) Ii).
  Qed.
End Whole.
