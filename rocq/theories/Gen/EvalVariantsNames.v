(** Names of variants, and which equation is found. *)

From Coq Require Import String.
From Coq Require Import List Ascii Bool Arith Lia Permutation.
From Verif Require Import Sched.GraphModel Sched.ScheduleModel Sched.ScheduleSpec.
From Verif Require Import Base.Outcome Palm.StrModel Front.Syntax Front.LifetimesModel Front.PropagateModel Front.PropagateSpec
  Front.ProductRulesModel Front.SymbolTableProof Gen.EvalVariantsModel Gen.EvalVariantsSpec Gen.EvalVariantsProof.
Import ListNotations.
Local Open Scope list_scope.
Local Open Scope outcome_scope.

Notation str := list_ascii_of_string.

Lemma lower_not_N : forall x, ~ In "N"%char (ID_LWR x).
Proof.
  intros x H. unfold ID_LWR in H. apply in_map_iff in H. destruct H as (c & E & _). revert E.
  destruct c as [[] [] [] [] [] [] [] []]; vm_compute; discriminate.
Qed.

Lemma split_at : forall (b : ascii) x y r s, ~ In b x -> ~ In b y -> x ++ b :: r = y ++ b :: s -> x = y /\ r = s.
Proof.
  intros b. induction x as [|a x IH]; intros y r s Hx Hy E.
  - destruct y as [|c y]; cbn in E; [injection E as ->; auto|]. injection E as -> _. exfalso. apply Hy. left. reflexivity.
  - destruct y as [|c y]; cbn in E; [injection E as -> _; exfalso; apply Hx; left; reflexivity|]. injection E as -> E.
    destruct (IH y r s) as [-> ->]; [intros I; apply Hx; right; exact I|intros I; apply Hy; right; exact I|exact E|auto].
Qed.

Lemma one_suffix : forall x y r s,
  (str "_" ++ ID_LWR x ++ str "_NULL") ++ r = (str "_" ++ ID_LWR y ++ str "_NULL") ++ s -> ID_LWR x = ID_LWR y /\ r = s.
Proof.
  assert (Sh : forall z t, (str "_" ++ ID_LWR z ++ str "_NULL") ++ t = "_"%char :: (ID_LWR z ++ str "_") ++ "N"%char :: str "ULL" ++ t).
  { intros z t. cbn [app]. rewrite <- !app_assoc. reflexivity. }
  assert (No : forall z, ~ In "N"%char (ID_LWR z ++ str "_")).
  { intros z I. apply in_app_iff in I. destruct I as [I|[I|[]]]; [exact (lower_not_N z I)|discriminate I]. }
  intros x y r s E. rewrite !Sh in E. injection E as E. apply split_at in E; [|apply No|apply No]. destruct E as [E1 E2].
  apply app_inv_tail in E1. injection E2 as E2. auto.
Qed.

Definition suffixes (l : list ident) : cstring := concat (map (fun c => str "_" ++ ID_LWR c ++ str "_NULL") l).

Lemma suffixes_injective : forall l m, suffixes l = suffixes m -> map ID_LWR l = map ID_LWR m.
Proof.
  unfold suffixes. induction l as [|x l IH]; intros m E; destruct m as [|y m]; cbn [map concat] in *.
  - reflexivity.
  - discriminate E.
  - discriminate E.
  - apply one_suffix in E. destruct E as [E1 E2]. f_equal; [exact E1|]. apply IH. exact E2.
Qed.

Definition rule_name (r : attribute_reference) : cstring := match ar_inode r with Some c => ID_LWR c | None => str "this" end.

Lemma variant_name_eq : forall n r l, variant_name n r l =
  str "EVAL" ++ ID_LWR (nd_name n) ++ str "_" ++ rule_name r ++ str "_" ++ ID_LWR (ar_attribute r) ++ suffixes l.
Proof. reflexivity. Qed.

Lemma variant_same : forall n r l m, variant_name n r l = variant_name n r m -> map ID_LWR l = map ID_LWR m.
Proof.
  intros n r l m E. rewrite !variant_name_eq in E. repeat apply app_inv_head in E. apply suffixes_injective. exact E.
Qed.

(** Names without underscores. *)
Definition plain (x : ident) : Prop := ~ In "_"%char x.
Lemma plain_lower : forall x, plain x -> ~ In "_"%char (ID_LWR x).
Proof.
  intros x P H. apply P. unfold ID_LWR in H. apply in_map_iff in H. destruct H as (c & E & I). replace "_"%char with c; [exact I|]. revert E. clear.
  destruct c as [[] [] [] [] [] [] [] []]; vm_compute; congruence.
Qed.
Definition plain_reference (r : attribute_reference) : Prop :=
  plain (ar_attribute r) /\ forall c, ar_inode r = Some c -> plain c.

Lemma suffixes_cases : forall l, suffixes l = [] \/ exists r, suffixes l = "_"%char :: r.
Proof. intros [|x l]; [left; reflexivity|right]. eexists. unfold suffixes. cbn [map concat app]. reflexivity. Qed.

Lemma split_end : forall x y l m, ~ In "_"%char x -> ~ In "_"%char y -> x ++ suffixes l = y ++ suffixes m -> x = y /\ suffixes l = suffixes m.
Proof.
  intros x y l m Hx Hy E.
  assert (No : forall z w r, ~ In "_"%char z -> z = w ++ "_"%char :: r -> False).
  { intros z w r Hz Ez. apply Hz. rewrite Ez. apply in_or_app. right. left. reflexivity. }
  destruct (suffixes_cases l) as [El|(r & El)], (suffixes_cases m) as [Em|(s & Em)]; rewrite El, Em in *.
  - rewrite !app_nil_r in E. auto.
  - rewrite app_nil_r in E. destruct (No x y s Hx E).
  - rewrite app_nil_r in E. symmetry in E. destruct (No y x r Hy E).
  - apply split_at in E; [|assumption|assumption]. destruct E as [-> ->]. auto.
Qed.

Lemma variant_name_injective : forall n n' r r' l l', plain (nd_name n) -> plain (nd_name n') -> plain_reference r -> plain_reference r' ->
  variant_name n r l = variant_name n' r' l' ->
  same_id (nd_name n) (nd_name n') /\ rule_name r = rule_name r' /\ same_id (ar_attribute r) (ar_attribute r') /\ map ID_LWR l = map ID_LWR l'.
Proof.
  intros n n' r r' l l' P P' [Q1 Q2] [Q1' Q2'] E. rewrite !variant_name_eq in E. apply app_inv_head in E.
  assert (Rn : forall r, (forall c, ar_inode r = Some c -> plain c) -> ~ In "_"%char (rule_name r)).
  { intros q H. unfold rule_name. destruct (ar_inode q) as [c|]; [apply plain_lower; apply H; reflexivity|]. cbn. intuition discriminate. }
  change (str "_") with ["_"%char] in E. cbn [app] in E.
  apply split_at in E; [|apply plain_lower; assumption|apply plain_lower; assumption]. destruct E as [E1 E].
  apply split_at in E; [|apply Rn; assumption|apply Rn; assumption]. destruct E as [E2 E].
  apply split_end in E; [|apply plain_lower; assumption|apply plain_lower; assumption]. destruct E as [E3 E4].
  repeat split; auto. apply suffixes_injective. exact E4.
Qed.

(** ** Declared once *)

Lemma NoDup_map_inj : forall {X Y} (f : X -> Y) l, NoDup l -> (forall x y, In x l -> In y l -> f x = f y -> x = y) -> NoDup (map f l).
Proof.
  intros X Y f l N. induction N as [|x l Nx N IH]; intros H; cbn [map]; constructor.
  - intros I. apply in_map_iff in I. destruct I as (y & E & I). apply Nx. rewrite <- (H y x); [exact I|right; exact I|left; reflexivity|exact E].
  - apply IH. intros a b Ia Ib. apply H; right; assumption.
Qed.

Section Once.
  Variable n : inode.
  Hypothesis distinct : NoDup (map (fun c => ID_LWR (ch_name c)) (nd_children n)).

  Lemma names_injective : forall l c d, In c l -> (forall c, In c l -> exists x, nth_error (nd_children n) c = Some x) ->
    (exists x, nth_error (nd_children n) d = Some x) -> In (ID_LWR (hd [] (names n [d]))) (map ID_LWR (names n l)) -> In d l.
  Proof.
    intros l c d _ Hl (x & Hd) I. unfold names in I. cbn [map hd] in I. rewrite Hd in I. rewrite map_map in I. apply in_map_iff in I.
    destruct I as (e & E & Ie). destruct (Hl e Ie) as (y & Hy). rewrite Hy in E.
    rewrite <- (same_child n distinct e d y x Hy Hd E). exact Ie.
  Qed.

  Lemma declared_once : forall e children iteration, resolved n (eq_args e) -> optional_children n (eq_args e) children ->
    length children < 64 -> Permutation (iteration children) children ->
    NoDup (map fst (map (declaration n e children iteration) (seq 0 (2 ^ length children)))).
  Proof.
    intros e children iteration Rs O Few Pm. rewrite map_map. apply NoDup_map_inj; [apply seq_NoDup|].
    intros a b Ia Ib E. apply in_seq in Ia. apply in_seq in Ib.
    destruct (declaration_variant n distinct e Rs children O iteration Pm a) as (_ & [Na _]).
    destruct (declaration_variant n distinct e Rs children O iteration Pm b) as (_ & [Nb _]).
    rewrite Na, Nb in E. apply variant_same in E.
    set (keys := iteration children) in *.
    assert (Once : NoDup keys) by (apply (Permutation_NoDup (Permutation_sym Pm)); apply O).
    assert (Len : length keys = length children) by (apply Permutation_length; exact Pm).
    assert (Real : forall c, In c children -> exists x, nth_error (nd_children n) c = Some x).
    { intros c I. apply O in I. destruct I as ((x & H & _) & _). exists x. exact H. }
    assert (Same : forall u v, map ID_LWR (names n (filter (absent_in children iteration u) children)) =
        map ID_LWR (names n (filter (absent_in children iteration v) children)) ->
      forall c, In c children -> absent_in children iteration u c = true -> absent_in children iteration v c = true).
    { intros u v Euv c I H. apply filter_In with (l := children).
      assert (Ifu : In c (filter (absent_in children iteration u) children)) by (apply filter_In; auto).
      destruct (filter (absent_in children iteration v) children) as [|z zs] eqn:Ef.
      - exfalso. apply (f_equal (@List.length _)) in Euv. unfold names in Euv. rewrite !map_length in Euv. cbn [List.length] in Euv.
        apply length_zero_iff_nil in Euv. rewrite Euv in Ifu. destruct Ifu.
      - apply names_injective with z; [left; reflexivity| |apply Real; exact I|].
        + intros d Id. rewrite <- Ef in Id. apply filter_In in Id. apply Real. apply Id.
        + rewrite <- Euv. unfold names. cbn [map hd]. rewrite map_map.
          apply (in_map (fun x => ID_LWR match nth_error (nd_children n) x with Some x0 => ch_name x0 | None => [] end)). exact Ifu. }
    apply Nat.bits_inj. intros i. destruct (nth_error keys i) as [c|] eqn:Hc.
    - assert (Ic : In c children) by (apply (Permutation_in c Pm); apply nth_error_In with i; exact Hc).
      assert (Ba := declaration_null keys Once a i c Hc). assert (Bb := declaration_null keys Once b i c Hc).
      fold keys in Ba, Bb. rewrite <- Ba, <- Bb.
      assert (S1 := Same a b E c Ic). assert (S2 := Same b a (eq_sym E) c Ic). unfold absent_in in S1, S2. fold keys in S1, S2.
      destruct (is_null (set_bitmask CH_FALSE CH_TRUE keys a) c), (is_null (set_bitmask CH_FALSE CH_TRUE keys b) c); auto.
      symmetry. auto.
    - apply nth_error_None in Hc. rewrite !(high_bits (length children)) by lia. reflexivity.
  Qed.
End Once.

(** ** The equation that is found *)

Lemma rule_name_get : forall r, get_node_name_this r = rule_name r.
Proof. reflexivity. Qed.

Lemma get_equation_some : forall n r e, get_equation n r = Some e ->
  In e (nd_equations n) /\ rule_name r = rule_name (eq_rule e) /\ same_id (ar_attribute r) (ar_attribute (eq_rule e)).
Proof.
  intros n r e H. unfold get_equation in H. apply find_some in H. destruct H as [I H]. apply andb_true_iff in H. destruct H as [H1 H2].
  apply STReq_lwr in H1. apply STReq_lwr in H2. auto.
Qed.

Lemma get_equation_finds : forall n r e, In e (nd_equations n) -> rule_name r = rule_name (eq_rule e) ->
  same_id (ar_attribute r) (ar_attribute (eq_rule e)) -> exists e', get_equation n r = Some e'.
Proof.
  intros n r e I H1 H2. destruct (get_equation n r) as [e'|] eqn:E; [exists e'; reflexivity|]. exfalso.
  unfold get_equation in E. apply find_none with (x := e) in E; [|exact I]. apply andb_false_iff in E.
  destruct E as [E|E]; unfold text_eqb in E; apply not_true_iff_false in E; apply E; apply STReq_lwr; assumption.
Qed.

Lemma variant_name_found : forall n r e l, get_equation n r = Some e -> variant_name n r l = variant_name n (eq_rule e) l.
Proof.
  intros n r e l H. apply get_equation_some in H. destruct H as (_ & H1 & H2). rewrite !variant_name_eq, H1, H2. reflexivity.
Qed.

(** one equation per attribute *)
Definition one_equation (n : inode) : Prop :=
  NoDup (map (fun e => (rule_name (eq_rule e), ID_LWR (ar_attribute (eq_rule e)))) (nd_equations n)).

Lemma NoDup_map_eq : forall {X Y} (f : X -> Y) l x y, NoDup (map f l) -> In x l -> In y l -> f x = f y -> x = y.
Proof.
  intros X Y f. induction l as [|z l IH]; intros x y N Ix Iy E; [destruct Ix|]. cbn [map] in N. inversion N as [|? ? Nz N']; subst.
  destruct Ix as [<-|Ix], Iy as [<-|Iy]; auto.
  - exfalso. apply Nz. rewrite E. apply in_map. exact Iy.
  - exfalso. apply Nz. rewrite <- E. apply in_map. exact Ix.
Qed.

Lemma get_own_equation : forall n e, one_equation n -> In e (nd_equations n) -> get_equation n (eq_rule e) = Some e.
Proof.
  intros n e O I. destruct (get_equation_finds n (eq_rule e) e I eq_refl eq_refl) as (e' & H). rewrite H. f_equal.
  apply get_equation_some in H. destruct H as (I' & H1 & H2). apply (NoDup_map_eq _ _ e' e O I' I). unfold same_id in H2. congruence.
Qed.

(** ** Evaluations *)

Section Evaluations.
  Variable nodes : list inode.
  Variable sets : list inodeset.
  Variable attrs : pra.

  Lemma evaluation_found : forall i n e x, nth_error nodes i = Some n -> In e (nd_equations n) ->
    (forall e' cn, In e' (nd_equations n) -> ar_inode (eq_rule e') = Some cn -> ID_LWR cn <> str "this") ->
    stands_for nodes sets (attributes_of attrs) i n (eq_rule e) x ->
    exists r e', evaluation_reference nodes attrs x = Some r /\ get_equation n r = Some e' /\
      stands_for nodes sets (attributes_of attrs) i n (eq_rule e') x.
  Proof.
    intros i n e [o a] Hn I This (T & (d & Hd & Sd) & Occ). cbn [fst snd] in *.
    assert (Er : exists r, evaluation_reference nodes attrs (o, a) = Some r /\ ar_attribute r = at_name d /\
      match o with OType _ => ar_inode r = None | OChild _ k => exists c, nth_error (nd_children n) k = Some c /\ ar_inode r = Some (ch_name c) end /\
      rule_name r = rule_name (eq_rule e)).
    { unfold evaluation_reference, attribute_at. cbn [fst snd]. rewrite Hd. unfold rule_name.
      destruct (ar_inode (eq_rule e)) as [cn|] eqn:Ei.
      - destruct Occ as (k & c & -> & Hc & S). rewrite Hn, Hc. eexists. split; [reflexivity|]. cbn [ar_attribute ar_inode].
        split; [reflexivity|]. split; [exists c; auto|exact S].
      - rewrite Occ. eexists. split; [reflexivity|]. cbn. auto. }
    destruct Er as (r & Er & Ea & Eo & En).
    assert (Ea' : same_id (ar_attribute r) (ar_attribute (eq_rule e))) by (unfold same_id; rewrite Ea; exact Sd).
    destruct (get_equation_finds n r e I En Ea') as (e' & F). exists r, e'. split; [exact Er|]. split; [exact F|].
    apply get_equation_some in F. destruct F as (I' & H1 & H2). split; [exact T|]. split.
    - exists d. split; [exact Hd|]. unfold same_id in *. rewrite <- H2, Ea. reflexivity.
    - cbn [fst]. unfold rule_name in H1. destruct (ar_inode (eq_rule e')) as [cn'|] eqn:Ei'.
      + destruct o as [t|i' k].
        * rewrite Eo in H1. exfalso. apply (This e' cn' I' Ei'). congruence.
        * destruct Eo as (c & Hc & Eo). rewrite Eo in H1. exists k, c. split; [|split; [exact Hc|exact H1]].
          destruct (ar_inode (eq_rule e)); [|discriminate Occ]. destruct Occ as (k' & c' & E & _). congruence.
      + destruct o as [t|i' k].
        * destruct (ar_inode (eq_rule e)); [destruct Occ as (? & ? & E & _); discriminate E|exact Occ].
        * exfalso. destruct Eo as (c & Hc & Eo). destruct (ar_inode (eq_rule e)) as [cn|] eqn:Ei; [|discriminate Occ].
          destruct Occ as (k' & c' & E & Hc' & S). injection E as -> <-. rewrite Hc in Hc'. injection Hc' as <-. rewrite Eo in H1.
          apply (This e cn I Ei). unfold same_id in S. congruence.
  Qed.
End Evaluations.
