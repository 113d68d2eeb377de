(** From accepted specifications to propagated attributes (C31). *)

From Coq Require Import List Ascii Bool Arith Lia.
From Verif Require Import Base.Outcome Palm.StrModel Palm.StrProof Front.Syntax
  Front.SetsModel Front.SetsSpec Front.SetsProof Front.SymbolTableModel Front.SymbolTableSpec Front.SymbolTableProof
  Front.CheckExistanceModel Front.CheckExistanceSpec Front.CheckExistanceProof
  Front.NodesetTableModel Front.NodesetTableSpec Front.NodesetTableProof
  Front.PropagateModel Front.PropagateSpec Front.PropagateProof Front.PropagateWalk
  Front.NodesetPassesModel.
Import ListNotations.

Lemma is_node_in : forall a id, is_node a id -> exists n, In n (a_nodes a) /\ ID_LWR (nd_name n) = ID_LWR id.
Proof.
  intros a id (n & Hd & k & Hk & E). exists n. cbn in Hk. destruct Hk as [<-|[]]. split; [|assumption].
  unfold declarations in Hd. rewrite !in_app_iff, !in_map_iff in Hd.
  repeat (destruct Hd as [Hd|Hd]); destruct Hd as (x & Hx & H); try discriminate. now injection Hx as ->.
Qed.

Lemma is_nodeset_in : forall a id, is_nodeset a id -> declares (a_nodesets a) id.
Proof.
  intros a id (n & Hd & k & Hk & E). exists n. cbn in Hk. destruct Hk as [<-|[]]. split; [|assumption].
  unfold declarations in Hd. rewrite !in_app_iff, !in_map_iff in Hd.
  repeat (destruct Hd as [Hd|Hd]); destruct Hd as (x & Hx & H); try discriminate. now injection Hx as ->.
Qed.

Lemma NoDup_app_parts : forall A (l m : list A), NoDup (l ++ m) -> NoDup l /\ NoDup m.
Proof.
  intros A l m. induction l as [|x l IH]; cbn; intros H; [split; [constructor|assumption]|].
  inversion H as [|? ? N1 N2]; subst. destruct (IH N2) as [H1 H2]. split; [|assumption].
  constructor; [|assumption]. intros C. apply N1. apply in_app_iff. auto.
Qed.

Lemma declared_distinct : forall a, distinct_names (all_names a) ->
  NoDup (map (fun n => ID_LWR (nd_name n)) (a_nodes a)) /\ names_unique (a_nodesets a).
Proof.
  intros a H. unfold distinct_names, all_names, declarations in H.
  rewrite !flat_map_app, !map_app in H.
  apply NoDup_app_parts in H. destruct H as [_ H].
  apply NoDup_app_parts in H. destruct H as [_ H].
  apply NoDup_app_parts in H. destruct H as [_ H].
  apply NoDup_app_parts in H. destruct H as [H1 H].
  apply NoDup_app_parts in H. destruct H as [H2 _].
  split.
  - clear - H1. rewrite flat_map_concat_map, map_map in H1. cbn [names_of] in H1.
    rewrite <- flat_map_concat_map in H1.
    assert (E : map ID_LWR (flat_map (fun x => [nd_name x]) (a_nodes a)) =
                map (fun n => ID_LWR (nd_name n)) (a_nodes a)).
    { induction (a_nodes a) as [|x l IH]; [reflexivity|]. cbn. f_equal. apply IH. cbn in H1. now inversion H1. }
    now rewrite <- E.
  - clear - H2. unfold names_unique. rewrite flat_map_concat_map, map_map in H2. cbn [names_of] in H2.
    rewrite <- flat_map_concat_map in H2.
    assert (E : map ID_LWR (flat_map (fun x => [ns_name x]) (a_nodesets a)) =
                map (fun n => ID_LWR (ns_name n)) (a_nodesets a)).
    { induction (a_nodesets a) as [|x l IH]; [reflexivity|]. cbn. f_equal. apply IH. cbn in H2. now inversion H2. }
    now rewrite <- E.
Qed.

Lemma denotes_nodes : forall a, obeys_rules a -> forall e S, denotes (a_nodesets a) e S ->
  (forall id, In id (members e) -> is_node a id) ->
  forall x, S x -> exists n, In n (a_nodes a) /\ ID_LWR (nd_name n) = x.
Proof.
  intros a R e S D. induction D as [ids S HS|n id S Hn En D IH|e1 e2 A B S D1 IH1 D2 IH2 HS|
    e1 e2 A B S D1 IH1 D2 IH2 HS|e1 e2 A B S D1 IH1 D2 IH2 HS]; intros M x Hx.
  - apply HS, parse_literal_spec in Hx. apply listed_names in Hx. destruct Hx as (r & Hr & <-).
    apply is_node_in. apply M. exact Hr.
  - apply IH; [|assumption]. intros i Hi. apply (r_nodeset_exprs _ R n Hn). exact Hi.
  - cbn [members] in M. apply HS in Hx. destruct Hx as [Hx|Hx]; [apply IH1|apply IH2]; auto;
      intros i Hi; apply M; apply in_app_iff; auto.
  - cbn [members] in M. apply HS in Hx. destruct Hx as [Hx _]. apply IH1; auto;
      intros i Hi; apply M; apply in_app_iff; auto.
  - cbn [members] in M. apply HS in Hx. destruct Hx as [Hx _]. apply IH1; auto;
      intros i Hi; apply M; apply in_app_iff; auto.
Qed.

Definition unmarked (a : ast) : Prop :=
  forall m x, In m (a_nodesets a) -> In x (ns_attributes m) -> at_is_propagated x = false.

Lemma Forall2_nth_r : forall A B (R : A -> B -> Prop) l m, Forall2 R l m ->
  length l = length m /\ forall i x y, nth_error l i = Some x -> nth_error m i = Some y -> R x y.
Proof.
  intros A B R l m H. induction H as [|x y l m Rxy H [L IH]].
  - split; [reflexivity|]. intros [|i] x y E; discriminate.
  - split; [cbn; congruence|]. intros [|i] x' y' E1 E2; cbn in *; [congruence|eauto].
Qed.

Lemma nth_error_combine : forall A B (l : list A) (m : list B) i p,
  nth_error (combine l m) i = Some p -> nth_error l i = Some (fst p) /\ nth_error m i = Some (snd p).
Proof.
  induction l as [|x l IH]; intros [|y m] [|i] p H; cbn in *; try discriminate.
  - injection H as <-. auto.
  - auto.
Qed.

Lemma nth_error_combine_some : forall A B (l : list A) (m : list B) i x y,
  nth_error l i = Some x -> nth_error m i = Some y -> nth_error (combine l m) i = Some (x, y).
Proof.
  induction l as [|z l IH]; intros [|w m] [|i] x y H1 H2; cbn in *; try discriminate.
  - congruence.
  - auto.
Qed.

(** What the passes know when propagateAttributes starts. *)
Lemma passes_input : forall a t ts ls,
  parsed_ast a -> unmarked a -> is_val (check_names a) = true ->
  NCTast (a_nodesets a) = Val t -> n_errors t = [] -> unwrap a = Val (ts, ls) ->
  propagation_input (a_nodes a) (a_nodesets a) (combine (n_tables t) ls) /\
  Forall2 (fun n l => right_set (a_nodesets a) (ns_expr n) l) (a_nodesets a) ls /\
  length (n_tables t) = length (a_nodesets a).
Proof.
  intros a t ts ls P U C Et En Eu.
  destruct (check_names_accepts a) as [CA _]. apply CA in C. destruct C as (C1 & C2 & R).
  destruct (declared_distinct a C1) as [D1 D2].
  assert (SR : sets_resolve (a_nodesets a)).
  { intros n id Hn Hid. apply is_nodeset_in. apply (r_nodeset_exprs _ R n Hn). exact Hid. }
  destruct (NCTast_right (a_nodesets a) D2 SR) as (t' & Et' & Lt & Q1 & Q2 & Q3).
  rewrite Et in Et'. injection Et' as <-. specialize (Q2 En).
  destruct (unwrap_right a ts ls P Eu) as [F _].
  destruct (Forall2_nth_r _ _ _ _ _ F) as [LF NF].
  split; [|auto].
  assert (G : forall tb lit, In (tb, lit) (combine (n_tables t) ls) ->
     exists i m, nth_error (a_nodesets a) i = Some m /\ table_of t i = tb /\
       right_set (a_nodesets a) (ns_expr m) lit).
  { intros tb lit H. apply In_nth_error in H. destruct H as [i H].
    apply nth_error_combine in H. cbn [fst snd] in H. destruct H as [H1 H2].
    destruct (nth_error (a_nodesets a) i) as [m|] eqn:Em.
    - exists i, m. split; [exact Em|]. split; [|now apply (NF i)].
      unfold table_of. now apply nth_error_nth.
    - apply nth_error_None in Em. assert (i < length ls) by (apply nth_error_Some; congruence). lia. }
  constructor.
  - rewrite combine_length. lia.
  - exact D1.
  - intros tb lit H. destruct (G tb lit H) as (i & m & Em & <- & _).
    assert (Li : i < length (a_nodesets a)) by (apply nth_error_Some; congruence).
    destruct (Q2 i Li) as [N B]. split; [assumption|]. intros k Hk. apply B in Hk.
    apply built_first in Hk. destruct Hk as (j & Rj & Hk).
    destruct Hk as [->|Hk]; [now apply refers_lt in Rj|].
    clear - Hk. induction Hk as [j k Hk|]; [now apply refers_lt in Hk|assumption].
  - intros tb lit H. destruct (G tb lit H) as (i & m & Em & _ & D & N). split; [assumption|].
    intros id Hid. apply (denotes_nodes a R _ _ D).
    + apply (r_nodeset_exprs _ R m). eapply nth_error_In. exact Em.
    + unfold names_in. now apply in_map.
  - intros n Hn. assert (X := r_node_members _ R n Hn). apply distinct_app_l in X.
    unfold distinct_names in X. now rewrite map_map in X.
  - intros m Hm. destruct (r_nodeset_attributes _ R m Hm) as [X _].
    unfold distinct_names in X. now rewrite map_map in X.
  - exact U.
Qed.

Lemma passes_val : forall a s, nodeset_passes a = Val s ->
  exists t ts ls, is_val (check_names a) = true /\ NCTast (a_nodesets a) = Val t /\ n_errors t = [] /\
    unwrap a = Val (ts, ls) /\ PRAast (a_nodes a) (a_nodesets a) (combine (n_tables t) ls) = Val s /\
    p_errors s = [].
Proof.
  intros a s. unfold nodeset_passes.
  destruct (check_names a) as [ste| | | |]; try discriminate. cbn [bind].
  destruct (NCTast (a_nodesets a)) as [t| | | |]; try discriminate. cbn [bind].
  destruct (n_errors t) eqn:En; try discriminate.
  destruct (unwrap a) as [[ts ls]| | | |]; try discriminate. cbn [bind snd].
  destruct (PRAast _ _ _) as [s'| | | |] eqn:Ep; try discriminate. cbn [bind].
  destruct (p_errors s') eqn:Es; try discriminate. intros H. injection H as <-.
  exists t, ts, ls. auto 10.
Qed.

Lemma to_node_in : forall sets l n x, In x (to_node sets l n) <->
  exists i m tb lit, nth_error sets i = Some m /\ nth_error l i = Some (tb, lit) /\
    In (ID_LWR (nd_name n)) (map ID_LWR (listed lit)) /\ In x (ns_attributes m).
Proof.
  intros sets l n x. unfold to_node, numbered. rewrite in_flat_map. split.
  - intros ([m [tb lit]] & H & Hx). cbn [fst snd] in Hx. unfold member in Hx.
    destruct (in_dec _ _ _) as [I|]; [|easy]. apply In_nth_error in H. destruct H as [i H].
    apply nth_error_combine in H. exists i, m, tb, lit. tauto.
  - intros (i & m & tb & lit & H1 & H2 & H3 & H4). exists (m, (tb, lit)).
    split; [eapply nth_error_In; apply nth_error_combine_some; eassumption|].
    cbn [fst snd]. unfold member. destruct (in_dec _ _ _); [assumption|contradiction].
Qed.

Theorem passes_reach : forall a s, parsed_ast a -> unmarked a -> nodeset_passes a = Val s ->
  forall i n, nth_error (a_nodes a) i = Some n ->
  (forall o, In o (nd_attributes n) -> In o (nth i (p_nodes s) [])) /\
  (forall m x S, In m (a_nodesets a) -> In x (ns_attributes m) ->
     denotes (a_nodesets a) (ns_expr m) S -> S (ID_LWR (nd_name n)) ->
     exists y, In y (nth i (p_nodes s) []) /\ same_id (at_name y) (at_name x) /\
       (copy_of x y \/ may_redeclare x y)) /\
  (forall y, In y (nth i (p_nodes s) []) ->
     In y (nd_attributes n) \/
     exists m x S, In m (a_nodesets a) /\ In x (ns_attributes m) /\
       denotes (a_nodesets a) (ns_expr m) S /\ S (ID_LWR (nd_name n)) /\ copy_of x y) /\
  NoDup (map (fun y => ID_LWR (at_name y)) (nth i (p_nodes s) [])).
Proof.
  intros a s P U E i n Hn.
  destruct (passes_val a s E) as (t & ts & ls & C & Et & En & Eu & Ep & Es).
  destruct (passes_input a t ts ls P U C Et En Eu) as (I & F & LT).
  destruct (PRAast_right _ _ _ I) as (s' & Ep' & _ & Q). rewrite Ep in Ep'. injection Ep' as <-.
  destruct (Q Es) as [Qn _]. destruct (Qn i n Hn) as [Q1 Q2 Q3 Q4].
  destruct (Forall2_nth_r _ _ _ _ _ F) as [LF NF].
  assert (DU : names_unique (a_nodesets a)).
  { destruct (check_names_accepts a) as [CA _]. apply CA in C. now apply declared_distinct. }
  split; [assumption|]. split; [|split; [|assumption]].
  - intros m x S Hm Hx D HS. apply Q2. apply to_node_in.
    apply In_nth_error in Hm. destruct Hm as [j Ej].
    assert (Lj : j < length (a_nodesets a)) by (apply nth_error_Some; congruence).
    destruct (nth_error ls j) as [lit|] eqn:El; [|apply nth_error_None in El; lia].
    destruct (nth_error (n_tables t) j) as [tb|] eqn:Etb; [|apply nth_error_None in Etb; lia].
    exists j, m, tb, lit. split; [assumption|]. split; [now apply nth_error_combine_some|].
    split; [|assumption]. destruct (NF j m lit Ej El) as [D' _].
    apply (denotes_unique _ _ _ _ DU D' D). exact HS.
  - intros y Hy. destruct (Q3 y Hy) as [H|(x & Hx & Cx)]; [auto|]. right.
    apply to_node_in in Hx. destruct Hx as (j & m & tb & lit & Ej & El & Hmem & Hx).
    apply nth_error_combine in El. cbn [fst snd] in El. destruct El as [_ El].
    destruct (NF j m lit Ej El) as [D' _].
    exists m, x, (names_in lit). repeat split; auto; try apply Cx. eapply nth_error_In. exact Ej.
Qed.
