(** Proofs about constructors: which arguments go where, and when the
    generated constructor is correct C. *)

From Coq Require Import List Ascii NArith ZArith Bool Lia.
From Verif Require Import Base.Outcome Base.Heap Palm.StrModel Front.Syntax Gen.NodesModel Gen.NodesSpec Gen.NodesProof.
Import ListNotations.
Local Open Scope outcome_scope.

Lemma lower_byte_twice : forall c, lower_byte (lower_byte c) = lower_byte c.
Proof. intros [[] [] [] [] [] [] [] []]; reflexivity. Qed.
Lemma ID_LWR_twice : forall i, ID_LWR (ID_LWR i) = ID_LWR i.
Proof. intros i. unfold ID_LWR. rewrite map_map. apply map_ext. apply lower_byte_twice. Qed.

Lemma returns_ok : forall A malloc (m : outcome A) Q, ok malloc m Q -> returns malloc m Q.
Proof. intros A malloc [x| | | |] Q H; cbn in H; try contradiction; [left; eauto|right; auto]. Qed.

Lemma combine_app_l : forall A B (l1 l2 : list A) (r : list B) x, In x (combine l1 r) -> In x (combine (l1 ++ l2) r).
Proof.
  induction l1 as [|a l1 IH]; intros l2 r x I; [destruct I|]. destruct r as [|b r]; [destruct I|].
  cbn in *. destruct I as [->|I]; auto.
Qed.
Lemma combine_app_r : forall A B (l1 l2 : list A) (r : list B) x,
  In x (combine l2 (skipn (length l1) r)) -> In x (combine (l1 ++ l2) r).
Proof.
  induction l1 as [|a l1 IH]; intros l2 r x I; [exact I|]. destruct r as [|b r]; cbn in *.
  - now rewrite combine_nil in I.
  - right. auto.
Qed.

Section Given.
  Context {A B : Type} (sel : A -> bool) (param : A -> cstring) (arg : A -> value -> B) (other : A -> B).
  Lemma given_env : forall env l args,
    (forall x v, In (x, v) (combine (map param (filter sel l)) args) -> assoc x env = Some v) ->
    length (filter sel l) <= length args ->
    given sel arg other l args = map (fun x => if sel x then arg x (lookup_arg env (param x)) else other x) l.
  Proof.
    intros env l. induction l as [|x l IH]; intros args H L; [reflexivity|]. cbn [given map filter] in *.
    destruct (sel x) eqn:S.
    - destruct args as [|v args]; [cbn in L; lia|]. cbn [hd tl map combine length] in *.
      rewrite (IH args); [|intros; apply H; now right|lia].
      unfold lookup_arg at 2. rewrite (H (param x) v) by now left. reflexivity.
    - rewrite (IH args) by auto. reflexivity.
  Qed.
End Given.

Lemma in_grammar_ag : forall a, in_grammar a = is_ag a.
Proof. reflexivity. Qed.
Lemma zero_default : forall t, zero t = default_value t.
Proof. intros []; reflexivity. Qed.

Lemma combine_map : forall A B C (f : A -> B) (g : A -> C) l, combine (map f l) (map g l) = map (fun x => (f x, g x)) l.
Proof. induction l as [|x l IH]; [reflexivity|]. cbn. now rewrite IH. Qed.

Lemma assoc_in : forall A n v (l : list (cstring * A)), NoDup (map fst l) -> In (n, v) l -> assoc n l = Some v.
Proof.
  induction l as [|[x w] l IH]; intros N I; [destruct I|]. cbn in N. inversion N as [|? ? N1 N2]; subst. cbn [assoc].
  destruct I as [[= -> ->]|I]; [now rewrite name_eqb_refl|]. rewrite name_eqb_neq; [auto|].
  intros ->. apply N1. apply (in_map fst) in I. exact I.
Qed.

(** Correct C. *)
Lemma used_by : forall nd n, In n (flat_map used_names (body (gen_constructor nd))) <->
  (exists c, In c (nd_children nd) /\ ch_in_constructor c = true /\ n = ID_LWR (ch_name c)) \/
  (exists a, In a (nd_attributes nd) /\ at_in_constructor a = true /\ n = at_name a).
Proof.
  intros nd n. rewrite in_flat_map. unfold gen_constructor. cbn [body]. split.
  - intros (s & I & J). apply in_app_or in I. destruct I as [I|I]; apply in_map_iff in I; destruct I as (x & <- & I).
    + left. exists x. unfold child_stmt in J. destruct (ch_in_constructor x); cbn in J; [|destruct J].
      destruct J as [<-|[]]. auto.
    + right. exists x. unfold attribute_stmt in J. destruct (at_in_constructor x); [|destruct (is_ag x); destruct J].
      cbn in J. destruct J as [<-|[]]. auto.
  - intros [(c & I & S & ->)|(a & I & S & ->)].
    + exists (child_stmt c). split; [apply in_or_app; left; now apply in_map|]. unfold child_stmt. rewrite S. now left.
    + exists (attribute_stmt a). split; [apply in_or_app; right; now apply in_map|]. unfold attribute_stmt. rewrite S. now left.
Qed.
Lemma in_params : forall nd n, In n (params (gen_constructor nd)) <->
  (exists c, In c (nd_children nd) /\ ch_in_constructor c = true /\ n = ID_LWR (ch_name c)) \/
  (exists a, In a (nd_attributes nd) /\ at_in_constructor a = true /\ n = attribute_param a).
Proof.
  intros nd n. unfold gen_constructor. cbn [params]. rewrite in_app_iff, !in_map_iff. split.
  - intros [(x & <- & I)|(x & <- & I)]; apply filter_In in I; destruct I; [left|right]; exists x; auto.
  - intros [(x & I & S & ->)|(x & I & S & ->)]; [left|right]; exists x; (split; [reflexivity|]); apply filter_In; auto.
Qed.
Lemma lwr_param : forall a, ID_LWR (attribute_param a) = ID_LWR (at_name a).
Proof. intros a. unfold attribute_param. destruct (at_type a); auto. apply ID_LWR_twice. Qed.

Lemma nodup_map_filter : forall A (f : A -> bool) (g : A -> cstring) l, NoDup (map g l) -> NoDup (map g (filter f l)).
Proof.
  induction l as [|x l IH]; intros H; [constructor|]. cbn in *. inversion H as [|? ? N1 N2]; subst.
  destruct (f x); [|auto]. cbn. constructor; [|auto]. intros I. apply N1.
  apply in_map_iff in I. destruct I as (y & E & I). apply filter_In in I. rewrite <- E. now apply in_map.
Qed.
Lemma params_distinct : forall nd, distinct_members nd -> NoDup (params (gen_constructor nd)).
Proof.
  intros nd D. apply (NoDup_map_inv ID_LWR).
  unfold gen_constructor. cbn [params]. rewrite map_app, !map_map.
  rewrite (map_ext (fun x => ID_LWR (child_param x)) (fun c => ID_LWR (ch_name c))) by (intros; apply ID_LWR_twice).
  rewrite (map_ext (fun x => ID_LWR (attribute_param x)) (fun c => ID_LWR (at_name c))) by (intros; apply lwr_param).
  unfold distinct_members in D. revert D. generalize (nd_attributes nd) as ats. generalize (nd_children nd) as cs.
  induction cs as [|c cs IH]; intros ats D.
  - cbn in *. now apply nodup_map_filter.
  - cbn in *. inversion D as [|? ? N1 N2]; subst. destruct (ch_in_constructor c); [|auto]. cbn. constructor; [|auto].
    intros I. apply N1. apply in_app_or in I. apply in_or_app.
    destruct I as [I|I]; [left|right]; apply in_map_iff in I; destruct I as (y & E & I); apply filter_In in I;
      apply in_map_iff; exists y; tauto.
Qed.
Lemma lwr_child_attribute : forall nd c a, distinct_members nd -> In c (nd_children nd) -> In a (nd_attributes nd) ->
  ID_LWR (ch_name c) <> ID_LWR (at_name a).
Proof.
  intros nd c a D I J E. unfold distinct_members in D. revert D I J.
  generalize (nd_attributes nd) as ats. generalize (nd_children nd) as cs. induction cs as [|x cs IH]; intros ats D I J; [destruct I|].
  cbn in D. inversion D as [|? ? N1 N2]; subst. destruct I as [->|I]; [|eauto].
  apply N1. apply in_or_app. right. rewrite E. apply (in_map (fun a => ID_LWR (at_name a))), J.
Qed.
Lemma lwr_attribute : forall nd a b, distinct_members nd -> In a (nd_attributes nd) -> In b (nd_attributes nd) ->
  ID_LWR (at_name a) = ID_LWR (at_name b) -> a = b.
Proof.
  intros nd a b D I J E. apply distinct_attributes in D. revert D I J. induction (nd_attributes nd) as [|x l IH]; intros D I J; [destruct I|].
  cbn in D. inversion D as [|? ? N1 N2]; subst.
  assert (Out : forall y, In y l -> ID_LWR (at_name x) <> ID_LWR (at_name y)).
  { intros y K X. apply N1. rewrite X. apply (in_map (fun a => ID_LWR (at_name a))), K. }
  destruct I as [->|I], J as [->|J]; auto; exfalso; [eapply Out|eapply (Out a)]; eauto.
Qed.

Lemma compiles_iff : forall nd, distinct_members nd -> (constructor_compiles nd <-> usable_constructor nd).
Proof.
  intros nd D. unfold constructor_compiles, usable_constructor. split.
  - intros (_ & C2 & C3 & C4). split.
    + intros c I S E. apply C2. apply in_params. left. exists c. auto.
    + intros a I S. split; [|split].
      * destruct (in_grammar a) eqn:G; [|reflexivity]. rewrite (C4 a I G) in S. discriminate.
      * intros E. apply C2. rewrite <- E. apply C3. apply used_by. right. exists a. auto.
      * intros T. assert (P : In (at_name a) (params (gen_constructor nd))).
        { apply C3. apply used_by. right. exists a. auto. }
        apply in_params in P. destruct P as [(c & J & _ & E)|(b & J & _ & E)].
        -- exfalso. apply (lwr_child_attribute nd c a D J I). rewrite E, ID_LWR_twice. reflexivity.
        -- assert (a = b) as <-.
           { apply (lwr_attribute nd); auto. rewrite <- (lwr_param b), <- E. reflexivity. }
           rewrite E at 1. unfold attribute_param. now rewrite T.
  - intros [U1 U2]. split; [now apply params_distinct|].
    assert (Pn : forall a, In a (nd_attributes nd) -> at_in_constructor a = true -> attribute_param a = at_name a).
    { intros a I S. unfold attribute_param. destruct (U2 a I S) as (_ & _ & U). destruct (at_type a); auto. symmetry. auto. }
    split; [|split].
    + intros I. apply in_params in I. destruct I as [(c & J & S & E)|(a & J & S & E)].
      * apply (U1 c J S). auto.
      * destruct (U2 a J S) as (_ & X & _). apply X. rewrite <- (Pn a J S). auto.
    + intros n I. apply used_by in I. apply in_params. destruct I as [I|(a & J & S & E)]; [auto|].
      right. exists a. rewrite (Pn a J S). auto.
    + intros a I G. destruct (at_in_constructor a) eqn:S; [|reflexivity]. destruct (U2 a I S) as (X & _).
      rewrite in_grammar_ag in X. congruence.
Qed.

Lemma param_count : forall nd, length (params (gen_constructor nd)) = number_of_arguments nd.
Proof. intros nd. unfold gen_constructor, number_of_arguments. cbn [params]. now rewrite app_length, !map_length. Qed.

Lemma new_members : forall nd args, distinct_members nd -> usable_constructor nd -> length args = number_of_arguments nd ->
  let env := combine (params (gen_constructor nd)) args in
  map (fun c => (ID_LWR (ch_name c), child_value env c)) (nd_children nd) = new_children nd args /\
  map (fun a => (ID_LWR (at_name a), attribute_field env a)) (nd_attributes nd) = new_attributes nd args.
Proof.
  intros nd args D U L env.
  assert (P := params_distinct nd D).
  assert (As : forall x v, In (x, v) env -> assoc x env = Some v).
  { intros x v I. apply assoc_in; [|exact I]. unfold env. rewrite combine_fst; [exact P|]. rewrite param_count. auto. }
  unfold new_children, new_attributes. split.
  - rewrite (given_env ch_in_constructor child_param (fun _ v => v) (fun _ => Ptr None) env).
    + rewrite combine_map. reflexivity.
    + intros x v I. apply As. unfold env, gen_constructor. cbn [params]. now apply combine_app_l.
    + unfold number_of_arguments in L. lia.
  - rewrite (given_env at_in_constructor attribute_param (fun _ v => Classic v)
               (fun a => if in_grammar a then Evaluated (Some false) Raw else Classic (zero (at_type a))) env).
    + rewrite combine_map. apply map_ext_in. intros a I. unfold attribute_field. destruct (at_in_constructor a) eqn:S.
      * unfold attribute_param. destruct (proj2 U a I S) as (_ & _ & X). destruct (at_type a); auto. rewrite <- X; auto.
      * change (in_grammar a) with (is_ag a). destruct (is_ag a); [reflexivity|]. do 2 f_equal.
    + intros x v I. apply As. unfold env, gen_constructor. cbn [params].
      apply combine_app_r. rewrite map_length. exact I.
    + rewrite skipn_length. unfold number_of_arguments in L. lia.
Qed.
