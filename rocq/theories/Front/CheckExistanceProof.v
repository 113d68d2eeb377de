(** Proofs about checkExistance (C28). *)

From Coq Require Import String.
From Coq Require Import List Ascii Bool Arith Lia.
From Verif Require Import Base.Outcome Palm.StrModel Palm.StrProof Front.Syntax
  Front.SymbolTableModel Front.SymbolTableSpec Front.SymbolTableProof Front.SetsSpec
  Front.CheckExistanceModel Front.CheckExistanceSpec.
Import ListNotations.
Local Open Scope string_scope.
Local Open Scope list_scope.

Lemma app_nil_iff : forall A (l m : list A), l ++ m = [] <-> l = [] /\ m = [].
Proof. intros A l m. split; [apply app_eq_nil|]. now intros [-> ->]. Qed.

Lemma flat_map_nil_iff : forall A B (f : A -> list B) l,
  flat_map f l = [] <-> forall x, In x l -> f x = [].
Proof.
  intros A B f l. induction l as [|x l IH]; cbn [flat_map In].
  - split; [easy|reflexivity].
  - rewrite app_nil_iff, IH. split.
    + intros [H1 H2] y [<-|H]; auto.
    + intros H. split; [|intros y Hy]; apply H; auto.
Qed.

Lemma map_filter_nil : forall A B (f : A -> B) p l,
  map f (filter p l) = [] <-> forall x, In x l -> p x = false.
Proof.
  intros A B f p l. split.
  - intros H x Hx. apply map_eq_nil in H. destruct (p x) eqn:E; auto.
    assert (C : In x (filter p l)) by now apply filter_In. now rewrite H in C.
  - intros H. induction l as [|y l IH]; cbn; [easy|].
    rewrite H by (cbn; auto). apply IH. intros x Hx. apply H. cbn; auto.
Qed.

Lemma ascii_string : forall (c : cstring) (s : string),
  list_ascii_of_string s = c <-> s = string_of_list_ascii c.
Proof.
  intros c s. split; intros H.
  - now rewrite <- H, string_of_list_ascii_of_string.
  - now rewrite H, list_ascii_of_string_of_list_ascii.
Qed.

Lemma reserved_none : forall c l (f : cstring -> bool),
  (forall r, f r = true <-> r = c) ->
  ((forall x, In x (map list_ascii_of_string l) -> f x = false) <->
   ~ In (string_of_list_ascii c) l).
Proof.
  intros c l f Hf. split.
  - intros H C. specialize (H (list_ascii_of_string (string_of_list_ascii c)) (in_map _ _ _ C)).
    rewrite list_ascii_of_string_of_list_ascii in H.
    assert (f c = true) by now apply Hf. congruence.
  - intros H x Hx. destruct (f x) eqn:E; auto. exfalso. apply Hf in E. subst x.
    apply in_map_iff in Hx. destruct Hx as (s & E & Hs). apply ascii_string in E. now subst.
Qed.

Lemma checkUID_nil : forall u, checkUID u = [] <-> forall id, In id (opt u) -> ~ reserved_uid id.
Proof.
  intros [i|]; cbn [checkUID opt In]; [|easy].
  unfold uid_reserved. rewrite map_filter_nil, (reserved_none (ID_UPR i)).
  - unfold reserved_uid. split; [intros H id [<-|[]]; exact H|auto].
  - intros r. rewrite STReq_lwr. split; congruence.
Qed.

(** * Distinct names through a table *)

Definition taken {V} (t : list (ident * V)) (id : ident) : bool :=
  match STlookup t id with Some _ => true | None => false end.

Lemma taken_iff : forall V (t : list (ident * V)) id,
  taken t id = true <-> In (ID_LWR id) (map (fun e => ID_LWR (fst e)) t).
Proof.
  intros V t id. unfold taken. destruct (STlookup t id) eqn:E.
  - split; [|easy]. intros _. destruct (STlookup_some _ _ _ _ E) as (k & Hk & Ek).
    rewrite <- Ek. apply (in_map (fun e => ID_LWR (fst e)) _ _ Hk).
  - apply STlookup_none in E. split; easy.
Qed.

(** the names of [l] are new for [t] and distinct *)
Definition fresh {V} (t : list (ident * V)) (l : list ident) : Prop :=
  distinct_names l /\ forall id, In id l -> taken t id = false.

Lemma fresh_nil : forall V (t : list (ident * V)), fresh t [].
Proof. intros. split; [constructor|easy]. Qed.

Lemma fresh_cons : forall V (t : list (ident * V)) x v l,
  fresh t (x :: l) <-> taken t x = false /\ fresh (STadd t x v) l.
Proof.
  intros V t x v l. unfold fresh, distinct_names. cbn [map].
  assert (A : forall id, taken (STadd t x v) id = false <-> ID_LWR x <> ID_LWR id /\ taken t id = false).
  { intros id. unfold taken, STadd. cbn [STlookup].
    destruct (STReq _ _) eqn:E.
    - apply STReq_lwr in E. split; [easy|tauto].
    - split; [|easy]. intros H. split; [|exact H]. intros C. apply STReq_lwr in C. congruence. }
  split.
  - intros [H1 H2]. inversion H1 as [|? ? N1 N2]; subst. split; [apply H2; cbn; auto|].
    split; [assumption|]. intros id Hid. apply A. split; [|apply H2; cbn; auto].
    intros C. apply N1. rewrite C. now apply in_map.
  - intros (H1 & H2 & H3). split.
    + constructor; [|assumption]. intros C. apply in_map_iff in C. destruct C as (y & E & Hy).
      apply H3, A in Hy. destruct Hy as [Hy _]. congruence.
    + intros id [<-|Hid]; [assumption|]. now apply H3, A in Hid.
Qed.

Lemma fresh_empty : forall V l, fresh (@nil (ident * V)) l <-> distinct_names l.
Proof. intros V l. split; [now intros []|]. intros H. split; [assumption|reflexivity]. Qed.

Lemma if_nil : forall A (b : bool) (x : A), (if b then [x] else []) = [] <-> b = false.
Proof. intros A [] x; easy. Qed.

Section Walk.
  Variable a : ast.
  Variable ste : list (ident * decl).
  Hypothesis Hste : BSTast a = Val ste.

  Lemma look : forall id d, STlookup ste id = Some d <-> names a id d.
  Proof. intros id d. exact (BSTast_lookup a ste id d Hste). Qed.

  Lemma names_fun : forall id d e, names a id d -> names a id e -> d = e.
  Proof. intros id d e H1 H2. apply look in H1, H2. congruence. Qed.

  (** ** Phases *)

  Lemma CEXiactions_nil : forall l,
    CEXiactions ste l = [] <-> forall id, In id l -> is_declared a id.
  Proof.
    intros l. unfold CEXiactions. rewrite flat_map_nil_iff. split.
    - intros H id Hid. apply in_rev in Hid. specialize (H id Hid). cbn beta in H.
      destruct (STlookup ste id) as [d|] eqn:E; [|discriminate]. exists d. now apply look.
    - intros H id Hid. apply in_rev in Hid. destruct (H id Hid) as [d Hd]. apply look in Hd.
      now rewrite Hd.
  Qed.

  Lemma count_cons : forall A (f : A -> bool) x l,
    length (filter f (x :: l)) = (if f x then 1 else 0) + length (filter f l).
  Proof. intros A f x l. cbn [filter]. destruct (f x); reflexivity. Qed.

  Lemma CEXiphases_nil : forall l seen,
    CEXiphases ste seen l = [] <->
    (forall p id, In p l -> In id (ph_actions p) -> is_declared a id) /\
    (forall p id, In p l -> In id (opt (ph_uid p)) -> ~ reserved_uid id) /\
    (if seen then 1 else 0) + length (filter ph_is_start l) <= 1.
  Proof.
    induction l as [|p l IH]; intros seen.
    - cbn. split; [|easy]. intros _. repeat split; try easy. destruct seen; lia.
    - cbn [CEXiphases]. rewrite !app_nil_iff, checkUID_nil, if_nil, CEXiactions_nil, IH, count_cons.
      assert (Z : ph_is_start p && seen = false /\
                  (if seen || ph_is_start p then 1 else 0) + length (filter ph_is_start l) <= 1 <->
                  (if seen then 1 else 0) + ((if ph_is_start p then 1 else 0)
                     + length (filter ph_is_start l)) <= 1).
      { destruct seen, (ph_is_start p); cbn; split; intros; try lia; try split; try lia; try easy. }
      rewrite <- Z. cbn [In]. split.
      + intros (H1 & H2 & H3 & H4 & H5 & H6). repeat split; auto.
        * intros q id [<-|Hq]; eauto.
        * intros q id [<-|Hq]; eauto.
      + intros (H1 & H2 & H3 & H4). repeat split; eauto.
  Qed.

  (** ** Set expressions *)

  Lemma CEXsetliteral_nil : forall l,
    CEXsetliteral ste l = [] <-> forall id, In id (listed l) -> is_node a id.
  Proof.
    induction l as [|r x IHx y IHy]; cbn [CEXsetliteral listed].
    - split; [easy|reflexivity].
    - rewrite !app_nil_iff, IHx, IHy.
      assert (N : match STlookup ste r with
                  | None => [UnknownSetMember r] | Some (DNode _) => [] | Some _ => [NotANode r]
                  end = [] <-> is_node a r).
      { split.
        - intros H. destruct (STlookup ste r) as [[]|] eqn:E; try discriminate.
          eexists. apply look. exact E.
        - intros [n Hn]. apply look in Hn. now rewrite Hn. }
      rewrite N. clear N. split.
      + intros (H1 & H2 & H3) id. rewrite ?in_app_iff. cbn [In]. rewrite ?in_app_iff.
        intuition (subst; auto).
      + intros H. repeat split; [|intros id Hid..]; apply H; rewrite ?in_app_iff; cbn [In];
          rewrite ?in_app_iff; auto.
  Qed.

  Lemma CEXsetexpr_nil : forall e, CEXsetexpr ste e = [] <-> good_setexpr a e.
  Proof.
    unfold good_setexpr. induction e as [l|r|o x IHx y IHy]; cbn [CEXsetexpr references members].
    - rewrite CEXsetliteral_nil. split; [intros H; split; [easy|assumption]|tauto].
    - split.
      + intros H. split; [|easy]. intros id [<-|[]].
        destruct (STlookup ste r) as [[]|] eqn:E; try discriminate.
        eexists. apply look. exact E.
      + intros [H _]. destruct (H r (or_introl eq_refl)) as [n Hn]. apply look in Hn. now rewrite Hn.
    - rewrite app_nil_iff, IHx, IHy. split.
      + intros ((H1 & H2) & H3 & H4). split; intros id Hid; apply in_app_iff in Hid; destruct Hid; auto.
      + intros (H1 & H2). repeat split; intros id Hid; [apply H1|apply H2|apply H1|apply H2];
          apply in_app_iff; auto.
  Qed.

  (** ** Traversals *)

  Lemma type_found : forall r,
    (exists id, r = Some id /\ (is_node a id \/ is_nodeset a id \/ is_enum a id)) <->
    match lookup_type ste r with
    | Some (DNode _) | Some (DNodeset _) | Some (DEnum _) => True | _ => False end.
  Proof.
    intros r. split.
    - intros (id & -> & H). cbn [lookup_type].
      destruct H as [[n Hn]|[[n Hn]|[n Hn]]]; apply look in Hn; now rewrite Hn.
    - intros H. destruct r as [id|]; cbn [lookup_type] in H; [|easy]. exists id. split; [easy|].
      destruct (STlookup ste id) as [[]|] eqn:E; try easy; apply look in E;
        [left|right; left|right; right]; eexists; exact E.
  Qed.

  Lemma CEXitravdata_nil : forall l t,
    CEXitravdata ste t l = [] <->
    fresh t (map td_name l) /\ forall d, In d l -> good_type a (td_type d) (td_type_reference d).
  Proof.
    induction l as [|d l IH]; intros t; cbn [CEXitravdata].
    - split; [|easy]. intros _. split; [apply fresh_nil|easy].
    - fold (taken t (td_name d)). rewrite !app_nil_iff, if_nil. cbn [map].
      rewrite (fresh_cons _ t (td_name d) (td_name d)).
      assert (T : match td_type d with
         | AT_link_or_enum =>
             match lookup_type ste (td_type_reference d) with
             | Some (DNode _) | Some (DNodeset _) | Some (DEnum _) => []
             | _ => [TravdataType (td_type_reference d)]
             end
         | _ => []
         end = [] <-> good_type a (td_type d) (td_type_reference d)).
      { unfold good_type. destruct (td_type d); try (split; [easy|reflexivity]).
        rewrite type_found. destruct (lookup_type ste (td_type_reference d)) as [[]|];
          split; try easy; intros H; now destruct (H eq_refl). }
      rewrite T. clear T. split.
      + intros (H1 & H2 & H3). rewrite H1 in H3. apply IH in H3. destruct H3 as [H3 H4].
        repeat split; auto; [apply H3..|]. intros e [<-|He]; auto.
      + intros ((H1 & H2) & H3). rewrite H1. split; [easy|]. split; [apply H3; cbn; auto|].
        apply IH. split; [assumption|]. intros e He. apply H3. cbn; auto.
  Qed.

  Lemma CEXitraversal_nil : forall t,
    CEXitraversal ste t = [] <->
    (forall id, In id (opt (tv_uid t)) -> ~ reserved_uid id) /\
    (forall e, tv_nodes t = Some e -> good_setexpr a e) /\
    distinct_names (map td_name (tv_data t)) /\
    forall d, In d (tv_data t) -> good_type a (td_type d) (td_type_reference d).
  Proof.
    intros t. unfold CEXitraversal. rewrite !app_nil_iff, checkUID_nil, CEXitravdata_nil, fresh_empty.
    assert (N : match tv_nodes t with Some e => CEXsetexpr ste e | None => [] end = [] <->
                forall e, tv_nodes t = Some e -> good_setexpr a e).
    { destruct (tv_nodes t) as [e|]; [|split; easy]. rewrite CEXsetexpr_nil.
      split; [intros H e' E; injection E as <-; exact H|auto]. }
    rewrite N. tauto.
  Qed.

  (** ** Nodes *)

  Lemma attribute_type_nil : forall x,
    match at_type x with
    | AT_link_or_enum =>
        match lookup_type ste (at_type_reference x) with
        | None => [UnknownAttributeType (at_type_reference x)]
        | Some (DNode _) | Some (DNodeset _) | Some (DEnum _) => []
        | Some _ => [WrongAttributeType (at_type_reference x)]
        end
    | _ => []
    end = [] <-> good_type a (at_type x) (at_type_reference x).
  Proof.
    intros x. unfold good_type. destruct (at_type x); try (split; [easy|reflexivity]).
    rewrite type_found. destruct (lookup_type ste (at_type_reference x)) as [[]|];
      split; try easy; intros H; now destruct (H eq_refl).
  Qed.

  Lemma CEXattribute_nil : forall l t,
    fst (CEXattribute ste t l) = [] <->
    fresh t (map at_name l) /\ forall x, In x l -> good_type a (at_type x) (at_type_reference x).
  Proof.
    induction l as [|x l IH]; intros t; cbn [CEXattribute].
    - split; [|easy]. intros _. split; [apply fresh_nil|easy].
    - fold (taken t (at_name x)). cbn [fst]. rewrite !app_nil_iff, if_nil, attribute_type_nil. cbn [map].
      rewrite (fresh_cons _ t (at_name x) tt). split.
      + intros (H1 & H2 & H3). rewrite H1 in H3. apply IH in H3. destruct H3 as [H3 H4].
        repeat split; auto; [apply H3..|]. intros e [<-|He]; auto.
      + intros ((H1 & H2) & H3). rewrite H1. split; [easy|]. split; [apply H3; cbn; auto|].
        apply IH. split; [assumption|]. intros e He. apply H3. cbn; auto.
  Qed.

  Lemma fresh_attributes : forall l t m,
    fst (CEXattribute ste t l) = [] ->
    (fresh (snd (CEXattribute ste t l)) m <-> fresh t (map at_name l ++ m)) .
  Proof.
    induction l as [|x l IH]; intros t m; cbn [CEXattribute]; [easy|].
    fold (taken t (at_name x)). cbn [fst snd]. rewrite !app_nil_iff, if_nil. intros (H1 & H2 & H3).
    rewrite H1 in H3 |- *. rewrite IH by assumption. cbn [map app].
    rewrite (fresh_cons _ t (at_name x) tt). tauto.
  Qed.

  Lemma CEXchild_nil : forall l t,
    CEXchild ste t l = [] <->
    fresh t (map ch_name l) /\
    forall c, In c l -> is_node a (ch_type c) \/ is_nodeset a (ch_type c).
  Proof.
    induction l as [|c l IH]; intros t; cbn [CEXchild].
    - split; [|easy]. intros _. split; [apply fresh_nil|easy].
    - fold (taken t (ch_name c)).
      assert (T : (is_node a (ch_type c) \/ is_nodeset a (ch_type c)) <->
                  match STlookup ste (ch_type c) with
                  | Some (DNode _) | Some (DNodeset _) => True | _ => False end).
      { split.
        - intros [[n Hn]|[n Hn]]; apply look in Hn; now rewrite Hn.
        - intros H. destruct (STlookup ste (ch_type c)) as [[]|] eqn:E; try easy; apply look in E;
            [left|right]; eexists; exact E. }
      cbn [map]. rewrite (fresh_cons _ t (ch_name c) tt).
      destruct (STlookup ste (ch_type c)) as [d|] eqn:E.
      + rewrite !app_nil_iff, if_nil.
        assert (D : (match d with DNode _ | DNodeset _ => [] | _ => [WrongChildType (ch_type c)] end = [])
                    <-> (is_node a (ch_type c) \/ is_nodeset a (ch_type c))).
        { rewrite T. destruct d; split; easy. }
        rewrite D. split.
        * intros (H1 & H2 & H3). rewrite H2 in H3. apply IH in H3. destruct H3 as [H3 H4].
          repeat split; auto; [apply H3..|]. intros e [<-|He]; auto.
        * intros ((H1 & H2) & H3). rewrite H1. split; [apply H3; cbn; auto|]. split; [easy|].
          apply IH. split; [assumption|]. intros e He. apply H3. cbn; auto.
      + split; [discriminate|]. intros (_ & H). exfalso. apply T. apply H. cbn; auto.
  Qed.

  Definition good_node (n : inode) : Prop :=
    string_of_list_ascii (ID_LWR (nd_name n)) <> "node" /\
    distinct_names (map at_name (nd_attributes n) ++ map ch_name (nd_children n)) /\
    (forall c, In c (nd_children n) -> is_node a (ch_type c) \/ is_nodeset a (ch_type c)) /\
    (forall x, In x (nd_attributes n) -> good_type a (at_type x) (at_type_reference x)).

  Lemma node_name_nil : forall n,
    STReq (Some (ID_LWR (nd_name n))) (Some (list_ascii_of_string "node")) = false <->
    string_of_list_ascii (ID_LWR (nd_name n)) <> "node".
  Proof.
    intros n. assert (E := STReq_lwr (ID_LWR (nd_name n)) (list_ascii_of_string "node")).
    destruct (STReq _ _).
    - split; [easy|]. intros H. exfalso. apply H. symmetry. apply ascii_string.
      symmetry. now apply E.
    - split; [|easy]. intros _ C. assert (X : false = true); [|discriminate].
      apply E. rewrite <- C. symmetry. apply list_ascii_of_string_of_list_ascii.
  Qed.

  Lemma distinct_app_l : forall l m, distinct_names (l ++ m) -> distinct_names l.
  Proof.
    unfold distinct_names. intros l m. rewrite map_app.
    generalize (map ID_LWR l) (map ID_LWR m). clear. intros l m.
    induction l as [|x l IH]; cbn; intros H; [constructor|].
    inversion H as [|? ? N1 N2]; subst. constructor; [|auto].
    intros C. apply N1. apply in_app_iff. auto.
  Qed.

  Lemma members_nil : forall n,
    (fst (CEXattribute ste [] (nd_attributes n)) ++
     CEXchild ste (snd (CEXattribute ste [] (nd_attributes n))) (nd_children n)) = [] <->
    distinct_names (map at_name (nd_attributes n) ++ map ch_name (nd_children n)) /\
    (forall c, In c (nd_children n) -> is_node a (ch_type c) \/ is_nodeset a (ch_type c)) /\
    (forall x, In x (nd_attributes n) -> good_type a (at_type x) (at_type_reference x)).
  Proof.
    intros n. rewrite app_nil_iff, CEXchild_nil. split.
    - intros (H1 & H2 & H3). apply (fresh_attributes _ _ _ H1) in H2. apply fresh_empty in H2.
      apply CEXattribute_nil in H1. destruct H1 as [_ H1]. auto.
    - intros (H1 & H2 & H3).
      assert (E : fst (CEXattribute ste [] (nd_attributes n)) = []).
      { apply CEXattribute_nil. split; [|assumption]. apply fresh_empty. eapply distinct_app_l. exact H1. }
      split; [assumption|]. split; [|assumption]. apply fresh_attributes; [assumption|]. now apply fresh_empty.
  Qed.

  Lemma CEXinodes_nil : forall l seen,
    CEXinodes ste seen l = [] <->
    (forall n, In n l -> good_node n) /\
    (if seen then 1 else 0) + length (filter nd_is_root l) <= 1.
  Proof.
    induction l as [|n l IH]; intros seen.
    - cbn. split; [|easy]. intros _. split; [easy|]. destruct seen; lia.
    - cbn [CEXinodes].
      rewrite (app_nil_iff _ (if STReq _ _ then _ else _)), (app_nil_iff _ (if _ && _ then _ else _)).
      rewrite (app_nil_iff _ _ (CEXinodes _ _ _)).
      rewrite members_nil, !if_nil, node_name_nil, IH, count_cons.
      assert (Z : nd_is_root n && seen = false /\
                  (if seen || nd_is_root n then 1 else 0) + length (filter nd_is_root l) <= 1 <->
                  (if seen then 1 else 0) + ((if nd_is_root n then 1 else 0)
                     + length (filter nd_is_root l)) <= 1).
      { destruct seen, (nd_is_root n); cbn; split; intros; try lia; try split; try lia; try easy. }
      rewrite <- Z. cbn [In]. split.
      + intros (H1 & H2 & H3 & H4 & H5). repeat split; auto;
          destruct H as [<-|H]; try apply H3; auto; now apply H4.
      + intros (H1 & H2 & H3). destruct (H1 n (or_introl eq_refl)) as (G1 & G2 & G3 & G4).
        split; [exact G1|]. split; [exact H2|]. split; [auto|]. split; [|exact H3].
        intros m Hm. apply H1. auto.
  Qed.

  Lemma CEXinodeset_nil : forall n,
    CEXinodeset ste n = [] <->
    good_setexpr a (ns_expr n) /\ distinct_names (map at_name (ns_attributes n)) /\
    forall x, In x (ns_attributes n) -> good_type a (at_type x) (at_type_reference x).
  Proof.
    intros n. unfold CEXinodeset. rewrite app_nil_iff, CEXattribute_nil, CEXsetexpr_nil, fresh_empty. tauto.
  Qed.

  Lemma CEXienums_nil : forall l t,
    CEXienums t l = [] <->
    fresh t (map en_prefix l) /\ forall e, In e l -> ~ reserved_prefix (en_prefix e).
  Proof.
    induction l as [|e l IH]; intros t; cbn [CEXienums].
    - split; [|easy]. intros _. split; [apply fresh_nil|easy].
    - fold (taken t (en_prefix e)). cbn [map]. rewrite !app_nil_iff, if_nil.
      unfold preserved_enum_prefix at 1. rewrite map_filter_nil, (reserved_none (ID_UPR (en_prefix e))).
      2:{ intros r. apply STReq_lwr. }
      fold (reserved_prefix (en_prefix e)).
      rewrite (fresh_cons _ t (en_prefix e) tt). split.
      + intros (H1 & H2 & H3). rewrite H2 in H3. apply IH in H3. destruct H3 as [H3 H4].
        repeat split; auto; [apply H3..|]. intros x [<-|He]; auto.
      + intros ((H1 & H2) & H3). rewrite H1. split; [apply H3; cbn; auto|]. split; [easy|].
        apply IH. split; [assumption|]. intros x He. apply H3. cbn; auto.
  Qed.

  Lemma CEXwalk_nil : CEXwalk ste a = [] <-> obeys_rules a.
  Proof.
    unfold CEXwalk.
    rewrite !app_nil_iff, CEXiphases_nil, !flat_map_nil_iff, CEXinodes_nil, CEXienums_nil, fresh_empty.
    split.
    - intros ((P1 & P2 & P3) & T & S & (N1 & N2) & NS & E1 & E2).
      assert (T' := fun t H => proj1 (CEXitraversal_nil t) (T t H)).
      assert (NS' := fun n H => proj1 (CEXinodeset_nil n) (NS n H)).
      assert (S' := fun p H => proj1 (checkUID_nil (ps_uid p)) (S p H)).
      constructor; auto.
      + intros id Hid. unfold uids in Hid. rewrite !in_app_iff, !in_flat_map in Hid.
        destruct Hid as [(p & H1 & H2)|[(p & H1 & H2)|(p & H1 & H2)]].
        * eapply P2; eassumption.
        * exact (proj1 (T' p H1) id H2).
        * exact (S' p H1 id H2).
      + intros t e H1 H2. exact (proj1 (proj2 (T' t H1)) e H2).
      + intros t H. exact (proj2 (proj2 (T' t H))).
      + intros n H. exact (proj1 (N1 n H)).
      + intros n H. exact (proj1 (proj2 (N1 n H))).
      + intros n c H. exact (proj1 (proj2 (proj2 (N1 n H))) c).
      + intros n x H. exact (proj2 (proj2 (proj2 (N1 n H))) x).
      + intros n H. exact (proj1 (NS' n H)).
      + intros n H. exact (proj2 (NS' n H)).
    - intros [R1 R2 R3 R4 R5 R6 R7 R8 R9 R10 R11 R12 R13 R14].
      assert (U : forall id, In id (flat_map (fun p => opt (ph_uid p)) (a_phases a)) \/
                  In id (flat_map (fun t => opt (tv_uid t)) (a_traversals a)) \/
                  In id (flat_map (fun p => opt (ps_uid p)) (a_passes a)) -> ~ reserved_uid id).
      { intros id H. apply R2. unfold uids. rewrite !in_app_iff. tauto. }
      split; [repeat split; auto|].
      { intros p id H1 H2. apply U. left. apply in_flat_map. eauto. }
      split; [|split; [|split; [|split; [|split]]]]; auto.
      + intros t Ht. apply CEXitraversal_nil. split; [|split; [|apply R6; assumption]].
        * intros id Hid. apply U. right. left. apply in_flat_map. eauto.
        * intros e. now apply R5.
      + intros p Hp. apply checkUID_nil. intros id Hid. apply U. right. right. apply in_flat_map. eauto.
      + split; [|exact R4]. intros n Hn. repeat split; auto.
        * intros c. now apply R9.
        * intros x. now apply (R10 n).
      + intros n Hn. apply CEXinodeset_nil. split; [auto|]. now apply R12.
  Qed.
End Walk.

Theorem check_names_accepts : forall a,
  (is_val (check_names a) = true <->
   distinct_names (all_names a) /\ distinct_names (pass_functions a) /\ obeys_rules a) /\
  (distinct_names (pass_functions a) -> is_val (check_names a) = false -> check_names a = Exited).
Proof.
  intros a. unfold check_names.
  destruct (BSTast_accepts a) as (B1 & B2 & B3).
  destruct (BSTast a) as [ste| | | |] eqn:E; cbn [bind].
  - unfold CEXast. assert (W := CEXwalk_nil a ste E).
    assert (D : distinct_names (all_names a) /\ distinct_names (pass_functions a)) by (apply B1; eauto).
    destruct (CEXwalk ste a) as [|x l]; cbn [bind is_val].
    + split; [|discriminate]. split; [|reflexivity]. intros _. destruct D. split; [assumption|]. split; [assumption|]. now apply W.
    + split; [|reflexivity]. split; [discriminate|]. intros (_ & _ & R). apply W in R. discriminate.
  - assert (D := proj1 B3 eq_refl). cbn [is_val]. split; [|contradiction]. split; [discriminate|]. intros (_ & H & _). contradiction.
  - exfalso. revert E. clear. unfold BSTast. destruct (dup_names (BSTwalk a)), (dup_funcs (BSTwalk a)); discriminate.
  - cbn [is_val]. split; [|reflexivity]. split; [discriminate|]. intros (H1 & H2 & _).
    exfalso. now apply (proj1 B2 eq_refl).
  - exfalso. revert E. clear. unfold BSTast. destruct (dup_names (BSTwalk a)), (dup_funcs (BSTwalk a)); discriminate.
Qed.
