(** Proofs: types of children, and running the check over a tree. *)

From Coq Require Import List Ascii NArith Bool Lia Arith.
From Verif Require Import Base.Outcome Palm.StrModel Front.Syntax Front.SetsModel Front.SetsSpec
  Front.SetsProof Front.SymbolTableModel Front.SymbolTableSpec Front.SymbolTableProof
  Front.CheckExistanceModel Front.CheckExistanceSpec Front.CheckExistanceProof
  Front.NodesetPassesProof
  Front.LifetimesModel Front.LifetimesSpec Front.LifetimesProof
  Copra.TravModel Copra.TravSpec Copra.TravProof Gen.CheckModel Gen.CheckSpec Gen.CheckProof
  Gen.CheckWhole.
Import ListNotations.
Local Open Scope N_scope.

(** ** The numbers of node types *)

Lemma NT_from_spec : forall id l p j m,
  NoDup (map (fun n => ID_LWR (nd_name n)) l) -> nth_error l j = Some m ->
  (NT_from (S p) l id = S (p + j) <-> ID_LWR (nd_name m) = ID_LWR id).
Proof.
  intros id. induction l as [|n l IH]; intros p j m U Hj; [now destruct j|].
  cbn [map] in U. inversion U as [|? ? N1 N2]; subst. cbn [NT_from].
  destruct (STReq (Some (ID_UPR (nd_name n))) (Some (ID_UPR id))) eqn:E.
  - apply STReq_lwr, case_classes in E. destruct j as [|j]; cbn [nth_error] in Hj.
    + injection Hj as <-. rewrite Nat.add_0_r. split; auto.
    + split; [intros C; exfalso; lia|]. intros C. exfalso. apply N1. rewrite E, <- C.
      apply (in_map (fun n => ID_LWR (nd_name n))). eapply nth_error_In; eauto.
  - destruct j as [|j]; cbn [nth_error] in Hj.
    + injection Hj as <-. split.
      * rewrite Nat.add_0_r. intros C. exfalso.
        assert (K : forall l q, NT_from (S q) l id = O \/ (q < NT_from (S q) l id)%nat).
        { clear. induction l as [|x l IH]; intros q; cbn [NT_from]; [auto|].
          destruct (STReq _ _); [right; lia|]. destruct (IH (S q)); [auto|right; lia]. }
        destruct (K l (S p)); lia.
      * intros C. exfalso. apply case_classes in C.
        assert (X : STReq (Some (ID_UPR (nd_name n))) (Some (ID_UPR id)) = true) by now apply STReq_lwr.
        congruence.
    + rewrite <- (IH (S p) j m N2 Hj). rewrite Nat.add_succ_r. reflexivity.
Qed.

Lemma literal_types : forall nodes l, DGCHTsetliteral nodes l = map (NT nodes) (listed l).
Proof.
  intros nodes. induction l as [|r x IHx y IHy]; [reflexivity|].
  cbn [DGCHTsetliteral listed map]. now rewrite map_app, IHx, IHy.
Qed.

Lemma TypeIs_in : forall nodes id nss ls x,
  In x (TypeIs nodes (combine (map ns_name nss) ls) id) ->
  exists k m l, nth_error nss k = Some m /\ nth_error ls k = Some l /\
    ID_LWR (ns_name m) = ID_LWR id /\ In x (DGCHTsetliteral nodes l).
Proof.
  intros nodes id. induction nss as [|m nss IH]; intros [|l ls] x H; try easy.
  cbn [map combine TypeIs] in H.
  destruct (STReq _ _) eqn:E.
  - apply STReq_lwr in E. exists O, m, l. auto.
  - destruct (IH ls x H) as (k & m' & l' & H1 & H2 & H3). exists (S k), m', l'. auto.
Qed.

Lemma TypeIs_at : forall nodes id nss ls k m l,
  names_unique nss -> nth_error nss k = Some m -> nth_error ls k = Some l ->
  ID_LWR (ns_name m) = ID_LWR id ->
  TypeIs nodes (combine (map ns_name nss) ls) id = DGCHTsetliteral nodes l.
Proof.
  intros nodes id. induction nss as [|n nss IH]; intros [|l0 ls] k m l U Hk Hl E; try (now destruct k).
  unfold names_unique in U. cbn [map] in U. inversion U as [|? ? N1 N2]; subst.
  cbn [map combine TypeIs]. destruct k as [|k]; cbn [nth_error] in *.
  - injection Hk as <-. injection Hl as <-.
    assert (X : STReq (Some (ID_LWR (ns_name n))) (Some (ID_LWR id)) = true) by now apply STReq_lwr.
    now rewrite X.
  - destruct (STReq (Some (ID_LWR (ns_name n))) (Some (ID_LWR id))) eqn:X.
    + apply STReq_lwr in X. exfalso. apply N1. rewrite X, <- E.
      apply (in_map (fun n => ID_LWR (ns_name n))). eapply nth_error_In; eauto.
    + eapply IH; eauto.
Qed.

Lemma Forall2_nth : forall A B (R : A -> B -> Prop) l m k x,
  Forall2 R l m -> nth_error l k = Some x -> exists y, nth_error m k = Some y /\ R x y.
Proof.
  intros A B R l m k x H. revert k. induction H as [|a b l m Hab H IH]; intros k Hk; [now destruct k|].
  destruct k as [|k]; cbn [nth_error] in *; [injection Hk as <-; eauto|auto].
Qed.

Section Types.
  Variable a : ast.
  Variable ste : list (ident * decl).
  Variable a0 : ast.
  Hypothesis names_ok : check_names a0 = Val ste.
  Hypothesis same : same_names a a0.
  Hypothesis parsed : parsed_ast a.
  Variable ts : list (option literal).
  Variable ls : list literal.
  Hypothesis unwrapped : unwrap a = Val (ts, ls).
  Definition evaluated_sets := combine (map ns_name (a_nodesets a)) ls.

  Lemma unique : NoDup (map (fun n => ID_LWR (nd_name n)) (a_nodes a)) /\ names_unique (a_nodesets a).
  Proof.
    assert (K : NoDup (map (fun n => ID_LWR (nd_name n)) (a_nodes a0)) /\ names_unique (a_nodesets a0))
      by (apply declared_distinct; apply (rules ste a0 names_ok)).
    destruct same as (_ & E1 & E2). unfold names_unique in *.
    rewrite <- (map_map nd_name ID_LWR), <- (map_map ns_name ID_LWR), E1, E2, !map_map. exact K.
  Qed.

  Lemma NT_spec : forall id j m, nth_error (a_nodes a) j = Some m ->
    (NT (a_nodes a) id = S j <-> ID_LWR (nd_name m) = ID_LWR id).
  Proof. intros id j m Hj. exact (NT_from_spec id (a_nodes a) 0 j m (proj1 unique) Hj). Qed.

  Lemma is_inode_spec : forall id, is_inode (a_nodes a) id = true <->
    exists n, In n (a_nodes a) /\ ID_LWR (nd_name n) = ID_LWR id.
  Proof.
    intros id. unfold is_inode. rewrite existsb_exists. split; intros (n & H1 & H2); exists n; split; auto.
    - now apply STReq_lwr in H2.
    - now apply STReq_lwr.
  Qed.

  Lemma not_both : forall n m, In n (a_nodes a) -> In m (a_nodesets a) ->
    ID_LWR (nd_name n) <> ID_LWR (ns_name m).
  Proof.
    intros n' m' Hn' Hm' E'. destruct same as (_ & E1 & E2).
    assert (X1 : In (nd_name n') (map nd_name (a_nodes a0))) by (rewrite <- E1; apply in_map, Hn').
    assert (X2 : In (ns_name m') (map ns_name (a_nodesets a0))) by (rewrite <- E2; apply in_map, Hm').
    apply in_map_iff in X1. destruct X1 as (n & N1 & Hn). apply in_map_iff in X2. destruct X2 as (m & N2 & Hm).
    assert (E : ID_LWR (nd_name n) = ID_LWR (ns_name m)) by congruence. clear E'.
    assert (K1 : names a0 (nd_name n) (DNode n)).
    { split; [|exists (nd_name n); split; [now left|reflexivity]].
      unfold declarations. rewrite !in_app_iff. do 3 right. left. now apply in_map. }
    assert (K2 : names a0 (nd_name n) (DNodeset m)).
    { split; [|exists (ns_name m); split; [now left|easy]].
      unfold declarations. rewrite !in_app_iff. do 4 right. left. now apply in_map. }
    apply (ste_lookup ste a0 names_ok) in K1. apply (ste_lookup ste a0 names_ok) in K2. congruence.
  Qed.

  Theorem types_right : forall c j m, nth_error (a_nodes a) j = Some m ->
    (existsb (Nat.eqb (S j)) (types_of (a_nodes a) evaluated_sets c) = true <-> may_be a c m).
  Proof.
    intros c j m Hj.
    assert (X : forall l, existsb (Nat.eqb (S j)) l = true <-> In (S j) l).
    { intros l. rewrite existsb_exists. split.
      - intros (x & H & E). apply Nat.eqb_eq in E. now subst.
      - intros H. exists (S j). split; [exact H|apply Nat.eqb_refl]. }
    rewrite X. unfold types_of, may_be. assert (Hm := nth_error_In _ _ Hj).
    destruct (is_inode (a_nodes a) (ch_type c)) eqn:I.
    - apply is_inode_spec in I. destruct I as (n & Hn & En). cbn [In]. split.
      + intros [E|[]]. left. now apply (NT_spec _ j m Hj).
      + intros [E|(q & S & Hq & Eq & _)].
        * left. now apply (NT_spec _ j m Hj).
        * exfalso. apply (not_both n q Hn Hq). congruence.
    - destruct (unwrap_right a ts ls parsed unwrapped) as [F _].
      assert (L : forall l, In (S j) (DGCHTsetliteral (a_nodes a) l) <-> names_in l (ID_LWR (nd_name m))).
      { intros l. rewrite literal_types. unfold names_in. rewrite !in_map_iff.
        split; intros (r & E & H); exists r; split; auto.
        - symmetry. now apply (NT_spec r j m Hj).
        - now apply (NT_spec r j m Hj). }
      split.
      + intros H. right. unfold evaluated_sets in H. apply TypeIs_in in H.
        destruct H as (k & q & l & Hk & Hl & Eq & H).
        destruct (Forall2_nth _ _ _ _ _ _ _ F Hk) as (l' & Hl' & [D _]).
        rewrite Hl in Hl'. injection Hl' as <-.
        exists q, (names_in l). split; [eapply nth_error_In; eauto|]. split; [exact Eq|].
        split; [exact D|]. now apply L.
      + intros [E|(q & S & Hq & Eq & D & H)].
        * exfalso. assert (C : is_inode (a_nodes a) (ch_type c) = true).
          { apply is_inode_spec. eauto. } congruence.
        * destruct (In_nth_error _ _ Hq) as (k & Hk).
          destruct (Forall2_nth _ _ _ _ _ _ _ F Hk) as (l & Hl & [D' _]).
          unfold evaluated_sets. rewrite (TypeIs_at _ _ _ _ _ _ _ (proj2 unique) Hk Hl Eq).
          apply L. now apply (denotes_unique _ _ _ _ (proj2 unique) D D').
  Qed.
End Types.

(** ** Running the check *)

Section Run.
  Variable a : ast.
  Variable bodies : list (list stmt).
  Variable id : N.
  Hypothesis complete : length bodies = length (a_nodes a).
  (** Only nodes with children have a call of TRAVchildren. *)
  Hypothesis calls : forall i n b, nth_error (a_nodes a) i = Some n -> nth_error bodies i = Some b ->
    existsb is_trav b = match nd_children n with [] => false | _ => true end.

  Fixpoint messages (t : ctree) : list message :=
    match t with
    | Node ty attrs kids =>
        block id t (nth (Nat.pred ty) bodies []) ++
        (fix all (ks : list (option ctree)) : list message :=
           match ks with
           | [] => []
           | None :: ks => all ks
           | Some k :: ks => messages k ++ all ks
           end) kids
    end.
  Definition messages_of (ks : list (option ctree)) : list message :=
    flat_map (fun k => match k with None => [] | Some k => messages k end) ks.

  Lemma messages_eq : forall ty attrs kids, messages (Node ty attrs kids) =
    block id (Node ty attrs kids) (nth (Nat.pred ty) bodies []) ++ messages_of kids.
  Proof.
    intros. cbn [messages]. f_equal. unfold messages_of.
    induction kids as [|[k|] kids IH]; cbn [flat_map]; [reflexivity| |exact IH].
    now rewrite IH.
  Qed.

  Lemma shaped_kid : forall ty attrs kids k, shaped a (Node ty attrs kids) -> In (Some k) kids -> shaped a k.
  Proof. intros ty attrs kids k H Hk ty' attrs' kids' W. apply H. econstructor; eauto. Qed.

  Lemma run_check : forall t fuel s w trav rest, shaped a t -> (height t <= fuel)%nat ->
    stack s = trav :: rest ->
    exists s', TRAVdo (check_vtable bodies) (check_user bodies id) fuel s w t =
                 Val (s', w ++ messages t, Some t) /\ stack s' = stack s.
  Proof.
    intros t. induction t as [ty attrs kids IH] using tree_ind'; intros fuel s w trav rest Sh Hf Hs.
    destruct fuel as [|fuel]; [cbn in Hf; lia|].
    destruct (Sh _ _ _ (in_root _)) as (n & (i & Ei & Hn) & Lk & _). cbn [node_type] in Ei. subst ty.
    assert (Li : (i < length bodies)%nat) by (rewrite complete; apply nth_error_Some; congruence).
    cbn [TRAVdo node_type check_vtable]. rewrite Hs.
    assert (B : (i <? length bodies)%nat = true) by now apply Nat.ltb_lt.
    rewrite B.
    assert (Nb := nth_error_nth' bodies [] Li).
    assert (U : check_user bodies id trav w (Node (S i) attrs kids) =
      let w := w ++ block id (Node (S i) attrs kids) (nth i bodies []) in
      if match nd_children n with [] => false | _ => true end
      then PChildren w (Some (Node (S i) attrs kids)) (fun w r => PRet w r)
      else PRet w (Some (Node (S i) attrs kids))).
    { rewrite <- (calls i n _ Hn Nb). reflexivity. }
    rewrite U. clear U. cbv zeta.
    rewrite messages_eq. cbn [Nat.pred].
    set (here := block id (Node (S i) attrs kids) (nth i bodies [])).
    set (s1 := tlogged (TUser trav (Node (S i) attrs kids)) s).
    assert (Hs1 : stack s1 = trav :: rest) by exact Hs.
    assert (K : forall ks s2 w2, (forall k, In (Some k) ks -> In (Some k) kids) -> stack s2 = trav :: rest ->
      exists s3, in_order (call_of (TRAVdo (check_vtable bodies) (check_user bodies id) fuel))
        s2 w2 ks s3 (w2 ++ messages_of ks) ks /\ stack s3 = stack s2).
    { induction ks as [|[k|] ks IHk]; intros s2 w2 Sub Hs2.
      - exists s2. cbn. rewrite app_nil_r. split; [constructor|reflexivity].
      - assert (Hk : In (Some k) kids) by (apply Sub; now left).
        destruct (IH k Hk fuel s2 w2 trav rest) as (s3 & E & Hs3).
        { eapply shaped_kid; eauto. }
        { pose proof (height_kid (S i) attrs kids k Hk). lia. }
        { exact Hs2. }
        destruct (IHk s3 (w2 ++ messages k)) as (s4 & O & Hs4).
        { intros; apply Sub; now right. } { congruence. }
        exists s4. split; [|congruence].
        cbn [messages_of flat_map]. fold (messages_of ks). rewrite app_assoc.
        econstructor; [exact E|exact O].
      - destruct (IHk s2 w2) as (s4 & O & Hs4). { intros; apply Sub; now right. } { exact Hs2. }
        exists s4. split; [|exact Hs4]. constructor. exact O. }
    destruct (nd_children n) as [|c cs].
    - destruct kids; [|discriminate]. cbn [run_prog]. exists s1. cbn [messages_of flat_map].
      rewrite app_nil_r. split; [reflexivity|exact Hs1].
    - destruct (K kids s1 (w ++ here)) as (s3 & O & Hs3); [auto|exact Hs1|].
      assert (T : TRAVchildren (TRAVdo (check_vtable bodies) (check_user bodies id) fuel) s1 (w ++ here)
        (Node (S i) attrs kids) = Val (s3, (w ++ here) ++ messages_of kids, Some (Node (S i) attrs kids))).
      { apply TRAVchildren_order. exists kids. auto. }
      cbn [run_prog]. rewrite T. cbn [bind run_prog]. exists s3. rewrite <- app_assoc. split; [reflexivity|congruence].
  Qed.

  Lemma start_check : forall t fuel s trav, shaped a t -> (height t <= fuel)%nat ->
    exists s', check_tree bodies fuel trav id s (Some t) = Val (s', messages t, Some t) /\ stack s' = stack s.
  Proof.
    intros t fuel s trav Sh Hf.
    destruct (run_check t fuel (TRAVpush trav s) [] trav (stack s) Sh Hf eq_refl) as (s1 & E & Hs1).
    unfold check_tree, TRAVstart. cbn [opt]. rewrite E. cbn [bind].
    unfold TRAVpop. rewrite Hs1. cbn [TRAVpush tlogged stack bind app]. eexists. split; [reflexivity|reflexivity].
  Qed.

  Lemma in_messages : forall t m, In m (messages t) <->
    exists ty attrs kids, within (Node ty attrs kids) t /\
      In m (block id (Node ty attrs kids) (nth (Nat.pred ty) bodies [])).
  Proof.
    intros t m. induction t as [ty attrs kids IH] using tree_ind'.
    rewrite messages_eq, in_app_iff. unfold messages_of. rewrite in_flat_map. split.
    - intros [H|([k|] & Hk & H)]; [exists ty, attrs, kids; split; [constructor|exact H]| |easy].
      apply (IH k Hk) in H. destruct H as (ty' & at' & ks' & W & H). exists ty', at', ks'.
      split; [econstructor; eauto|exact H].
    - intros (ty' & at' & ks' & W & H). inversion W as [E|? ? ? k Hk W' E]; subst.
      + now left.
      + right. exists (Some k). split; [exact Hk|]. apply (IH k Hk). eauto.
  Qed.
End Run.

(** ** Consistent trees *)

Definition check_bodies (a : ast) (sets : list (ident * literal)) (ms : list mapped_node) : list (list stmt) :=
  map (fun p => DGCHTinode (a_nodes a) sets (fst p) (snd p)) (combine (a_nodes a) ms).

Lemma trav_app : forall l m, existsb is_trav (l ++ m) = existsb is_trav l || existsb is_trav m.
Proof. intros. apply existsb_app. Qed.

Lemma no_trav_first : forall s l, existsb is_trav (first_lifetime (LifetimeSlotGen s) l) = false.
Proof.
  intros s [|[ty b e] l]; [reflexivity|]. cbn [first_lifetime]. unfold LifetimeSlotGen.
  cbn [ml_begin ml_end ml_type]. destruct b, e, ty; reflexivity.
Qed.
Lemma no_trav_node : forall l, existsb is_trav (first_lifetime LifetimeNodeGen l) = false.
Proof.
  intros [|[ty b e] l]; [reflexivity|]. cbn [first_lifetime]. unfold LifetimeNodeGen.
  cbn [ml_begin ml_end ml_type]. destruct b, e, ty; reflexivity.
Qed.

Lemma trav_inode : forall nodes sets n m,
  existsb is_trav (DGCHTinode nodes sets n m) = match nd_children n with [] => false | _ => true end.
Proof.
  intros nodes sets n m. unfold DGCHTinode. rewrite !trav_app, no_trav_node.
  assert (E1 : forall l ls i, existsb is_trav (DGCHTchild nodes sets i l ls) = false).
  { induction l as [|c l IH]; intros ls i; [reflexivity|]. cbn [DGCHTchild existsb is_trav].
    rewrite trav_app, no_trav_first, IH. reflexivity. }
  assert (E2 : forall l ls i, existsb is_trav (DGCHTattribute i l ls) = false).
  { induction l as [|c l IH]; intros ls i; [reflexivity|]. cbn [DGCHTattribute].
    rewrite trav_app, no_trav_first, IH. reflexivity. }
  rewrite E1, E2. now destruct (nd_children n).
Qed.

Section Whole.
  Variable a : ast.
  Variable ste : list (ident * decl).
  Variable a0 : ast.
  Hypothesis names_ok : check_names a0 = Val ste.
  Hypothesis same : same_names a a0.
  Hypothesis parsed : from_parser a.
  Hypothesis parsed_sets : parsed_ast a.
  Variable ts : list (option literal).
  Variable ls : list literal.
  Hypothesis unwrapped : unwrap a = Val (ts, ls).
  Variable whole : plan.
  Hypothesis comp : compiler a0 whole.
  Hypothesis first : start_first a0.
  Hypothesis once : used_once whole.
  Variable fuel : nat.
  Hypothesis enough : (depth whole <= fuel)%nat.
  Variable ms : list mapped_node.
  Hypothesis unpacked : lifetimes_mapped ste fuel a ms.
  Hypothesis plain : forall l rest, In (l :: rest) (lifetime_lists a) -> plain_targets whole l.

  Notation bodies := (check_bodies a (evaluated_sets a ls) ms).

  Lemma ms_length : length ms = length (a_nodes a).
  Proof.
    destruct unpacked as (tb & st & _ & _ & U). now apply map_out_length in U.
  Qed.

  Lemma bodies_length : length bodies = length (a_nodes a).
  Proof. unfold check_bodies. rewrite map_length, combine_length, ms_length. lia. Qed.

  Lemma combine_nth_error : forall A B (l : list A) (m : list B) i x y,
    nth_error l i = Some x -> nth_error m i = Some y -> nth_error (combine l m) i = Some (x, y).
  Proof.
    intros A B. induction l as [|x0 l IH]; intros [|y0 m] i x y Hx Hy; try (now destruct i).
    destruct i as [|i]; cbn [nth_error combine] in *; [congruence|auto].
  Qed.

  Lemma body_at : forall i n m, nth_error (a_nodes a) i = Some n -> nth_error ms i = Some m ->
    nth_error bodies i = Some (DGCHTinode (a_nodes a) (evaluated_sets a ls) n m).
  Proof.
    intros i n m Hn Hm. unfold check_bodies.
    apply (map_nth_error (fun p => DGCHTinode (a_nodes a) (evaluated_sets a ls) (fst p) (snd p)) i (combine (a_nodes a) ms)
             (combine_nth_error _ _ _ _ _ _ _ Hn Hm)).
  Qed.

  Lemma bodies_call : forall i n b, nth_error (a_nodes a) i = Some n -> nth_error bodies i = Some b ->
    existsb is_trav b = match nd_children n with [] => false | _ => true end.
  Proof.
    intros i n b Hn Hb.
    destruct (node_mapped a ste a0 names_ok same parsed whole comp first once fuel enough ms unpacked i n Hn) as (m & Hm & _).
    rewrite (body_at i n m Hn Hm) in Hb. injection Hb as <-. apply trav_inode.
  Qed.

  Lemma in_first_one : forall A (x : A) l, In x (firstn 1 l) <-> exists rest, l = x :: rest.
  Proof.
    intros A x [|y l]; cbn.
    - split; [easy|]. intros (r & H). discriminate.
    - split; [intros [->|[]]; eauto|]. intros (r & H). injection H as -> ->. auto.
  Qed.

  Lemma lists_in : forall n l, In n (a_nodes a) ->
    l = nd_lifetimes n \/ In l (map ch_lifetimes (nd_children n)) \/
    In l (map at_lifetimes (nd_attributes n)) -> In l (lifetime_lists a).
  Proof.
    intros n l Hn H. unfold lifetime_lists. apply in_flat_map. exists n. split; [exact Hn|].
    cbn [In]. rewrite in_app_iff. intuition.
  Qed.

  (** Nothing is reported for a node iff it is fine. *)
  Lemma node_fine : forall id i n attrs kids, nth_error (a_nodes a) i = Some n ->
    shaped a (Node (S i) attrs kids) ->
    (block id (Node (S i) attrs kids) (nth i bodies []) = [] <->
     fine a whole (firstn 1) id n (Node (S i) attrs kids)).
  Proof.
    intros id i n attrs kids Hn Sh. set (t := Node (S i) attrs kids) in *.
    assert (HIn := nth_error_In _ _ Hn).
    destruct (node_mapped a ste a0 names_ok same parsed whole comp first once fuel enough ms unpacked i n Hn)
      as (m & Hm & M1 & M2 & M3).
    rewrite (nth_error_nth _ _ [] (body_at i n m Hn Hm)).
    assert (Typ : forall k u, nth_error kids k = Some (Some u) ->
      nonnull (SChild k) t = true /\ child_type k t = node_type u).
    { intros k u Hk. cbn [nonnull child_type t]. rewrite (nth_error_nth _ _ None Hk). auto. }
    split.
    - intros E. assert (No : forall x, ~ In x (block id t (DGCHTinode (a_nodes a) (evaluated_sets a ls) n m)))
        by (intros x; rewrite E; auto).
      clear E. constructor.
      + intros ty at' ks k c u q Et Hk Hu (j & Ej & Hq). injection Et as <- <- <-.
        destruct (Typ k u Hu) as [T1 T2].
        apply (types_right a ste a0 names_ok same parsed_sets ts ls unwrapped c j q Hq).
        destruct (existsb (Nat.eqb (S j)) (types_of (a_nodes a) (evaluated_sets a ls) c)) eqn:B; [reflexivity|].
        exfalso. apply (No (DisallowedType k)). apply in_node. left. exists k, c. split; [exact Hk|].
        left. split; [reflexivity|]. unfold type_bad. now rewrite T1, T2, Ej, B.
      + intros k c l Hk Hl. apply in_first_one in Hl. destruct Hl as (rest & El). intros V.
        apply (child_enforced a ste a0 names_ok same parsed whole comp first once fuel enough ms unpacked
                 (evaluated_sets a ls) i n k c l rest id t m Hn Hm Hk El) in V.
        * destruct V as (msg & V & _). exact (No msg V).
        * apply (plain l rest). apply (lists_in n); [exact HIn|]. right. left. rewrite <- El. apply in_map.
          eapply nth_error_In; eauto.
      + intros k c l Hk Hl. apply in_first_one in Hl. destruct Hl as (rest & El). intros V.
        apply (attribute_enforced a ste a0 names_ok same parsed whole comp first once fuel enough ms unpacked
                 (evaluated_sets a ls) i n k c l rest id t m Hn Hm Hk El) in V.
        * destruct V as (msg & V & _). exact (No msg V).
        * apply (plain l rest). apply (lists_in n); [exact HIn|]. right. right. rewrite <- El. apply in_map.
          eapply nth_error_In; eauto.
      + intros l Hl. apply in_first_one in Hl. destruct Hl as (rest & El). intros V.
        apply (node_enforced a ste a0 names_ok same parsed whole comp first once fuel enough ms unpacked
                 (evaluated_sets a ls) i n l rest id t m Hn Hm El) in V.
        * exact (No _ V).
        * apply (plain l rest). apply (lists_in n); [exact HIn|]. left. congruence.
    - intros F. destruct (block id t (DGCHTinode (a_nodes a) (evaluated_sets a ls) n m)) as [|msg r] eqn:E;
        [reflexivity|exfalso].
      assert (Hin : In msg (block id t (DGCHTinode (a_nodes a) (evaluated_sets a ls) n m)))
        by (rewrite E; now left).
      clear E r. apply in_node in Hin.
      destruct Hin as [(k & c & Hk & [[-> B]|(x & xs & Ex & Fi & ->)])
                      |[(k & c & Hk & x & xs & Ex & Fi & ->)|(x & xs & Ex & Fi & ->)]].
      + unfold type_bad in B. apply andb_prop in B. destruct B as [B1 B2].
        assert (exists u, nth_error kids k = Some (Some u)) as (u & Hu).
        { cbn [nonnull t] in B1. destruct (nth_error kids k) as [o|] eqn:Eo.
          - rewrite (nth_error_nth _ _ None Eo) in B1. destruct o as [u|]; [eauto|discriminate].
          - rewrite nth_overflow in B1; [discriminate|]. now apply nth_error_None. }
        destruct (Typ k u Hu) as [_ T2]. destruct u as [uty uat uks].
        destruct (Sh uty uat uks) as (q & (j & Ej & Hq) & _).
        { eapply in_child; [eapply nth_error_In; eauto|constructor]. }
        assert (K := f_types _ _ _ _ _ _ F (S i) attrs kids k c _ q eq_refl Hk Hu (ex_intro _ j (conj Ej Hq))).
        apply (types_right a ste a0 names_ok same parsed_sets ts ls unwrapped c j q Hq) in K.
        rewrite T2, Ej, K in B2. discriminate.
      + assert (M := M2 k c Hk). rewrite Ex in M. apply mapped_first in M.
        destruct M as (l & rest & El & Ok & _).
        assert (Pl : plain_targets whole l).
        { apply (plain l rest). apply (lists_in n); [exact HIn|]. right. left. rewrite <- El. apply in_map.
          eapply nth_error_In; eauto. }
        apply (slot_fires_right whole l x (SChild k) id t Ok Pl) in Fi. rewrite nonnull_child in Fi.
        apply (f_children _ _ _ _ _ _ F k c l Hk); [|exact Fi]. apply in_first_one. eauto.
      + assert (M := M3 k c Hk). rewrite Ex in M. apply mapped_first in M.
        destruct M as (l & rest & El & Ok & _).
        assert (Pl : plain_targets whole l).
        { apply (plain l rest). apply (lists_in n); [exact HIn|]. right. right. rewrite <- El. apply in_map.
          eapply nth_error_In; eauto. }
        apply (slot_fires_right whole l x (SAttribute k) id t Ok Pl) in Fi. rewrite nonnull_attribute in Fi.
        apply (f_attributes _ _ _ _ _ _ F k c l Hk); [|exact Fi]. apply in_first_one. eauto.
      + assert (M := M1). rewrite Ex in M. apply mapped_first in M.
        destruct M as (l & rest & El & Ok & T).
        assert (Pl : plain_targets whole l).
        { apply (plain l rest). apply (lists_in n); [exact HIn|]. left. congruence. }
        apply (node_fires_right whole l x id Ok Pl (T eq_refl)) in Fi.
        apply (f_node _ _ _ _ _ _ F l); [|exact Fi]. apply in_first_one. eauto.
  Qed.

  Lemma within_trans : forall (t u v : ctree), within u v -> within v t -> within u t.
  Proof. intros t u v H W. induction W; [exact H|]. econstructor; eauto. Qed.

  Theorem check_right : forall id t f s trav, shaped a t -> (height t <= f)%nat ->
    exists s' w, check_tree bodies f trav id s (Some t) = Val (s', w, Some t) /\ stack s' = stack s /\
      (w = [] <-> consistent a whole (firstn 1) id t).
  Proof.
    intros id t f s trav Sh Hf.
    destruct (start_check a bodies id bodies_length bodies_call t f s trav Sh Hf) as (s' & E & Hs).
    exists s', (messages bodies id t). split; [exact E|]. split; [exact Hs|].
    assert (Sub : forall ty attrs kids, within (Node ty attrs kids) t -> shaped a (Node ty attrs kids)).
    { intros ty attrs kids W ty' at' ks' W'. apply Sh. eapply within_trans; eauto. }
    split.
    - intros Em u n W (i & Ei & Hn). destruct u as [ty attrs kids]. cbn [node_type] in Ei. subst ty.
      apply (node_fine id i n attrs kids Hn (Sub _ _ _ W)).
      destruct (block id (Node (S i) attrs kids) (nth i bodies [])) as [|msg r] eqn:Eb; [reflexivity|].
      exfalso. assert (C : In msg (messages bodies id t)).
      { apply in_messages. exists (S i), attrs, kids. split; [exact W|]. cbn [Nat.pred]. rewrite Eb. now left. }
      rewrite Em in C. exact C.
    - intros Co. destruct (messages bodies id t) as [|msg r] eqn:Em; [reflexivity|exfalso].
      assert (C : In msg (messages bodies id t)) by (rewrite Em; now left).
      apply in_messages in C. destruct C as (ty & attrs & kids & W & C).
      destruct (Sh _ _ _ W) as (n & D & _). assert (D' := D). destruct D as (i & Ei & Hn).
      cbn [node_type] in Ei. subst ty. cbn [Nat.pred] in C.
      assert (F := Co _ n W D'). apply (node_fine id i n attrs kids Hn (Sub _ _ _ W)) in F.
      rewrite F in C. exact C.
  Qed.

  (** With at most one lifetime for each thing, all of them count. *)
  Theorem check_all : (forall l, In l (lifetime_lists a) -> (length l <= 1)%nat) ->
    forall id t, consistent a whole (firstn 1) id t <-> consistent a whole (fun l => l) id t.
  Proof.
    intros One id t.
    assert (K : forall n l, In n (a_nodes a) ->
      l = nd_lifetimes n \/ In l (map ch_lifetimes (nd_children n)) \/
      In l (map at_lifetimes (nd_attributes n)) -> firstn 1 l = l).
    { intros n l Hn H. apply firstn_all2. apply One. now apply (lists_in n). }
    assert (Kc : forall n k c, In n (a_nodes a) -> nth_error (nd_children n) k = Some c ->
      firstn 1 (ch_lifetimes c) = ch_lifetimes c).
    { intros n k c Hn Hk. apply (K n); auto. right. left. apply in_map. eapply nth_error_In; eauto. }
    assert (Kx : forall n k c, In n (a_nodes a) -> nth_error (nd_attributes n) k = Some c ->
      firstn 1 (at_lifetimes c) = at_lifetimes c).
    { intros n k c Hn Hk. apply (K n); auto. right. right. apply in_map. eapply nth_error_In; eauto. }
    split; intros C u n W D; specialize (C u n W D); assert (D' := D); destruct D as (i & Ei & Hn);
      apply nth_error_In in Hn; destruct C as [C1 C2 C3 C4]; constructor; auto.
    - intros k c l Hk Hl. apply (C2 k c l Hk). now rewrite (Kc n k c Hn Hk).
    - intros k c l Hk Hl. apply (C3 k c l Hk). now rewrite (Kx n k c Hn Hk).
    - intros l Hl. apply C4. now rewrite (K n _ Hn (or_introl eq_refl)).
    - intros k c l Hk Hl. apply (C2 k c l Hk). now rewrite <- (Kc n k c Hn Hk).
    - intros k c l Hk Hl. apply (C3 k c l Hk). now rewrite <- (Kx n k c Hn Hk).
    - intros l Hl. apply C4. now rewrite <- (K n _ Hn (or_introl eq_refl)).
  Qed.
End Whole.
