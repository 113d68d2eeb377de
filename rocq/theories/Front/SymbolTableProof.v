(** Proofs about the symbol table (C27). *)

From Coq Require Import List Ascii NArith Bool Lia.
From Verif Require Import Base.Outcome Palm.StrModel Palm.StrProof Front.Syntax
  Front.SymbolTableModel Front.SymbolTableSpec.
Import ListNotations.

Lemma STReq_lwr : forall a b, STReq (Some a) (Some b) = true <-> a = b.
Proof. intros a b. cbn. apply strcmp_eq_iff. Qed.

Lemma STlookup_none : forall V (t : list (ident * V)) id,
  STlookup t id = None <-> ~ In (ID_LWR id) (map (fun e => ID_LWR (fst e)) t).
Proof.
  intros V t id. induction t as [|[k v] t IH]; cbn [STlookup map In fst]; [easy|].
  destruct (STReq (Some (ID_LWR k)) (Some (ID_LWR id))) eqn:E.
  - apply STReq_lwr in E. split; [easy|]. intros H. exfalso. apply H. auto.
  - rewrite IH. split; [|tauto]. intros H [C|C]; auto.
    apply STReq_lwr in C. congruence.
Qed.

Lemma STlookup_some : forall V (t : list (ident * V)) id v,
  STlookup t id = Some v -> exists k, In (k, v) t /\ ID_LWR k = ID_LWR id.
Proof.
  intros V t id v. induction t as [|[k w] t IH]; cbn [STlookup]; [easy|].
  destruct (STReq (Some (ID_LWR k)) (Some (ID_LWR id))) eqn:E.
  - intros H; injection H as ->. apply STReq_lwr in E. exists k. cbn. auto.
  - intros H. destruct (IH H) as (k' & Hk & Ek). exists k'. cbn. auto.
Qed.

Lemma STlookup_in : forall V (t : list (ident * V)) id k v,
  NoDup (map (fun e => ID_LWR (fst e)) t) -> In (k, v) t -> ID_LWR k = ID_LWR id ->
  STlookup t id = Some v.
Proof.
  intros V t id k v. induction t as [|[k' w] t IH]; cbn [map fst]; [easy|].
  intros N H E. inversion N as [|? ? N1 N2]; subst. cbn [STlookup].
  destruct (STReq (Some (ID_LWR k')) (Some (ID_LWR id))) eqn:Q.
  - destruct H as [H|H]; [congruence|]. exfalso. apply N1. apply STReq_lwr in Q.
    rewrite Q, <- E. apply (in_map (fun e => ID_LWR (fst e)) _ _ H).
  - destruct H as [H|H]; [|auto]. injection H as -> ->. apply STReq_lwr in E. congruence.
Qed.

(** The entries declarations ask for. *)
Definition wanted (d : decl) : list (ident * decl) := map (fun k => (k, d)) (names_of d).

Definition no_dups (s : bst_state) : bool :=
  match dup_names s, dup_funcs s with [], [] => true | _, _ => false end.

(** [good s ds fs]: the table holds exactly the entries of the declarations
    [ds] when no error was reported; no error was reported exactly when the
    names and the pass functions [fs] are distinct. *)
Record good (s : bst_state) (es : list (ident * decl)) (fs : list ident) : Prop := {
  g_names : dup_names s = [] <-> distinct_names (map fst es);
  g_table : dup_names s = [] -> first_ste s = es;
  g_some : forall id, In id (map fst es) -> STlookup (first_ste s) id <> None;
  g_only : incl (first_ste s) es;
  g_funcs : dup_funcs s = [] <-> distinct_names fs;
  g_ftab : forall f, STlookup (pass_ste s) f <> None <-> In (ID_LWR f) (map ID_LWR fs) }.

Lemma STlookup_app_not_none : forall V (t u : list (ident * V)) id,
  STlookup (t ++ u) id <> None <-> STlookup t id <> None \/ STlookup u id <> None.
Proof.
  intros V t u id. rewrite !STlookup_none. rewrite map_app, in_app_iff.
  split; [|tauto]. intros H.
  destruct (STlookup t id) as [v|] eqn:E.
  - left. intros C. apply STlookup_none in C. congruence.
  - apply STlookup_none in E. right. intros C. apply H. tauto.
Qed.

Lemma distinct_snoc : forall l x,
  distinct_names (l ++ [x]) <-> distinct_names l /\ ~ In (ID_LWR x) (map ID_LWR l).
Proof.
  intros l x. unfold distinct_names. rewrite map_app. cbn [map].
  split.
  - intros H. split.
    + apply NoDup_remove_1 in H. now rewrite app_nil_r in H.
    + apply NoDup_remove_2 in H. now rewrite app_nil_r in H.
  - intros [H1 H2]. induction (map ID_LWR l) as [|y ys IH]; cbn.
    + repeat constructor. easy.
    + inversion H1 as [|? ? A B]; subst. constructor.
      * rewrite in_app_iff. cbn. intros [C|[C|[]]]; auto. subst. apply H2. cbn; auto.
      * apply IH; auto. intros C. apply H2. cbn; auto.
Qed.

Lemma good_add_name : forall s es fs k d,
  good s es fs -> good (add_name s k d) (es ++ [(k, d)]) fs.
Proof.
  intros s es fs k d [Gn Gt Gs Go Gf Gp].
  assert (K : STlookup (first_ste s) k = None <-> ~ In (ID_LWR k) (map ID_LWR (map fst es))).
  { split.
    - intros H C. apply in_map_iff in C. destruct C as (k' & E & H').
      apply (Gs k') in H'. apply H'. apply STlookup_none. apply STlookup_none in H. now rewrite E.
    - intros H. apply STlookup_none. intros C. apply H.
      apply in_map_iff in C. destruct C as ([k' d'] & E & H').
      apply Go in H'. rewrite map_map. rewrite <- E. apply (in_map (fun e => ID_LWR (fst e)) _ _ H'). }
  unfold add_name. destruct (STlookup (first_ste s) k) as [d'|] eqn:E.
  - constructor; cbn [dup_names first_ste dup_funcs pass_ste]; auto.
    + rewrite map_app. cbn [map fst]. rewrite distinct_snoc. split.
      * intros C. now destruct (dup_names s).
      * intros [_ C]. apply K in C. congruence.
    + intros C. now destruct (dup_names s).
    + intros id H. rewrite map_app, in_app_iff in H. destruct H as [H|[<-|[]]]; auto.
      cbn. congruence.
    + intros x H. apply in_or_app. left. auto.
  - constructor; cbn [addToST dup_names first_ste dup_funcs pass_ste]; auto.
    + rewrite map_app. cbn [map fst]. rewrite distinct_snoc, <- Gn. tauto.
    + intros H. now rewrite Gt.
    + intros id H. apply STlookup_app_not_none. rewrite map_app, in_app_iff in H.
      destruct H as [H|[<-|[]]]; [left; auto|]. right. cbn [STlookup fst].
      destruct (STReq _ _) eqn:Q; [easy|]. assert (R : ID_LWR k = ID_LWR k) by reflexivity.
      apply STReq_lwr in R. congruence.
    + intros x H. apply in_app_iff in H. apply in_app_iff. destruct H; auto.
Qed.

Lemma good_add_uid : forall s es fs k d,
  good s es fs -> good (add_uid s k d) (es ++ map (fun k => (k, d)) (opt k)) fs.
Proof.
  intros s es fs [k|] d G; cbn; [now apply good_add_name|]. now rewrite app_nil_r.
Qed.

Lemma good_add_both : forall s es fs k u d,
  good s es fs ->
  good (add_uid (add_name s k d) u d) (es ++ map (fun k => (k, d)) (k :: opt u)) fs.
Proof.
  intros s es fs k u d G.
  replace (es ++ map (fun k => (k, d)) (k :: opt u))
    with ((es ++ [(k, d)]) ++ map (fun k => (k, d)) (opt u)) by (rewrite <- app_assoc; reflexivity).
  now apply good_add_uid, good_add_name.
Qed.

Lemma good_pass : forall s es fs p,
  good s es fs -> good (BSTipass s p) (es ++ wanted (DPass p)) (fs ++ opt (ps_func p)).
Proof.
  intros s es fs p G. unfold BSTipass.
  assert (G' := good_add_both s es fs (ps_name p) (ps_uid p) (DPass p) G).
  unfold wanted, names_of.
  set (s' := add_uid _ _ _) in *. set (es' := es ++ _) in *. clearbody s' es'.
  destruct (ps_func p) as [f|]; cbn [opt]; [|now rewrite app_nil_r].
  destruct G' as [Gn Gt Gs Go Gf Gp].
  destruct (STlookup (pass_ste s') f) as [q|] eqn:E;
    (constructor; cbn [dup_names first_ste dup_funcs pass_ste]; auto).
  - rewrite distinct_snoc. split.
    + intros C. now destruct (dup_funcs s').
    + intros [_ C]. exfalso. apply C. apply Gp. congruence.
  - intros g. rewrite Gp, map_app, in_app_iff. cbn [map In].
    split; [tauto|]. intros [H|[H|[]]]; auto. rewrite <- H. apply Gp. congruence.
  - rewrite distinct_snoc, <- Gf. split; [|tauto]. intros H. split; auto.
    intros C. apply Gp in C. congruence.
  - intros g. unfold STadd. cbn [STlookup]. rewrite map_app, in_app_iff, <- Gp. cbn [map In].
    destruct (STReq _ _) eqn:Q.
    + apply STReq_lwr in Q. split; [tauto|easy].
    + split; [tauto|]. intros [H|[H|[]]]; auto. apply STReq_lwr in H. congruence.
Qed.

Section Fold.
  Variable A : Type.
  Variable step : bst_state -> A -> bst_state.
  Variable mk : A -> decl.
  Variable fn : A -> list ident.
  Hypothesis H : forall s es fs x, good s es fs -> good (step s x) (es ++ wanted (mk x)) (fs ++ fn x).

  Lemma good_fold : forall l s es fs, good s es fs ->
    good (fold_left step l s) (es ++ flat_map wanted (map mk l)) (fs ++ flat_map fn l).
  Proof.
    induction l as [|x l IH]; intros s es fs G; cbn [fold_left map flat_map].
    - now rewrite !app_nil_r.
    - rewrite !app_assoc. apply IH. now apply H.
  Qed.
End Fold.

Lemma flat_map_nil : forall A B (l : list A), flat_map (fun _ => @nil B) l = [].
Proof. induction l; auto. Qed.

Lemma good_fold_plain : forall A (step : bst_state -> A -> bst_state) (mk : A -> decl),
  (forall s es fs x, good s es fs -> good (step s x) (es ++ wanted (mk x)) fs) ->
  forall l s es fs, good s es fs ->
  good (fold_left step l s) (es ++ flat_map wanted (map mk l)) fs.
Proof.
  intros A step mk H l s es fs G.
  replace fs with (fs ++ flat_map (fun _ : A => @nil ident) l)
    by now rewrite flat_map_nil, app_nil_r.
  apply good_fold; auto. intros s' es' fs' x G'. rewrite app_nil_r. now apply H.
Qed.

Lemma good_start : good (mk_bst [] [] [] []) [] [].
Proof.
  constructor; cbn; try easy; unfold distinct_names; cbn; split; intros; auto; constructor.
Qed.

Lemma good_walk : forall a,
  good (BSTwalk a) (flat_map wanted (declarations a)) (pass_functions a).
Proof.
  intros a. unfold BSTwalk, declarations, pass_functions. rewrite !flat_map_app, !app_assoc.
  assert (G1 := good_fold_plain _ BSTiphase DPhase
    (fun s es fs x G => good_add_both s es fs (ph_name x) (ph_uid x) (DPhase x) G)
    (a_phases a) _ _ _ good_start).
  assert (G2 := good_fold_plain _ BSTitraversal DTraversal
    (fun s es fs x G => good_add_both s es fs (tv_name x) (tv_uid x) (DTraversal x) G)
    (a_traversals a) _ _ _ G1).
  assert (G3 := good_fold _ BSTipass DPass (fun p => opt (ps_func p)) good_pass
    (a_passes a) _ _ _ G2).
  assert (G4 := good_fold_plain _ BSTinode DNode
    (fun s es fs x G => good_add_name s es fs (nd_name x) (DNode x) G) (a_nodes a) _ _ _ G3).
  assert (G5 := good_fold_plain _ BSTinodeset DNodeset
    (fun s es fs x G => good_add_name s es fs (ns_name x) (DNodeset x) G) (a_nodesets a) _ _ _ G4).
  exact (good_fold_plain _ BSTienum DEnum
    (fun s es fs x G => good_add_name s es fs (en_name x) (DEnum x) G) (a_enums a) _ _ _ G5).
Qed.

Lemma wanted_names : forall ds, map fst (flat_map wanted ds) = flat_map names_of ds.
Proof.
  induction ds as [|d ds IH]; cbn; [easy|]. rewrite map_app, IH. f_equal.
  unfold wanted. rewrite map_map. cbn. apply map_id.
Qed.

Lemma BSTast_val : forall a t, BSTast a = Val t ->
  dup_names (BSTwalk a) = [] /\ dup_funcs (BSTwalk a) = [] /\ t = first_ste (BSTwalk a).
Proof.
  intros a t. unfold BSTast.
  destruct (dup_names (BSTwalk a)); destruct (dup_funcs (BSTwalk a)); try easy.
  intros E; injection E as <-. auto.
Qed.

Theorem BSTast_accepts : forall a,
  ((exists t, BSTast a = Val t) <->
     distinct_names (all_names a) /\ distinct_names (pass_functions a)) /\
  (BSTast a = Exited <-> ~ distinct_names (all_names a) /\ distinct_names (pass_functions a)) /\
  (BSTast a = Undef <-> ~ distinct_names (pass_functions a)).
Proof.
  intros a. destruct (good_walk a) as [Gn Gt Gs Go Gf Gp].
  rewrite wanted_names in Gn. fold (all_names a) in Gn.
  rewrite <- Gn, <- Gf. unfold BSTast.
  destruct (dup_names (BSTwalk a)) as [|x l]; destruct (dup_funcs (BSTwalk a)) as [|y m];
    (split; [|split]); split; intros H; try discriminate H; auto; try (now destruct H); eauto; try (split; congruence); try congruence;
    try (destruct H; congruence).
Qed.

Theorem BSTast_lookup : forall a t id d, BSTast a = Val t ->
  (STlookup t id = Some d <->
   In d (declarations a) /\ exists k, In k (names_of d) /\ ID_LWR k = ID_LWR id).
Proof.
  intros a t id d E. destruct (BSTast_val _ _ E) as (E1 & _ & ->).
  destruct (good_walk a) as [Gn Gt Gs Go Gf Gp]. rewrite (Gt E1).
  apply Gn in E1. unfold distinct_names in E1. rewrite map_map in E1.
  assert (W : forall k d, In (k, d) (flat_map wanted (declarations a)) <->
              In d (declarations a) /\ In k (names_of d)).
  { intros k d'. rewrite in_flat_map. unfold wanted. split.
    - intros (x & Hx & H). apply in_map_iff in H. destruct H as (k' & H & Hk).
      injection H as -> ->. auto.
    - intros [H1 H2]. exists d'. split; auto. apply in_map_iff. eauto. }
  split.
  - intros H. destruct (STlookup_some _ _ _ _ H) as (k & Hk & Ek). apply W in Hk.
    destruct Hk as [Hk1 Hk2]. split; [assumption|]. exists k. auto.
  - intros (H & k & Hk & Ek). apply (STlookup_in _ _ _ k); auto. apply W. auto.
Qed.

(** * Upper and lower case *)

Lemma upper_lower : forall c, upper_byte (lower_byte c) = upper_byte c.
Proof. intros [[] [] [] [] [] [] [] []]; vm_compute; reflexivity. Qed.
Lemma lower_upper : forall c, lower_byte (upper_byte c) = lower_byte c.
Proof. intros [[] [] [] [] [] [] [] []]; vm_compute; reflexivity. Qed.

Theorem case_classes : forall a b, ID_LWR a = ID_LWR b <-> ID_UPR a = ID_UPR b.
Proof.
  intros a b. unfold ID_LWR, ID_UPR. split; intros H.
  - apply (f_equal (map upper_byte)) in H. rewrite !map_map in H.
    rewrite (map_ext _ _ upper_lower), (map_ext _ _ upper_lower) in H. exact H.
  - apply (f_equal (map lower_byte)) in H. rewrite !map_map in H.
    rewrite (map_ext _ _ lower_upper), (map_ext _ _ lower_upper) in H. exact H.
Qed.
