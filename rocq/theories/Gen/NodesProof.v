(** Proofs about memory and constructors. *)

From Coq Require Import List Ascii NArith ZArith Bool Lia.
From Verif Require Import Base.Outcome Base.Heap Palm.StrModel Front.Syntax Gen.NodesModel Gen.NodesSpec.
Import ListNotations.
Local Open Scope outcome_scope.

Lemma name_eqb_refl : forall n, name_eqb n n = true.
Proof. intros n. unfold name_eqb. now destruct (list_eq_dec ascii_dec n n). Qed.
Lemma name_eqb_neq : forall n m, n <> m -> name_eqb n m = false.
Proof. intros n m H. unfold name_eqb. now destruct (list_eq_dec ascii_dec n m). Qed.
Lemma name_eqb_true : forall n m, name_eqb n m = true -> n = m.
Proof. intros n m. unfold name_eqb. now destruct (list_eq_dec ascii_dec n m). Qed.

Lemma assoc_middle : forall A n (v : A) pre post, ~ In n (map fst pre) -> assoc n (pre ++ (n, v) :: post) = Some v.
Proof.
  induction pre as [|[x w] pre IH]; intros post N; cbn [app assoc].
  - now rewrite name_eqb_refl.
  - rewrite name_eqb_neq by (intros ->; apply N; now left). apply IH. intros H. apply N. now right.
Qed.
Lemma update_middle : forall A n (v w : A) pre post, ~ In n (map fst pre) ->
  update n v (pre ++ (n, w) :: post) = pre ++ (n, v) :: post.
Proof.
  induction pre as [|[x u] pre IH]; intros post N; cbn [app update].
  - now rewrite name_eqb_refl.
  - rewrite name_eqb_neq by (intros ->; apply N; now left). rewrite IH; [reflexivity|]. intros H. apply N. now right.
Qed.
Lemma nodup_middle : forall A B (l1 : list (A * B)) n l2, NoDup (map fst l1 ++ n :: l2) -> ~ In n (map fst l1).
Proof. intros A B l1 n l2 H I. apply NoDup_remove_2 in H. apply H. apply in_or_app. now left. Qed.

Lemma lookup_store_same : forall h a (b : block), lookup (store h a b) a = Some b.
Proof. intros. now rewrite lookup_store, N.eqb_refl. Qed.
Lemma lookup_store_other : forall h a (b : block) x, x <> a -> lookup (store h a b) x = lookup h x.
Proof. intros h a b x N. rewrite lookup_store. now destruct (N.eqb_spec x a). Qed.

(** [h'] differs from [h] at [d] only. *)
Definition changed (h h' : nheap) (d : addr) (b : block) : Prop :=
  lookup h' d = Some b /\ forall x, x <> d -> lookup h' x = lookup h x.
Lemma changed_store : forall h d b, changed h (store h d b) d b.
Proof. intros h d b. split; [apply lookup_store_same|]. intros. now apply lookup_store_other. Qed.
Lemma changed_trans : forall h h1 h2 d b1 b2, changed h h1 d b1 -> changed h1 h2 d b2 -> changed h h2 d b2.
Proof. intros h h1 h2 d b1 b2 [_ A] [B C]. split; [exact B|]. intros x N. rewrite C, A; auto. Qed.

Section Ok.
  Variable malloc : nheap -> option addr.
  Definition ok {A} (m : outcome A) (Q : A -> Prop) : Prop :=
    match m with
    | Val x => Q x
    | Exited => out_of_memory malloc
    | _ => False
    end.
  Lemma ok_bind : forall A B (m : outcome A) (f : A -> outcome B) (P : A -> Prop) (Q : B -> Prop),
    ok m P -> (forall x, P x -> ok (f x) Q) -> ok (bind m f) Q.
  Proof. intros A B [x| | | |] f P Q H K; cbn in *; auto; contradiction. Qed.
  Lemma ok_impl : forall A (m : outcome A) (P Q : A -> Prop), ok m P -> (forall x, P x -> Q x) -> ok m Q.
  Proof. intros A [x| | | |] P Q H K; cbn in *; auto. Qed.

  Hypothesis std : standard malloc.
  Lemma alloc_ok : forall b h, ok (alloc malloc b h) (fun r => lookup h (fst r) = None /\ snd r = store h (fst r) b).
  Proof.
    intros b h. unfold alloc. destruct (malloc h) as [a|] eqn:E; cbn; [|exists h; exact E].
    split; [exact (std _ _ E)|reflexivity].
  Qed.

  Lemma grown_refl : forall h, grown h h [].
  Proof. intros h. split; [auto|intros x []]. Qed.
  Lemma grown_alloc : forall h a b, lookup h a = None -> grown h (store h a b) [a].
  Proof.
    intros h a b F. split.
    - intros x N. apply lookup_store_other. intros ->. apply N. now left.
    - intros x [<-|[]]. rewrite lookup_store_same. split; [exact F|discriminate].
  Qed.
  Lemma grown_trans : forall h h1 h2 f1 f2, grown h h1 f1 -> grown h1 h2 f2 -> grown h h2 (f1 ++ f2).
  Proof.
    intros h h1 h2 f1 f2 [A B] [C D]. split.
    - intros x N. rewrite C, A; [reflexivity| |]; intros I; apply N; apply in_or_app; auto.
    - intros x I. destruct (in_dec N.eq_dec x f2) as [I2|N2].
      + destruct (D x I2) as [D1 D2]. split; [|exact D2].
        destruct (in_dec N.eq_dec x f1) as [I1|N1]; [apply B, I1|]. now rewrite <- A.
      + apply in_app_or in I. destruct I as [I|I]; [|contradiction]. rewrite C by exact N2. now apply B.
  Qed.
  Lemma grown_disjoint : forall h h1 h2 f1 f2, grown h h1 f1 -> grown h1 h2 f2 -> NoDup f1 -> NoDup f2 -> NoDup (f1 ++ f2).
  Proof.
    intros h h1 h2 f1 f2 [_ B] [_ D] N1 N2. induction N1 as [|x f1 Nx N1 IH]; [exact N2|].
    cbn [app]. constructor.
    - intros I. apply in_app_or in I. destruct I as [I|I]; [contradiction|].
      destruct (D x I) as [E _]. destruct (B x (or_introl eq_refl)) as [_ F]. contradiction.
    - apply IH. intros y I. apply B. now right.
  Qed.
  (** Writing into a block that is new anyway. *)
  Lemma grown_write : forall h h1 h2 fp d b, grown h h1 fp -> In d fp -> changed h1 h2 d b -> grown h h2 fp.
  Proof.
    intros h h1 h2 fp d b [A B] I [C D]. split.
    - intros x N. rewrite D, A; [reflexivity|exact N|]. intros ->. contradiction.
    - intros x J. destruct (B x J) as [B1 B2]. split; [exact B1|].
      destruct (N.eq_dec x d) as [->|Nx]; [rewrite C; discriminate|]. now rewrite D.
  Qed.
End Ok.

(** Reading and writing members. *)
Definition data_at (h : nheap) (nd : inode) (a d : addr) (ks : list (cstring * value)) (fs : list (cstring * field)) : Prop :=
  exists c, lookup h a = Some (BNode c) /\ nodetype c = Some (ID_LWR (nd_name nd)) /\ data c = Ptr (Some d) /\
    lookup h d = Some (BData ks fs) /\ a <> d.

Lemma read_data_at : forall h nd a d ks fs, data_at h nd a d ks fs -> read_data nd a h = Val (d, (ks, fs)).
Proof.
  intros h nd a d ks fs (c & E & T & D & L & _). unfold read_data, read_cell. rewrite E. cbn [bind].
  rewrite T, name_eqb_refl, D, L. reflexivity.
Qed.
Lemma data_at_changed : forall h h' nd a d ks fs ks' fs', data_at h nd a d ks fs ->
  changed h h' d (BData ks' fs') -> data_at h' nd a d ks' fs'.
Proof.
  intros h h' nd a d ks fs ks' fs' (c & E & T & D & L & N) [C O]. exists c. split; [rewrite O; assumption|]. auto.
Qed.
Lemma read_child_at : forall h nd a d pre n v post fs, data_at h nd a d (pre ++ (n, v) :: post) fs ->
  ~ In n (map fst pre) -> read_child nd a n h = Val v.
Proof.
  intros. unfold read_child. erewrite read_data_at by eassumption. cbn [bind fst snd].
  now rewrite assoc_middle.
Qed.
Lemma write_child_at : forall h nd a d pre n v w post fs, data_at h nd a d (pre ++ (n, w) :: post) fs ->
  ~ In n (map fst pre) ->
  write_child nd a n v h = Val (store h d (BData (pre ++ (n, v) :: post) fs)).
Proof.
  intros. unfold write_child. erewrite read_data_at by eassumption. cbn [bind fst snd].
  now rewrite assoc_middle, update_middle.
Qed.
Lemma read_attribute_at : forall h nd a d pre n v post ks, data_at h nd a d ks (pre ++ (n, Classic v) :: post) ->
  ~ In n (map fst pre) -> read_attribute nd a n h = Val v.
Proof.
  intros. unfold read_attribute. erewrite read_data_at by eassumption. cbn [bind fst snd].
  now rewrite assoc_middle.
Qed.
Lemma write_attribute_at : forall h nd a d pre n v w post ks, data_at h nd a d ks (pre ++ (n, Classic w) :: post) ->
  ~ In n (map fst pre) ->
  write_attribute nd a n v h = Val (store h d (BData ks (pre ++ (n, Classic v) :: post))).
Proof.
  intros. unfold write_attribute. erewrite read_data_at by eassumption. cbn [bind fst snd].
  now rewrite assoc_middle, update_middle.
Qed.
Lemma write_unset_at : forall h nd a d pre n b w post ks, data_at h nd a d ks (pre ++ (n, Evaluated b w) :: post) ->
  ~ In n (map fst pre) ->
  write_unset nd a n h = Val (store h d (BData ks (pre ++ (n, Evaluated (Some false) w) :: post))).
Proof.
  intros. unfold write_unset. erewrite read_data_at by eassumption. cbn [bind fst snd].
  now rewrite assoc_middle, update_middle.
Qed.

(** What a constructor assigns. *)
Definition lookup_arg (env : list (cstring * value)) (n : cstring) : value :=
  match assoc n env with Some v => v | None => Raw end.
Definition child_value (env : list (cstring * value)) (c : child) : value :=
  if ch_in_constructor c then lookup_arg env (child_param c) else NULL.
Definition attribute_field (env : list (cstring * value)) (a : attribute) : field :=
  if at_in_constructor a then Classic (lookup_arg env (at_name a))
  else if is_ag a then Evaluated (Some false) Raw
  else Classic (default_value (at_type a)).

Lemma exec_all_app : forall nd env a ss1 ss2 h,
  exec_all nd env a (ss1 ++ ss2) h = (let! h := exec_all nd env a ss1 h in exec_all nd env a ss2 h).
Proof.
  induction ss1 as [|s ss1 IH]; intros ss2 h; [reflexivity|]. cbn [app exec_all].
  destruct (exec nd env a s h); cbn [bind]; auto.
Qed.
Lemma in_assoc : forall A n (l : list (cstring * A)), In n (map fst l) -> exists v, assoc n l = Some v.
Proof.
  induction l as [|[x v] l IH]; intros H; [destruct H|]. cbn [assoc].
  destruct (name_eqb x n) eqn:E; [eauto|]. destruct H as [H|H]; [|auto].
  cbn in H. subst. rewrite name_eqb_refl in E. discriminate.
Qed.

Lemma exec_children : forall nd env a d fs cs pre h,
  data_at h nd a d (pre ++ map (fun c => (ID_LWR (ch_name c), Raw)) cs) fs ->
  NoDup (map fst pre ++ map (fun c => ID_LWR (ch_name c)) cs) ->
  (forall n, In n (flat_map used_names (map child_stmt cs)) -> In n (map fst env)) ->
  exists h', exec_all nd env a (map child_stmt cs) h = Val h' /\
    changed h h' d (BData (pre ++ map (fun c => (ID_LWR (ch_name c), child_value env c)) cs) fs).
Proof.
  intros nd env a d fs. induction cs as [|c cs IH]; intros pre h D N U.
  - exists h. split; [reflexivity|]. destruct D as (x & _ & _ & _ & L & _). split; [exact L|auto].
  - cbn [map] in *. assert (Np : ~ In (ID_LWR (ch_name c)) (map fst pre)) by (eapply nodup_middle; exact N).
    assert (Ev : eval env (if ch_in_constructor c then Var (ID_LWR (ch_name c)) else Null) = Val (child_value env c)).
    { unfold child_value, lookup_arg, child_param. destruct (ch_in_constructor c) eqn:Ic; [|reflexivity].
      cbn [eval]. destruct (in_assoc _ (ID_LWR (ch_name c)) env) as (v & ->); [|reflexivity].
      apply U. cbn [flat_map child_stmt used_names]. unfold child_stmt. rewrite Ic. now left. }
    cbn [exec_all child_stmt exec]. unfold child_stmt at 1. cbn [exec]. rewrite Ev. cbn [bind].
    erewrite write_child_at by eassumption. cbn [bind].
    set (h1 := store _ _ _).
    assert (C1 : changed h h1 d (BData (pre ++ (ID_LWR (ch_name c), child_value env c) ::
                    map (fun c => (ID_LWR (ch_name c), Raw)) cs) fs)) by apply changed_store.
    destruct (IH (pre ++ [(ID_LWR (ch_name c), child_value env c)]) h1) as (h2 & E & C2).
    + rewrite <- app_assoc. cbn [app]. eapply data_at_changed; eassumption.
    + rewrite map_app, <- app_assoc. exact N.
    + intros n I. apply U. cbn [flat_map]. apply in_or_app. now right.
    + exists h2. split; [exact E|]. rewrite <- app_assoc in C2. eapply changed_trans; eassumption.
Qed.

Lemma exec_attributes : forall nd env a d ks ats pre h,
  data_at h nd a d ks (pre ++ map (fun a => (ID_LWR (at_name a), raw_field a)) ats) ->
  NoDup (map fst pre ++ map (fun a => ID_LWR (at_name a)) ats) ->
  (forall n, In n (flat_map used_names (map attribute_stmt ats)) -> In n (map fst env)) ->
  (forall x, In x ats -> is_ag x = true -> at_in_constructor x = false) ->
  exists h', exec_all nd env a (map attribute_stmt ats) h = Val h' /\
    changed h h' d (BData ks (pre ++ map (fun a => (ID_LWR (at_name a), attribute_field env a)) ats)).
Proof.
  intros nd env a d ks. induction ats as [|x ats IH]; intros pre h D N U G.
  - exists h. split; [reflexivity|]. destruct D as (c & _ & _ & _ & L & _). split; [exact L|auto].
  - cbn [map] in *. assert (Np : ~ In (ID_LWR (at_name x)) (map fst pre)) by (eapply nodup_middle; exact N).
    assert (exec nd env a (attribute_stmt x) h = Val (store h d (BData ks (pre ++ (ID_LWR (at_name x), attribute_field env x) ::
                    map (fun a => (ID_LWR (at_name a), raw_field a)) ats)))) as Ex.
    { unfold attribute_stmt, attribute_field. specialize (G x (or_introl eq_refl)).
      destruct (at_in_constructor x) eqn:Ic.
      - assert (is_ag x = false) as Ag by (destruct (is_ag x); [now rewrite G|reflexivity]).
        unfold raw_field in D at 1. rewrite Ag in D. cbn [exec eval]. unfold lookup_arg.
        destruct (in_assoc _ (at_name x) env) as (v & ->).
        { apply U. cbn [flat_map]. unfold attribute_stmt. rewrite Ic. now left. }
        cbn [bind]. erewrite write_attribute_at by eassumption. reflexivity.
      - unfold raw_field in D at 1. destruct (is_ag x) eqn:Ag; cbn [exec eval bind].
        + erewrite write_unset_at by eassumption. reflexivity.
        + erewrite write_attribute_at by eassumption. reflexivity. }
    cbn [exec_all]. rewrite Ex. cbn [bind].
    set (h1 := store _ _ _).
    assert (C1 : changed h h1 d (BData ks (pre ++ (ID_LWR (at_name x), attribute_field env x) ::
                    map (fun a => (ID_LWR (at_name a), raw_field a)) ats))) by apply changed_store.
    destruct (IH (pre ++ [(ID_LWR (at_name x), attribute_field env x)]) h1) as (h2 & E & C2).
    + rewrite <- app_assoc. cbn [app]. eapply data_at_changed; eassumption.
    + rewrite map_app, <- app_assoc. exact N.
    + intros n I. apply U. cbn [flat_map]. apply in_or_app. now right.
    + intros y I. apply G. now right.
    + exists h2. split; [exact E|]. rewrite <- app_assoc in C2. eapply changed_trans; eassumption.
Qed.

Lemma write_cell_at : forall h a c f, lookup h a = Some (BNode c) -> write_cell a f h = Val (store h a (BNode (f c))).
Proof. intros h a c f E. unfold write_cell, read_cell. now rewrite E. Qed.

(** Members of a node have distinct names (check_existance.c, C28). *)
Lemma distinct_children : forall nd, distinct_members nd -> NoDup (map (fun c => ID_LWR (ch_name c)) (nd_children nd)).
Proof. intros nd H. unfold distinct_members in H. induction (map _ (nd_children nd)); [constructor|].
  inversion H; subst. constructor; [|auto]. intros I. apply H2. apply in_or_app. now left. Qed.
Lemma distinct_attributes : forall nd, distinct_members nd -> NoDup (map (fun a => ID_LWR (at_name a)) (nd_attributes nd)).
Proof. intros nd H. unfold distinct_members in H. induction (map _ (nd_children nd)); [exact H|].
  inversion H; subst. auto. Qed.

Lemma combine_fst : forall A B (l : list A) (l' : list B), length l = length l' -> map fst (combine l l') = l.
Proof.
  induction l as [|x l IH]; intros [|y l'] E; cbn in *; try reflexivity; try discriminate. f_equal. auto.
Qed.

Definition built_cell (nd : inode) (dp : value) : cell :=
  mk_cell (Some (ID_LWR (nd_name nd))) dp
    (match nd_children nd with [] => NULL | _ => dp end) NULL (length (nd_children nd)) (mk_loc 0 0 0 0).

Lemma construct_right : forall malloc, standard malloc -> forall nd args h,
  constructor_compiles nd -> distinct_members nd -> length args = length (params (gen_constructor nd)) ->
  ok malloc (construct malloc nd args h) (fun r => exists dp dfp,
    let env := combine (params (gen_constructor nd)) args in
    grown h (snd r) (fst r :: dfp) /\ NoDup (fst r :: dfp) /\
    lookup (snd r) (fst r) = Some (BNode (built_cell nd dp)) /\
    rep_data (snd r) nd (built_cell nd dp)
      (map (fun c => (ID_LWR (ch_name c), child_value env c)) (nd_children nd))
      (map (fun a => (ID_LWR (at_name a), attribute_field env a)) (nd_attributes nd)) dfp).
Proof.
  intros malloc std nd args h (_ & _ & U & G) Dm Len. unfold construct. cbv zeta.
  set (env := combine _ args).
  assert (Fst : map fst env = params (gen_constructor nd)) by (apply combine_fst; congruence).
  eapply ok_bind; [apply (alloc_ok malloc std)|]. intros [a h1] [Fa Eh1]. cbn [fst snd] in *.
  destruct (empty_struct nd) eqn:Es.
  - unfold empty_struct in Es. destruct (nd_children nd) eqn:Ec, (nd_attributes nd) eqn:Ea; try discriminate.
    cbn [bind fst snd].
    erewrite write_cell_at by (rewrite Eh1; apply lookup_store_same). cbn [bind].
    erewrite write_cell_at by apply lookup_store_same. cbn [bind].
    unfold gen_constructor. cbn [body]. rewrite Ec, Ea. cbn [map app exec_all bind].
    erewrite write_cell_at by apply lookup_store_same. cbn [bind ok fst snd].
    subst h1. exists NULL, []. split; [|split; [|split]].
    + eapply grown_write; [eapply grown_write; [eapply grown_write; [apply grown_alloc, Fa|now left|apply changed_store]|now left|apply changed_store]|now left|apply changed_store].
    + constructor; [intros []|constructor].
    + rewrite lookup_store_same. unfold built_cell. rewrite Ec. reflexivity.
    + apply no_data; auto. unfold built_cell. now rewrite Ec.
  - assert (Ne : nd_children nd <> [] \/ nd_attributes nd <> []).
    { unfold empty_struct in Es. destruct (nd_children nd), (nd_attributes nd); try discriminate;
        [right|left|left]; discriminate. }
    eapply ok_bind.
    { eapply ok_bind; [apply (alloc_ok malloc std)|]. intros [d h2] [Fd Eh2]. cbn [fst snd] in *.
      instantiate (1 := fun r => exists d, fst r = Ptr (Some d) /\ lookup h1 d = None /\ snd r = store h1 d (raw_data nd)).
      exists d. auto. }
    intros [dp h2'] (d & Edp & Fd & Eh2). cbn [fst snd] in Edp, Eh2 |- *. subst dp h2'.
    assert (Nad : a <> d) by (intros ->; rewrite Eh1, lookup_store_same in Fd; discriminate).
    set (h2 := store h1 d (raw_data nd)).
    assert (La : lookup h2 a = Some (BNode new_cell)).
    { unfold h2. rewrite lookup_store_other by exact Nad. rewrite Eh1. apply lookup_store_same. }
    erewrite write_cell_at by exact La. cbn [bind].
    erewrite write_cell_at by apply lookup_store_same. cbn [bind].
    set (h3 := store (store h2 a _) a _).
    assert (G3 : grown h h3 [a; d]).
    { eapply grown_write; [eapply grown_write; [|now left|apply changed_store]|now left|apply changed_store].
      apply (grown_trans h h1 h2 [a] [d]); [rewrite Eh1; apply grown_alloc, Fa|]. apply grown_alloc, Fd. }
    assert (D3 : data_at h3 nd a d (map (fun c => (ID_LWR (ch_name c), Raw)) (nd_children nd))
                   (map (fun a => (ID_LWR (at_name a), raw_field a)) (nd_attributes nd))).
    { eexists. split; [apply lookup_store_same|]. split; [reflexivity|]. split; [reflexivity|]. split; [|exact Nad].
      unfold h3. rewrite !lookup_store_other by congruence. apply lookup_store_same. }
    destruct (exec_children nd env a d (map (fun a => (ID_LWR (at_name a), raw_field a)) (nd_attributes nd))
                (nd_children nd) [] h3) as (h4 & E4 & C4).
    { exact D3. }
    { cbn [map app]. apply distinct_children, Dm. }
    { intros n I. rewrite Fst. apply U. cbn [body gen_constructor]. rewrite flat_map_app. apply in_or_app. now left. }
    unfold gen_constructor at 1. cbn [body]. rewrite exec_all_app, E4. cbn [bind].
    destruct (exec_attributes nd env a d (map (fun c => (ID_LWR (ch_name c), child_value env c)) (nd_children nd))
                (nd_attributes nd) [] h4) as (h5 & E5 & C5).
    { eapply data_at_changed; eassumption. }
    { cbn [map app]. apply distinct_attributes, Dm. }
    { intros n I. rewrite Fst. apply U. cbn [body gen_constructor]. rewrite flat_map_app. apply in_or_app. now right. }
    { exact G. }
    rewrite E5. cbn [bind app].
    assert (C35 := changed_trans _ _ _ _ _ _ C4 C5). cbn [app] in C35.
    assert (La5 : lookup h5 a = Some (BNode (set_type (ID_LWR (nd_name nd)) (set_data (Ptr (Some d)) new_cell)))).
    { rewrite (proj2 C35) by exact Nad. apply lookup_store_same. }
    erewrite write_cell_at by exact La5. cbn [bind].
    assert (G5 : grown h h5 [a; d]) by (eapply grown_write; [exact G3|right; now left|exact C35]).
    set (h6 := store h5 a _).
    assert (G6 : grown h h6 [a; d]) by (eapply grown_write; [exact G5|now left|apply changed_store]).
    assert (Ld6 : lookup h6 d = Some (BData (map (fun c => (ID_LWR (ch_name c), child_value env c)) (nd_children nd))
                    (map (fun a => (ID_LWR (at_name a), attribute_field env a)) (nd_attributes nd)))).
    { unfold h6. rewrite lookup_store_other by congruence. exact (proj1 C35). }
    assert (ok malloc (match nd_children nd with [] => Val h6 | _ => write_cell a (set_children (Ptr (Some d))) h6 end)
      (fun h7 => grown h h7 [a; d] /\ lookup h7 a = Some (BNode (built_cell nd (Ptr (Some d)))) /\ lookup h7 d = lookup h6 d)) as F.
    { unfold built_cell. destruct (nd_children nd) as [|c cs] eqn:Ec.
      - split; [exact G6|]. split; [apply lookup_store_same|reflexivity].
      - erewrite write_cell_at by apply lookup_store_same. split; [|split].
        + eapply grown_write; [exact G6|now left|apply changed_store].
        + apply lookup_store_same.
        + apply lookup_store_other. congruence. }
    eapply ok_bind; [exact F|]. intros h7 (G7 & L7 & Ld7). cbn [ok fst snd].
    exists (Ptr (Some d)), [d]. split; [exact G7|]. split; [constructor; [intros [X|[]]; congruence|constructor; [intros []|constructor]]|].
    split; [exact L7|]. apply some_data; auto. now rewrite Ld7.
Qed.
