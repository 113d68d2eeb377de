(** Lemmas about graphs: closing them, and adding induced dependencies. *)

From Coq Require Import List Bool Arith Lia.
From Verif Require Import Base.Outcome Sched.GraphModel.
Import ListNotations.
Local Open Scope outcome_scope.

Section Graph.
  Context {O A : Type}.
  Variable O_dec : forall x y : O, {x = y} + {x <> y}.
  Variable A_dec : forall x y : A, {x = y} + {x <> y}.
  Implicit Types g : graph O A.
  Implicit Types x y i j k u v : vertex O A.

  Notation veq := (veq O_dec A_dec).
  Notation has_edge := (has_edge O_dec A_dec).
  Notation GRlookup_edge := (GRlookup_edge O_dec A_dec).
  Notation GRlookup_node := (GRlookup_node O_dec A_dec).
  Notation check_cycle := (check_cycle O_dec A_dec).
  Notation GRadd_edge := (GRadd_edge O_dec A_dec).
  Notation close_pair := (close_pair O_dec A_dec).
  Notation close_loop := (close_loop O_dec A_dec).
  Notation GRclose_transitivity := (GRclose_transitivity O_dec A_dec).
  Notation same_occurrence := (same_occurrence O_dec).

  Lemma veq_spec : forall x y, veq x y = true <-> x = y.
  Proof.
    intros [o a] [o' a']. unfold GraphModel.veq. cbn [fst snd].
    destruct (O_dec o o'), (A_dec a a'); split; intros; congruence.
  Qed.
  Lemma veq_refl : forall x, veq x x = true. Proof. intros. apply veq_spec. reflexivity. Qed.
  Lemma veq_neq : forall x y, veq x y = false <-> x <> y.
  Proof. intros x y. rewrite <- veq_spec. destruct (veq x y); split; congruence. Qed.
  Lemma vertex_dec : forall x y, {x = y} + {x <> y}.
  Proof. intros x y. destruct (veq x y) eqn:E; [left; apply veq_spec; exact E|right; apply veq_neq; exact E]. Qed.
  Lemma same_occurrence_spec : forall x y, same_occurrence x y = true <-> fst x = fst y.
  Proof. intros x y. unfold GraphModel.same_occurrence. destruct (O_dec (fst x) (fst y)); split; congruence. Qed.

  (** Edges *)
  Definition E g x y : Prop := has_edge g x y = true.

  Lemma E_in : forall g x y, E g x y <-> exists e, In e (g_edges g) /\ first e = x /\ second e = y.
  Proof.
    intros g x y. unfold E, GraphModel.has_edge, HTlookup_edge.
    destruct (find _ _) as [e|] eqn:F.
    - apply find_some in F. destruct F as [I F]. apply andb_true_iff in F. destruct F as [F1 F2].
      apply veq_spec in F1. apply veq_spec in F2. split; [eauto|reflexivity].
    - split; [discriminate|]. intros (e & I & <- & <-).
      assert (H := find_none _ _ F e I). cbn beta in H. rewrite !veq_refl in H. discriminate.
  Qed.
  Lemma E_dec : forall g x y, {E g x y} + {~ E g x y}.
  Proof. intros. unfold E. destruct (has_edge g x y); [left; reflexivity|right; discriminate]. Qed.
  Lemma not_E : forall g x y, has_edge g x y = false <-> ~ E g x y.
  Proof. intros. unfold E. destruct (has_edge g x y); split; congruence. Qed.

  Lemma E_add : forall g x y t u v, E (add_edge_internal g x y t) u v <-> E g u v \/ (x = u /\ y = v).
  Proof.
    intros g x y t u v. rewrite !E_in. cbn [add_edge_internal g_edges]. split.
    - intros (e & I & <- & <-). apply in_app_iff in I. destruct I as [I|[<-|[]]]; [left; eauto|right; auto].
    - intros [(e & I & <- & <-)|[-> ->]].
      + exists e. split; [apply in_app_iff; left; exact I|auto].
      + exists (mk_edge u v t). split; [apply in_app_iff; right; left; reflexivity|auto].
  Qed.
  Lemma E_nil : forall l u v, ~ E (mk_graph l []) u v.
  Proof. intros l u v H. discriminate H. Qed.

  (** Between distinct attributes there are not edges both ways. *)
  Definition antisym g : Prop := forall x y, x <> y -> E g x y -> E g y x -> False.
  Definition closed g : Prop := forall i k j, In i (g_nodes g) -> In k (g_nodes g) -> In j (g_nodes g) ->
    i <> k -> k <> j -> i <> j -> E g i k -> E g k j -> E g i j.
  Definition ends_in g : Prop := forall x y, E g x y -> In x (g_nodes g) /\ In y (g_nodes g).
  Definition plain g : Prop := forall e, In e (g_edges g) -> etype e = GRnormal \/ etype e = GRinduced.

  Lemma lookup_plain : forall g x y, plain g -> GRlookup_edge g x y false = has_edge g x y.
  Proof.
    intros g x y P. unfold GraphModel.GRlookup_edge, GraphModel.has_edge, HTlookup_edge.
    destruct (find _ _) as [e|] eqn:F; [|reflexivity].
    apply find_some in F. destruct F as [I _]. destruct (P e I) as [-> | ->]; reflexivity.
  Qed.
  Lemma plain_add : forall g x y t, t = GRnormal \/ t = GRinduced -> plain g -> plain (add_edge_internal g x y t).
  Proof.
    intros g x y t T P e I. cbn [add_edge_internal g_edges] in I. apply in_app_iff in I.
    destruct I as [I|[<-|[]]]; [apply P; exact I|exact T].
  Qed.

  Lemma lookup_node_spec : forall g o a, GRlookup_node g o a =
    if in_dec vertex_dec (o, a) (g_nodes g) then Some (o, a) else None.
  Proof.
    intros g o a. unfold GraphModel.GRlookup_node. destruct (existsb _ _) eqn:X.
    - apply existsb_exists in X. destruct X as (z & I & Z). apply veq_spec in Z. subst z.
      destruct (in_dec vertex_dec (o, a) (g_nodes g)); [reflexivity|contradiction].
    - destruct (in_dec vertex_dec (o, a) (g_nodes g)) as [I|N]; [|reflexivity].
      assert (existsb (veq (o, a)) (g_nodes g) = true); [|congruence].
      apply existsb_exists. exists (o, a). split; [exact I|apply veq_refl].
  Qed.

  Lemma check_cycle_some : forall g x y t e, check_cycle g x y t = Some e -> E g y x.
  Proof. intros g x y t e. unfold GraphModel.check_cycle, E. destruct (has_edge g y x); congruence. Qed.
  Lemma check_cycle_none : forall g x y t, check_cycle g x y t = None -> ~ E g y x.
  Proof. intros g x y t. unfold GraphModel.check_cycle, E. destruct (has_edge g y x); congruence. Qed.

  (** ** The missing edges *)
  Definition pairs g : list (vertex O A * vertex O A) := list_prod (g_nodes g) (g_nodes g).
  Definition missing g : nat := length (filter (fun p => negb (has_edge g (fst p) (snd p))) (pairs g)).

  Lemma filter_length_le : forall {X} (f f' : X -> bool) l, (forall z, f' z = true -> f z = true) ->
    length (filter f' l) <= length (filter f l).
  Proof.
    intros X f f' l H. induction l as [|z l IH]; cbn [filter]; [lia|].
    destruct (f' z) eqn:F'; [rewrite (H z F'); cbn [length]; lia|]. destruct (f z); cbn [length]; lia.
  Qed.
  Lemma filter_length_lt : forall {X} (f f' : X -> bool) l z, (forall z, f' z = true -> f z = true) ->
    In z l -> f z = true -> f' z = false -> length (filter f' l) < length (filter f l).
  Proof.
    intros X f f' l z H I Fz F'z. destruct (in_split _ _ I) as (l1 & l2 & ->).
    rewrite !filter_app, !app_length. cbn [filter]. rewrite Fz, F'z. cbn [length].
    assert (H1 := filter_length_le f f' l1 H). assert (H2 := filter_length_le f f' l2 H). lia.
  Qed.
  Lemma missing_le : forall g g', g_nodes g' = g_nodes g -> (forall x y, E g x y -> E g' x y) -> missing g' <= missing g.
  Proof.
    intros g g' N H. unfold missing, pairs. rewrite N. apply filter_length_le. intros [x y]. cbn [fst snd].
    rewrite !negb_true_iff, !not_E. intros A1 A2. apply A1, H, A2.
  Qed.
  Lemma missing_lt : forall g g' x y, g_nodes g' = g_nodes g -> (forall x y, E g x y -> E g' x y) ->
    In x (g_nodes g) -> In y (g_nodes g) -> ~ E g x y -> E g' x y -> missing g' < missing g.
  Proof.
    intros g g' x y N H Ix Iy Nx Ex. unfold missing, pairs. rewrite N. apply (filter_length_lt _ _ _ (x, y)).
    - intros [u v]. cbn [fst snd]. rewrite !negb_true_iff, !not_E. intros A1 A2. apply A1, H, A2.
    - apply in_prod; assumption.
    - cbn [fst snd]. apply negb_true_iff, not_E. exact Nx.
    - cbn [fst snd]. apply negb_false_iff. exact Ex.
  Qed.
  Lemma missing_bound : forall g, missing g <= length (g_nodes g) * length (g_nodes g).
  Proof.
    intros g. unfold missing, pairs. rewrite <- (prod_length (g_nodes g) (g_nodes g)).
    assert (H : forall {X} (f : X -> bool) l, length (filter f l) <= length l).
    { intros X f l. induction l as [|z l IH]; cbn [filter]; [lia|]. destruct (f z); cbn [length]; lia. }
    apply H.
  Qed.

  (** ** Closing *)

  (** What a number of turns of the loops does. *)
  Record steps (s s' : closing) : Prop := {
    st_nodes : g_nodes (cl_graph s') = g_nodes (cl_graph s);
    st_grow : forall x y, E (cl_graph s) x y -> E (cl_graph s') x y;
    st_added : exists new, cl_added s' = new ++ cl_added s /\
      (forall x y, In (x, y) new -> same_occurrence x y = true /\ E (cl_graph s') x y /\ ~ E (cl_graph s) x y /\
         In x (g_nodes (cl_graph s)) /\ In y (g_nodes (cl_graph s))) /\
      (forall x y, E (cl_graph s') x y -> ~ E (cl_graph s) x y -> same_occurrence x y = true -> In (x, y) new);
    st_ends : forall x y, E (cl_graph s') x y -> E (cl_graph s) x y \/
      (In x (g_nodes (cl_graph s)) /\ In y (g_nodes (cl_graph s)));
    st_plain : plain (cl_graph s) -> plain (cl_graph s');
    st_sound : forall P : vertex O A -> vertex O A -> Prop, (forall x y z, P x y -> P y z -> P x z) ->
      (forall x y, E (cl_graph s) x y -> P x y) -> forall x y, E (cl_graph s') x y -> P x y;
    st_error : cl_error s = None -> forall e, cl_error s' = Some e ->
      exists x y, x <> y /\ E (cl_graph s') x y /\ E (cl_graph s') y x;
    st_antisym : cl_error s' = None -> antisym (cl_graph s) -> antisym (cl_graph s');
    st_unchanged : cl_changed s' = false -> s' = s;
    st_changed : cl_changed s' = true -> cl_changed s = false -> exists x y, In x (g_nodes (cl_graph s)) /\
      In y (g_nodes (cl_graph s)) /\ ~ E (cl_graph s) x y /\ E (cl_graph s') x y;
    st_same : (forall x y, E (cl_graph s') x y -> E (cl_graph s) x y) -> cl_added s' = cl_added s }.

  Lemma steps_refl : forall s, steps s s.
  Proof.
    intros s. split; auto; try congruence.
    - exists []. split; [reflexivity|]. split; [intros x y []|]. intros; contradiction.
  Qed.
  Lemma steps_trans : forall s1 s2 s3, (cl_error s2 = None \/ s3 = s2) -> steps s1 s2 -> steps s2 s3 -> steps s1 s3.
  Proof.
    intros s1 s2 s3 Er H K. split.
    - rewrite (st_nodes _ _ K). apply (st_nodes _ _ H).
    - intros x y X. apply (st_grow _ _ K), (st_grow _ _ H), X.
    - destruct (st_added _ _ H) as (n1 & E1 & S1 & C1). destruct (st_added _ _ K) as (n2 & E2 & S2 & C2).
      exists (n2 ++ n1). split; [rewrite E2, E1, app_assoc; reflexivity|]. split.
      + intros x y I. apply in_app_iff in I. destruct I as [I|I].
        * destruct (S2 x y I) as (A1 & A2 & A3 & A4 & A5). rewrite (st_nodes _ _ H) in A4, A5.
          repeat split; auto. intros X. apply A3, (st_grow _ _ H), X.
        * destruct (S1 x y I) as (A1 & A2 & A3 & A4 & A5). repeat split; auto. apply (st_grow _ _ K), A2.
      + intros x y X N S. apply in_app_iff. destruct (E_dec (cl_graph s2) x y) as [Y|Y]; [right|left]; auto.
    - intros x y X. destruct (st_ends _ _ K x y X) as [Y|[A1 A2]]; [apply (st_ends _ _ H), Y|].
      rewrite (st_nodes _ _ H) in A1, A2. auto.
    - intros X. apply (st_plain _ _ K), (st_plain _ _ H), X.
    - intros P T X. apply (st_sound _ _ K P T). apply (st_sound _ _ H P T X).
    - intros N e X. destruct Er as [Er| ->]; [exact (st_error _ _ K Er e X)|exact (st_error _ _ H N e X)].
    - intros N X. apply (st_antisym _ _ K N). destruct Er as [Er| ->]; apply (st_antisym _ _ H); assumption.
    - intros N. assert (F := st_unchanged _ _ K N). rewrite F in N |- *. apply (st_unchanged _ _ H N).
    - intros C N. destruct (cl_changed s2) eqn:C2.
      + destruct (st_changed _ _ H C2 N) as (x & y & A1 & A2 & A3 & A4). exists x, y. repeat split; auto.
        apply (st_grow _ _ K), A4.
      + destruct (st_changed _ _ K C C2) as (x & y & A1 & A2 & A3 & A4).
        assert (F := st_unchanged _ _ H C2). rewrite F in *. exists x, y. auto.
    - intros X. rewrite (st_same _ _ K); [apply (st_same _ _ H)|].
      + intros x y Y. apply X, (st_grow _ _ K), Y.
      + intros x y Y. apply (st_grow _ _ H), X, Y.
  Qed.

  Lemma close_pair_steps : forall s ij, In (fst ij) (g_nodes (cl_graph s)) -> In (snd ij) (g_nodes (cl_graph s)) ->
    steps s (close_pair s ij).
  Proof.
    intros s [i j] Ii Ij. cbn [fst snd] in *. unfold GraphModel.close_pair.
    destruct (cl_error s) as [e|] eqn:Er; [apply steps_refl|].
    destruct (veq i j || has_edge (cl_graph s) i j) eqn:V; [apply steps_refl|].
    apply orb_false_iff in V. destruct V as [V N]. apply veq_neq in V. apply not_E in N.
    destruct (existsb _ _) eqn:X; [|apply steps_refl].
    apply existsb_exists in X. destruct X as (k & Ik & X).
    apply andb_true_iff in X. destruct X as [X Kj]. apply andb_true_iff in X. destruct X as [X Ek].
    set (g' := add_edge_internal (cl_graph s) i j GRinduced).
    assert (Eij : E g' i j) by (apply E_add; right; auto).
    split; cbn [cl_graph cl_added cl_changed cl_error].
    - reflexivity.
    - intros x y Y. apply E_add. left. exact Y.
    - exists (if same_occurrence i j then [(i, j)] else []). split; [|split].
      + destruct (same_occurrence i j); reflexivity.
      + intros x y I. destruct (same_occurrence i j) eqn:S; [|destruct I]. destruct I as [I|[]].
        injection I as <- <-. auto.
      + intros x y Y M S. apply E_add in Y. destruct Y as [Y|[<- <-]]; [contradiction|]. rewrite S. left. reflexivity.
    - intros x y Y. apply E_add in Y. destruct Y as [Y|[<- <-]]; auto.
    - intros P. apply plain_add; auto.
    - intros P T Y x y Z. apply E_add in Z. destruct Z as [Z|[<- <-]]; [apply Y, Z|].
      apply (T i k j); apply Y; assumption.
    - intros _ e C. apply check_cycle_some in C. exists i, j. auto.
    - intros C S x y D Z Y. apply check_cycle_none in C.
      apply E_add in Z. apply E_add in Y. destruct Z as [Z|[-> ->]].
      + destruct Y as [Y|[-> ->]]; [exact (S x y D Z Y)|]. apply C. apply E_add. left. exact Z.
      + destruct Y as [Y|[-> _]]; [|congruence]. apply C. apply E_add. left. exact Y.
    - discriminate.
    - intros _ _. exists i, j. auto.
    - intros Y. destruct (N (Y i j Eij)).
  Qed.

  Lemma error_stays : forall l s e, cl_error s = Some e -> fold_left close_pair l s = s.
  Proof.
    induction l as [|[i j] l IH]; intros s e H; [reflexivity|]. cbn [fold_left].
    assert (F : close_pair s (i, j) = s) by (unfold GraphModel.close_pair; rewrite H; reflexivity).
    rewrite F. exact (IH s e H).
  Qed.
  Lemma round_steps : forall l s, (forall p, In p l -> In (fst p) (g_nodes (cl_graph s)) /\ In (snd p) (g_nodes (cl_graph s))) ->
    steps s (fold_left close_pair l s).
  Proof.
    induction l as [|p l IH]; intros s H; cbn [fold_left]; [apply steps_refl|].
    assert (H1 : steps s (close_pair s p)) by (apply close_pair_steps; apply H; left; reflexivity).
    apply (steps_trans s (close_pair s p)).
    - destruct (cl_error (close_pair s p)) as [e|] eqn:Er; [right; apply (error_stays _ _ e Er)|left; reflexivity].
    - exact H1.
    - apply IH. intros q Q. rewrite (st_nodes _ _ H1). apply H. right. exact Q.
  Qed.

  (** A round in which nothing happened: no pair is left. *)
  Lemma round_nothing : forall l s, cl_error s = None -> cl_changed (fold_left close_pair l s) = false ->
    cl_changed s = false ->
    (forall p, In p l -> In (fst p) (g_nodes (cl_graph s)) /\ In (snd p) (g_nodes (cl_graph s))) ->
    forall p, In p l -> close_pair s p = s.
  Proof.
    induction l as [|q l IH]; intros s Er C C0 H p I; [destruct I|]. cbn [fold_left] in C.
    assert (H1 : steps s (close_pair s q)) by (apply close_pair_steps; apply H; left; reflexivity).
    assert (C1 : cl_changed (close_pair s q) = false).
    { destruct (cl_changed (close_pair s q)) eqn:C1; [|reflexivity]. exfalso.
      assert (H2 : steps (close_pair s q) (fold_left close_pair l (close_pair s q))).
      { apply round_steps. intros r R. rewrite (st_nodes _ _ H1). apply H. right. exact R. }
      assert (F := st_unchanged _ _ H2 C). rewrite F in C. congruence. }
    assert (F := st_unchanged _ _ H1 C1). rewrite F in C. destruct I as [<-|I]; [exact F|].
    apply IH; auto. intros r R. apply H. right. exact R.
  Qed.
  Lemma pair_nothing : forall s i j k, cl_error s = None -> cl_changed s = false -> close_pair s (i, j) = s ->
    In k (g_nodes (cl_graph s)) -> i <> j -> i <> k -> k <> j ->
    E (cl_graph s) i k -> E (cl_graph s) k j -> E (cl_graph s) i j.
  Proof.
    intros s i j k Er C F Ik Dij Dik Dkj Eik Ekj. unfold GraphModel.close_pair in F. rewrite Er in F.
    destruct (veq i j || has_edge (cl_graph s) i j) eqn:V.
    - apply orb_true_iff in V. destruct V as [V|V]; [apply veq_spec in V; contradiction|exact V].
    - destruct (existsb _ _) eqn:X; [|exfalso].
      + apply (f_equal (@cl_changed _ _)) in F. cbn [cl_changed] in F. congruence.
      + assert (existsb (fun k => negb (veq i k) && negb (veq j k) && has_edge (cl_graph s) i k &&
                 has_edge (cl_graph s) k j) (g_nodes (cl_graph s)) = true); [|congruence].
        apply existsb_exists. exists k. split; [exact Ik|].
        assert (V1 : veq i k = false) by (apply veq_neq; exact Dik).
        assert (V2 : veq j k = false) by (apply veq_neq; congruence).
        rewrite V1, V2. unfold E in Eik, Ekj. rewrite Eik, Ekj. reflexivity.
  Qed.

  (** The result of closing. *)
  Record closes g (added : list (vertex O A * vertex O A)) (c : closing) : Prop := {
    c_nodes : g_nodes (cl_graph c) = g_nodes g;
    c_grow : forall x y, E g x y -> E (cl_graph c) x y;
    c_added : exists new, cl_added c = new ++ added /\
      (forall x y, In (x, y) new -> same_occurrence x y = true /\ E (cl_graph c) x y /\ ~ E g x y /\
         In x (g_nodes g) /\ In y (g_nodes g)) /\
      (forall x y, E (cl_graph c) x y -> ~ E g x y -> same_occurrence x y = true -> In (x, y) new);
    c_ends : forall x y, E (cl_graph c) x y -> E g x y \/ (In x (g_nodes g) /\ In y (g_nodes g));
    c_plain : plain g -> plain (cl_graph c);
    c_sound : forall P : vertex O A -> vertex O A -> Prop, (forall x y z, P x y -> P y z -> P x z) ->
      (forall x y, E g x y -> P x y) -> forall x y, E (cl_graph c) x y -> P x y;
    c_error : forall e, cl_error c = Some e -> exists x y, x <> y /\ E (cl_graph c) x y /\ E (cl_graph c) y x;
    c_antisym : cl_error c = None -> antisym g -> antisym (cl_graph c);
    c_closed : cl_error c = None -> closed (cl_graph c) }.

  Lemma in_pairs : forall g p, In p (list_prod (g_nodes g) (g_nodes g)) -> In (fst p) (g_nodes g) /\ In (snd p) (g_nodes g).
  Proof. intros g [x y] H. apply in_prod_iff in H. exact H. Qed.

  Lemma close_loop_closes : forall fuel g added, missing g < fuel ->
    exists c, close_loop fuel g added = Val c /\ closes g added c.
  Proof.
    induction fuel as [|fuel IH]; intros g added F; [lia|]. cbn [GraphModel.close_loop].
    set (s0 := mk_closing g added false None).
    set (s := fold_left close_pair (list_prod (g_nodes g) (g_nodes g)) s0).
    assert (H : steps s0 s) by (apply round_steps; intros p I; apply in_pairs; exact I).
    assert (B : forall c, (cl_error c = None -> closed (cl_graph c)) -> steps s0 c -> closes g added c).
    { intros c Cl K. destruct K as [K1 K2 K3 K4 K5 K6 K7 K8 K9 K10 K11].
      split; [exact K1|exact K2|exact K3|exact K4|exact K5|exact K6|exact (K7 eq_refl)|exact K8|exact Cl]. }
    destruct (cl_error s) as [e|] eqn:Er.
    - exists s. split; [reflexivity|]. apply B; [congruence|exact H].
    - destruct (cl_changed s) eqn:C.
      + destruct (st_changed _ _ H C eq_refl) as (x & y & Ix & Iy & N & X). cbn [cl_graph s0] in *.
        assert (L : missing (cl_graph s) < missing g)
          by exact (missing_lt g (cl_graph s) x y (st_nodes _ _ H) (st_grow _ _ H) Ix Iy N X).
        destruct (IH (cl_graph s) (cl_added s)) as (c & Ec & K); [lia|]. exists c. split; [exact Ec|].
        destruct (st_added _ _ H) as (n1 & E1 & S1 & C1). destruct (c_added _ _ _ K) as (n2 & E2 & S2 & C2).
        cbn [cl_graph cl_added s0] in *.
        split.
        * rewrite (c_nodes _ _ _ K). apply (st_nodes _ _ H).
        * intros u v U. apply (c_grow _ _ _ K), (st_grow _ _ H), U.
        * exists (n2 ++ n1). split; [rewrite E2, E1, app_assoc; reflexivity|]. split.
          -- intros u v I. apply in_app_iff in I. destruct I as [I|I].
             ++ destruct (S2 u v I) as (A1 & A2 & A3 & A4 & A5). rewrite (st_nodes _ _ H) in A4, A5.
                repeat split; auto. intros Z. apply A3, (st_grow _ _ H), Z.
             ++ destruct (S1 u v I) as (A1 & A2 & A3 & A4 & A5). repeat split; auto. apply (c_grow _ _ _ K), A2.
          -- intros u v U Nn S. apply in_app_iff. destruct (E_dec (cl_graph s) u v) as [Y|Y]; [right|left]; auto.
        * intros u v U. destruct (c_ends _ _ _ K u v U) as [Y|[A1 A2]]; [apply (st_ends _ _ H), Y|].
          rewrite (st_nodes _ _ H) in A1, A2. auto.
        * intros U. apply (c_plain _ _ _ K), (st_plain _ _ H), U.
        * intros P T U. apply (c_sound _ _ _ K P T). apply (st_sound _ _ H P T U).
        * apply (c_error _ _ _ K).
        * intros Z U. apply (c_antisym _ _ _ K Z). apply (st_antisym _ _ H Er U).
        * apply (c_closed _ _ _ K).
      + exists s. split; [reflexivity|]. apply B; [|exact H]. intros _.
        assert (Es := st_unchanged _ _ H C). rewrite Es. cbn [cl_graph s0].
        intros i k j Ii Ik Ij D1 D2 D3 E1 E2.
        apply (pair_nothing s0 i j k eq_refl eq_refl); auto.
        apply (round_nothing (list_prod (g_nodes g) (g_nodes g)) s0 eq_refl C eq_refl).
        * intros p I. apply in_pairs; exact I.
        * apply in_prod; assumption.
  Qed.

  Theorem close_closes : forall g added, exists c, GRclose_transitivity g added = Val c /\ closes g added c.
  Proof. intros g added. apply close_loop_closes. assert (H := missing_bound g). lia. Qed.
End Graph.
