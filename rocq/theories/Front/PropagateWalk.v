(** The whole walk of propagateAttributes (C31). *)

From Coq Require Import List Ascii Bool Arith Lia Permutation.
From Verif Require Import Base.Outcome Palm.StrModel Palm.StrProof Front.Syntax
  Front.SymbolTableSpec Front.SymbolTableProof Front.SetsSpec Front.NodesetTableModel Front.NodesetTableProof
  Front.PropagateModel Front.PropagateSpec Front.PropagateProof.
Import ListNotations.

Section Walk.
  Variable nodes : list inode.
  Variable sets : list inodeset.

  Definition step (s : pra) (op : target * attribute) : pra := apply_to nodes s (fst op) (snd op).
  Definition run (ops : list (target * attribute)) (s : pra) : pra := fold_left step ops s.

  Definition each (ts : list target) (xs : list attribute) : list (target * attribute) :=
    flat_map (fun t => map (pair t) xs) ts.

  Definition member_targets (ids : list ident) : list target :=
    flat_map (fun id => match find_node nodes id with Some i => [TNode i] | None => [] end) ids.

  Definition targets (tl : list nat * literal) : list target :=
    map TSet (fst tl) ++ member_targets (listed (snd tl)).

  Definition orig (i : nat) : list attribute :=
    match nth_error sets i with Some m => ns_attributes m | None => [] end.

  Hypothesis Hmark : forall m x, In m sets -> In x (ns_attributes m) -> at_is_propagated x = false.

  Lemma orig_unmarked : forall i x, In x (orig i) -> at_is_propagated x = false.
  Proof.
    intros i x. unfold orig. destruct (nth_error sets i) as [m|] eqn:E; [|easy].
    apply Hmark. eapply nth_error_In. exact E.
  Qed.

  (** The attributes a nodeset started with can be told from the others. *)
  Definition keeps (s : pra) : Prop :=
    length (p_sets s) = length sets /\ length (p_nodes s) = length nodes /\
    forall i, filter (fun x => negb (at_is_propagated x)) (nth i (p_sets s) []) = orig i.

  Lemma propagate_filter : forall cs l x,
    filter (fun x => negb (at_is_propagated x)) (fst (propagate_attribute cs l x)) =
    filter (fun x => negb (at_is_propagated x)) l.
  Proof.
    intros cs l x. unfold propagate_attribute. destruct (snd _); reflexivity.
  Qed.

  Lemma upd_overflow : forall A (l : list A) i x, length l <= i -> upd l i x = l.
  Proof.
    induction l as [|y l IH]; intros [|i] x H; cbn in *; auto; try lia. now rewrite IH by lia.
  Qed.

  Lemma keeps_step : forall s op, keeps s -> keeps (step s op).
  Proof.
    intros s [[i|i] x] (K1 & K2 & K3); unfold step, keeps; cbn [fst snd apply_to p_sets p_nodes];
      rewrite ?length_upd; repeat split; auto.
    intros j. destruct (Nat.lt_ge_cases i (length (p_sets s))) as [H|H].
    - rewrite nth_upd by assumption. destruct (Nat.eqb_spec j i) as [->|Ne]; [|apply K3].
      rewrite propagate_filter. apply K3.
    - rewrite upd_overflow by assumption. apply K3.
  Qed.

  Lemma keeps_run : forall ops s, keeps s -> keeps (run ops s).
  Proof.
    unfold run. induction ops as [|op ops IH]; intros s K; cbn [fold_left]; auto.
    apply IH. now apply keeps_step.
  Qed.

  Lemma fold_skip : forall t l s,
    fold_left (fun s x => if at_is_propagated x then s else apply_to nodes s t x) l s =
    run (map (pair t) (filter (fun x => negb (at_is_propagated x)) l)) s.
  Proof.
    unfold run. intros t. induction l as [|x l IH]; intros s; cbn [fold_left filter]; auto.
    destruct (at_is_propagated x); cbn [negb map fold_left]; apply IH.
  Qed.

  Lemma propagate_run : forall cur t s, keeps s ->
    propagate_attributes nodes cur s t = run (map (pair t) (orig cur)) s.
  Proof.
    intros cur t s (K1 & K2 & K3). unfold propagate_attributes. rewrite fold_skip. now rewrite K3.
  Qed.

  Lemma run_app : forall a b s, run (a ++ b) s = run b (run a s).
  Proof. intros. unfold run. apply fold_left_app. Qed.

  Lemma each_app : forall a b xs, each (a ++ b) xs = each a xs ++ each b xs.
  Proof. intros. unfold each. apply flat_map_app. Qed.

  Lemma each_cons : forall t ts xs, each (t :: ts) xs = map (pair t) xs ++ each ts xs.
  Proof. reflexivity. Qed.

  Lemma table_run : forall cur table s, keeps s ->
    fold_left (fun s k => propagate_attributes nodes cur s (TSet k)) table s =
    run (each (map TSet table) (orig cur)) s.
  Proof.
    intros cur. induction table as [|k table IH]; intros s K; [reflexivity|].
    cbn [fold_left map]. rewrite propagate_run by assumption.
    rewrite IH by now apply keeps_run.
    now rewrite each_cons, run_app.
  Qed.

  Lemma member_targets_app : forall a b, member_targets (a ++ b) = member_targets a ++ member_targets b.
  Proof. intros. apply flat_map_app. Qed.

  Lemma literal_run : forall cur lit s, keeps s ->
    (forall id, In id (listed lit) -> find_node nodes id <> None) ->
    PRAsetliteral nodes cur s lit = Val (run (each (member_targets (listed lit)) (orig cur)) s).
  Proof.
    intros cur. induction lit as [|r a IHa b IHb]; intros s K H; [reflexivity|].
    cbn [PRAsetliteral listed].
    destruct (find_node nodes r) as [i|] eqn:E.
    2:{ exfalso. apply (H r); [cbn; auto|assumption]. }
    rewrite propagate_run by assumption.
    rewrite IHa; [cbn [bind]; rewrite IHb| |].
    - assert (M : member_targets (r :: listed a ++ listed b) =
                  TNode i :: member_targets (listed a) ++ member_targets (listed b)).
      { unfold member_targets at 1. cbn [flat_map]. rewrite E. cbn [app]. f_equal.
        apply member_targets_app. }
      now rewrite M, each_cons, each_app, !run_app.
    - now apply keeps_run, keeps_run.
    - intros id Hid. apply H. cbn. right. apply in_app_iff. auto.
    - now apply keeps_run.
    - intros id Hid. apply H. cbn. right. apply in_app_iff. auto.
  Qed.

  Fixpoint all_ops (cur : nat) (l : list (list nat * literal)) : list (target * attribute) :=
    match l with
    | [] => []
    | tl :: l => each (targets tl) (orig cur) ++ all_ops (S cur) l
    end.

  Lemma walk_run : forall l cur s, keeps s ->
    (forall t lit id, In (t, lit) l -> In id (listed lit) -> find_node nodes id <> None) ->
    PRAinodesets nodes cur s l = Val (run (all_ops cur l) s).
  Proof.
    induction l as [|[t lit] l IH]; intros cur s K H; [reflexivity|].
    cbn [PRAinodesets all_ops]. rewrite table_run by assumption.
    rewrite literal_run; [| |].
    - cbn [bind]. rewrite IH; [| |].
      + unfold targets. cbn [fst snd]. now rewrite each_app, !run_app.
      + now apply keeps_run, keeps_run.
      + intros t' lit' id H1 H2. apply (H t' lit'); cbn; auto.
    - now apply keeps_run.
    - intros id Hid. apply (H t lit); cbn; auto.
  Qed.

  (** * What arrives at one target *)

  Definition target_eqb (a b : target) : bool :=
    match a, b with
    | TNode i, TNode j | TSet i, TSet j => Nat.eqb i j
    | _, _ => false
    end.
  Lemma target_eqb_iff : forall a b, target_eqb a b = true <-> a = b.
  Proof.
    intros [i|i] [j|j]; cbn; rewrite ?Nat.eqb_eq; split; try discriminate; congruence.
  Qed.

  Definition sel (t : target) (ops : list (target * attribute)) : list attribute :=
    map snd (filter (fun op => target_eqb (fst op) t) ops).

  Definition get (s : pra) (t : target) : list attribute :=
    match t with TNode i => nth i (p_nodes s) [] | TSet i => nth i (p_sets s) [] end.
  Definition valid (t : target) : Prop :=
    match t with TNode i => i < length nodes | TSet i => i < length sets end.
  Definition kids (t : target) : option (list child) :=
    match t with
    | TNode i => Some (match nth_error nodes i with Some n => nd_children n | None => [] end)
    | TSet _ => None
    end.
  Definition sized (s : pra) : Prop :=
    length (p_sets s) = length sets /\ length (p_nodes s) = length nodes.

  Lemma step_get : forall s t x t', sized s -> valid t ->
    get (step s (t, x)) t' =
    if target_eqb t t' then fst (propagate_attribute (kids t) (get s t) x) else get s t'.
  Proof.
    intros s t x t' [Z1 Z2] V. destruct t as [i|i], t' as [j|j]; cbn [valid] in V;
      unfold step; cbn [fst snd apply_to get p_nodes p_sets target_eqb kids]; try reflexivity;
      rewrite nth_upd by lia; rewrite (Nat.eqb_sym i j); destruct (Nat.eqb_spec j i) as [->|]; reflexivity.
  Qed.

  Lemma step_errors : forall s t x,
    p_errors (step s (t, x)) = p_errors s ++ snd (propagate_attribute (kids t) (get s t) x).
  Proof. intros s [i|i] x; reflexivity. Qed.

  Lemma sized_step : forall s op, sized s -> sized (step s op).
  Proof.
    intros s [[i|i] x] [Z1 Z2]; unfold step, sized; cbn [fst snd apply_to p_sets p_nodes];
      now rewrite ?length_upd.
  Qed.

  Lemma sel_cons : forall t t' x ops,
    sel t ((t', x) :: ops) = if target_eqb t' t then x :: sel t ops else sel t ops.
  Proof. intros. unfold sel. cbn [filter fst]. now destruct (target_eqb t' t). Qed.

  Lemma run_parts : forall ops s, sized s -> (forall op, In op ops -> valid (fst op)) ->
    (forall t, get (run ops s) t = final (kids t) (get s t) (sel t ops)) /\
    (p_errors (run ops s) = [] <->
     p_errors s = [] /\ forall t, valid t -> clean (kids t) (get s t) (sel t ops)).
  Proof.
    induction ops as [|[t x] ops IH]; intros s Z V.
    - split; [reflexivity|]. cbn. tauto.
    - assert (Vt : valid t) by (apply (V (t, x)); cbn; auto).
      assert (Vo : forall op, In op ops -> valid (fst op)) by (intros op Ho; apply V; cbn; auto).
      destruct (IH (step s (t, x)) (sized_step s (t, x) Z) Vo) as [IH1 IH2].
      change (run ((t, x) :: ops) s) with (run ops (step s (t, x))). split.
      + intros t'. rewrite IH1, sel_cons, step_get by assumption.
        destruct (target_eqb t t') eqn:E; [|reflexivity]. apply target_eqb_iff in E. now subst t'.
      + rewrite IH2, step_errors. split.
        * intros [H1 H2]. apply app_eq_nil in H1. destruct H1 as [H0 H1]. split; [assumption|].
          intros t' V'. specialize (H2 t' V'). rewrite step_get in H2 by assumption.
          rewrite sel_cons. destruct (target_eqb t t') eqn:E; [|assumption].
          apply target_eqb_iff in E. subst t'. cbn [clean]. auto.
        * intros [H1 H2]. split.
          -- rewrite H1. specialize (H2 t Vt). rewrite sel_cons in H2.
             rewrite (proj2 (target_eqb_iff t t) eq_refl) in H2. apply H2.
          -- intros t' V'. specialize (H2 t' V'). rewrite step_get by assumption.
             rewrite sel_cons in H2. destruct (target_eqb t t') eqn:E; [|assumption].
             apply target_eqb_iff in E. subst t'. apply H2.
  Qed.

  (** * Each nodeset sends its attributes once *)

  Lemma sel_app : forall t a b, sel t (a ++ b) = sel t a ++ sel t b.
  Proof. intros. unfold sel. now rewrite filter_app, map_app. Qed.

  Lemma sel_pair : forall t t' xs, sel t (map (pair t') xs) = if target_eqb t' t then xs else [].
  Proof.
    intros t t' xs. induction xs as [|x xs IH]; cbn [map]; [now destruct (target_eqb t' t)|].
    rewrite sel_cons, IH. now destruct (target_eqb t' t).
  Qed.

  Lemma sel_each_out : forall t ts xs, ~ In t ts -> sel t (each ts xs) = [].
  Proof.
    intros t ts xs H. induction ts as [|t' ts IH]; [reflexivity|].
    change (each (t' :: ts) xs) with (map (pair t') xs ++ each ts xs). rewrite sel_app, sel_pair, IH.
    - destruct (target_eqb t' t) eqn:E; [|reflexivity]. apply target_eqb_iff in E. subst.
      exfalso. apply H. cbn; auto.
    - intros C. apply H. cbn; auto.
  Qed.

  Lemma sel_each_in : forall t ts xs, NoDup ts -> In t ts -> sel t (each ts xs) = xs.
  Proof.
    intros t ts xs N H. induction N as [|t' ts N1 N2 IH]; [easy|].
    change (each (t' :: ts) xs) with (map (pair t') xs ++ each ts xs). rewrite sel_app, sel_pair.
    destruct H as [->|H].
    - rewrite (proj2 (target_eqb_iff t t) eq_refl), sel_each_out by assumption. apply app_nil_r.
    - destruct (target_eqb t' t) eqn:E.
      + apply target_eqb_iff in E. subst. contradiction.
      + now rewrite IH.
  Qed.

  Hypothesis Hnodes : NoDup (map (fun n => ID_LWR (nd_name n)) nodes).

  Lemma find_node_iff : forall id i,
    find_node nodes id = Some i <-> exists n, nth_error nodes i = Some n /\ same_id (nd_name n) id.
  Proof.
    clear Hmark. revert Hnodes. intros Hn id. induction nodes as [|n l IH]; intros i; cbn [find_node].
    - split; [easy|]. intros (m & E & _). now destruct i.
    - cbn [map] in Hn. inversion Hn as [|? ? N1 N2]; subst.
      destruct (same_name (nd_name n) id) eqn:E.
      + apply same_name_iff in E. split.
        * intros H; injection H as <-. exists n. auto.
        * intros (m & H & Em). destruct i as [|i]; [reflexivity|]. exfalso. apply N1.
          cbn in H. apply nth_error_In in H. unfold same_id in *. rewrite E, <- Em.
          now apply (in_map (fun n => ID_LWR (nd_name n))).
      + apply same_name_false in E. destruct i as [|i].
        * split; [now destruct (find_node l id)|]. intros (m & H & Em). cbn in H. congruence.
        * rewrite <- (IH N2 i : _ <-> _). cbn.
          destruct (find_node l id); cbn; split; congruence.
  Qed.

  Lemma find_node_defined : forall id,
    (exists n, In n nodes /\ same_id (nd_name n) id) -> find_node nodes id <> None.
  Proof.
    intros id (n & Hn & En). apply In_nth_error in Hn. destruct Hn as [i Hi].
    assert (H : find_node nodes id = Some i) by (apply find_node_iff; eauto). congruence.
  Qed.

  Lemma member_targets_in : forall ids i n, nth_error nodes i = Some n ->
    (In (TNode i) (member_targets ids) <-> In (ID_LWR (nd_name n)) (map ID_LWR ids)).
  Proof.
    intros ids i n En. unfold member_targets. rewrite in_flat_map, in_map_iff. split.
    - intros (id & Hid & H). destruct (find_node nodes id) as [j|] eqn:E; [|easy].
      destruct H as [H|[]]. injection H as ->. apply find_node_iff in E.
      destruct E as (m & Em & S). exists id. split; [|assumption]. unfold same_id in S. congruence.
    - intros (id & Eid & Hid). exists id. split; [assumption|].
      rewrite (proj2 (find_node_iff id i)); [cbn; auto|]. exists n. split; [assumption|].
      unfold same_id. congruence.
  Qed.

  Lemma member_targets_nodes : forall ids k, ~ In (TSet k) (member_targets ids).
  Proof.
    intros ids k C. unfold member_targets in C. apply in_flat_map in C. destruct C as (id & _ & C).
    destruct (find_node nodes id); [|easy]. destruct C as [C|[]]. discriminate.
  Qed.

  Lemma member_targets_nodup : forall ids, NoDup (map ID_LWR ids) -> NoDup (member_targets ids).
  Proof.
    induction ids as [|id ids IH]; intros N; [constructor|]. cbn [map] in N.
    inversion N as [|? ? N1 N2]; subst.
    change (member_targets (id :: ids)) with
      ((match find_node nodes id with Some i => [TNode i] | None => [] end) ++ member_targets ids).
    destruct (find_node nodes id) as [i|] eqn:E; cbn [app]; [|auto].
    constructor; [|auto]. intros C. apply find_node_iff in E. destruct E as (n & En & S).
    apply (member_targets_in ids i n En) in C. apply N1. unfold same_id in S. now rewrite <- S.
  Qed.

  Lemma targets_nodup : forall t lit, NoDup t -> no_member_twice lit -> NoDup (targets (t, lit)).
  Proof.
    intros t lit N M. unfold targets. cbn [fst snd].
    induction N as [|x l N1 N2 IH]; cbn [map app].
    - now apply member_targets_nodup.
    - constructor; [|exact IH]. intros C. apply in_app_iff in C. destruct C as [C|C].
      + apply in_map_iff in C. destruct C as (k & E & Hk). injection E as ->. contradiction.
      + now apply member_targets_nodes in C.
  Qed.

  Lemma all_ops_combine : forall l ss pre, sets = pre ++ ss -> length l = length ss ->
    all_ops (length pre) l =
    flat_map (fun p => each (targets (snd p)) (ns_attributes (fst p))) (combine ss l).
  Proof.
    induction l as [|tl l IH]; intros [|m ss] pre E L; cbn in L; try lia; [reflexivity|].
    cbn [all_ops combine flat_map fst snd]. f_equal.
    - unfold orig. rewrite E, nth_error_app2, Nat.sub_diag by lia. reflexivity.
    - specialize (IH ss (pre ++ [m])). rewrite app_length in IH. cbn in IH.
      rewrite Nat.add_1_r in IH. apply IH; [|lia]. rewrite <- app_assoc. exact E.
  Qed.

  Lemma flat_map_ext_in' : forall A B (f g : A -> list B) l,
    (forall x, In x l -> f x = g x) -> flat_map f l = flat_map g l.
  Proof.
    intros A B f g l H. induction l as [|x l IH]; [reflexivity|]. cbn [flat_map].
    rewrite H by (cbn; auto). f_equal. apply IH. intros y Hy. apply H. cbn; auto.
  Qed.

  Lemma sel_flat_map : forall A t (f : A -> list (target * attribute)) l,
    sel t (flat_map f l) = flat_map (fun x => sel t (f x)) l.
  Proof.
    intros A t f l. induction l as [|x l IH]; [reflexivity|]. cbn [flat_map].
    now rewrite sel_app, IH.
  Qed.

  Variable l : list (list nat * literal).
  Hypothesis Hlen : length l = length sets.
  Hypothesis Htab : forall t lit, In (t, lit) l -> NoDup t /\ forall k, In k t -> k < length sets.
  Hypothesis Hmem : forall t lit, In (t, lit) l -> no_member_twice lit /\
     forall id, In id (listed lit) -> exists n, In n nodes /\ same_id (nd_name n) id.

  Lemma ops_are : all_ops 0 l =
    flat_map (fun p => each (targets (snd p)) (ns_attributes (fst p))) (combine sets l).
  Proof. apply (all_ops_combine l sets []); auto. Qed.

  Lemma sel_node : forall i n, nth_error nodes i = Some n ->
    sel (TNode i) (all_ops 0 l) = to_node sets l n.
  Proof.
    intros i n En. rewrite ops_are, sel_flat_map. unfold to_node, numbered.
    apply flat_map_ext_in'. intros [m [t lit]] H. cbn [fst snd]. apply in_combine_r in H.
    destruct (Htab t lit H) as [T1 T2]. destruct (Hmem t lit H) as [M1 M2].
    assert (A : In (TNode i) (targets (t, lit)) <-> In (ID_LWR (nd_name n)) (map ID_LWR (listed lit))).
    { unfold targets. cbn [fst snd]. rewrite in_app_iff, (member_targets_in _ i n En). split; [|auto].
      intros [C|C]; [|assumption]. apply in_map_iff in C. destruct C as (k & C & _). discriminate. }
    unfold member. destruct (in_dec _ _ _) as [I|I].
    - apply sel_each_in; [now apply targets_nodup|now apply A].
    - apply sel_each_out. now rewrite A.
  Qed.

  Lemma sel_set : forall k, sel (TSet k) (all_ops 0 l) = to_nodeset sets l k.
  Proof.
    intros k. rewrite ops_are, sel_flat_map. unfold to_nodeset, numbered.
    apply flat_map_ext_in'. intros [m [t lit]] H. cbn [fst snd]. apply in_combine_r in H.
    destruct (Htab t lit H) as [T1 T2]. destruct (Hmem t lit H) as [M1 M2].
    assert (A : In (TSet k) (targets (t, lit)) <-> In k t).
    { unfold targets. cbn [fst snd]. rewrite in_app_iff. split.
      - intros [C|C]; [|now apply member_targets_nodes in C].
        apply in_map_iff in C. destruct C as (k' & C & Hk). injection C as ->. assumption.
      - intros C. left. now apply in_map. }
    destruct (in_dec _ _ _) as [I|I].
    - apply sel_each_in; [now apply targets_nodup|now apply A].
    - apply sel_each_out. now rewrite A.
  Qed.

  Lemma ops_valid : forall op, In op (all_ops 0 l) -> valid (fst op).
  Proof.
    intros [t x]. rewrite ops_are. intros H. apply in_flat_map in H.
    destruct H as ([m [tb lit]] & H & Hop). cbn [fst snd] in *. apply in_combine_r in H.
    unfold each in Hop. apply in_flat_map in Hop. destruct Hop as (t' & Ht & Hx).
    apply in_map_iff in Hx. destruct Hx as (y & E & _). injection E as -> ->.
    unfold targets in Ht. cbn [fst snd] in Ht. apply in_app_iff in Ht. destruct Ht as [Ht|Ht].
    - apply in_map_iff in Ht. destruct Ht as (k & <- & Hk). cbn. apply (Htab tb lit H). exact Hk.
    - unfold member_targets in Ht. apply in_flat_map in Ht. destruct Ht as (id & _ & Ht).
      destruct (find_node nodes id) as [i|] eqn:E; [|easy]. destruct Ht as [<-|[]].
      apply find_node_iff in E. destruct E as (n & En & _). cbn. apply nth_error_Some. congruence.
  Qed.
End Walk.

Lemma nth_map_attributes : forall A (f : A -> list attribute) l i x,
  nth_error l i = Some x -> nth i (map f l) [] = f x.
Proof.
  intros A f l i x H. apply (map_nth_error f) in H. now apply nth_error_nth.
Qed.

Theorem PRAast_right : forall nodes sets l, propagation_input nodes sets l ->
  exists s, PRAast nodes sets l = Val s /\
    (p_errors s = [] <->
     (forall n, In n nodes -> node_agrees (nd_children n) (nd_attributes n) (to_node sets l n)) /\
     (forall k m, nth_error sets k = Some m -> nodeset_agrees (ns_attributes m) (to_nodeset sets l k))) /\
    (p_errors s = [] ->
     (forall i n, nth_error nodes i = Some n ->
        carries (nd_attributes n) (to_node sets l n) (nth i (p_nodes s) [])) /\
     (forall k m, nth_error sets k = Some m ->
        carries (ns_attributes m) (to_nodeset sets l k) (nth k (p_sets s) []))).
Proof.
  intros nodes sets l [I1 I2 I3 I4 I5 I6 I7].
  set (s0 := mk_pra (map nd_attributes nodes) (map ns_attributes sets) []).
  assert (K : keeps nodes sets s0).
  { unfold keeps, s0. cbn [p_sets p_nodes]. rewrite !map_length. repeat split; auto.
    intros i. unfold orig. destruct (nth_error sets i) as [m|] eqn:E.
    - rewrite (nth_map_attributes _ _ _ _ _ E).
      assert (U := fun x => I7 m x (nth_error_In _ _ E)). clear - U.
      induction (ns_attributes m) as [|x xs IH]; [reflexivity|]. cbn [filter].
      rewrite U by (cbn; auto). cbn [negb]. f_equal. apply IH. intros y Hy. apply U. cbn; auto.
    - apply nth_error_None in E. rewrite nth_overflow; [reflexivity|]. now rewrite map_length. }
  assert (Z : sized nodes sets s0).
  { unfold sized, s0. cbn [p_sets p_nodes]. now rewrite !map_length. }
  assert (V := ops_valid nodes sets I2 l I1 I3).
  destruct (run_parts nodes sets (all_ops nodes sets 0 l) s0 Z V) as [R1 R2].
  set (s := run nodes (all_ops nodes sets 0 l) s0) in *.
  exists s. split.
  { unfold PRAast. fold s0. apply (walk_run nodes sets); auto.
    intros t lit id H1 H2. apply find_node_defined; [assumption|]. now apply (proj2 (I4 t lit H1)). }
  assert (NL : forall i n, nth_error nodes i = Some n ->
     distinct (nd_attributes n) /\ get s0 (TNode i) = nd_attributes n /\ kids nodes (TNode i) = Some (nd_children n) /\
     sel (TNode i) (all_ops nodes sets 0 l) = to_node sets l n).
  { intros i n E. split; [apply I5; eapply nth_error_In; exact E|]. split.
    - unfold s0. cbn. now apply nth_map_attributes.
    - split; [cbn; now rewrite E|]. now apply sel_node. }
  assert (SL : forall k m, nth_error sets k = Some m ->
     distinct (ns_attributes m) /\ get s0 (TSet k) = ns_attributes m /\
     sel (TSet k) (all_ops nodes sets 0 l) = to_nodeset sets l k).
  { intros k m E. split; [apply I6; eapply nth_error_In; exact E|]. split.
    - unfold s0. cbn. now apply nth_map_attributes.
    - now apply sel_set. }
  assert (C : p_errors s = [] <-> forall t, valid nodes sets t ->
              clean (kids nodes t) (get s0 t) (sel t (all_ops nodes sets 0 l))).
  { rewrite R2. unfold s0 at 1. cbn [p_errors]. tauto. }
  split.
  - rewrite C. split.
    + intros H. split.
      * intros n Hn. apply In_nth_error in Hn. destruct Hn as [i E].
        destruct (NL i n E) as (D & G & Kd & Q).
        apply (node_local (nd_children n) (nd_attributes n) (to_node sets l n) D).
        rewrite <- G, <- Kd, <- Q. apply H. cbn. apply nth_error_Some. congruence.
      * intros k m E. destruct (SL k m E) as (D & G & Q).
        apply (nodeset_local (ns_attributes m) (to_nodeset sets l k) D).
        rewrite <- G, <- Q. apply (H (TSet k)). cbn. apply nth_error_Some. congruence.
    + intros [H1 H2] [i|k] Vt; cbn in Vt.
      * destruct (nth_error nodes i) as [n|] eqn:E; [|apply nth_error_None in E; lia].
        destruct (NL i n E) as (D & G & Kd & Q). rewrite G, Kd, Q. apply node_local; [assumption|].
        apply H1. eapply nth_error_In. exact E.
      * destruct (nth_error sets k) as [m|] eqn:E; [|apply nth_error_None in E; lia].
        destruct (SL k m E) as (D & G & Q). rewrite G, Q. cbn [kids]. apply nodeset_local; [assumption|].
        now apply H2.
  - intros Er. assert (H := proj1 C Er). split.
    + intros i n E. destruct (NL i n E) as (D & G & Kd & Q).
      assert (X := H (TNode i)). rewrite G, Kd, Q in X.
      assert (Vi : valid nodes sets (TNode i)) by (cbn; apply nth_error_Some; congruence).
      specialize (X Vi). apply (node_local _ _ _ D) in X.
      assert (Y := R1 (TNode i)). rewrite G, Kd, Q in Y. cbn [get] in Y. rewrite Y.
      destruct X as [X1 X2 X3 X4 X5 X6]. constructor; auto.
    + intros k m E. destruct (SL k m E) as (D & G & Q).
      assert (X := H (TSet k)). rewrite G, Q in X. cbn [kids] in X.
      assert (Vi : valid nodes sets (TSet k)) by (cbn; apply nth_error_Some; congruence).
      specialize (X Vi).
      assert (Y := R1 (TSet k)). rewrite G, Q in Y. cbn [get kids] in Y. rewrite Y.
      destruct (nodeset_local _ (to_nodeset sets l k) D) as [L1 L2]. rewrite (L2 X).
      apply L1 in X. unfold nodeset_agrees in X. constructor.
      * intros o Ho. apply in_app_iff. auto.
      * intros x Hx. exists (mark_propagated x). split; [|split; [reflexivity|left; apply copy_marked]].
        apply in_app_iff. left. apply -> in_rev. now apply in_map.
      * intros y Hy. apply in_app_iff in Hy. destruct Hy as [Hy|Hy]; [|auto].
        apply in_rev in Hy. apply in_map_iff in Hy. destruct Hy as (x & <- & Hx).
        right. exists x. split; [assumption|apply copy_marked].
      * rewrite map_app, map_rev, map_map. cbn [at_name mark_propagated].
        rewrite map_app in X. clear - X.
        revert X. generalize (map (fun x => ID_LWR (at_name x)) (ns_attributes m)).
        generalize (map (fun x => ID_LWR (at_name x)) (to_nodeset sets l k)). intros a b X.
        apply (Permutation.Permutation_NoDup (l := b ++ a)); [|assumption].
        rewrite Permutation.Permutation_app_comm. apply Permutation.Permutation_app_tail.
        apply Permutation.Permutation_rev.
Qed.
