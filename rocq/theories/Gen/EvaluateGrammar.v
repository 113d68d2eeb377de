(** The visit functions of a specification follow the visit sequences (C44). *)

From Coq Require Import String.
From Coq Require Import List Ascii Bool Arith Lia Permutation.
From Verif Require Import Sched.GraphModel Sched.GraphSpec Sched.GraphProof Sched.ScheduleModel Sched.ScheduleSpec Sched.ScheduleProof
  Sched.PartitionModel Sched.PartitionSpec Sched.PartitionGrammar Sched.VisitModel Sched.VisitSpec Sched.VisitProof Sched.EmptyVisitProof
  Sched.VisitGrammar Sched.VisitEntries Sched.VisitProps.
From Verif Require Import Base.Outcome Palm.StrModel Front.Syntax Front.SetsSpec Front.SetsInst Front.NodesetTableModel Front.PropagateModel Front.PropagateSpec
  Front.NodesetPassesProof Front.ProductRulesModel Front.ProductRulesSpec Front.ProductRulesProof
  Sched.FrontendModel Sched.FrontendProof Sched.CycleProof
  Gen.EvalVariantsModel Gen.EvalVariantsSpec Gen.EvalVariantsProof Gen.EvalVariantsNames Gen.EvalVariantsProps
  Gen.EvaluateModel Gen.EvaluateSpec Gen.EvaluateProof Gen.EvaluateCode.
Import ListNotations.
Local Open Scope list_scope.
Local Open Scope outcome_scope.

(** The number of visits of a type, and the names of the attributes that each
    takes and delivers. *)
Definition visit_count (vt : visits_table) (t : target) : nat :=
  match visits_of vt t with Some vs => length vs | None => 0 end.
Definition visit_at (vt : visits_table) (t : target) (k : nat) : option visit :=
  match visits_of vt t with Some vs => nth_error vs k | None => None end.
Definition taken (s : pra) (vt : visits_table) (t : target) (k : nat) : list cstring :=
  match visit_at vt t k with Some v => map (fun x => name_of s (snd x)) (v_inputs v) | None => [] end.
Definition delivered (s : pra) (vt : visits_table) (t : target) (k : nat) : list cstring :=
  match visit_at vt t k with Some v => map (fun x => name_of s (snd x)) (v_outputs v) | None => [] end.

(** For a child whose type is a nodeset the visits are planned for the
    nodeset, and made as visits of the member that is there.  That is right if
    the members agree with it. *)
Record members_agree (a : ast) (s : pra) (lits : list literal) (ty : occurrence -> option target) (vt : visits_table) : Prop := {
  (** the first member in the generated switch has all the visits *)
  ma_first : forall i n o, nth_error (a_nodes a) i = Some n -> In o (children i n) -> leading_member a lits ty vt o;
  (** no member has more visits *)
  ma_fewer : forall j m, member_of a j m -> visit_count vt (TNode m) <= visit_count vt (TSet j);
  (** what a visit of the nodeset delivers, this or an earlier visit of the
      member delivers *)
  ma_outputs : forall j m k b, member_of a j m -> In b (delivered s vt (TSet j) k) -> exists k', k' <= k /\ In b (delivered s vt (TNode m) k');
  (** no attribute is taken by one member and delivered by another *)
  ma_roles : forall j m m' k k' b, member_of a j m -> member_of a j m' -> In b (taken s vt (TNode m) k) -> ~ In b (delivered s vt (TNode m') k') }.

(** No equation reads an inherited attribute of a child. *)
Definition no_child_input_read (a : ast) (s : pra) : Prop :=
  forall i n e r x, nth_error (a_nodes a) i = Some n -> In e (nd_equations n) -> In r (eq_args e) ->
    stands_for (a_nodes a) (a_nodesets a) (attributes_of s) i n r x -> fst x <> OType (TNode i) -> ~ inherited (attributes_of s) (snd x).
(** The name of a variable tells the child and the attribute. *)
Definition plain_children (a : ast) : Prop :=
  forall n c, In n (a_nodes a) -> In c (nd_children n) -> plain (ch_name c) /\ ID_LWR (ch_name c) <> text "this"%string.

Section Specification.
  Variable a : ast.
  Variable s : pra.
  Variable lits : list literal.
  Variable shuffle : list (graph_key * ag_graph) -> list (graph_key * ag_graph).
  Variable ty : occurrence -> option target.
  Hypothesis P : parsed_ast a.
  Hypothesis U : unmarked a.
  Hypothesis B : before_scheduling a = Val (s, lits).
  Hypothesis Sh : forall l, Permutation (shuffle l) l.
  Hypothesis Ty : typing (a_nodes a) (a_nodesets a) ty.
  Variable gs : list (graph_key * ag_graph).
  Hypothesis R : dependency_graphs shuffle a = Val (gs, []).
  Variable ps : list (production occurrence aptr).
  Hypothesis Pr : productions (a_nodes a) (a_nodesets a) (attributes_of s) (member_of a) ps.
  Variable vt : visits_table.
  Variable all : list (list (visit * list VisitModel.entry)).
  Variable max : nat.
  Hypothesis V : SAVvisits (a_nodes a) (a_nodesets a) s lits max gs = Val (vt, all).
  Variable iteration : list nat -> list nat.
  Hypothesis It : forall l, Permutation (iteration l) l.
  Variable functions : list (list function).
  Hypothesis Gen : DGVSast (a_nodes a) s all iteration = Val functions.
  Hypothesis Cmp : compiles functions = true.
  Hypothesis Once : forall b, inherited (attributes_of s) b -> ~ synthesized (attributes_of s) b.
  Hypothesis NoSelf : no_self_dependency ps.
  Hypothesis NoRead : no_child_input_read a s.
  Hypothesis Plain : plain_children a.
  Hypothesis Agree : members_agree a s lits ty vt.

  Notation nodes := (a_nodes a).
  Notation sets := (a_nodesets a).
  Notation attributes := (attributes_of s).
  Notation typed := (typed nodes sets).
  Notation stands_for := (stands_for nodes sets attributes).
  Notation may_be := (may_be nodes sets (member_of a)).
  Notation visit_count := (visit_count vt).
  Notation taken := (taken s vt).
  Notation delivered := (delivered s vt).
  Notation name_of := (name_of s).

  Lemma G : grammar_input nodes sets s.
  Proof. apply (before_scheduling_input a s lits P U B). Qed.

  (** ** Attributes *)

  Lemma name_of_inj : forall b b' x x', attribute_at s b = Some x -> attribute_at s b' = Some x' -> fst b = fst b' -> name_of b = name_of b' -> b = b'.
  Proof.
    intros [t k] [t' k'] x x' Hx Hx' E N. cbn [fst] in E. subst t'. unfold name_of in N. rewrite Hx, Hx' in N. f_equal.
    exact (name_pos_unique _ _ _ _ _ _ _ (attributes_distinct _ _ _ G t) Hx Hx' N).
  Qed.
  Lemma name_of_named : forall b id, named attributes b id -> name_of b = ID_LWR id.
  Proof. intros b id (x & Hx & S). unfold name_of, attribute_at. rewrite Hx. exact S. Qed.
  Lemma grammar_at : forall b, of_grammar attributes b -> exists x, attribute_at s b = Some x.
  Proof. intros b [(x & Hx & _)|(x & Hx & _)]; exists x; exact Hx. Qed.
  Lemma same_attribute : forall b b', of_grammar attributes b -> of_grammar attributes b' -> fst b = fst b' -> name_of b = name_of b' -> b = b'.
  Proof.
    intros b b' H H' E N. destruct (grammar_at b H) as (x & Hx). destruct (grammar_at b' H') as (x' & Hx').
    exact (name_of_inj b b' x x' Hx Hx' E N).
  Qed.

  (** ** The visits table *)

  Lemma table : 
    (forall t, has_production ps t <-> exists vs, visits_of vt t = Some vs) /\
    (forall t vs, visits_of vt t = Some vs ->
       (forall v x, In v vs -> In x (v_inputs v ++ v_outputs v) -> fst x = OType t /\ attribute_of_type attributes t (snd x)) /\
       (forall v x, In v vs -> In x (v_inputs v) -> inherited attributes (snd x)) /\
       (forall v x, In v vs -> In x (v_outputs v) -> ~ inherited attributes (snd x)) /\
       (forall b, attribute_of_type attributes t b -> exists v x, In v vs /\ In x (v_inputs v ++ v_outputs v) /\ snd x = b)).
  Proof.
    destruct (SAVvisits_parts a s lits gs max vt all V) as (tables & vt0 & E1 & E2 & E3 & E4).
    exact (table_right a s lits shuffle ty P U B Sh Ty gs R ps Pr tables vt0 vt E1 E2 E3).
  Qed.

  Lemma visit_at_in : forall t k v, visit_at vt t k = Some v -> exists vs, visits_of vt t = Some vs /\ nth_error vs k = Some v /\ In v vs.
  Proof.
    intros t k v H. unfold visit_at in H. destruct (visits_of vt t) as [vs|]; [|discriminate]. exists vs.
    split; [reflexivity|]. split; [exact H|exact (nth_error_In _ _ H)].
  Qed.
  Lemma visit_at_count : forall t k, k < visit_count t <-> visit_at vt t k <> None.
  Proof.
    intros t k. unfold EvaluateGrammar.visit_count, visit_at. destruct (visits_of vt t) as [vs|]; [symmetry; apply nth_error_Some|]. split; [lia|congruence].
  Qed.
  (** An attribute that a visit takes, and one that it delivers. *)
  Definition takes (t : target) (k : nat) (b : aptr) : Prop := exists v x, visit_at vt t k = Some v /\ In x (v_inputs v) /\ snd x = b.
  Definition delivers (t : target) (k : nat) (b : aptr) : Prop := exists v x, visit_at vt t k = Some v /\ In x (v_outputs v) /\ snd x = b.
  Lemma taken_iff : forall t k y, In y (taken t k) <-> exists b, takes t k b /\ name_of b = y.
  Proof.
    intros t k y. unfold EvaluateGrammar.taken, takes. destruct (visit_at vt t k) as [v|].
    - rewrite in_map_iff. split.
      + intros (x & E & I). exists (snd x). split; [exists v, x; auto|exact E].
      + intros (b & (v' & x & Q & I & <-) & E). injection Q as <-. exists x. auto.
    - split; [intros []|]. intros (b & (v & x & Q & _) & _). discriminate.
  Qed.
  Lemma delivered_iff : forall t k y, In y (delivered t k) <-> exists b, delivers t k b /\ name_of b = y.
  Proof.
    intros t k y. unfold EvaluateGrammar.delivered, delivers. destruct (visit_at vt t k) as [v|].
    - rewrite in_map_iff. split.
      + intros (x & E & I). exists (snd x). split; [exists v, x; auto|exact E].
      + intros (b & (v' & x & Q & I & <-) & E). injection Q as <-. exists x. auto.
    - split; [intros []|]. intros (b & (v & x & Q & _) & _). discriminate.
  Qed.
  Lemma takes_facts : forall t k b, takes t k b -> k < visit_count t /\ fst b = t /\ inherited attributes b.
  Proof.
    intros t k b (v & x & H & I & <-). split; [apply visit_at_count; congruence|]. destruct (visit_at_in _ _ _ H) as (vs & Q & _ & Iv).
    destruct (proj2 table t vs Q) as (T1 & T2 & _). destruct (T1 v x Iv) as (_ & E & _); [apply in_app_iff; auto|]. split; [exact E|]. exact (T2 v x Iv I).
  Qed.
  Lemma delivers_facts : forall t k b, delivers t k b -> k < visit_count t /\ fst b = t /\ ~ inherited attributes b /\ synthesized attributes b.
  Proof.
    intros t k b (v & x & H & I & <-). split; [apply visit_at_count; congruence|]. destruct (visit_at_in _ _ _ H) as (vs & Q & _ & Iv).
    destruct (proj2 table t vs Q) as (T1 & _ & T3 & _). destruct (T1 v x Iv) as (_ & E & Gx); [apply in_app_iff; auto|]. split; [exact E|].
    assert (Ni := T3 v x Iv I). split; [exact Ni|]. destruct Gx as [Gx|Gx]; [contradiction|exact Gx].
  Qed.
  Lemma takes_all : forall t b, has_production ps t -> fst b = t -> inherited attributes b -> exists k, takes t k b.
  Proof.
    intros t b Ht E I. apply (proj1 table) in Ht. destruct Ht as (vs & Q). destruct (proj2 table t vs Q) as (_ & _ & T3 & T4).
    destruct (T4 b) as (v & x & Iv & Ix & Qx); [split; [exact E|left; exact I]|]. destruct (In_nth_error _ _ Iv) as (k & Hk).
    exists k, v, x. split; [unfold visit_at; rewrite Q; exact Hk|]. split; [|exact Qx]. apply in_app_iff in Ix. destruct Ix as [Ix|Ix]; [exact Ix|].
    exfalso. apply (T3 v x Iv Ix). rewrite Qx. exact I.
  Qed.
  Lemma delivers_all : forall t b, has_production ps t -> fst b = t -> synthesized attributes b -> exists k, delivers t k b.
  Proof.
    intros t b Ht E I. apply (proj1 table) in Ht. destruct Ht as (vs & Q). destruct (proj2 table t vs Q) as (_ & T2 & _ & T4).
    destruct (T4 b) as (v & x & Iv & Ix & Qx); [split; [exact E|right; exact I]|]. destruct (In_nth_error _ _ Iv) as (k & Hk).
    exists k, v, x. split; [unfold visit_at; rewrite Q; exact Hk|]. split; [|exact Qx]. apply in_app_iff in Ix. destruct Ix as [Ix|Ix]; [|exact Ix].
    exfalso. apply (Once b); [rewrite <- Qx; exact (T2 v x Iv Ix)|exact I].
  Qed.
  (** Every attribute is taken in one visit, once. *)
  Lemma takes_once : forall t, (forall k v, visit_at vt t k = Some v -> NoDup (map snd (v_inputs v))) /\
    (forall k k' b, takes t k b -> takes t k' b -> k = k').
  Proof.
    intros t. destruct (SAVvisits_parts a s lits gs max vt all V) as (tables & vt0 & E1 & E2 & E3 & E4).
    destruct (partitions_right a s lits shuffle ty P U B Sh Ty gs R ps Pr) as (tables' & vt0' & E1' & E2' & H1 & H2 & H3 & H4).
    rewrite E1 in E1'. injection E1' as <-. rewrite E2 in E2'. injection E2' as <-.
    assert (D : forall t, visits_of vt0 t <> None -> In t (all_types (length nodes) (length sets))).
    { intros t' Q. apply (production_type a s ps Pr). apply H2.
      change (visits_of_type vt0 t') with (visits_of vt0 t'). destruct (visits_of vt0 t') as [vs|]; [eauto|congruence]. }
    assert (X := generate_empty_visits_right _ _ _ _ vt E3 D t).
    assert (Emp : forall vs, visits_of vt t = Some vs -> (forall v, In v vs -> v_inputs v = []) ->
      (forall k v, visit_at vt t k = Some v -> NoDup (map snd (v_inputs v))) /\ (forall k k' b, takes t k b -> takes t k' b -> k = k')).
    { intros vs Q Em. split.
      - intros k v H. destruct (visit_at_in _ _ _ H) as (vs' & Q' & _ & Iv). rewrite Q in Q'. injection Q' as <-. rewrite (Em v Iv). constructor.
      - intros k k' b (v & x & H & I & _). exfalso. destruct (visit_at_in _ _ _ H) as (vs' & Q' & _ & Iv). rewrite Q in Q'. injection Q' as <-.
        rewrite (Em v Iv) in I. destruct I. }
    destruct (visits_of vt0 t) as [[|v0 vs0]|] eqn:Q0.
    - destruct X as [(_ & X)|(_ & X)]; apply (Emp _ X); [intros v [<-|[]]; reflexivity|intros v []].
    - destruct (proj1 (H1 t)) as (tab & Qt); [apply H2; eauto|]. destruct (H4 t tab _ Qt Q0) as [_ [V1 _ _ _]].
      assert (Vat : forall k v, visit_at vt t k = Some v -> nth_error (map attributes_only (v0 :: vs0)) k = Some (map snd (v_inputs v), map snd (v_outputs v))).
      { intros k v H. unfold visit_at in H. rewrite X in H. rewrite nth_error_map, H. reflexivity. }
      split.
      + intros k v H. exact (proj1 (V1 k _ _ (Vat k v H))).
      + intros k k' b (v & x & H & I & <-) (v' & x' & H' & I' & Ex). assert (C := proj2 (V1 k _ _ (Vat k v H)) (snd x)).
        assert (C' := proj2 (V1 k' _ _ (Vat k' v' H')) (snd x')). apply (in_map snd) in I, I'. apply C in I. apply C' in I'. rewrite Ex in I'.
        destruct I as (_ & _ & [N|N]), I' as (_ & _ & [N'|N']); lia.
    - split; [intros k v H|intros k k' b (v & x & H & _)]; destruct (visit_at_in _ _ _ H) as (vs' & Q' & _); rewrite X in Q'; discriminate.
  Qed.

  Lemma visits_by_at : forall o t k v, ty o = Some t -> (nth_error (visits_by ty vt o) k = Some v <->
    exists w, visit_at vt t k = Some w /\ v = attributes_only w).
  Proof.
    intros o t k v T. unfold visits_by, visit_at. rewrite T. destruct (visits_of vt t) as [vs|].
    - rewrite nth_error_map. destruct (nth_error vs k) as [w|]; cbn [option_map].
      + split; [intros [= <-]; exists w; auto|intros (w' & [= <-] & ->); reflexivity].
      + split; [discriminate|intros (w' & [=] & _)].
    - split; [destruct k; discriminate|intros (w & [=] & _)].
  Qed.
  Lemma visits_by_length : forall o t, ty o = Some t -> length (visits_by ty vt o) = visit_count t.
  Proof.
    intros o t T. unfold visits_by, EvaluateGrammar.visit_count. rewrite T. destruct (visits_of vt t); [apply map_length|reflexivity].
  Qed.
  Lemma by_inputs : forall o t k v b, ty o = Some t -> nth_error (visits_by ty vt o) k = Some v -> (In b (fst v) <-> takes t k b).
  Proof.
    intros o t k v b T H. apply (visits_by_at o t k v T) in H. destruct H as (w & Hw & ->). cbn [attributes_only fst]. rewrite in_map_iff. split.
    - intros (x & E & I). exists w, x. auto.
    - intros (w' & x & Hw' & I & E). rewrite Hw in Hw'. injection Hw' as <-. exists x. auto.
  Qed.
  Lemma by_outputs : forall o t k v b, ty o = Some t -> nth_error (visits_by ty vt o) k = Some v -> (In b (snd v) <-> delivers t k b).
  Proof.
    intros o t k v b T H. apply (visits_by_at o t k v T) in H. destruct H as (w & Hw & ->). cbn [attributes_only snd]. rewrite in_map_iff. split.
    - intros (x & E & I). exists w, x. auto.
    - intros (w' & x & Hw' & I & E). rewrite Hw in Hw'. injection Hw' as <-. exists x. auto.
  Qed.
  Lemma ty_node : forall t, ty (OType t) = Some t.
  Proof. intros t. apply Ty. reflexivity. Qed.

  (** ** Types of children *)

  Lemma may_be_node : forall i c m, typed (OChild i c) (TNode m) -> may_be i c m.
  Proof. intros i c m T. left. exact T. Qed.
  Lemma may_be_ty : forall i c m, may_be i c m <-> ty (OChild i c) = Some (TNode m) \/ exists j, ty (OChild i c) = Some (TSet j) /\ member_of a j m.
  Proof.
    intros i c m. unfold EvaluateSpec.may_be. rewrite <- (Ty (OChild i c) (TNode m)). split; (intros [H|(j & T & M)]; [left; exact H|right]); exists j.
    - split; [apply Ty; exact T|exact M].
    - split; [apply Ty; exact T|exact M].
  Qed.
  Lemma typed_same : forall o t t', typed o t -> typed o t' -> t = t'.
  Proof. exact (typed_unique _ _ _ G). Qed.

  (** A child has the attributes of its declared type. *)
  Lemma child_attribute : forall i c m b x, may_be i c m -> typed (OChild i c) (fst b) -> attribute_at s b = Some x ->
    exists b' y, fst b' = TNode m /\ attribute_at s b' = Some y /\ same_id (at_name y) (at_name x) /\
      at_is_inherited y = at_is_inherited x /\ at_is_synthesized y = at_is_synthesized x.
  Proof.
    intros i c m b x [T|(j & T & M)] Tb Hx.
    - exists b, x. split; [exact (typed_same _ _ _ Tb T)|]. split; [exact Hx|]. repeat split.
    - assert (E := typed_same _ _ _ Tb T). unfold attribute_at in Hx. rewrite E in Hx.
      destruct (before_scheduling_members a s lits P U B) as (_ & _ & _ & _ & Carry).
      destruct (Carry j m x M (nth_error_In _ _ Hx)) as (y & Iy & S1 & S2 & S3). destruct (In_nth_error _ _ Iy) as (k & Hk).
      exists (TNode m, k), y. split; [reflexivity|]. split; [exact Hk|]. auto.
  Qed.
  (** What a child of one type takes, no child of another delivers. *)
  Lemma roles : forall i c m m' k k' b, may_be i c m -> may_be i c m' -> In b (taken (TNode m) k) -> ~ In b (delivered (TNode m') k').
  Proof.
    intros i c m m' k k' b [T|(j & T & M)] [T'|(j' & T' & M')] I I'; assert (E := typed_same _ _ _ T T'); try discriminate E.
    - injection E as <-. apply taken_iff in I. apply delivered_iff in I'. destruct I as (x & Tx & E1). destruct I' as (x' & Dx & E2).
      apply takes_facts in Tx. apply delivers_facts in Dx. destruct Tx as (_ & F1 & Ix). destruct Dx as (_ & F2 & Nx & Sx).
      apply Nx. replace x' with x; [exact Ix|]. apply same_attribute; [left; exact Ix|right; exact Sx|congruence|congruence].
    - injection E as <-. exact (ma_roles _ _ _ _ _ Agree j m m' k k' b M M' I I').
  Qed.

  (** ** The plan *)

  Definition named_action (x : action occurrence aptr) : naction :=
    match x with
    | Evaluate (OType _, b) => AEval None (name_of b)
    | Evaluate (OChild _ c, b) => AEval (Some c) (name_of b)
    | Visit (OChild _ c) k => AVisit c k
    | Visit (OType _) k => AVisit 0 k
    end.
  Definition plan (i : nat) : list (list naction) :=
    match nth_error all i with Some res => map (map named_action) (actions res) | None => [] end.

  Lemma node_parts : forall i n, nth_error nodes i = Some n -> exists p res, In p ps /\ node_production nodes sets attributes i n p /\
    nth_error all i = Some res /\ visits_of vt (TNode i) = Some (map fst res) /\
    schedule (OType (TNode i)) (children i n) (visits_by ty vt) (fun x y => x <> y /\ depends_on ty ps p x y) (actions res).
  Proof.
    intros i n Hn. destruct (pr_nodes _ _ _ _ _ Pr i n Hn) as (p & Ip & Np).
    destruct (C34_schedule a s lits shuffle ty gs P U B Sh Ty R ps Pr max vt all V i n p Hn Ip Np) as (res & Hr & Q & Sc). exists p, res. auto.
  Qed.
  Lemma node_production_of : forall i n, nth_error nodes i = Some n -> has_production ps (TNode i).
  Proof. intros i n Hn. destruct (pr_nodes _ _ _ _ _ Pr i n Hn) as (p & Ip & Np). exists p. split; [exact Ip|apply (np_root _ _ _ _ _ _ Np)]. Qed.

  (** The arguments of a call of visit [k] of node [m]. *)
  Lemma visit_arguments_val : forall m k x y, visit_arguments s all m k = Val (x, y) -> x = taken (TNode m) k /\ y = delivered (TNode m) k.
  Proof.
    intros m k x y H. unfold visit_arguments in H. destruct (nth_error all m) as [l|] eqn:El; [|discriminate].
    destruct (nth_error l k) as [[v es]|] eqn:Ek; [|discriminate]. apply bind_val in H. destruct H as (x' & Ex & H).
    apply bind_val in H. destruct H as (y' & Ey & H). injection H as <- <-.
    destruct (nth_error nodes m) as [n|] eqn:Hn.
    - destruct (node_parts m n Hn) as (p & res & _ & _ & Hr & Q & _). rewrite El in Hr. injection Hr as <-.
      assert (Vt : visit_at vt (TNode m) k = Some v) by (unfold visit_at; rewrite Q, nth_error_map, Ek; reflexivity).
      unfold EvaluateGrammar.taken, EvaluateGrammar.delivered. rewrite Vt. split; apply attribute_names_val; assumption.
    - exfalso. destruct (SAVvisits_parts a s lits gs max vt all V) as (tables & vt0 & E1 & E2 & E3 & E4).
      destruct (generate_all_right a s lits gs vt max _ 0 all E4) as [L _]. apply nth_error_None in Hn. rewrite <- L in Hn.
      apply nth_error_None in Hn. congruence.
  Qed.

  Section Node.
    Variable i : nat.
    Variable n : inode.
    Hypothesis Hn : nth_error nodes i = Some n.
    Variable p : production occurrence aptr.
    Variable res : list (visit * list VisitModel.entry).
    Hypothesis Ip : In p ps.
    Hypothesis Np : node_production nodes sets attributes i n p.
    Hypothesis Hr : nth_error all i = Some res.
    Hypothesis Q : visits_of vt (TNode i) = Some (map fst res).
    Hypothesis Sc : schedule (OType (TNode i)) (children i n) (visits_by ty vt) (fun x y => x <> y /\ depends_on ty ps p x y) (actions res).
    Notation node := (OType (TNode i)).
    Notation kid := (OChild i).

    Lemma In_n : In n nodes.
    Proof. exact (nth_error_In _ _ Hn). Qed.

    (** *** Equations *)

    Lemma good : exists l, good_equations (combine nodes (p_nodes s)) (combine sets (p_sets s)) n l /\ attributes (TNode i) = l.
    Proof.
      destruct (before_scheduling_input a s lits P U B) as (_ & Eqs & _).
      destruct (nth_error (p_nodes s) i) as [l|] eqn:Hl.
      - exists l. split; [apply Eqs; apply (nth_error_In _ i); apply nth_error_combine_some; assumption|]. cbn [attributes_of]. apply nth_error_nth. exact Hl.
      - apply nth_error_None in Hl. rewrite (gi_len_nodes _ _ _ G) in Hl. assert (i < length nodes) by (apply nth_error_Some; congruence). lia.
    Qed.
    Lemma stands_same : forall r x y, stands_for i n r x -> stands_for i n r y -> x = y.
    Proof. intros r x y H H'. apply (resolve_iff _ _ _ G i n r x Hn) in H. apply (resolve_iff _ _ _ G i n r y Hn) in H'. congruence. Qed.
    Lemma rule_role : forall e x, In e (nd_equations n) -> stands_for i n (eq_rule e) x ->
      if ar_inode (eq_rule e) then inherited attributes (snd x) else synthesized attributes (snd x).
    Proof.
      intros e x Ie H. destruct good as (l & Ge & El). destruct (g_rules _ _ _ _ Ge e Ie) as (y & Ry & Fl). rewrite <- El in Ry.
      destruct (refers_stands _ _ _ G i n (eq_rule e) y Hn Ry) as (v & Sv & Av). rewrite (stands_same _ _ _ H Sv).
      destruct (ar_inode (eq_rule e)); exists y; (split; [exact Av|exact Fl]).
    Qed.
    Lemma argument_stands : forall e r, In e (nd_equations n) -> In r (eq_args e) -> exists v x, stands_for i n r v /\ attribute_at s (snd v) = Some x.
    Proof.
      intros e r Ie Ir. destruct good as (l & Ge & El). destruct (g_args _ _ _ _ Ge e r Ie Ir) as (y & Ry). rewrite <- El in Ry.
      destruct (refers_stands _ _ _ G i n r y Hn Ry) as (v & Sv & Av). exists v, y. auto.
    Qed.

    (** *** The entries *)

    Lemma heads : forall r o k alts, In r res -> In (EVisit o k alts) (snd r) ->
      alternatives_right a ty vt o k alts /\ exists m rest, alts = (m, true) :: rest.
    Proof.
      intros r o k alts Ir Ie.
      split; [exact (entries_right a s lits shuffle ty P U B Sh Ty gs R ps Pr vt all max V i n res Hn Hr r o k alts Ir Ie)|].
      destruct (action_performed res r _ Ir Ie) as (kk & done & Pf). cbn [action_of] in Pf.
      destruct (sc_visit _ _ _ _ _ Sc kk done o k Pf) as (Io & _ & v & Hv & _).
      destruct (entries_made a s lits gs vt all max V i n res Hn Hr r _ Ir Ie) as (x & E).
      assert (Hgnt := typing_gnt a s lits ty P U B Ty o).
      destruct x as [y|o' k']; cbn [make_entry] in E.
      - destruct (attribute_at s (snd y)) as [d|]; [|discriminate]. destruct (negb _ && _); discriminate.
      - destruct (get_node_type nodes sets o') as [t|] eqn:T; [|discriminate]. destruct t as [m|j].
        + injection E as <- <- <-. eauto.
        + destruct (nth_error lits j) as [l|] eqn:Hl; [|discriminate].
          destruct (nodeset_alternatives nodes vt k' l) as [al| | | |] eqn:Ea; try discriminate. cbn [bind] in E.
          assert (Qa : o' = o /\ k' = k /\ al = alts) by (destruct al; [discriminate|]; injection E as <- <- <-; auto).
          destruct Qa as (-> & -> & ->). rewrite T in Hgnt.
          destruct (ma_first _ _ _ _ _ Agree i n o Hn Io j Hgnt) as (l' & r' & rest & m & vs & ws & Hl' & Hlist & Hm & Q1 & Q2 & Le).
          rewrite Hl in Hl'. injection Hl' as <-. apply nodeset_alternatives_right in Ea. rewrite Hlist in Ea.
          inversion Ea as [|r0 alt ids alts' (ws' & F & Q2' & Sb) Ea']; subst. destruct alt as [m' b]. cbn [fst snd] in *.
          apply (find_node_iff _ _ _ G) in Hm. rewrite F in Hm. injection Hm as ->. rewrite Q2 in Q2'. injection Q2' as <-.
          exists m, alts'. f_equal. f_equal. rewrite Sb. apply Nat.ltb_lt.
          assert (k < length vs); [|lia]. assert (Lv : k < length (visits_by ty vt o)) by (apply nth_error_Some; congruence).
          rewrite (visits_by_length o (TSet j) Hgnt) in Lv. unfold EvaluateGrammar.visit_count in Lv. rewrite Q1 in Lv. exact Lv.
    Qed.

    (** The function of a visit. *)
    Lemma code : exists fs, nth_error functions i = Some fs /\ length fs = length res /\
      forall k r, nth_error res k = Some r -> exists f, nth_error fs k = Some f /\ f_params f = taken (TNode i) k /\ f_returns f = delivered (TNode i) k /\
        Forall2 (statement_of nodes s all iteration n) (snd r) (f_body f) /\ function_compiles f = true.
    Proof.
      unfold DGVSast in Gen. destruct (nodes_val _ _ _ _ _ _ _ Gen i n Hn) as (res' & fs & Hr' & Hf & F2). rewrite Hr in Hr'. injection Hr' as <-.
      exists fs. split; [exact Hf|]. split; [exact (Forall2_len _ _ _ F2)|]. intros k r Hk.
      assert (X : exists f, nth_error fs k = Some f /\ DGVSvisit nodes s all iteration n r = Val f).
      { clear -F2 Hk. revert k Hk. induction F2 as [|v g l l' Hv F2 IH]; intros k Hk; [destruct k; discriminate|].
        destruct k as [|k]; cbn [nth_error] in *; [injection Hk as <-; eauto|auto]. }
      destruct X as (f & Hfk & E). exists f. split; [exact Hfk|]. unfold DGVSvisit in E.
      apply bind_val in E. destruct E as (x & Ex & E). apply bind_val in E. destruct E as (b & Eb & E). apply bind_val in E. destruct E as (y & Ey & E).
      injection E as <-. cbn [f_params f_body f_returns].
      assert (Vt : visit_at vt (TNode i) k = Some (fst r)) by (unfold visit_at; rewrite Q, nth_error_map, Hk; reflexivity).
      unfold EvaluateGrammar.taken, EvaluateGrammar.delivered. rewrite Vt.
      split; [apply attribute_names_val; exact Ex|]. split; [apply attribute_names_val; exact Ey|]. split.
      - apply sequence_val; [exact Eb|]. intros o j alts I. destruct (heads r o j alts (nth_error_In _ _ Hk) I) as ((N & _) & H). auto.
      - unfold compiles in Cmp. rewrite forallb_forall in Cmp. specialize (Cmp fs (nth_error_In _ _ Hf)). rewrite forallb_forall in Cmp.
        exact (Cmp _ (nth_error_In _ _ Hfk)).
    Qed.

    (** *** The actions *)

    Definition proper (x : action occurrence aptr) : Prop :=
      match x with
      | Evaluate x => (fst x = node /\ fst (snd x) = TNode i /\ synthesized attributes (snd x)) \/
          (exists c, fst x = kid c /\ c < length (nd_children n) /\ typed (kid c) (fst (snd x)) /\ inherited attributes (snd x))
      | Visit o k => exists c, o = kid c /\ c < length (nd_children n)
      end.

    Lemma no_this : forall c, In c (nd_children n) -> ID_LWR (ch_name c) <> nm "this"%string.
    Proof. intros c Ic. exact (proj2 (Plain n c In_n Ic)). Qed.
    Lemma rule_proper : forall e x, In e (nd_equations n) -> stands_for i n (eq_rule e) x -> proper (Evaluate x).
    Proof.
      intros e x Ie H. assert (Ro := rule_role e x Ie H). destruct H as (Tx & Nx & Ox). cbn [proper]. destruct (ar_inode (eq_rule e)) as [cn|].
      - right. destruct Ox as (c & ch & Ec & Hc & _). exists c. split; [exact Ec|]. split; [apply nth_error_Some; congruence|].
        rewrite Ec in Tx. split; [exact Tx|exact Ro].
      - left. split; [exact Ox|]. rewrite Ox in Tx. cbn in Tx. split; [symmetry; exact Tx|exact Ro].
    Qed.
    Lemma evaluated_equation : forall r x, In r res -> In (EEval x) (snd r) ->
      exists st rf d e l, evaluation nodes s iteration n x = Val st /\ evaluation_reference nodes s x = Some rf /\ attribute_at s (snd x) = Some d /\
        get_equation n rf = Some e /\ eval_statement n iteration rf e = Val l /\
        st = SEval (local_name (get_node_name_this rf) (ID_LWR (ar_attribute rf))) l
               (match ar_inode rf with Some _ => None | None => Some (ID_LWR (ar_attribute rf)) end) /\
        In e (nd_equations n) /\ stands_for i n (eq_rule e) x.
    Proof.
      intros r x Ir Ie. destruct code as (fs & _ & _ & C). destruct (In_nth_error _ _ Ir) as (k & Hk). destruct (C k r Hk) as (f & _ & _ & _ & F2 & _).
      assert (X : exists st, statement_of nodes s all iteration n (EEval x) st).
      { clear -F2 Ie. induction F2 as [|e st l l' H F2 IH]; [destruct Ie|]. destruct Ie as [->|Ie]; [exists st; exact H|exact (IH Ie)]. }
      destruct X as (st & E). cbn [statement_of] in E. exists st.
      destruct (evaluation_val _ _ _ _ _ _ E) as (rf & d & e & l & E1 & E2 & E3 & E4 & E5 & E6). exists rf, d, e, l.
      split; [exact E|]. split; [exact E1|]. split; [exact E2|]. split; [exact E3|]. split; [exact E4|]. split; [exact E6|].
      destruct (C35_equation_found a s lits shuffle ty gs P U B Sh Ty R max vt all V i n res Hn Hr no_this r x Ir Ie) as [(O & I)|(rf' & e' & F1 & F2' & F3 & F4)].
      - exfalso. apply (Once (snd x) I). exists d. split; [exact E2|]. apply E5.
        unfold evaluation_reference in E1. rewrite E2, O in E1. injection E1 as <-. reflexivity.
      - rewrite E1 in F1. injection F1 as <-. rewrite E3 in F2'. injection F2' as <-. auto.
    Qed.
    Lemma entry_proper : forall r e, In r res -> In e (snd r) -> proper (action_of e).
    Proof.
      intros r e Ir Ie. destruct e as [x|o k alts]; cbn [action_of].
      - destruct (evaluated_equation r x Ir Ie) as (st & rf & d & e & l & _ & _ & _ & _ & _ & _ & I & H). exact (rule_proper e x I H).
      - destruct (action_performed res r _ Ir Ie) as (kk & done & Pf). cbn [action_of] in Pf.
        destruct (sc_visit _ _ _ _ _ Sc kk done o k Pf) as (Io & _). unfold children in Io. apply in_map_iff in Io. destruct Io as (c & <- & Ic).
        apply in_seq in Ic. exists c. split; [reflexivity|lia].
    Qed.
    Lemma all_proper : forall x, In x (concat (actions res)) -> proper x.
    Proof.
      intros x I. apply in_concat in I. destruct I as (l & Il & I). unfold actions in Il. apply in_map_iff in Il. destruct Il as (r & <- & Ir).
      apply in_map_iff in I. destruct I as (e & <- & Ie). exact (entry_proper r e Ir Ie).
    Qed.

    Lemma named_inj : forall x y, proper x -> proper y -> named_action x = named_action y -> x = y.
    Proof.
      intros [[o b]|o k] [[o' b']|o' k'] H H' E; cbn [proper fst snd] in H, H'.
      - f_equal. destruct H as [(-> & F & S)|(c & -> & _ & T & I)], H' as [(-> & F' & S')|(c' & -> & _ & T' & I')]; cbn [named_action] in E; try discriminate E.
        + injection E as E. f_equal. apply same_attribute; [right; exact S|right; exact S'|congruence|exact E].
        + injection E as <- E. f_equal. apply same_attribute; [left; exact I|left; exact I'|exact (typed_same _ _ _ T T')|exact E].
      - exfalso. destruct o, o'; discriminate E.
      - exfalso. destruct o, o'; discriminate E.
      - destruct H as (c & -> & _), H' as (c' & -> & _). cbn [named_action] in E. injection E as <- <-. reflexivity.
    Qed.
    Lemma named_in : forall l x, (forall y, In y l -> proper y) -> proper x -> In (named_action x) (map named_action l) -> In x l.
    Proof.
      intros l x H Hx I. apply in_map_iff in I. destruct I as (y & E & I). rewrite (named_inj x y Hx (H y I) (eq_sym E)). exact I.
    Qed.
    Lemma own_in : forall l b, (forall y, In y l -> proper y) -> In (AEval None b) (map named_action l) ->
      exists x, In (Evaluate (node, x)) l /\ name_of x = b /\ fst x = TNode i /\ synthesized attributes x.
    Proof.
      intros l b H I. apply in_map_iff in I. destruct I as (y & E & I). assert (Hy := H y I). destruct y as [[o x]|[t|i' c] k]; [|discriminate E|discriminate E].
      destruct o as [t|i' c]; [|discriminate E]. cbn [named_action] in E. injection E as <-. cbn [proper fst snd] in Hy.
      destruct Hy as [([= ->] & F & S)|(c & [=] & _)]. exists x. auto.
    Qed.
    Lemma kid_in : forall l c b, (forall y, In y l -> proper y) -> In (AEval (Some c) b) (map named_action l) ->
      exists x, In (Evaluate (kid c, x)) l /\ name_of x = b /\ c < length (nd_children n) /\ typed (kid c) (fst x) /\ inherited attributes x.
    Proof.
      intros l c b H I. apply in_map_iff in I. destruct I as (y & E & I). assert (Hy := H y I). destruct y as [[o x]|[t|i' c'] k]; [|discriminate E|discriminate E].
      destruct o as [t|i' c']; [discriminate E|]. cbn [named_action] in E. injection E as -> <-. cbn [proper fst snd] in Hy.
      destruct Hy as [([=] & _)|(c' & [= <- <-] & L & T & S)]. exists x. auto.
    Qed.
    Lemma visit_in : forall l c j, (forall y, In y l -> proper y) -> c < length (nd_children n) ->
      (In (AVisit c j) (map named_action l) <-> In (Visit (kid c) j) l).
    Proof.
      intros l c j H L. split.
      - intros I. change (AVisit c j) with (named_action (Visit (kid c) j)) in I. apply (named_in l); [exact H|exists c; auto|exact I].
      - intros I. apply (in_map named_action) in I. exact I.
    Qed.

    Lemma plan_eq : plan i = map (map named_action) (actions res).
    Proof. unfold plan. rewrite Hr. reflexivity. Qed.
    Lemma plan_done : forall k, concat (firstn k (plan i)) = map named_action (concat (firstn k (actions res))).
    Proof. intros k. rewrite plan_eq, firstn_map, concat_map. reflexivity. Qed.
    Lemma plan_concat : concat (plan i) = map named_action (concat (actions res)).
    Proof. rewrite plan_eq, concat_map. reflexivity. Qed.

    (** Positions in the sequence of all actions. *)
    Lemma performed_in : forall k done x, performed (actions res) k done x -> exists rest, concat (actions res) = done ++ x :: rest.
    Proof.
      intros k done x (before & after & Hk & ->). exists (after ++ concat (skipn (S k) (actions res))).
      rewrite <- (firstn_skipn k (actions res)) at 1. rewrite concat_app. rewrite <- app_assoc. f_equal.
      assert (E : skipn k (actions res) = (before ++ x :: after) :: skipn (S k) (actions res)).
      { clear -Hk. revert k Hk. induction (actions res) as [|y l IH]; intros k Hk; [destruct k; discriminate|].
        destruct k as [|k]; cbn [nth_error] in Hk; [injection Hk as ->; reflexivity|]. cbn [skipn]. rewrite (IH k Hk). reflexivity. }
      rewrite E. cbn [concat]. rewrite <- app_assoc. reflexivity.
    Qed.
    Lemma performed_proper : forall k done x, performed (actions res) k done x -> proper x /\ forall y, In y done -> proper y.
    Proof.
      intros k done x H. destruct (performed_in _ _ _ H) as (rest & E). split.
      - apply all_proper. rewrite E. apply in_or_app. right. left. reflexivity.
      - intros y I. apply all_proper. rewrite E. apply in_or_app. left. exact I.
    Qed.
    Lemma performed_new : forall k done x, performed (actions res) k done x -> ~ In x done.
    Proof.
      intros k done x H. destruct (performed_in _ _ _ H) as (rest & E). assert (N := sc_once _ _ _ _ _ Sc). rewrite E in N.
      apply NoDup_remove_2 in N. intros I. apply N. apply in_or_app. left. exact I.
    Qed.
    (** What is done was performed, before. *)
    Lemma done_performed : forall l k done x, performed (O := occurrence) (A := aptr) l k done x -> forall y, In y done ->
      exists k' done' more, performed l k' done' y /\ done = done' ++ y :: more.
    Proof.
      intros l k done x (before & after & Hk & ->) y I. apply in_app_iff in I. destruct I as [I|I].
      - assert (Z : forall l k, In y (concat (firstn k l)) -> exists k' done' more, performed (O := occurrence) (A := aptr) l k' done' y /\
          concat (firstn k l) = done' ++ y :: more).
        { clear. induction l as [|z l IH]; intros [|k] I; cbn [firstn concat] in I; try destruct I. apply in_app_iff in I. destruct I as [I|I].
          - apply in_split in I. destruct I as (u & w & ->). exists 0, u, (w ++ concat (firstn k l)). split; [exists u, w; split; reflexivity|].
            cbn [firstn concat]. rewrite <- app_assoc. reflexivity.
          - destruct (IH k I) as (k' & done' & more & (b & af & Hk' & ->) & E). exists (S k'). eexists. exists more. split; [exists b, af; split; [exact Hk'|reflexivity]|].
            cbn [firstn concat]. rewrite E, <- !app_assoc. reflexivity. }
        destruct (Z l k I) as (k' & done' & more & Pf & E). exists k', done', (more ++ before). split; [exact Pf|]. rewrite E, <- app_assoc. reflexivity.
      - apply in_split in I. destruct I as (u & w & ->). exists k. eexists. exists w. split.
        + exists u, (w ++ x :: after). rewrite <- app_assoc in Hk. split; [exact Hk|reflexivity].
        + rewrite <- app_assoc. reflexivity.
    Qed.
    Lemma earlier_visits : forall k done x o j, performed (actions res) k done x -> In (Visit o j) done -> forall j', j' < j -> In (Visit o j') done.
    Proof.
      intros k done x o j Pf I j' L. destruct (done_performed _ _ _ _ Pf _ I) as (k' & done' & more & Pf' & ->).
      destruct (sc_visit _ _ _ _ _ Sc k' done' o j Pf') as (_ & H & _). apply in_or_app. left. exact (H j' L).
    Qed.
    Lemma visits_so_far : forall k done o j, performed (actions res) k done (Visit o j) -> forall j', In (Visit o j') done <-> j' < j.
    Proof.
      intros k done o j Pf j'. destruct (sc_visit _ _ _ _ _ Sc k done o j Pf) as (_ & H & _). split; [|apply H].
      intros I. destruct (Nat.lt_trichotomy j' j) as [L|[->|L]]; [exact L|exfalso|exfalso].
      - exact (performed_new _ _ _ Pf I).
      - apply (performed_new _ _ _ Pf). exact (earlier_visits _ _ _ _ _ Pf I j L).
    Qed.

    (** *** Variables *)

    Definition owner (o : option nat) : Prop := match o with None => True | Some c => c < length (nd_children n) end.
    Lemma child_at : forall c, c < length (nd_children n) -> exists x, nth_error (nd_children n) c = Some x /\ In x (nd_children n).
    Proof.
      intros c L. destruct (nth_error (nd_children n) c) as [x|] eqn:E; [|apply nth_error_None in E; lia]. exists x. split; [reflexivity|].
      exact (nth_error_In _ _ E).
    Qed.
    Lemma distinct_children : NoDup (map (fun c => ID_LWR (ch_name c)) (nd_children n)).
    Proof. exact (gi_children _ _ _ G n In_n). Qed.
    Lemma local_inj : forall o o' b b', owner o -> owner o' -> local n o b = local n o' b' -> o = o' /\ b = b'.
    Proof.
      intros o o' b b' Ho Ho' E.
      assert (Pl : forall o, owner o -> ~ In "_"%char (match o with None => text "this"%string | Some c => child_name n c end)).
      { intros [c|] Hc; [|cbn; intros H; repeat (destruct H as [H|H]; [discriminate H|]); destruct H].
        destruct (child_at c Hc) as (x & Hx & Ix). unfold child_name. rewrite Hx. apply plain_lower. exact (proj1 (Plain n x In_n Ix)). }
      apply local_name_inj in E; [|exact (Pl o Ho)|exact (Pl o' Ho')]. destruct E as [E ->]. split; [|reflexivity].
      destruct o as [c|], o' as [c'|].
      - destruct (child_at c Ho) as (x & Hx & Ix). destruct (child_at c' Ho') as (x' & Hx' & Ix'). unfold child_name in E. rewrite Hx, Hx' in E. f_equal.
        exact (name_pos_unique _ _ _ _ _ _ _ distinct_children Hx Hx' E).
      - exfalso. destruct (child_at c Ho) as (x & Hx & Ix). unfold child_name in E. rewrite Hx in E. exact (no_this x Ix E).
      - exfalso. destruct (child_at c' Ho') as (x & Hx & Ix). unfold child_name in E. rewrite Hx in E. exact (no_this x Ix (eq_sym E)).
      - reflexivity.
    Qed.
    Lemma evaluated_owner : forall l o b, (forall y, In y l -> proper y) -> In (AEval o b) (map named_action l) -> owner o.
    Proof. intros l [c|] b H I; [|exact Logic.I]. destruct (kid_in l c b H I) as (x & _ & _ & L & _). exact L. Qed.

    (** *** Evaluations *)

    Lemma calls_made : forall rf e l, In e (nd_equations n) -> get_equation n rf = Some e -> eval_statement n iteration rf e = Val l -> calls_right n l e.
    Proof.
      intros rf e l Ie Hg Ev. destruct (accepted_good a s lits P U B n In_n) as (D & Rs). specialize (Rs e Ie).
      destruct (collect_children_right n D (eq_args e) Rs) as (cs & C & O). exists cs. split; [exact O|].
      assert (Few : length cs < 64).
      { unfold eval_statement in Ev. rewrite C in Ev. cbn [bind] in Ev. destruct cs as [|c cs]; [cbn [length]; lia|].
        apply bind_val in Ev. destruct Ev as (k & Ek & _). unfold combinations in Ek.
        destruct (Nat.ltb (length (c :: cs)) 64) eqn:E; [apply Nat.ltb_lt; exact E|discriminate Ek]. }
      destruct (statement_right n D e Rs cs O C Few iteration (It cs) rf) as (st & Est & H). rewrite Est in Ev. injection Ev as <-.
      intros null Legal. assert (Oo : only_optional n e null) by (intros r' c _ _ Hc; apply Legal; exact Hc).
      destruct (H null Oo) as ((name & args) & Run & [V1 V2]). cbn [fst snd] in V1, V2.
      rewrite (variant_name_found n rf e _ Hg) in V1. subst name. exists args. auto.
    Qed.

    Notation nv := (fun m => visit_count (TNode m)).
    Notation ins := (fun m => taken (TNode m)).
    Notation outs := (fun m => delivered (TNode m)).
    Notation own_available := (own_available ins).
    Notation arguments_available := (arguments_available nodes sets s (member_of a) nv ins outs).
    Notation follows := (follows nodes sets s (member_of a) nv ins outs).

    Lemma arguments_there : forall k done x e, performed (actions res) k done (Evaluate x) -> In e (nd_equations n) -> stands_for i n (eq_rule e) x ->
      arguments_available i n k (map named_action done) e.
    Proof.
      intros k done x e Pf Ie Sx r Ir. destruct (argument_stands e r Ie Ir) as (v & y & Sv & Av). assert (Sv' := Sv). destruct Sv' as (Tv & Nv & Ov).
      destruct (performed_proper _ _ _ Pf) as (_ & Dp).
      assert (Nm : name_of (snd v) = ID_LWR (ar_attribute r)) by exact (name_of_named _ _ Nv).
      assert (Sy : same_id (at_name y) (ar_attribute r)).
      { unfold EvaluateCode.name_of in Nm. rewrite Av in Nm. exact Nm. }
      assert (Avl : computed y -> of_grammar attributes (snd v) /\ available node (visits_by ty vt) k done v).
      { intros C. assert (Gv : of_grammar attributes (snd v)) by (destruct C as [C|C]; [left|right]; exists y; (split; [exact Av|exact C])).
        split; [exact Gv|]. apply (proj1 (sc_evaluate _ _ _ _ _ Sc k done x Pf)).
        assert (Dd : In (v, x) (p_deps p)) by (apply (np_deps _ _ _ _ _ _ Np); exists e, r; auto).
        split; [|apply dep_direct; assumption]. intros ->. exact (NoSelf p x Ip Dd). }
      destruct (ar_inode r) as [cn|] eqn:Ar.
      - destruct Ov as (c & ch & Ev & Hc & Sn). exists c. assert (Rc : reads_child n r c) by (exists cn, ch; auto).
        split; [apply (get_child_iff n distinct_children r cn c Ar); exact Rc|]. split; [exact Rc|]. intros m Mb. rewrite Ev in Tv.
        destruct (child_attribute i c m (snd v) y Mb Tv Av) as (b' & y' & F' & A' & S1 & S2 & S3). exists y'.
        split; [unfold attribute_at in A'; rewrite F' in A'; exact (nth_error_In _ _ A')|]. split; [unfold same_id in *; congruence|]. intros C.
        assert (C' : computed y) by (unfold computed in *; rewrite <- S2, <- S3; exact C). destruct (Avl C') as (Gv & [(j & w & _ & _ & E & _)|[I|(j & w & I & Hw & Iw)]]).
        + rewrite Ev in E. discriminate E.
        + exfalso. assert (Pv := Dp _ I). cbn [proper] in Pv. rewrite Ev in Pv. destruct Pv as [([=] & _)|(_ & _ & _ & _ & Inh)].
          apply (NoRead i n e r v Hn Ie Ir Sv); [rewrite Ev; discriminate|exact Inh].
        + rewrite Ev in I, Hw. assert (Tc : ty (kid c) = Some (fst (snd v))) by (apply Ty; exact Tv).
          apply (by_outputs (kid c) _ j w (snd v) Tc Hw) in Iw.
          assert (Dl : In (ID_LWR (ar_attribute r)) (delivered (fst (snd v)) j)) by (apply delivered_iff; exists (snd v); auto).
          assert (L : c < length (nd_children n)) by (apply nth_error_Some; congruence).
          assert (Fin : forall j', In (Visit (kid c) j') done -> In (ID_LWR (ar_attribute r)) (delivered (TNode m) j') ->
            exists j, In (AVisit c j) (map named_action done) /\ j < visit_count (TNode m) /\ In (ID_LWR (ar_attribute r)) (delivered (TNode m) j)).
          { intros j' I' D'. exists j'. split; [apply visit_in; assumption|]. split; [|exact D']. apply delivered_iff in D'. destruct D' as (b0 & D' & _).
            apply (delivers_facts _ _ _ D'). }
          destruct Mb as [T|(jj & T & M)]; assert (E := typed_same _ _ _ Tv T); rewrite E in Dl.
          * exact (Fin j I Dl).
          * destruct (ma_outputs _ _ _ _ _ Agree jj m j _ M Dl) as (j' & Le & D'). apply (Fin j'); [|exact D'].
            destruct (Nat.eq_dec j' j) as [->|Ne]; [exact I|]. apply (earlier_visits _ _ _ _ _ Pf I). lia.
      - rewrite Ov in Tv. cbn in Tv. exists y. split; [unfold attribute_at in Av; rewrite <- Tv in Av; exact (nth_error_In _ _ Av)|]. split; [exact Sy|].
        intros C. destruct (Avl C) as (Gv & [(j & w & Lj & Hw & _ & Iw)|[I|(j & w & I & _)]]).
        + left. exists j. split; [lia|]. apply taken_iff. exists (snd v). split; [|exact Nm]. apply (by_inputs _ _ _ _ _ (ty_node (TNode i)) Hw). exact Iw.
        + right. rewrite <- Nm. apply (in_map named_action) in I. destruct v as [o b]. cbn [fst snd] in *. subst o. exact I.
        + exfalso. assert (Pv := Dp _ I). rewrite Ov in Pv. destruct Pv as (c & [=] & _).
    Qed.

    Lemma evaluation_follows : forall k r e1 x e2 st, nth_error res k = Some r -> snd r = e1 ++ EEval x :: e2 ->
      statement_of nodes s all iteration n (EEval x) st ->
      follows i n k (map named_action (concat (firstn k (actions res)) ++ map action_of e1)) (map named_action (map action_of e1)) (named_action (Evaluate x)) st.
    Proof.
      intros k r e1 x e2 st Hk Er Es.
      set (done := concat (firstn k (actions res)) ++ map action_of e1).
      assert (Pf : performed (actions res) k done (Evaluate x)).
      { exists (map action_of e1), (map action_of e2). split; [|reflexivity]. unfold actions. rewrite nth_error_map, Hk. cbn [option_map].
        rewrite Er, map_app. reflexivity. }
      assert (Ix : In (EEval x) (snd r)) by (rewrite Er; apply in_or_app; right; left; reflexivity).
      destruct (evaluated_equation r x (nth_error_In _ _ Hk) Ix) as (st' & rf & d & e & l & E1 & E2 & E3 & E4 & E5 & E6 & Ie & Sx).
      cbn [statement_of] in Es. rewrite Es in E1. injection E1 as <-.
      destruct (performed_proper _ _ _ Pf) as (Px & Dp). assert (New := performed_new _ _ _ Pf).
      assert (Bp : forall y, In y (map action_of e1) -> proper y) by (intros y I; apply Dp, in_or_app; right; exact I).
      assert (Nm := name_of_named _ _ (proj1 (proj2 Sx))).
      assert (Sn : name_of (snd x) = ID_LWR (at_name d)) by (unfold EvaluateCode.name_of; rewrite E3; reflexivity).
      assert (Fresh : forall o b, owner o -> named_action (Evaluate x) = AEval o b ->
        forall o' b', In (AEval o' b') (map named_action (map action_of e1)) -> local n o' b' <> local n o b).
      { intros o b Ho E o' b' I Q'. apply local_inj in Q'; [|exact (evaluated_owner _ _ _ Bp I)|exact Ho]. destruct Q' as [-> ->].
        rewrite <- E in I. apply named_in in I; [|exact Bp|exact Px]. apply New, in_or_app. right. exact I. }
      assert (Ar := arguments_there k done x e Pf Ie Sx). assert (Cl := calls_made rf e l Ie E4 E5).
      destruct x as [o b]. cbn [fst snd] in *. unfold evaluation_reference in E2. cbn [fst snd] in E2. rewrite E3 in E2.
      cbn [proper fst snd] in Px. destruct Px as [(-> & Fb & Sb)|(c & -> & Lc & Tb & Ib)].
      - injection E2 as <-. cbn [ar_inode ar_attribute get_node_name_this] in E6. rewrite <- Sn in E6.
        cbn [named_action EvaluateProof.follows]. exists l, e. split; [exact E6|]. split; [exact Ie|].
        split; [split; [symmetry; exact Nm|]|]. { destruct Sx as (_ & _ & Ox). destruct (ar_inode (eq_rule e)); [|reflexivity]. destruct Ox as (kk & cc & [=] & _). }
        split; [exact Ar|]. split; [exact Cl|]. split; [apply (Fresh None (name_of b)); [exact Logic.I|reflexivity]|].
        intros _ [(j & _ & It')|I].
        + apply taken_iff in It'. destruct It' as (b' & Tk & Eb). apply takes_facts in Tk. destruct Tk as (_ & Fb' & Ib).
          apply (Once b'); [exact Ib|]. replace b' with b; [exact Sb|]. apply same_attribute; [right; exact Sb|left; exact Ib|congruence|congruence].
        + change (AEval None (name_of b)) with (named_action (Evaluate (node, b))) in I. apply named_in in I; [exact (New I)|exact Dp|].
          cbn [proper fst snd]. auto.
      - rewrite Hn in E2. destruct (child_at c Lc) as (ch & Hc & _). rewrite Hc in E2. injection E2 as <-.
        cbn [ar_inode ar_attribute get_node_name_this] in E6. rewrite <- Sn in E6.
        cbn [named_action EvaluateProof.follows]. exists l, e. split; [unfold local, child_name; rewrite Hc; exact E6|]. split; [exact Ie|].
        split; [split; [symmetry; exact Nm|]|].
        { destruct Sx as (_ & _ & Ox). destruct (ar_inode (eq_rule e)) as [cn|]; [|discriminate Ox]. destruct Ox as (kk & cc & [= <-] & Hcc & Sc').
          exists cn, cc. auto. }
        split; [exact Ar|]. split; [exact Cl|]. split; [apply (Fresh (Some c) (name_of b)); [exact Lc|reflexivity]|]. intros [=].
    Qed.

    (** *** Visits *)

    (** A variable for an attribute of a child or of the node is declared where
        the attribute is computed, or gets what a visit delivers. *)
    Lemma declared_by : forall r e st y o, In r res -> In e (snd r) -> statement_of nodes s all iteration n e st -> owner o ->
      In (Value (local n o y)) (declarations st) ->
      named_action (action_of e) = AEval o y \/ exists c m j, o = Some c /\ may_be i c m /\ In y (delivered (TNode m) j).
    Proof.
      intros r e st y o Ir Ie Es Ho Id. destruct e as [x|o' k alts].
      - left. destruct (evaluated_equation r x Ir Ie) as (st' & rf & d & e & l & E1 & E2 & E3 & E4 & E5 & E6 & _ & _).
        cbn [statement_of] in Es. rewrite Es in E1. injection E1 as <-. subst st. cbn [declarations] in Id. destruct Id as [Id|[]]. injection Id as Id.
        assert (Px := entry_proper r _ Ir Ie). cbn [action_of proper] in Px. destruct x as [ox b]. cbn [fst snd] in *.
        assert (Sn : name_of b = ID_LWR (at_name d)) by (unfold EvaluateCode.name_of; rewrite E3; reflexivity).
        unfold evaluation_reference in E2. cbn [fst snd] in E2. rewrite E3 in E2. destruct Px as [(-> & _)|(c & -> & Lc & _)].
        + injection E2 as <-. cbn [ar_inode ar_attribute get_node_name_this] in Id. rewrite <- Sn in Id.
          change (local_name (text "this"%string) (name_of b)) with (local n None (name_of b)) in Id.
          apply local_inj in Id; [|exact Logic.I|exact Ho]. destruct Id as [<- <-]. reflexivity.
        + rewrite Hn in E2. destruct (child_at c Lc) as (ch & Hc & _). rewrite Hc in E2. injection E2 as <-.
          cbn [ar_inode ar_attribute get_node_name_this] in Id. rewrite <- Sn in Id.
          assert (Eq : local_name (ID_LWR (ch_name ch)) (name_of b) = local n (Some c) (name_of b)) by (unfold local, child_name; rewrite Hc; reflexivity).
          rewrite Eq in Id. apply local_inj in Id; [|exact Lc|exact Ho]. destruct Id as [<- <-]. reflexivity.
      - right. assert (Px := entry_proper r _ Ir Ie). cbn [action_of proper] in Px. destruct Px as (c & -> & Lc).
        destruct (heads r _ k alts Ir Ie) as ((N & A1 & A2) & m0 & rest & ->). cbn [statement_of] in Es.
        destruct (sequence_visit_val _ _ _ _ _ _ _ _ Es N) as (d & body & Q1 & _ & Dc). injection Q1 as ->.
        destruct (Dc _ Id _ eq_refl) as (m & b & ii & oo & Im & Va & Ib & Ey).
        change (local_name (child_name n c) b) with (local n (Some c) b) in Ey. apply local_inj in Ey; [|exact Ho|exact Lc]. destruct Ey as [-> ->].
        apply visit_arguments_val in Va. destruct Va as [_ ->]. exists c, m, k. split; [reflexivity|]. split; [|exact Ib]. apply may_be_ty. apply A1. exact Im.
    Qed.

    Lemma visit_follows : forall k r e1 o j alts e2 st b1 b2 f, nth_error res k = Some r -> snd r = e1 ++ EVisit o j alts :: e2 ->
      statement_of nodes s all iteration n (EVisit o j alts) st -> Forall2 (statement_of nodes s all iteration n) e1 b1 ->
      f_body f = b1 ++ st :: b2 -> function_compiles f = true ->
      follows i n k (map named_action (concat (firstn k (actions res)) ++ map action_of e1)) (map named_action (map action_of e1)) (named_action (Visit o j)) st.
    Proof.
      intros k r e1 o j alts e2 st b1 b2 f Hk Er Es F2 Fb Fc. assert (Ir := nth_error_In _ _ Hk).
      set (done := concat (firstn k (actions res)) ++ map action_of e1).
      assert (Pf : performed (actions res) k done (Visit o j)).
      { exists (map action_of e1), (map action_of e2). split; [|reflexivity]. unfold actions. rewrite nth_error_map, Hk. cbn [option_map].
        rewrite Er, map_app. reflexivity. }
      assert (Ie : In (EVisit o j alts) (snd r)) by (rewrite Er; apply in_or_app; right; left; reflexivity).
      destruct (performed_proper _ _ _ Pf) as (Px & Dp).
      assert (Bp : forall y, In y (map action_of e1) -> proper y) by (intros y I; apply Dp, in_or_app; right; exact I).
      cbn [proper] in Px. destruct Px as (c & -> & Lc). destruct (child_at c Lc) as (ch & Hc & _).
      destruct (heads r _ j alts Ir Ie) as ((N & A1 & A2) & m0 & rest & ->). cbn [statement_of] in Es.
      destruct (sequence_visit_val _ _ _ _ _ _ _ _ Es N) as (d & body & Q1 & (Sel & Sel') & _). injection Q1 as ->.
      cbn [named_action EvaluateProof.follows]. eexists. exists d, body. split; [reflexivity|]. split; [exact Lc|].
      split; [intros Op; apply (optional_iff n c ch Hc) in Op; rewrite Op; reflexivity|].
      split; [intros j'; rewrite visit_in by assumption; exact (visits_so_far _ _ _ _ Pf j')|].
      intros m Mb. assert (Im := Mb). apply may_be_ty in Im. apply A1 in Im. apply in_map_iff in Im. destruct Im as ((m' & b) & Em & Im). cbn [fst] in Em. subst m'.
      destruct (A2 m b Im) as (ws & Qm & Bm). assert (Cm : visit_count (TNode m) = length ws) by (unfold EvaluateGrammar.visit_count; rewrite Qm; reflexivity).
      rewrite Cm. destruct (Nat.ltb_spec j (length ws)) as [Lj|Lj].
      - apply Bm in Lj. subst b. destruct (Sel m Im) as (x & Sx & Ix & ii & oo & Va & Ct & Ci & Ca & Cr).
        apply visit_arguments_val in Va. destruct Va as [-> ->]. exists x. split; [exact Sx|]. split; [exact Ci|]. split; [exact Ca|].
        split.
        + intros b Ib.
          unfold function_compiles in Fc. destruct (declare [] _) as [sc0|] eqn:D0; [|discriminate]. rewrite Fb in Fc.
          destruct (body_compiles sc0 (b1 ++ _)) as [sc1|] eqn:Bc; [|discriminate].
          destruct (body_compiles_at _ _ _ _ _ Bc) as (sc & sc' & Sc1 & Scope). cbn [statement_compiles] in Sc1.
          destruct (forallb _ (calls body)) eqn:Fa; [|discriminate]. rewrite forallb_forall in Fa. specialize (Fa x Ix).
          rewrite forallb_forall in Fa. specialize (Fa (local n (Some c) b)). rewrite Ca in Fa. specialize (Fa (in_map (local n (Some c)) _ _ Ib)).
          apply declared_in_iff in Fa. apply Scope in Fa. destruct Fa as [Fa|(s' & Is' & Ds')].
          * exfalso. apply (declare_in _ _ _ D0) in Fa. destruct Fa as [[]|Fa]. apply in_map_iff in Fa. destruct Fa as (q & Eq & _). injection Eq as Eq.
            change (this_local q) with (local n None q) in Eq. apply local_inj in Eq; [|exact Logic.I|exact Lc]. destruct Eq as [[=] _].
          * destruct (Forall2_in_r _ _ _ _ F2 Is') as (e' & Ie' & Es').
            assert (Ie2 : In e' (snd r)) by (rewrite Er; apply in_or_app; left; exact Ie').
            destruct (declared_by r e' s' b (Some c) Ir Ie2 Es' Lc Ds') as [E|(c' & m' & j' & [= <-] & Mb' & Dl)].
            -- rewrite <- E. apply in_map, in_map. exact Ie'.
            -- exfalso. exact (roles i c m m' j j' b Mb Mb' Ib Dl).
        + intros rr Irr. destruct (Cr rr Irr) as (b & Ib & ->). cbn [fst snd]. split; [exists b; auto|]. intros o' b' I Q'.
          change (local_name (child_name n c) b) with (local n (Some c) b) in Q'.
          apply local_inj in Q'; [|exact (evaluated_owner _ _ _ Bp I)|exact Lc]. destruct Q' as [-> ->].
          destruct (kid_in _ _ _ Bp I) as (y & _ & Ny & _ & Ty' & Iy). destruct Iy as (y' & Ay & Fy).
          destruct (child_attribute i c m y y' Mb Ty' Ay) as (b'' & y2 & Fb'' & Ab'' & S1 & S2 & _).
          apply delivered_iff in Ib. destruct Ib as (b3 & D3 & N3). apply delivers_facts in D3. destruct D3 as (_ & F3 & _ & S3).
          assert (I'' : inherited attributes b'') by (exists y2; split; [exact Ab''|rewrite S2; exact Fy]).
          apply (Once b'' I''). replace b'' with b3; [exact S3|].
          apply same_attribute; [right; exact S3|left; exact I''|congruence|]. rewrite N3, <- Ny. unfold EvaluateCode.name_of. rewrite Ab''.
          assert (Ay' : attribute_at s y = Some y') by exact Ay. rewrite Ay'. symmetry. exact S1.
      - apply Sel'. destruct b; [|exact Im]. exfalso. assert (j < length ws) by (apply Bm; reflexivity). lia.
    Qed.

    (** *** The node follows the plan *)

    Lemma node_functions : exists fs, nth_error functions i = Some fs /\ length fs = visit_count (TNode i) /\
      forall k acts, nth_error (plan i) k = Some acts -> exists f, nth_error fs k = Some f /\ f_params f = taken (TNode i) k /\ f_returns f = delivered (TNode i) k /\
        length (f_body f) = length acts /\
        (forall before x after b1 st b2, acts = before ++ x :: after -> f_body f = b1 ++ st :: b2 -> length b1 = length before ->
           follows i n k (concat (firstn k (plan i)) ++ before) before x st) /\
        forall b, In b (delivered (TNode i) k) -> In (AEval None b) acts.
    Proof.
      destruct code as (fs & Hf & Lf & C). exists fs. split; [exact Hf|].
      split; [rewrite Lf; unfold EvaluateGrammar.visit_count; rewrite Q, map_length; reflexivity|].
      intros k acts Ha. rewrite plan_eq in Ha. unfold actions in Ha. rewrite map_map, nth_error_map in Ha.
      destruct (nth_error res k) as [r|] eqn:Hk; [|discriminate]. cbn [option_map] in Ha. injection Ha as <-.
      assert (Ir := nth_error_In _ _ Hk).
      destruct (C k r Hk) as (f & Hfk & E1 & E2 & F2 & Fc). exists f. split; [exact Hfk|]. split; [exact E1|]. split; [exact E2|].
      split; [rewrite !map_length; exact (Forall2_len _ _ _ F2)|]. split.
      - intros before x after b1 st b2 Ha Hb Lb.
        assert (X : exists e1 e e2, snd r = e1 ++ e :: e2 /\ before = map named_action (map action_of e1) /\ x = named_action (action_of e)).
        { rewrite map_map in Ha. clear -Ha. revert before Ha. induction (snd r) as [|e l IH]; intros before Ha; [destruct before; discriminate|].
          destruct before as [|y before]; cbn [map app] in Ha; injection Ha as E Ha.
          - exists [], e, l. auto.
          - destruct (IH before Ha) as (e1 & e0 & e2 & -> & -> & ->). exists (e :: e1), e0, e2. rewrite <- E. auto. }
        destruct X as (e1 & e & e2 & Er & -> & ->). rewrite !map_length in Lb.
        destruct (Forall2_at _ _ _ F2 e1 e e2 b1 st b2 Er Hb Lb) as (Hs & F2').
        rewrite plan_done, <- map_app. destruct e as [x|o j alts].
        + exact (evaluation_follows k r e1 x e2 st Hk Er Hs).
        + exact (visit_follows k r e1 o j alts e2 st b1 b2 f Hk Er Hs F2' Hb Fc).
      - intros b Ib. unfold function_compiles in Fc. destruct (declare [] _) as [sc0|] eqn:D0; [|discriminate].
        destruct (body_compiles sc0 (f_body f)) as [sc1|] eqn:Bc; [|discriminate]. apply andb_true_iff in Fc. destruct Fc as (Fc & _).
        rewrite forallb_forall in Fc. rewrite E2 in Fc. specialize (Fc b Ib). apply declared_in_iff in Fc. apply (body_compiles_in _ _ _ Bc) in Fc.
        change (this_local b) with (local n None b) in Fc. destruct Fc as [Fc|(st & Is & Ds)].
        + exfalso. apply (declare_in _ _ _ D0) in Fc. destruct Fc as [[]|Fc]. apply in_map_iff in Fc. destruct Fc as (q & Eq & Iq). injection Eq as Eq.
          subst q. rewrite E1 in Iq. apply taken_iff in Iq. apply delivered_iff in Ib. destruct Iq as (b1 & T1 & N1). destruct Ib as (b2 & T2 & N2).
          apply takes_facts in T1. apply delivers_facts in T2. destruct T1 as (_ & F1 & I1). destruct T2 as (_ & F2' & NI2 & S2).
          apply NI2. replace b2 with b1; [exact I1|]. apply same_attribute; [left; exact I1|right; exact S2|congruence|congruence].
        + destruct (Forall2_in_r _ _ _ _ F2 Is) as (e' & Ie' & Es').
          destruct (declared_by r e' st b None Ir Ie' Es' Logic.I Ds) as [E|(c' & m' & j' & [=] & _)].
          rewrite <- E. apply in_map, in_map. exact Ie'.
    Qed.
    Lemma node_inputs : forall b k, In b (taken (TNode i) k) -> ~ In (AEval None b) (concat (plan i)).
    Proof.
      intros b k Ib I. rewrite plan_concat in I. apply own_in in I; [|exact all_proper]. destruct I as (x & _ & Nx & Fx & Sx).
      apply taken_iff in Ib. destruct Ib as (b' & Tk & Nb). apply takes_facts in Tk. destruct Tk as (_ & Fb & Ib).
      apply (Once b' Ib). replace b' with x; [exact Sx|]. apply same_attribute; [right; exact Sx|left; exact Ib|congruence|congruence].
    Qed.
    Lemma node_complete : 0 < visit_count (TNode i) -> forall c m j, may_be i c m -> j < visit_count (TNode m) -> In (AVisit c j) (concat (plan i)).
    Proof.
      intros Pos c m j Mb Lj. assert (Lc : c < length (nd_children n)).
      { assert (T : exists t, typed (kid c) t) by (destruct Mb as [T|(jj & T & _)]; eauto). destruct T as (t & n' & ch & Hn' & Hc & _).
        rewrite Hn in Hn'. injection Hn' as <-. apply nth_error_Some. congruence. }
      rewrite plan_concat. apply visit_in; [exact all_proper|exact Lc|]. apply (sc_complete _ _ _ _ _ Sc).
      - intros E. assert (L := sc_length _ _ _ _ _ Sc). rewrite E in L. rewrite (visits_by_length _ _ (ty_node (TNode i))) in L. cbn [length] in L. lia.
      - unfold children. apply in_map, in_seq. lia.
      - destruct Mb as [T|(jj & T & M)]; apply Ty in T; rewrite (visits_by_length _ _ T); [exact Lj|].
        assert (H := ma_fewer _ _ _ _ _ Agree jj m M). lia.
    Qed.
    Lemma node_plan_length : length (plan i) = visit_count (TNode i).
    Proof. rewrite plan_eq. unfold actions. rewrite !map_length. unfold EvaluateGrammar.visit_count. rewrite Q, map_length. reflexivity. Qed.
  End Node.

  Theorem plan_followed : follows_plan nodes sets s (member_of a) functions (fun m => visit_count (TNode m)) (fun m => taken (TNode m)) (fun m => delivered (TNode m)) plan.
  Proof.
    assert (Vis : forall t, has_production ps t -> (0 < visit_count t <-> leads_to_attributes a s ps t)).
    { intros t Ht. destruct (visited_right a s lits shuffle ty P U B Sh Ty gs R ps Pr vt all max V) as (V1 & V2). apply V1 in Ht. destruct Ht as (vs & Qv).
      rewrite <- (V2 t vs Qv). unfold EvaluateGrammar.visit_count. rewrite Qv. destruct vs; cbn [length]; split; try lia; congruence. }
    assert (NoProd : forall t, 0 < visit_count t -> has_production ps t).
    { intros t H. apply (proj1 table). unfold EvaluateGrammar.visit_count in H. destruct (visits_of vt t) as [vs|]; [eauto|lia]. }
    constructor.
    - intros i. exact (attributes_distinct _ _ _ G (TNode i)).
    - intros n In_n. exact (gi_children _ _ _ G n In_n).
    - intros i n Hn. destruct (node_parts i n Hn) as (p & res & Ip & Np & Hr & Q & Sc). exact (node_plan_length i res Hr Q).
    - intros i n Hn. destruct (node_parts i n Hn) as (p & res & Ip & Np & Hr & Q & Sc).
      destruct (node_functions i n Hn p res Ip Np Hr Q Sc) as (fs & H1 & H2 & H3). exists fs. split; [exact H1|]. split; [exact H2|].
      intros k acts Ha. destruct (H3 k acts Ha) as (f & X1 & X2 & X3 & X4 & X5 & _). exists f. auto.
    - intros i n k b Hn Ib. destruct (node_parts i n Hn) as (p & res & Ip & Np & Hr & Q & Sc).
      split; [exact (node_inputs i n Hn p res Hr Q Sc b k Ib)|]. intros j Ij. apply taken_iff in Ib, Ij.
      destruct Ib as (x & T1 & N1), Ij as (y & T2 & N2). assert (F1 := takes_facts _ _ _ T1). assert (F2 := takes_facts _ _ _ T2).
      destruct F1 as (_ & F1 & I1), F2 as (_ & F2 & I2).
      assert (x = y) as -> by (apply same_attribute; [left; exact I1|left; exact I2|congruence|congruence]).
      exact (proj2 (takes_once (TNode i)) j k y T2 T1).
    - intros i k. unfold EvaluateGrammar.taken. destruct (visit_at vt (TNode i) k) as [v|] eqn:Vk; [|constructor].
      assert (N := proj1 (takes_once (TNode i)) k v Vk).
      assert (H : forall x, In x (map snd (v_inputs v)) -> fst x = TNode i /\ inherited attributes x).
      { intros x Ix. apply in_map_iff in Ix. destruct Ix as (y & <- & Iy). assert (T : takes (TNode i) k (snd y)) by (exists v, y; auto).
        apply takes_facts in T. tauto. }
      rewrite <- (map_map snd name_of). clear Vk. induction (map snd (v_inputs v)) as [|x l IH]; [constructor|].
      inversion N as [|? ? Nx N']; subst. cbn [map]. constructor; [|apply IH; [exact N'|intros y Iy; apply H; right; exact Iy]].
      intros I. apply in_map_iff in I. destruct I as (y & E & Iy). apply Nx.
      destruct (H x (or_introl eq_refl)) as (F1 & I1). destruct (H y (or_intror Iy)) as (F2 & I2).
      replace x with y; [exact Iy|]. apply same_attribute; [left; exact I2|left; exact I1|congruence|exact E].
    - intros i n k acts b Hn Ha Ib. destruct (node_parts i n Hn) as (p & res & Ip & Np & Hr & Q & Sc).
      destruct (node_functions i n Hn p res Ip Np Hr Q Sc) as (fs & H1 & H2 & H3). destruct (H3 k acts Ha) as (f & _ & _ & _ & _ & _ & X). exact (X b Ib).
    - intros i n x Hn Ix Sx. destruct (In_nth_error _ _ Ix) as (q & Hq).
      destruct (delivers_all (TNode i) (TNode i, q)) as (k & D); [exact (node_production_of i n Hn)|reflexivity|exists x; auto|].
      exists k. split; [exact (proj1 (delivers_facts _ _ _ D))|]. apply delivered_iff. exists (TNode i, q). split; [exact D|].
      unfold EvaluateCode.name_of. assert (A : attribute_at s (TNode i, q) = Some x) by exact Hq. rewrite A. reflexivity.
    - intros i n x Hn Ix Sx. destruct (In_nth_error _ _ Ix) as (q & Hq).
      destruct (takes_all (TNode i) (TNode i, q)) as (k & D); [exact (node_production_of i n Hn)|reflexivity|exists x; auto|].
      exists k. split; [exact (proj1 (takes_facts _ _ _ D))|]. apply taken_iff. exists (TNode i, q). split; [exact D|].
      unfold EvaluateCode.name_of. assert (A : attribute_at s (TNode i, q) = Some x) by exact Hq. rewrite A. reflexivity.
    - intros i n c m j Hn Pos Mb Lj. destruct (node_parts i n Hn) as (p & res & Ip & Np & Hr & Q & Sc).
      exact (node_complete i n Hn p res Hr Q Sc Pos c m j Mb Lj).
    - intros i c m Mb Pos. assert (Lm := proj1 (Vis _ (NoProd _ Pos)) Pos).
      assert (X : exists t, typed (OChild i c) t /\ leads_to_attributes a s ps t).
      { destruct Mb as [T|(j & T & M)]; [exists (TNode m); auto|]. exists (TSet j). split; [exact T|]. apply lta_part with (TNode m); [exists m; auto|exact Lm]. }
      destruct X as (t & T & L). assert (T' := T). destruct T' as (n & ch & Hn & _). apply (Vis _ (node_production_of i n Hn)).
      apply lta_part with t; [exists c; exact T|exact L].
  Qed.
End Specification.
