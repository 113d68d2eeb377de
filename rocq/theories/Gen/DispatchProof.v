(** From a specification to what its traversals do. *)

From Coq Require Import String.
From Coq Require Import List Ascii Bool Arith Lia.
From Verif Require Import Base.Outcome Palm.StrModel Front.Syntax Front.SymbolTableModel Front.SymbolTableSpec Front.SymbolTableProof
  Front.SetsModel Front.SetsSpec Front.CheckExistanceModel Front.CheckExistanceSpec Front.PropagateModel Front.NodesetPassesProof
  Front.ReachModel Front.ReachSpec Copra.TravModel Copra.TravSpec Copra.TravProof Sched.FrontendModel
  Front.ProductRulesProof
  Gen.TablesModel Gen.TablesSpec Gen.TablesProof Gen.CompileVerdict Gen.AccessModel Gen.AccessMembers
  Gen.DispatchModel Gen.DispatchSpec Gen.DispatchReach Gen.DispatchTables Gen.DispatchRun.
Import ListNotations.
Local Open Scope string_scope.
Local Open Scope list_scope.

(** ** Trees of the specification *)

Lemma describes_children : forall a g,
  (forall n m j, In n (a_nodes a) -> In m (a_nodes a) -> node_number a n j -> node_number a m j -> n = m) ->
  (forall n j, In n (a_nodes a) -> node_number a n j ->
     Forall2 (fun c d => forall k, In k d <-> exists m, admits a (ch_type c) m /\ node_number a m k) (nd_children n) (g j)) ->
  describes a g.
Proof.
  intros a g Inj Ch A. induction t as [j x kids IH] using tree_ind'. rewrite well_typed_node. cbn [node_type].
  assert (K : forall cs ds, Forall2 (fun c d => forall k, In k d <-> exists m, admits a (ch_type c) m /\ node_number a m k) cs ds ->
    (Forall2 (slot_fits a) cs kids <-> typed_kids g ds kids = true)).
  { intros cs ds F. clear Ch. revert cs ds F. induction kids as [|o kids IHk]; intros cs ds F.
    - destruct F; cbn [typed_kids]; split; intros X; try discriminate; try constructor. inversion X.
    - destruct F as [|c d cs ds Cd F]; cbn [typed_kids]; [split; intros X; [inversion X|discriminate]|].
      assert (IHk' := IHk (fun c I => IH c (or_intror I)) cs ds F).
      rewrite andb_true_iff, <- IHk'. split.
      + intros X. inversion X as [|c0 o0 cs0 kids0 S Fk]; subst. split; [|exact Fk]. inversion S as [|c0 m t Ad Nm Ft]; subst; [reflexivity|].
        apply andb_true_iff. split.
        * apply existsb_exists. exists (node_type t). split; [|apply Nat.eqb_refl]. apply Cd. eauto.
        * apply (IH t (or_introl eq_refl)). exact Ft.
      + intros [X Fk]. constructor; [|exact Fk]. destruct o as [t|]; [|constructor]. apply andb_true_iff in X. destruct X as [X1 X2].
        apply existsb_exists in X1. destruct X1 as (k & Ik & Ek). apply Nat.eqb_eq in Ek. subst k. apply Cd in Ik.
        destruct Ik as (m & Ad & Nm). apply (slot_child a c m t Ad Nm). apply (IH t (or_introl eq_refl)). split; [exact X2|].
        exists m. split; [apply Ad|exact Nm]. }
  split.
  - intros F. inversion F as [n j0 x0 kids0 In_n Nj Fk]; subst. split; [|eauto]. apply (K _ _ (Ch n j In_n Nj)). exact Fk.
  - intros (T & n & In_n & Nj). apply (fits_node a n); auto. apply (K _ _ (Ch n j In_n Nj)). exact T.
Qed.

(** ** The whole *)

Section Whole.
  Variable a : ast.
  Hypothesis P : parsed_ast a.
  Hypothesis U : unmarked a.
  Variable s : pra.
  Variable lits : list literal.
  Hypothesis B : before_scheduling a = Val (s, lits).
  Let fa := finished a s lits.

  Fact ste_some : exists ste, BSTast a = Val ste.
  Proof.
    destruct (all_passes a s lits B) as (t & ts & C & _). unfold check_names in C.
    destruct (BSTast a) as [ste| | | |]; try discriminate C. eauto.
  Qed.

  Fact node_names : map nd_name (a_nodes fa) = map nd_name (a_nodes a).
  Proof.
    cbn [fa finished a_nodes]. apply zip_map; [reflexivity|]. rewrite map_length. apply (gi_len_nodes _ _ _ (accepted_grammar a P U s lits B)).
  Qed.
  Fact set_names : map ns_name (a_nodesets fa) = map ns_name (a_nodesets a).
  Proof.
    cbn [fa finished a_nodesets]. apply zip_map; [reflexivity|]. rewrite combine_length, map_length.
    destruct (accepted_literals a P U s lits B) as [L _]. assert (X := gi_len_sets _ _ _ (accepted_grammar a P U s lits B)). lia.
  Qed.
  Lemma usable : usable_names a -> usable_names fa.
  Proof.
    intros [U1 U2 U3]. split; [|exact U2|exact U3]. intros id I. apply U1. rewrite node_names, set_names in I. exact I.
  Qed.

  Lemma reach_defined : exists ste ts reach, BSTast a = Val ste /\ unwrap a = Val (ts, lits) /\ matrix ste a ts lits = Val reach /\
    dispatch a = Val (TRAVdo_function reach fa) /\
    (forall t n m, nd_name n = nd_name m -> reach t n = reach t m) /\
    forall t n, In t (a_traversals a) -> In n (a_nodes a) ->
      (reach t n = RUser <-> taken_for a t n) /\
      (reach t n = RZero -> forall m, In m (a_nodes a) -> under a n m -> ~ taken_for a t m).
  Proof.
    destruct ste_some as (ste & Es). destruct (all_passes a s lits B) as (t & ts & C & _ & _ & Eu & _).
    destruct (matrix_ok a ste ts lits C Es P Eu) as (sp & reach & Em & _ & Rn & R). exists ste, ts, reach.
    split; [exact Es|]. split; [exact Eu|]. split; [exact Em|]. split; [|split; [exact Rn|exact R]].
    unfold dispatch. rewrite B. cbn [bind]. rewrite Es. cbn [bind]. rewrite Eu. cbn [bind fst snd]. rewrite Em. reflexivity.
  Qed.

  Hypothesis Pu : uids_present a.
  Hypothesis Us : usable_names a.
  Hypothesis Fs : all_for_something a.

  Fact uids_free : forall t u, In t (a_traversals a) -> tv_uid t = Some u -> ~ reserved_uid u.
  Proof.
    destruct (all_passes a s lits B) as (t0 & ts & C & _). intros t u I E. apply (r_uids a (proj2 (proj2 (checked_names a C)))).
    unfold uids. rewrite !in_app_iff. right. left. apply in_flat_map. exists t. split; [exact I|]. rewrite E. left. reflexivity.
  Qed.

  Let Dn : distinct_names (all_names fa).
  Proof. unfold fa. rewrite (final_names a P U s lits B). apply (accepted_names a s lits B). Qed.
  Let Pf : uids_present fa := Pu.

  Lemma numbers_inj : forall n m j, In n (a_nodes a) -> In m (a_nodes a) -> node_number a n j -> node_number a m j -> n = m.
  Proof. exact (node_number_inj a fa Dn (usable Us) node_names). Qed.

  Lemma numbers : forall n j, In n (a_nodes a) -> (node_number a n j <-> exists p, j = S p /\ nth_error (a_nodes a) p = Some n).
  Proof. exact (node_number_iff a fa Dn (usable Us) node_names). Qed.

  Theorem described : exists g, describes a g.
  Proof.
    destruct ste_some as (ste & Es). destruct (all_passes a s lits B) as (t & ts & C & _ & _ & Eu & _).
    destruct (spec_ok a ste ts lits C Es P Eu) as (sp & _ & _ & _ & Ch & _).
    set (N := length (a_nodes a)).
    exists (fun j => map (fun r => map (fun i => N - i) (ReachSpec.members sp r)) (ichildren sp (N - j))).
    apply describes_children; [exact numbers_inj|]. intros n j In_n Nj.
    assert (X : forall m i, ix a m i <-> In m (a_nodes a) /\ node_number a m (N - i) /\ i < N).
    { intros m i. rewrite (ix_at a C). split.
      - intros (p & Hp & L). assert (Im := nth_error_In _ _ Hp). split; [exact Im|]. split; [|unfold N; lia].
        apply numbers; [exact Im|]. exists p. split; [unfold N; lia|exact Hp].
      - intros (Im & Nm & L). apply numbers in Nm; [|exact Im]. destruct Nm as (p & E & Hp). exists p. split; [exact Hp|]. fold N. lia. }
    assert (Bj : j <= N /\ 0 < j).
    { apply numbers in Nj; [|exact In_n]. destruct Nj as (p & -> & Hp).
      assert (p < length (a_nodes a)) by (apply nth_error_Some; congruence). fold N in H. lia. }
    assert (Ix : ix a n (N - j)).
    { apply X. split; [exact In_n|]. replace (N - (N - j)) with j by lia. split; [exact Nj|lia]. }
    specialize (Ch n (N - j) Ix). induction Ch as [|c r cs rs [Hl Hm] F IH]; [constructor|]. cbn [map]. constructor; [|exact IH].
    intros k. rewrite in_map_iff. split.
    - intros (i & <- & I). assert (L := Hl i I).
      destruct (nth_error (a_nodes a) (N - i - 1)) as [m|] eqn:Em; [|apply nth_error_None in Em; fold N in Em, L; lia].
      assert (Im := nth_error_In _ _ Em).
      assert (Nm : node_number a m (N - i)) by (apply numbers; [exact Im|]; exists (N - i - 1); split; [fold N in L; lia|exact Em]).
      exists m. split; [|exact Nm]. apply (Hm m i); [apply X; auto|exact I].
    - intros (m & Ad & Nk). assert (Im : In m (a_nodes a)) by apply Ad.
      assert (Bk : k <= N /\ 0 < k).
      { apply numbers in Nk; [|exact Im]. destruct Nk as (p & -> & Hp).
        assert (p < length (a_nodes a)) by (apply nth_error_Some; congruence). fold N in H. lia. }
      exists (N - k). split; [lia|]. apply (Hm m (N - k)); [|exact Ad]. apply X. split; [exact Im|].
      replace (N - (N - k)) with k by lia. split; [exact Nk|lia].
  Qed.

  Theorem dispatch_right : exists calls, dispatch a = Val calls /\
    (forall A W (functions : cstring -> W -> tree A -> prog A W) st w t st' w' r, does a functions st w t st' w' r ->
       exists fuel, forall f, fuel <= f -> RUNdo calls functions f st w t = Val (st', w', r)) /\
    (forall A W (functions : cstring -> W -> tree A -> prog A W) g fuel st w t st' w' r, describes a g ->
       TRAVdo_typed g (entry_at calls) (function_at calls functions) fuel st w t = Val (st', w', r) ->
       does a functions st w t st' w' r).
  Proof.
    destruct reach_defined as (ste & ts & reach & _ & _ & _ & Ed & Rn & R). exists (TRAVdo_function reach fa). split; [exact Ed|].
    assert (R1 : forall t n, In t (a_traversals a) -> In n (a_nodes a) -> (reach t n = RUser <-> is_for a t n)).
    { intros t n It In_n. rewrite (proj1 (R t n It In_n)). unfold taken_for. assert (X := Fs t It). tauto. }
    assert (R2 : forall t n, In t (a_traversals a) -> In n (a_nodes a) ->
      reach t n = RZero -> forall m, In m (a_nodes a) -> under a n m -> ~ is_for a t m).
    { intros t n It In_n Z m Im Um F. apply (proj2 (R t n It In_n) Z m Im Um). left. exact F. }
    assert (Mc := meant_calls a fa reach Dn Pf (usable Us) eq_refl node_names uids_free Rn R1).
    assert (Mw := meant_walks a fa reach Dn Pf (usable Us) eq_refl node_names uids_free Rn R1).
    assert (Ec := entry_calls a fa reach Dn Pf (usable Us) eq_refl node_names uids_free Rn R1).
    assert (Ew := entry_children a fa reach Dn Pf (usable Us) eq_refl node_names uids_free Rn R1).
    assert (En := entry_nop a fa reach Dn Pf (usable Us) eq_refl node_names uids_free Rn R2).
    split.
    - intros A W functions st w t st' w' r D.
      exact (proj1 (does_run a (TRAVdo_function reach fa) numbers_inj Mc Mw Ew En functions) st w t st' w' r D).
    - intros A W functions g fuel st w t st' w' r Dg E.
      exact (run_does a (TRAVdo_function reach fa) numbers_inj Mc Mw Ec Ew En functions g Dg fuel st w t st' w' r E).
  Qed.
End Whole.
