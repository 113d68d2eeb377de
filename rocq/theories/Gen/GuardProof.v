(** Proofs: the check of a generated compiler, from a file to a run. *)

From Coq Require Import List Ascii NArith Bool Lia Arith.
From Verif Require Import Base.Outcome Palm.StrModel Front.Syntax Front.SetsModel Front.SetsSpec Front.SymbolTableModel Front.SymbolTableSpec
  Front.CheckExistanceModel Front.CheckExistanceSpec Front.LifetimesModel Front.LifetimesSpec Front.LifetimesProof
  Front.FileModel Front.ParserModel Front.ParserSpec Front.PropagateModel Front.ProductRulesModel Front.NodesetPassesProof Sched.FrontendModel
  Copra.TravModel Copra.TravProof Copra.PhaseDriverModel Copra.PhaseDriverSpec Copra.PhaseDriverProof Copra.PhaseDriverProps Copra.PhaseDriverChecks
  Gen.CheckModel Gen.CheckSpec Gen.CheckProof Gen.CheckWhole Gen.CheckTrees Gen.CheckInst
  Gen.CompileModel Gen.CompilePasses Gen.CompileParsed Gen.AccessModel Gen.AccessMembers Gen.TablesModel Gen.TablesSpec Gen.TablesProof
  Gen.PhasesSpec Gen.PhasesProof Gen.PhasesParsed Gen.PhasesWhole Gen.PhasesProps Gen.GuardModel Gen.GuardSpec.
Import ListNotations.
Local Open Scope outcome_scope.
Local Open Scope N_scope.

(** ** Numbers *)
Lemma runs_numbered : forall a p act, runs a p act -> forall n,
  Forall2 (fun e x => runs a (snd e) x) (numbered n p) (preorder act) /\
  map fst (numbered n p) = map (fun i => n + N.of_nat i) (seq 0 (length (preorder act))) /\
  plan_size p = N.of_nat (length (preorder act)).
Proof.
  intros a. induction p as [d l IH] using plan_ind'. intros act R n.
  assert (R0 := R). rewrite numbered_eq, plan_size_eq. inversion R as [q l' acts F|t v V|ps v V]; subst;
    try (cbn; rewrite N.add_0_r; split; [constructor; [exact R0|constructor]|split; reflexivity]).
  cbn [preorder].
  assert (K : forall k,
    Forall2 (fun e x => runs a (snd e) x) (numl k l) (flat_map preorder acts) /\
    map fst (numl k l) = map (fun i => k + N.of_nat i) (seq 0 (length (flat_map preorder acts))) /\
    sizes l = N.of_nat (length (flat_map preorder acts))).
  { clear n R R0. revert acts F. induction IH as [|p l Hp Hl IHl]; intros acts F k.
    - inversion F; subst. cbn. auto.
    - inversion F as [|? y ? acts' Hy F']; subst. destruct (Hp y Hy k) as (E1 & E2 & E3).
      destruct (IHl acts' F' (k + plan_size p)) as (F1 & F2 & F3).
      cbn [numl map flat_map sizes]. split; [apply Forall2_app; assumption|]. rewrite !map_app, E2, F2, E3, F3, !app_length. split; [|lia].
      rewrite seq_app, map_app. f_equal. rewrite Nat.add_0_l, seq_offset, Nat.add_0_r. reflexivity. }
  destruct (K (n + 1)) as (K1 & K2 & K3). cbn [map fst]. rewrite K2, K3.
  split; [constructor; [exact R0|exact K1]|]. cbn [length seq map]. split; [|lia].
  f_equal; [lia|]. rewrite <- seq_shift, map_map. apply map_ext. intros i. lia.
Qed.
Lemma nth_seq : forall m i, (i < m)%nat -> nth_error (seq 0 m) i = Some i.
Proof. intros m i L. rewrite (nth_error_nth' _ O) by (rewrite seq_length; exact L). rewrite seq_nth by exact L. reflexivity. Qed.
Lemma runs_at : forall a p act k x, runs a p act -> nth_error (preorder act) k = Some x ->
  exists q, In (1 + N.of_nat k, q) (numbered 1 p) /\ runs a q x.
Proof.
  intros a p act k x R Hx. destruct (runs_numbered a p act R 1) as (F & M & _).
  assert (Lk : (k < length (preorder act))%nat) by (apply nth_error_Some; congruence).
  assert (exists e, nth_error (numbered 1 p) k = Some e /\ runs a (snd e) x) as (e & He & Re).
  { clear - F Hx. revert k Hx. induction F as [|e y es ys H F IH]; intros [|k] Hx; try discriminate; cbn in *.
    - injection Hx as <-. eauto.
    - apply IH, Hx. }
  exists (snd e). split; [|exact Re]. apply (nth_error_In _ k). rewrite He. f_equal.
  assert (X : nth_error (map fst (numbered 1 p)) k = Some (fst e)) by (apply map_nth_error, He).
  rewrite M in X. rewrite (map_nth_error _ _ _ (nth_seq _ k Lk)) in X. injection X as X. destruct e. cbn in *. congruence.
Qed.

Lemma zip_names : forall {A} (f : inode -> A -> inode) (l : list inode) (m : list A), length l = length m ->
  (forall n y, nd_name (f n y) = nd_name n) -> map nd_name (zip f l m) = map nd_name l.
Proof. intros A f. induction l as [|n l IH]; intros [|y m] E H; try discriminate; [reflexivity|]. cbn. rewrite H, IH; auto. Qed.

Section File.
  Variable a : ast.
  Hypothesis P : parsed_ast a.
  Hypothesis U : unmarked a.
  Hypothesis uids : uids_present a.
  Hypothesis nonempty : forall p, In p (a_phases a) -> ph_actions p <> [].
  Hypothesis nodes_named : forall n, In n (a_nodes a) -> node_named n.
  Hypothesis sets_named : forall m x l, In m (a_nodesets a) -> In x (ns_attributes m) -> In l (at_lifetimes x) -> ParserSpec.lifetime_ok l.
  Variable x : analysis.
  Hypothesis B : before_scheduling a = Val (an_attributes x, an_members x).
  Let s := spec_of a x.
  Variable bodies : list (list stmt).
  Hypothesis code : check_code a x = Val bodies.

  Lemma names_kept : same_names s a.
  Proof.
    split; [reflexivity|]. split; [|reflexivity]. unfold s, spec_of, finished. cbn [a_nodes].
    apply zip_names; [|reflexivity]. rewrite map_length. symmetry. apply (lengths a P U _ _ B).
  Qed.

  Lemma lists_named : from_parser s.
  Proof.
    split; [exact nonempty|]. intros ls l r I Il Hr.
    assert (K : ParserSpec.lifetime_ok l).
    { unfold lifetime_lists in I. apply in_flat_map in I. destruct I as (n' & In_n & I). unfold s, spec_of in In_n. cbn [a_nodes] in In_n.
      apply (node_in a P U _ _ B) in In_n. destruct In_n as (i & n & Hn & ->). cbn [with_attributes nd_lifetimes nd_children nd_attributes] in I.
      destruct (nodes_named n (nth_error_In _ _ Hn)) as [N1 N2 N3]. destruct I as [<-|I]; [exact (N1 l Il)|].
      apply in_app_iff in I. destruct I as [I|I]; apply in_map_iff in I; destruct I as (c & <- & Ic); [exact (N2 c l Ic Il)|].
      apply in_map_iff in Ic. destruct Ic as (z & <- & Iz). cbn [AccessModel.resolve at_lifetimes] in Il.
      destruct (node_back a P U _ _ B i n z Hn Iz) as (w & A & (L & _)). rewrite L in Il.
      destruct A as [O|(k & (m & S & Hm & Ix & _) & _)]; [exact (N3 w l O Il)|exact (sets_named m w l (nth_error_In _ _ Hm) Ix Il)]. }
    destruct K as [Kb Ke]. destruct Hr as [E|E]; [rewrite E in Kb; exact Kb|rewrite E in Ke; exact Ke].
  Qed.

  Lemma code_val : exists ste ms, BSTast a = Val ste /\ unpack_lifetimes ste (S (length (a_phases a))) (finished a (an_attributes x) (an_members x)) = Val ms /\
    bodies = check_bodies s (evaluated_sets s (an_members x)) ms.
  Proof.
    unfold check_code in code. destruct (BSTast a) as [ste| | | |] eqn:E1; try discriminate. cbn [bind] in code.
    destruct (unpack_lifetimes _ _ _) as [ms| | | |] eqn:E2; try discriminate. cbn [bind] in code. injection code as <-. exists ste, ms. auto.
  Qed.
  Lemma mapped : forall ste ms, unpack_lifetimes ste (S (length (a_phases a))) (finished a (an_attributes x) (an_members x)) = Val ms ->
    lifetimes_mapped ste (S (length (a_phases a))) s ms.
  Proof. intros ste ms E. exact (unpack_mapped _ _ _ _ E). Qed.

  (** The tree of actions. *)
  Lemma tree_exists : exists start l, AST_START_PHASE a = Some start /\ compiler a (Plan (DPhase start) l) /\
    (depth (Plan (DPhase start) l) <= S (length (a_phases a)))%nat.
  Proof.
    destruct code_val as (ste & ms & T & E & _). destruct (mapped ste ms E) as (t & st & A & St & _).
    assert (D := actions_declared a _ _ B).
    assert (Ne := numbered_ends a ste _ t T D A).
    destruct (start_up a st St) as [Up S]. assert (I := up_in a st Up).
    destruct (tree_of_phase a D st I) as (l & F & Dp).
    { intros q R C. apply Ne. exists st, q. auto. }
    exists st, l. split; [exact St|]. split; [constructor; assumption|]. rewrite depth_eq. lia.
  Qed.

  Hypothesis first : start_first a.
  Variable whole : plan.
  Hypothesis comp : compiler a whole.
  Hypothesis deep : (depth whole <= S (length (a_phases a)))%nat.
  Hypothesis once : used_once whole.
  Hypothesis plain : forall l rest, In (l :: rest) (lifetime_lists s) -> plain_targets whole l.

  Theorem errors_right : forall trav id t, shaped s t ->
    check_errors bodies trav id (Some t) = 0 <-> consistent s whole (firstn 1) id t.
  Proof.
    intros trav id t Sh. destruct code_val as (ste & ms & T & E & ->).
    assert (Cn : check_names a = Val ste).
    { destruct (all_passes a _ _ B) as (t0 & ts & C & _). unfold check_names in *. rewrite T in *. cbn [bind] in *.
      destruct (CEXast _ _); [reflexivity|discriminate..]. }
    destruct (all_passes a _ _ B) as (t0 & ts & _ & _ & _ & Uw & _).
    destruct (check_right s ste a Cn names_kept lists_named P ts (an_members x) Uw whole comp first once _ deep ms (mapped ste ms E) plain
      id t (tree_height t) (mk_tstate [] []) trav Sh (le_n _)) as (s' & w & Ec & _ & K).
    unfold check_errors. rewrite Ec. rewrite <- K. destruct w as [|m w]; cbn [length]; split; try reflexivity; try discriminate.
  Qed.

  (** *** Runs *)
  Section Run.
    Context {W T : Type}.
    Variable tree_in : T -> option ctree.
    Variable trav : nat.
    Variable act : action leaf cstring.
    Hypothesis loaded : runs a whole act.
    Variable leaf_fun : leaf -> N -> W -> T -> option (W * T * list signal).
    Variable gate_fun : cstring -> N -> W -> option (bool * W * list signal).
    Hypothesis user : keeps_shape tree_in s leaf_fun.
    Hypothesis gates : forall g i w b w' xs, gate_fun g i w = Some (b, w', xs) -> ~ In (SSetCheck false) xs.

    Theorem run_guarded : forall fuel d w v, tree_check d = true -> (forall t, tree_in v = Some t -> shaped s t) ->
      guarded_run tree_in a s whole (firstn 1)
        (CCNrun leaf_fun gate_fun (fun i v => check_errors bodies trav i (tree_in v)) fuel act (start d w v)).
    Proof.
      intros fuel d w v Ch Sh. set (r := CCNrun _ _ _ _ _ _).
      assert (K : ends_fit (fun i v => check_errors bodies trav i (tree_in v)) (fun v => forall t, tree_in v = Some t -> shaped s t) r).
      { apply only_checked; [apply (ks_shape _ _ _ user)|apply (ks_check _ _ _ user)|exact gates|exact Ch|exact Sh]. }
      assert (L : Forall (passed (L := leaf) (G := cstring) (W := W) (fun i v => check_errors bodies trav i (tree_in v))
        (fun v => forall t, tree_in v = Some t -> shaped s t)) (run_log r)).
      { destruct r as [z|h z]; [apply K|apply K]. }
      rewrite Forall_forall in L. constructor.
      - intros i l w' v' I. assert (E : In (EvRun i l w' v') (log (end_state r))) by (destruct r; exact I).
        destruct (C15_action_id_is_static _ _ _ _ _ _ _ _ _ _ _ _ _ E) as (Ge & n & Hn). cbn [ev_id] in Ge.
        destruct (runs_at a whole act _ _ loaded Hn) as (q & Iq & Rq). exists q, n. split; [|exact Rq].
        replace i with (1 + N.of_nat (N.to_nat (i - 1))) by lia. exact Iq.
      - intros i l w' v' t I Ht. destruct (L _ I) as [Ok Z]. rewrite Ht in Z. apply errors_right in Z; [exact Z|]. apply Ok, Ht.
      - intros z E. unfold r in K. fold r in K. rewrite E in K. destruct K as [_ K]. destruct (K eq_refl) as [Ok Z].
        destruct (tree_in (node z)) as [t|] eqn:Ht.
        + exists t. split; [reflexivity|]. intros C. apply Z. apply errors_right; [apply Ok; reflexivity|exact C].
        + exfalso. apply Z. reflexivity.
    Qed.
  End Run.
End File.

(** The tree of actions of a specification is unique. *)
Lemma compiler_unique : forall a s lits ste, before_scheduling a = Val (s, lits) -> BSTast a = Val ste ->
  forall w1 w2, compiler a w1 -> compiler a w2 -> w1 = w2.
Proof.
  intros a s lits ste B T w1 w2 C1 C2.
  destruct (compiler_start a s lits B w1 C1) as (st & l & -> & E & F). destruct (compiler_start a s lits B w2 C2) as (st' & l' & -> & E' & F').
  rewrite E in E'. injection E' as <-. f_equal. clear - F F' T. revert l' F'.
  induction F as [|i x is ls Hx F IHF]; intros l' F'; inversion F'; subst; [reflexivity|].
  f_equal; [eapply unfolds_unique; eassumption|auto].
Qed.
