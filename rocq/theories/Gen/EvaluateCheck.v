(** The conditions of C44 can be computed. *)

From Coq Require Import String.
From Coq Require Import List Ascii Bool Arith Lia.
From Verif Require Import Sched.GraphModel Sched.GraphSpec Sched.ScheduleModel Sched.ScheduleSpec Sched.ScheduleProof Sched.ScheduleGraphs
  Sched.PartitionModel Sched.VisitModel Sched.VisitGrammar Sched.VisitEntries.
From Verif Require Import Base.Outcome Palm.StrModel Front.Syntax Front.SetsSpec Front.PropagateModel Front.PropagateSpec Front.PropagateProof
  Front.NodesetPassesProof Front.ProductRulesModel Front.ProductRulesProof
  Sched.FrontendModel Sched.FrontendProof Sched.CycleProof Gen.EvalVariantsModel Gen.EvalVariantsNames Gen.EvalVariantsProof
  Gen.EvaluateModel Gen.EvaluateSpec Gen.EvaluateCode Gen.EvaluateGrammar.
Import ListNotations.
Local Open Scope list_scope.

Lemma text_eqb_eq : forall x y, text_eqb x y = true <-> x = y.
Proof. intros x y. unfold text_eqb. rewrite STReq_iff. split; [intros [=]; assumption|intros ->; reflexivity]. Qed.
Definition listed_in (x : cstring) (l : list cstring) : bool := existsb (text_eqb x) l.
Lemma listed_in_iff : forall x l, listed_in x l = true <-> In x l.
Proof.
  intros x l. unfold listed_in. rewrite existsb_exists. split.
  - intros (y & I & E). apply text_eqb_eq in E. subst y. exact I.
  - intros I. exists x. split; [exact I|apply text_eqb_eq; reflexivity].
Qed.

Section Check.
  Variable nodes : list inode.
  Variable sets : list inodeset.
  Variable s : pra.
  Variable lits : list literal.
  Variable vt : visits_table.

  Definition members (l : literal) : list nat :=
    filter (fun m => match nth_error nodes m with
                     | Some n => existsb (fun id => text_eqb (ID_LWR id) (ID_LWR (nd_name n))) (listed l)
                     | None => false
                     end) (seq 0 (length nodes)).
  Definition first_check (j : nat) (l : literal) : bool :=
    match listed l with
    | [] => false
    | r :: _ => match find_node nodes r, visits_of vt (TSet j) with
                | Some m, Some vs => match visits_of vt (TNode m) with Some ws => Nat.leb (length vs) (length ws) | None => false end
                | _, _ => false
                end
    end.
  Definition fewer_check (j m : nat) : bool := Nat.leb (visit_count vt (TNode m)) (visit_count vt (TSet j)).
  Definition outputs_check (j m : nat) : bool :=
    forallb (fun k => forallb (fun b => existsb (fun k' => listed_in b (delivered s vt (TNode m) k')) (seq 0 (S k))) (delivered s vt (TSet j) k))
      (seq 0 (visit_count vt (TSet j))).
  Definition roles_check (m m' : nat) : bool :=
    forallb (fun k => forallb (fun b => forallb (fun k' => negb (listed_in b (delivered s vt (TNode m') k'))) (seq 0 (visit_count vt (TNode m'))))
                        (taken s vt (TNode m) k)) (seq 0 (visit_count vt (TNode m))).
  Definition agree_check : bool :=
    Nat.eqb (length lits) (length sets) &&
    forallb (fun p => first_check (fst p) (snd p) &&
               forallb (fun m => fewer_check (fst p) m && outputs_check (fst p) m && forallb (roles_check m) (members (snd p))) (members (snd p)))
      (combine (seq 0 (length lits)) lits).

  Definition once_check : bool :=
    forallb (forallb (fun x => negb (at_is_inherited x && at_is_synthesized x))) (p_nodes s ++ p_sets s).
  Definition no_read_check : bool :=
    forallb (fun p => forallb (fun e => forallb (fun r =>
      match resolve nodes sets s (fst p) (snd p) r with
      | Some (OChild _ _, b) => match attribute_at s b with Some x => negb (at_is_inherited x) | None => true end
      | _ => true
      end) (eq_args e)) (nd_equations (snd p))) (combine (seq 0 (length nodes)) nodes).
  Definition plain_check : bool :=
    forallb (fun n => forallb (fun c => negb (existsb (Ascii.eqb "_"%char) (ch_name c)) && negb (text_eqb (ID_LWR (ch_name c)) (text "this"%string))) (nd_children n)) nodes.
End Check.

Lemma in_numbered : forall {A} (l : list A) i x, nth_error l i = Some x -> In (i, x) (combine (seq 0 (length l)) l).
Proof.
  intros A l i x H. apply (nth_error_In _ i). apply nth_error_combine_some; [|exact H].
  assert (L : i < length l) by (apply nth_error_Some; congruence).
  rewrite (nth_error_nth' (seq 0 (length l)) 0) by (rewrite seq_length; exact L). rewrite seq_nth by exact L. reflexivity.
Qed.

Lemma delivered_bound : forall s vt t k b, In b (delivered s vt t k) -> k < visit_count vt t.
Proof.
  intros s vt t k b I. unfold delivered, visit_at, visit_count in *. destruct (visits_of vt t) as [vs|]; [|destruct I].
  destruct (nth_error vs k) as [v|] eqn:E; [|destruct I]. apply nth_error_Some. congruence.
Qed.
Lemma taken_bound : forall s vt t k b, In b (taken s vt t k) -> k < visit_count vt t.
Proof.
  intros s vt t k b I. unfold taken, visit_at, visit_count in *. destruct (visits_of vt t) as [vs|]; [|destruct I].
  destruct (nth_error vs k) as [v|] eqn:E; [|destruct I]. apply nth_error_Some. congruence.
Qed.

Section Right.
  Variable a : ast.
  Variable s : pra.
  Variable lits : list literal.
  Hypothesis P : parsed_ast a.
  Hypothesis U : unmarked a.
  Hypothesis B : before_scheduling a = Val (s, lits).
  Variable vt : visits_table.
  Notation nodes := (a_nodes a).
  Notation sets := (a_nodesets a).

  Lemma member_listed : forall j m, member_of a j m -> exists l, nth_error lits j = Some l /\ In m (members nodes l).
  Proof.
    intros j m M. destruct (before_scheduling_members a s lits P U B) as (_ & _ & _ & Mem & _). apply Mem in M.
    destruct M as (l & n & Hl & Hn & Nin). apply in_map_iff in Nin. destruct Nin as (id & E & Iid). exists l. split; [exact Hl|]. unfold members. apply filter_In.
    split; [apply in_seq; split; [lia|]; cbn; apply nth_error_Some; congruence|]. rewrite Hn. apply existsb_exists. exists id.
    split; [exact Iid|]. apply text_eqb_eq. exact E.
  Qed.

  Lemma agree_checked : agree_check nodes sets s lits vt = true -> forall ty, typing nodes sets ty -> members_agree a s lits ty vt.
  Proof.
    intros H ty Ty. unfold agree_check in H. apply andb_true_iff in H. destruct H as (Len & H). apply Nat.eqb_eq in Len. rewrite forallb_forall in H.
    assert (G : grammar_input nodes sets s) by apply (before_scheduling_members a s lits P U B).
    assert (Per : forall j l, nth_error lits j = Some l -> first_check nodes vt j l = true /\
      forall m, In m (members nodes l) -> fewer_check vt j m = true /\ outputs_check s vt j m = true /\
        forall m', In m' (members nodes l) -> roles_check s vt m m' = true).
    { intros j l Hl. specialize (H _ (in_numbered _ _ _ Hl)). cbn [fst snd] in H. apply andb_true_iff in H. destruct H as (H1 & H2).
      split; [exact H1|]. rewrite forallb_forall in H2. intros m Im. specialize (H2 m Im). apply andb_true_iff in H2. destruct H2 as (H2 & H4).
      apply andb_true_iff in H2. destruct H2 as (H2 & H3). split; [exact H2|]. split; [exact H3|]. rewrite forallb_forall in H4. exact H4. }
    constructor.
    - intros i n o Hn Io j T.
      destruct (nth_error lits j) as [l|] eqn:Hl.
      + destruct (Per j l Hl) as (F & _). unfold first_check in F. destruct (listed l) as [|r rest] eqn:El; [discriminate|].
        destruct (find_node nodes r) as [m|] eqn:Fm; [|discriminate]. destruct (visits_of vt (TSet j)) as [vs|] eqn:Q; [|discriminate].
        destruct (visits_of vt (TNode m)) as [ws|] eqn:Q'; [|discriminate]. exists l, r, rest, m, vs, ws.
        split; [reflexivity|]. split; [exact El|]. split; [apply (find_node_iff _ _ _ G); exact Fm|]. split; [reflexivity|]. split; [exact Q'|].
        apply Nat.leb_le. exact F.
      + exfalso. apply Ty in T. unfold children in Io. apply in_map_iff in Io. destruct Io as (c & <- & _). destruct T as (n' & ch & Hn' & Hc & st & Hs & _).
        apply nth_error_None in Hl.
        assert (j < length sets) by (apply nth_error_Some; congruence). lia.
    - intros j m M. destruct (member_listed j m M) as (l & Hl & Im). destruct (Per j l Hl) as (_ & X). destruct (X m Im) as (F & _).
      apply Nat.leb_le. exact F.
    - intros j m k b M Ib. destruct (member_listed j m M) as (l & Hl & Im). destruct (Per j l Hl) as (_ & X). destruct (X m Im) as (_ & F & _).
      unfold outputs_check in F. rewrite forallb_forall in F. assert (Lk := delivered_bound _ _ _ _ _ Ib).
      specialize (F k (proj2 (in_seq _ _ _) (conj (Nat.le_0_l k) Lk))). rewrite forallb_forall in F. specialize (F b Ib).
      apply existsb_exists in F. destruct F as (k' & Ik & F). apply in_seq in Ik. exists k'. split; [lia|]. apply listed_in_iff. exact F.
    - intros j m m' k k' b M M' Ib Ib'. destruct (member_listed j m M) as (l & Hl & Im). destruct (member_listed j m' M') as (l' & Hl' & Im').
      rewrite Hl in Hl'. injection Hl' as <-. destruct (Per j l Hl) as (_ & X). destruct (X m Im) as (_ & _ & F). specialize (F m' Im').
      unfold roles_check in F. rewrite forallb_forall in F. assert (Lk := taken_bound _ _ _ _ _ Ib). assert (Lk' := delivered_bound _ _ _ _ _ Ib').
      specialize (F k (proj2 (in_seq _ _ _) (conj (Nat.le_0_l k) Lk))). rewrite forallb_forall in F. specialize (F b Ib). rewrite forallb_forall in F.
      specialize (F k' (proj2 (in_seq _ _ _) (conj (Nat.le_0_l k') Lk'))). apply listed_in_iff in Ib'. rewrite Ib' in F. discriminate.
  Qed.

  Lemma once_checked : once_check s = true -> forall b, inherited (attributes_of s) b -> ~ synthesized (attributes_of s) b.
  Proof.
    intros H b (x & Hx & I) (y & Hy & S). rewrite Hx in Hy. injection Hy as <-. unfold once_check in H. rewrite forallb_forall in H.
    assert (L : exists l, In l (p_nodes s ++ p_sets s) /\ In x l).
    { destruct b as [[i|j] k]; cbn [fst snd attributes_of] in Hx.
      - exists (nth i (p_nodes s) []). split; [|exact (nth_error_In _ _ Hx)]. apply in_app_iff. left. apply nth_In.
        destruct (Nat.lt_ge_cases i (length (p_nodes s))) as [L|L]; [exact L|]. rewrite nth_overflow in Hx by exact L. destruct k; discriminate.
      - exists (nth j (p_sets s) []). split; [|exact (nth_error_In _ _ Hx)]. apply in_app_iff. right. apply nth_In.
        destruct (Nat.lt_ge_cases j (length (p_sets s))) as [L|L]; [exact L|]. rewrite nth_overflow in Hx by exact L. destruct k; discriminate. }
    destruct L as (l & Il & Ix). specialize (H l Il). rewrite forallb_forall in H. specialize (H x Ix). rewrite I, S in H. discriminate.
  Qed.

  Lemma no_read_checked : no_read_check nodes sets s = true -> no_child_input_read a s.
  Proof.
    intros H i n e r x Hn Ie Ir Sx Ne (y & Hy & I). unfold no_read_check in H. rewrite forallb_forall in H. specialize (H _ (in_numbered _ _ _ Hn)).
    cbn [fst snd] in H. rewrite forallb_forall in H. specialize (H e Ie). rewrite forallb_forall in H. specialize (H r Ir).
    assert (G : grammar_input nodes sets s) by apply (before_scheduling_members a s lits P U B).
    assert (Rx := Sx). apply (resolve_iff _ _ _ G i n r x Hn) in Rx. rewrite Rx in H. destruct x as [o b]. cbn [fst snd] in *. destruct o as [t|i' c].
    - destruct Sx as (T & _ & O). destruct (ar_inode r); [destruct O as (k & c & [=] & _)|exact (Ne O)].
    - assert (A : attribute_at s b = Some y) by exact Hy. rewrite A, I in H. discriminate.
  Qed.

  Lemma plain_checked : plain_check nodes = true -> plain_children a.
  Proof.
    intros H n c In_n Ic. unfold plain_check in H. rewrite forallb_forall in H. specialize (H n In_n). rewrite forallb_forall in H. specialize (H c Ic).
    apply andb_true_iff in H. destruct H as (H1 & H2). split.
    - intros I. apply negb_true_iff in H1. assert (E : existsb (Ascii.eqb "_"%char) (ch_name c) = true).
      { apply existsb_exists. exists "_"%char. split; [exact I|reflexivity]. }
      rewrite E in H1. discriminate.
    - intros E. apply negb_true_iff in H2. apply text_eqb_eq in E. rewrite E in H2. discriminate.
  Qed.
End Right.
