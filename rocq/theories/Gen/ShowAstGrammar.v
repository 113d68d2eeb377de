(** C68: the trees the scheduler makes for specifications with synthesized
    attributes compute attributes. *)

From Coq Require Import String.
From Coq Require Import List Ascii Bool Arith ZArith Lia Permutation.
From Verif Require Import Sched.GraphModel Sched.GraphSpec Sched.GraphProof Sched.ScheduleModel Sched.ScheduleSpec
  Sched.ScheduleProof Sched.CycleProof Sched.PartitionModel Sched.PartitionSpec Sched.PartitionGrammar
  Sched.VisitModel Sched.VisitSpec Sched.VisitProof Sched.VisitGrammar Sched.VisitEntries.
From Verif Require Import Base.Outcome Palm.StrModel Front.Syntax Front.SetsSpec Front.SetsInst Front.PropagateModel Front.PropagateSpec
  Front.NodesetPassesProof Front.ProductRulesModel Front.ProductRulesProof Front.ProductRulesInst
  Sched.FrontendModel Sched.FrontendProof Sched.ScheduleInst Sched.ScheduleProps Sched.VisitInst Sched.VisitProps.
From Verif Require Import Gen.ShowAstModel Gen.ShowAstSpec.
Import ListNotations.
Local Open Scope string_scope.
Local Open Scope list_scope.
Local Open Scope outcome_scope.

(** What the scheduler adds to a sequence is in the tree: an evaluation where
    it decided on one, a visit where it decided on one.  Which attributes and
    children they name does not matter here. *)
Definition step_of (e : entry) (x : final_step) : Prop :=
  match e, x with
  | EEval _, Eval _ => True
  | EVisit _ _ _, Step _ _ _ _ => True
  | _, _ => False
  end.
Definition scheduled (all : list (list (visit * list entry))) (z : final_ast) : Prop :=
  Forall2 (fun res n => Forall2 (fun r v => Forall2 step_of (snd r) (fv_sequence v)) res (fn_visits n)) all (z_nodes z).

Lemma Forall2_in_l : forall {X Y} (R : X -> Y -> Prop) l l' x, Forall2 R l l' -> In x l -> exists y, In y l' /\ R x y.
Proof.
  intros X Y R l l' x F. induction F as [|a b l l' H F IH]; intros I; [destruct I|]. destruct I as [<-|I].
  - exists b. split; [left; reflexivity|exact H].
  - destruct (IH I) as (y & Iy & Hy). exists y. split; [right; exact Iy|exact Hy].
Qed.

Lemma scheduled_evaluates :
  forall a s lits shuffle ty gs,
  parsed_ast a -> unmarked a -> before_scheduling a = Val (s, lits) ->
  (forall l, Permutation (shuffle l) l) -> typing (a_nodes a) (a_nodesets a) ty ->
  dependency_graphs shuffle a = Val (gs, []) ->
  forall max vt all, SAVvisits (a_nodes a) (a_nodesets a) s lits max gs = Val (vt, all) ->
  forall i n b, nth_error (a_nodes a) i = Some n -> fst b = TNode i ->
  synthesized (attributes_of s) b -> ~ inherited (attributes_of s) b ->
  forall z, scheduled all z -> evaluates z.
Proof.
  intros a s lits shuffle ty gs P U B Sh Ty R max vt all V i n b Hn Hb Sb Nb z F.
  destruct (C32_cycles_reported_partial a s lits shuffle ty P U B Sh Ty) as ((ps & Pr) & _).
  destruct (SAVvisits_parts a s lits gs max vt all V) as (tables & vt0 & E1 & E2 & E3 & _).
  destruct (pr_nodes _ _ _ _ _ Pr i n Hn) as (p & Ip & Np).
  destruct (C34_schedule a s lits shuffle ty gs P U B Sh Ty R ps Pr max vt all V i n p Hn Ip Np) as (res & Hr & Vo & Sc).
  destruct (table_right a s lits shuffle ty P U B Sh Ty gs R ps Pr tables vt0 vt E1 E2 E3) as (_ & T).
  destruct (T _ _ Vo) as (T1 & T2 & _ & T4).
  destruct (T4 b (conj Hb (or_intror Sb))) as (v & x & Iv & Ix & Qx).
  apply in_app_iff in Ix. destruct Ix as [Ix|Ix]; [exfalso; apply Nb; rewrite <- Qx; exact (T2 v x Iv Ix)|].
  apply In_nth_error in Iv. destruct Iv as (k & Hk).
  assert (Tn : ty (OType (TNode i)) = Some (TNode i)).
  { apply Ty. reflexivity. }
  assert (Ie : In (Evaluate (OType (TNode i), b)) (concat (actions res))).
  { assert (X := sc_outputs _ _ _ _ _ Sc k (attributes_only v) b). unfold visits_by in X. rewrite Tn, Vo in X.
    specialize (X (map_nth_error attributes_only k _ Hk)).
    assert (In b (snd (attributes_only v))) by (cbn; apply in_map_iff; eauto). specialize (X H).
    apply in_concat in X. destruct X as (l & Il & Ix'). apply in_concat. exists l. split; [|exact Ix'].
    rewrite <- (firstn_skipn (S k) (actions res)). apply in_app_iff. left. exact Il. }
  apply in_concat in Ie. destruct Ie as (l & Il & Ie). unfold actions in Il. apply in_map_iff in Il. destruct Il as (r & <- & Ir).
  apply in_map_iff in Ie. destruct Ie as (e & Qe & Ie). destruct e as [y|o j alts]; [|discriminate Qe].
  destruct (Forall2_in_l _ _ _ _ F (nth_error_In _ _ Hr)) as (fn & In_ & F1).
  destruct (Forall2_in_l _ _ _ _ F1 Ir) as (fv & Iv' & F2).
  destruct (Forall2_in_l _ _ _ _ F2 Ie) as (st & Is & St). destruct st as [rf|]; [|destruct St].
  exists fn, fv, rf. auto.
Qed.

(** A tree of the specification [value_to_depth] of C34, with the names left
    out that do not matter here. *)
Definition step_for (e : entry) : final_step :=
  match e with
  | EEval _ => Eval (mk_final_reference None None (nm "value"))
  | EVisit _ k _ => Step (nm "child") (nm "expr") k []
  end.
Definition tree_for (all : list (list (visit * list entry))) : final_ast :=
  mk_final_ast [] [] []
    (map (fun res => mk_final_node (nm "node") 0%Z [] [] []
                       (map (fun r => mk_final_visit (nm "node") 0 [] [] (map step_for (snd r))) res)) all)
    [] [] [] None.
Lemma tree_scheduled : forall all, scheduled all (tree_for all).
Proof.
  intros all. unfold scheduled, tree_for. cbn [z_nodes]. induction all as [|res all IH]; cbn [map]; constructor; [|exact IH].
  cbn [fn_visits]. clear. induction res as [|r res IH]; cbn [map]; constructor; [|exact IH].
  cbn [fv_sequence]. clear. induction (snd r) as [|e l IH]; cbn [map]; constructor; [|exact IH]. destruct e; exact I.
Qed.
