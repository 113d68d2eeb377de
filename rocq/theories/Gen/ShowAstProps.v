(** C68: --show-ast prints the specification cocogen worked with. *)

From Coq Require Import String.
From Coq Require Import List Ascii Bool Arith ZArith Permutation.
From Verif Require Import Sched.ScheduleModel Sched.ScheduleSpec Sched.PartitionModel Sched.VisitModel Front.PropagateModel
  Front.SetsSpec Front.NodesetPassesProof Front.ProductRulesModel Front.ProductRulesProof Sched.FrontendModel Sched.FrontendProof Sched.ScheduleInst
  Sched.ScheduleProps Sched.VisitInst Sched.VisitProps Gen.ShowAstGrammar.
From Verif Require Import Base.Outcome Front.LexerModel Front.ScannerModel Front.Syntax
  Gen.ShowAstModel Gen.ShowAstSpec Gen.ShowAstProof Gen.ShowAstWhole Gen.ShowAstHidden Gen.ShowAstInst.
Import ListNotations.
Local Open Scope string_scope.

(** Full property: with --show-ast a run prints its tree, and trees that are
    printed alike are the same.  Proved: they have the same phases with the
    same actions, traversals with the same nodes, first pass, nodes with the
    same children (but not their types), attributes, equations and visits,
    nodesets, names and reachability.  Missing, since false: see the theorems
    below that end in _refuted. *)
Theorem C68_differences_partial : forall debug a b t, ast_words a -> ast_words b ->
  PRTast debug true a = Val t -> PRTast debug true b = Val t -> alike a b.
Proof.
  intros debug a b t A B Ha Hb. apply ast_value in Ha. apply ast_value in Hb. apply text_alike; trivial. congruence.
Qed.
Print Assumptions C68_differences_partial.

(** The tree is printed if no attribute is computed in a visit, or if cocogen
    was built without assertions; without the option nothing is printed. *)
Theorem C68_printed_partial : forall debug a,
  (debug = false \/ ~ evaluates a -> exists t, PRTast debug true a = Val t) /\ PRTast debug false a = Val [].
Proof. intros debug a. split; [apply otherwise_printed|reflexivity]. Qed.
Print Assumptions C68_printed_partial.

(** Whatever [alike] does not compare is not printed at all. *)
Theorem C68_nothing_else : forall debug a b t u, alike a b -> PRTast debug true a = Val t -> PRTast debug true b = Val u -> t = u.
Proof. intros debug a b t u H Ha Hb. apply ast_value in Ha. apply ast_value in Hb. subst. now apply alike_text. Qed.
Print Assumptions C68_nothing_else.

(** Not seen: further passes, whether a phase is a cycle, its gate, the
    travdata, the type of a child, whether a lifetime allows or disallows, and
    enums. *)
Theorem C68_hidden_refuted : forall a b, In (a, b) hidden -> a <> b /\ exists t, PRTast true true a = Val t /\ PRTast true true b = Val t.
Proof.
  intros a b H. cbn [hidden In] in H.
  repeat (destruct H as [H|H]; [apply pair_equal_spec in H; destruct H as [<- <-]; split; [discriminate|rewrite printed_lines; eexists; split; [reflexivity|vm_compute; reflexivity] ]|]).
  destruct H.
Qed.
Print Assumptions C68_hidden_refuted.

(** A build with assertions aborts if an attribute is computed in a visit. *)
Theorem C68_evaluation_refuted : forall a, evaluates a -> PRTast true true a = Aborted.
Proof. exact evaluation_aborts. Qed.
Print Assumptions C68_evaluation_refuted.

(** So it aborts for every specification the scheduler makes visits for, if a
    node has an attribute that is synthesized and not inherited: some visit
    computes it. *)
Theorem C68_grammar_refuted :
  forall a s lits shuffle ty gs,
  parsed_ast a -> unmarked a -> before_scheduling a = Val (s, lits) ->
  (forall l, Permutation (shuffle l) l) -> typing (a_nodes a) (a_nodesets a) ty ->
  dependency_graphs shuffle a = Val (gs, []) ->
  forall max vt all, SAVvisits (a_nodes a) (a_nodesets a) s lits max gs = Val (vt, all) ->
  forall i n b, nth_error (a_nodes a) i = Some n -> fst b = TNode i ->
  synthesized (attributes_of s) b -> ~ inherited (attributes_of s) b ->
  forall z, scheduled all z -> PRTast true true z = Aborted.
Proof.
  intros a s lits shuffle ty gs P U B Sh Ty R max vt all V i n b Hn Hb Sb Nb z F. apply evaluation_aborts.
  exact (scheduled_evaluates a s lits shuffle ty gs P U B Sh Ty R max vt all V i n b Hn Hb Sb Nb z F).
Qed.
Print Assumptions C68_grammar_refuted.

(** Other builds do not tell which attribute it is. *)
Theorem C68_which_refuted : computes "size" <> computes "name" /\
  exists t, PRTast false true (computes "size") = Val t /\ PRTast false true (computes "name") = Val t.
Proof. split; [discriminate|]. eexists. split; vm_compute; reflexivity. Qed.
Print Assumptions C68_which_refuted.

(** * The hypotheses can be met *)

Example C68_words : ast_words printed.
Proof. exact printed_words. Qed.
Example C68_lines : exists t, PRTast true true printed = Val t /\ (t = flat_map (fun l => txt l ++ [newline]) shown_lines)%list.
Proof. eexists. split; [exact printed_lines|reflexivity]. Qed.
Example C68_evaluates : evaluates (computes "size").
Proof.
  eexists. eexists. eexists. split; [left; reflexivity|]. split; [cbn [fn_visits]; left; reflexivity|]. cbn [fv_sequence]. left. reflexivity.
Qed.
(** Not all trees are alike. *)
Example C68_not_alike : ~ alike printed (mk_final_ast [] [] [] [] [] [] [] None).
Proof. intros [H _ _ _ _ _ _]. discriminate H. Qed.

(** The scheduler makes visits for [value_to_depth] of C34, whose second node
    has the synthesized attribute value; there are trees with these visits. *)
Example C68_grammar : exists s lits gs vt all ty n b z,
  parsed_ast value_to_depth /\ unmarked value_to_depth /\ before_scheduling value_to_depth = Val (s, lits) /\
  typing (a_nodes value_to_depth) (a_nodesets value_to_depth) ty /\
  dependency_graphs (fun l => l) value_to_depth = Val (gs, []) /\
  SAVvisits (a_nodes value_to_depth) (a_nodesets value_to_depth) s lits 1000 gs = Val (vt, all) /\
  nth_error (a_nodes value_to_depth) 1 = Some n /\ fst b = TNode 1 /\
  synthesized (attributes_of s) b /\ ~ inherited (attributes_of s) b /\ scheduled all z.
Proof.
  destruct (front_ok value_to_depth (expressions_parsed _ _) (expressions_unmarked _ _)) as (s & lits & B & Ty); [vm_compute; reflexivity|].
  destruct C32_instance as (_ & (gs & R) & _).
  destruct (sequences_val _ s lits gs _ B R C34_value_to_depth) as (vt & all & V & _).
  assert (Es : Val s = map_outcome fst (before_scheduling value_to_depth)) by (rewrite B; reflexivity).
  vm_compute in Es. injection Es as Es.
  exists s, lits, gs, vt, all. eexists. eexists. exists (TNode 1, 1), (tree_for all).
  split; [exact (expressions_parsed _ _)|]. split; [exact (expressions_unmarked _ _)|]. split; [exact B|]. split; [exact Ty|].
  split; [exact R|]. split; [exact V|]. split; [reflexivity|]. split; [reflexivity|].
  split; [rewrite Es; eexists; split; vm_compute; reflexivity|].
  split; [rewrite Es; intros (d & H & K); vm_compute in H; injection H as <-; vm_compute in K; discriminate K|].
  apply tree_scheduled.
Qed.
