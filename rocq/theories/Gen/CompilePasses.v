(** The passes with errors that end the phase (CompileModel.v) and those of
    FrontendModel.v, which stops at every error (C48). *)

From Coq Require Import List Ascii Bool.
From Verif Require Import Base.Outcome Front.Syntax Front.SetsModel Front.PropagateModel Front.NodesetTableModel Front.NodesetPassesModel
  Front.CheckAttributesModel Front.ProductRulesModel Sched.GraphModel Sched.ScheduleModel Sched.PartitionModel Sched.VisitModel
  Sched.FrontendModel Gen.CompileModel.
Import ListNotations.
Local Open Scope outcome_scope.

(** They agree unless checkAttributes reports something. *)
Lemma passes_cases : forall a,
  match passes a with
  | Val ([], r) => before_scheduling a = Val r
  | Val (_ :: _, _) => before_scheduling a = Exited
  | Exited => before_scheduling a = Exited
  | Undef => before_scheduling a = Undef \/ before_scheduling a = Exited
  | Aborted => before_scheduling a = Aborted \/ before_scheduling a = Exited
  | NoFuel => before_scheduling a = NoFuel \/ before_scheduling a = Exited
  end.
Proof.
  intros a. unfold passes, before_scheduling.
  destruct (nodeset_passes a) as [s| | | |]; cbn [bind]; auto.
  destruct (NCTast (a_nodesets a)) as [t| | | |]; cbn [bind]; auto.
  destruct (unwrap a) as [u| | | |]; cbn [bind]; auto.
  destruct (CHAast _ _) as [|e es]; cbn [existsb].
  - destruct (CPRast _ _ s) as [r| | | |]; cbn [bind]; auto. destruct (c_errors r); reflexivity.
  - destruct (of_action e || existsb of_action es)%bool; [reflexivity|].
    destruct (CPRast _ _ s) as [r| | | |]; cbn [bind]; auto. destruct (c_errors r); reflexivity.
Qed.

Lemma passes_accept : forall a r, passes a = Val ([], r) <-> before_scheduling a = Val r.
Proof.
  intros a r. assert (H := passes_cases a). destruct (passes a) as [[[|e es] r']| | | |]; split; intros E; try congruence;
    try (destruct H; congruence).
Qed.

(** A successful analysis. *)
Lemma semantic_val : forall shuffle mx a x, semantic shuffle mx a = Val x <->
  exists r g v, before_scheduling a = Val r /\ dependency_graphs shuffle a = Val (g, []) /\
    SAVvisits (a_nodes a) (a_nodesets a) (fst r) (snd r) mx g = Val v /\ x = mk_analysis (fst r) (snd r) (fst v) (snd v).
Proof.
  intros shuffle mx a x. unfold semantic, dependency_graphs. split.
  - destruct (passes a) as [[errs r]| | | |] eqn:P; try discriminate. cbn [bind fst snd].
    destruct (SAVgraphs _ _ _ _ _) as [[g [|e es]]| | | |] eqn:G; try discriminate. cbn [bind fst snd].
    destruct (SAVvisits _ _ _ _ _ _) as [v| | | |] eqn:V; try discriminate. cbn [bind]. destruct errs; [|discriminate].
    intros H. injection H as <-. apply passes_accept in P. exists r, g, v. rewrite P. cbn [bind]. rewrite G. auto.
  - intros (r & g & v & B & G & V & ->). rewrite B in G. cbn [bind] in G. apply passes_accept in B. rewrite B. cbn [bind fst snd].
    rewrite G. cbn [bind fst snd]. rewrite V. reflexivity.
Qed.
