(** Wrappers and examples for ReportProps.v. *)

From Coq Require Import List NArith ZArith Bool Ascii String Lia.
From Verif Require Import Base.Outcome Palm.StrModel
  Copra.PhaseDriverModel Copra.PhaseDriverSpec Copra.PhaseDriverProof Copra.PhaseDriverMore Copra.PhaseDriverInst
  Copra.ReportModel Copra.ReportSpec Copra.ReportProof Copra.ReportStructure.
Import ListNotations.
Local Open Scope N_scope.
Local Open Scope list_scope.

Section Top.
  Context {L G W T : Type}.
  Variable leaf_fun : L -> N -> W -> T -> option (W * T * list signal).
  Variable gate_fun : G -> N -> W -> option (bool * W * list signal).
  Variable check_fun : N -> T -> N.
  Notation run := (CCNrun leaf_fun gate_fun check_fun).
  Notation vrun := (vrun leaf_fun gate_fun check_fun).

  Lemma verbosity_invisible v fuel (root : action L G) s : snd (vrun v fuel root s) = run fuel root s.
  Proof. apply report_erased. Qed.

  Lemma run_report v fuel (root : action L G) d w t s' :
    snd (vrun v fuel root (start d w t)) = Cont s' ->
    exists h, reports v 1 root h /\ fst (vrun v fuel root (start d w t)) = lines_of h /\
      rev (log s') = events_of h.
  Proof.
    intros E. assert (A := report_right leaf_fun gate_fun check_fun v fuel root (with_drv reset_driver (start d w t))).
    unfold acc in A. unfold ReportModel.vrun in *. rewrite E in A. destruct A as (h & H & El & Eg).
    exists h. split; [exact H|]. split; [exact El|]. rewrite Eg. cbn. now rewrite app_nil_r, rev_involutive.
  Qed.

  Lemma run_report_stopped v fuel (root : action L G) d w t why s' :
    snd (vrun v fuel root (start d w t)) = Halt why s' ->
    exists h rest, reports v 1 root (h ++ rest) /\
      fst (vrun v fuel root (start d w t)) = lines_of h ++ farewell v why /\
      rev (log s') = events_of h /\ (2 <= v -> ends_in why h).
  Proof.
    intros E. assert (A := report_right leaf_fun gate_fun check_fun v fuel root (with_drv reset_driver (start d w t))).
    unfold acc in A. unfold ReportModel.vrun in *. rewrite E in A. destruct A as (h & rest & H & El & Eg & En).
    exists h, rest. split; [exact H|]. split; [exact El|]. split; [|exact En].
    rewrite Eg. cbn. now rewrite app_nil_r, rev_involutive.
  Qed.

  Lemma quiet_reports (a : action L G) : forall id (h : @history L G W T),
    reports 0 id a h -> Forall (eq LBadBreak) (lines_of h).
  Proof.
    induction a as [n l|n g c acts IH] using action_ind'; intros id h H.
    - inversion H; subst. constructor.
    - assert (X : forall l, Forall (fun a => forall id (h : @history L G W T), reports 0 id a h -> Forall (eq LBadBreak) (lines_of h)) l ->
                  forall i (h : @history L G W T), all_report 0 i l h -> Forall (eq LBadBreak) (lines_of h)).
      { clear. induction 1 as [|b l Hb _ IHl]; intros i h H; inversion H; subst; [constructor|].
        rewrite lines_app. apply Forall_app. split; eauto. }
      inversion H as [| |? ? ? ? ? warning rounds Hw Hr Hc Hf]; subst; [repeat constructor|].
      rewrite !lines_app. apply Forall_app. split; [constructor|].
      apply Forall_app. split; [destruct g; constructor|].
      apply Forall_app. split; [destruct Hw as [-> | ->]; repeat constructor|].
      apply Forall_app. split; [|constructor]. clear Hr Hc H.
      induction Hf as [|r rs H1 _ IHr]; [constructor|]. cbn [List.concat]. rewrite lines_app.
      apply Forall_app. split; [exact (X acts IH _ _ H1)|exact IHr].
  Qed.

  Lemma quiet_run fuel (root : action L G) d w t l :
    In l (fst (vrun 0 fuel root (start d w t))) -> l = LBadBreak.
  Proof.
    destruct (snd (vrun 0 fuel root (start d w t))) as [s'|why s'] eqn:E; intros H.
    - destruct (run_report _ _ _ _ _ _ _ E) as (h & Hr & El & _). rewrite El in H.
      apply quiet_reports in Hr. rewrite Forall_forall in Hr. symmetry. auto.
    - destruct (run_report_stopped _ _ _ _ _ _ _ _ E) as (h & rest & Hr & El & _). rewrite El in H.
      assert (F : farewell 0 why = []) by (destruct why; reflexivity). rewrite F, app_nil_r in H.
      apply quiet_reports in Hr. rewrite Forall_forall in Hr. symmetry. apply Hr.
      rewrite lines_app. apply in_or_app. now left.
  Qed.
End Top.

Lemma numbered_nth l : forall i k d n, nth_error l k = Some (d, n) ->
  nth_error (numbered i l) k = Some (d, i + N.of_nat k, n).
Proof.
  induction l as [|[d0 n0] l IH]; intros i k d n E; destruct k as [|k]; try discriminate.
  - injection E as -> ->. cbn. now rewrite N.add_0_r.
  - cbn [numbered nth_error] in *. rewrite (IH _ _ _ _ E). do 3 f_equal. lia.
Qed.

(** The number of an event is in the structure, beside the name of the action. *)
Lemma event_in_structure {L G W T} leaf_fun gate_fun check_fun fuel (root : action L G) d (w : W) (t : T) e :
  In e (log (end_state (CCNrun leaf_fun gate_fun check_fun fuel root (start d w t)))) -> 2 <= ev_id e ->
  exists depth n, In (depth, ev_id e, n) (numbered 2 (contents root)) /\
    match e with
    | EvRun i l _ _ => nth_error (preorder root) (N.to_nat (i - 1)) = Some (ALeaf n l)
    | EvGate i g _ => exists c acts, nth_error (preorder root) (N.to_nat (i - 1)) = Some (APhase n (Some g) c acts)
    end.
Proof.
  intros H H2. destruct (ids_static _ _ _ _ _ _ _ _ _ H) as [_ X].
  assert (K : exists a, nth_error (preorder root) (N.to_nat (ev_id e - 1)) = Some a /\
    match e with
    | EvRun i l _ _ => nth_error (preorder root) (N.to_nat (i - 1)) = Some (ALeaf (action_name a) l)
    | EvGate i g _ => exists c acts, nth_error (preorder root) (N.to_nat (i - 1)) = Some (APhase (action_name a) (Some g) c acts)
    end).
  { destruct e as [i l w' t'|i g b].
    - destruct X as (n & X). exists (ALeaf n l). auto.
    - destruct X as (n & c & acts & X). exists (APhase n (Some g) c acts). split; [exact X|]. cbn. now exists c, acts. }
  clear X. destruct K as (a & E & X).
  assert (C := contents_names root).
  replace (N.to_nat (ev_id e - 1)) with (S (N.to_nat (ev_id e - 2))) in E by lia.
  assert (E' : nth_error (tl (preorder root)) (N.to_nat (ev_id e - 2)) = Some a).
  { destruct (preorder root); [discriminate|]. exact E. }
  apply (map_nth_error (@action_name L G)) in E'. rewrite <- C in E'.
  destruct (nth_error (contents root) (N.to_nat (ev_id e - 2))) as [[depth n]|] eqn:En.
  - rewrite (map_nth_error snd _ _ En) in E'. injection E' as E'. exists depth, (action_name a). split; [|exact X].
    rewrite <- E'. apply (nth_error_In _ (N.to_nat (ev_id e - 2))). rewrite (numbered_nth _ _ _ _ _ En).
    do 3 f_equal. lia.
  - apply nth_error_None in En. exfalso. assert (nth_error (map snd (contents root)) (N.to_nat (ev_id e - 2)) <> None) by congruence.
    apply nth_error_Some in H0. rewrite map_length in H0. lia.
Qed.

(** *** Examples *)
Definition ex_report (v last : N) := fst (vrun ex_leaf ex_gate ex_check v 200 (ex_root last) (start driver0 0 [])).
Lemma ex_report_3 : ex_report 3 0 =
  [LEnter (name "Root"); LRun (name "scan");
   LEnter (name "Skipped"); LSkip (name "Skipped"); LLeave (name "Skipped");
   LEnter (name "Opt"); LRun (name "fold"); LRun (name "prop"); LRun (name "fold"); LRun (name "prop"); LLeave (name "Opt");
   LEnter (name "End"); LRun (name "emit"); LRun (name "done"); LLeave (name "End");
   LRun (name "print"); LLeave (name "Root")].
Proof. vm_compute. reflexivity. Qed.
Lemma ex_report_1 : ex_report 1 2 =
  [LEnter (name "Root"); LEnter (name "Skipped"); LLeave (name "Skipped"); LEnter (name "Opt"); LLeave (name "Opt");
   LEnter (name "End"); LActionError].
Proof. vm_compute. reflexivity. Qed.
Definition nl := String newline EmptyString.
Definition tb := String tab EmptyString.
Lemma ex_structure : structure (ex_root 0) = name
  ("2: scan" ++ nl ++ "3: Skipped" ++ nl ++ tb ++ "4: dead" ++ nl ++ tb ++ "5: dead2" ++ nl ++ nl ++
   "6: Opt" ++ nl ++ tb ++ "7: fold" ++ nl ++ tb ++ "8: prop" ++ nl ++ nl ++
   "9: End" ++ nl ++ tb ++ "10: emit" ++ nl ++ tb ++ "11: done" ++ nl ++ nl ++
   "12: print" ++ nl ++ nl)%string.
Proof. vm_compute. reflexivity. Qed.
Lemma ex_one_line last : one_line (ex_root last).
Proof.
  intros b H. cbn in H. repeat (destruct H as [<-|H]; [cbn; intros K;
    repeat (destruct K as [K|K]; [discriminate|]); exact K|]). destruct H.
Qed.
