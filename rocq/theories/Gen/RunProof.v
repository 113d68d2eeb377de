(** A run of cocogen writes the files of RunSpec.v. *)

From Coq Require Import String.
From Coq Require Import List Ascii Bool NArith Lia Permutation.
From Verif Require Import Base.Outcome Palm.StrModel Front.Syntax Front.SetsModel Front.SymbolTableModel Front.LifetimesModel
  Copra.PhaseDriverModel Copra.PhaseDriverSpec Copra.PhaseDriverProof Copra.PhaseDriverMore Sched.GraphModel Sched.ScheduleModel Sched.FrontendModel Gen.AccessModel Gen.TablesModel
  Gen.EvalVariantsModel Gen.EvaluateModel Gen.CompileModel Gen.RunModel Gen.RunSpec.
Import ListNotations.
Local Open Scope list_scope.

(** ** A driver without cycles, whose passes only end actions *)
Section Flat.
  Context {L G W T : Type}.
  Variable step : L -> W -> T -> W * T * bool.   (* [true]: an error *)
  Variable opened : G -> bool.

  Variable leaf_of : L -> N -> W -> T -> option (W * T * list signal).
  Variable gate_of : G -> N -> W -> option (bool * W * list signal).
  Hypothesis Hleaf : forall l i w t,
    leaf_of l i w t = let '(w', t', e) := step l w t in Some (w', t', if e then [SErrorAction] else []).
  Hypothesis Hgate : forall g i w, gate_of g i w = Some (opened g, w, []).

  Fixpoint executed (a : action L G) : list L :=
    match a with
    | ALeaf _ l => [l]
    | APhase _ g _ acts => if match g with None => true | Some g => opened g end then flat_map executed acts else []
    end.
  Fixpoint acyclic (a : action L G) : bool :=
    match a with
    | ALeaf _ _ => true
    | APhase _ _ c acts => negb c && forallb acyclic acts
    end.

  (** [inl]: all were executed *)
  Fixpoint go (ls : list L) (w : W) (t : T) : (W * T) + (W * T) :=
    match ls with
    | [] => inl (w, t)
    | l :: ls => let '(w', t', e) := step l w t in if e then inr (w', t') else go ls w' t'
    end.
  Lemma go_app : forall l m w t, go (l ++ m) w t = match go l w t with inl (w', t') => go m w' t' | inr x => inr x end.
  Proof.
    induction l as [|x l IH]; intros m w t; [reflexivity|]. cbn [app go]. destruct (step x w t) as [[w' t'] []]; [reflexivity|apply IH].
  Qed.

  Notation state := (state L G W T).
  Notation dispatch := (dispatch leaf_of gate_of (fun _ _ => 0%N)).
  Implicit Types s : state.

  Definition calm s : Prop :=
    action_error (drv s) = false /\ phase_error (drv s) = false /\ breakpoint (drv s) = None /\ breakpoint_id (drv s) = 0%N.
  Definition agrees (r : PhaseDriverModel.result L G W T) (x : (W * T) + (W * T)) : Prop :=
    match x with
    | inl (w, t) => exists s, r = Cont s /\ calm s /\ world s = w /\ node s = t
    | inr (w, t) => exists s, r = Halt HActionError s /\ world s = w /\ node s = t
    end.

  Lemma after_calm n i s : calm s -> after_action n i s = Cont s.
  Proof. intros (H1 & _ & H2 & H3). unfold after_action. rewrite H1, H2, H3. reflexivity. Qed.
  Lemma check_calm s : exists s', run_check (fun _ _ => 0%N) s = Cont s' /\ drv s' = drv s /\ world s' = world s /\ node s' = node s.
  Proof. unfold run_check. destruct (tree_check (drv s)); cbn; eexists; repeat split. Qed.

  Lemma dispatch_agrees a : acyclic a = true -> forall s, calm s -> agrees (dispatch 1 a s) (go (executed a) (world s) (node s)).
  Proof.
    induction a as [n l|n g c acts IH] using action_ind'; intros Ac s Q.
    - rewrite dispatch_leaf. cbn zeta. set (s1 := with_drv _ s).
      destruct (check_calm s1) as (s2 & -> & D & Wd & Nd). cbn [andthen executed go]. unfold run_leaf. rewrite Hleaf.
      rewrite Wd, Nd. change (world s1) with (world s). change (node s1) with (node s).
      destruct (step l (world s) (node s)) as [[w' t'] e]. cbn [andthen].
      assert (Q2 : calm s2) by (unfold calm; rewrite D; exact Q).
      destruct e; cbn [apply_signals fold_left apply_signal agrees].
      + unfold after_action. cbn [with_drv drv action_error set_action_error]. eexists. split; [reflexivity|]. split; reflexivity.
      + eexists. split; [apply after_calm; exact Q2|]. split; [exact Q2|]. split; reflexivity.
    - cbn [acyclic] in Ac. apply andb_true_iff in Ac. destruct Ac as [Ac Ak]. destruct c; [discriminate|]. clear Ac.
      assert (Hseq : forall s, calm s -> agrees (run_seq leaf_of gate_of (fun _ _ => 0%N) 1 acts s) (go (flat_map executed acts) (world s) (node s))).
      { clear -Hleaf Hgate IH Ak. induction IH as [|a l Ha Hl IHl]; intros s Q.
        - exists s. auto.
        - cbn [forallb] in Ak. apply andb_true_iff in Ak. destruct Ak as [Ak1 Ak2]. cbn [flat_map]. rewrite go_app.
          change (run_seq leaf_of gate_of (fun _ _ => 0%N) 1 (a :: l) s) with
            (andthen (dispatch 1 a s) (run_seq leaf_of gate_of (fun _ _ => 0%N) 1 l)).
          specialize (Ha Ak1 s Q). destruct (go (executed a) (world s) (node s)) as [[w t]|[w t]].
          + destruct Ha as (s1 & -> & Q1 & <- & <-). cbn [andthen]. apply IHl; assumption.
          + destruct Ha as (s1 & -> & <- & <-). cbn [andthen]. exists s1. auto. }
      assert (Hen : forall s, calm s ->
                agrees (enter_phase 1 n false (run_seq leaf_of gate_of (fun _ _ => 0%N) 1 acts) s) (go (flat_map executed acts) (world s) (node s))).
      { clear - Hleaf Hgate Hseq. intros s Q. unfold enter_phase. assert (Hb : breakpoint (drv s) = None) by apply Q. rewrite Hb. cbn [do_while].
        set (s1 := with_drv _ s). assert (H := Hseq s1 Q). change (world s1) with (world s) in H. change (node s1) with (node s) in H.
        destruct (go (flat_map executed acts) (world s) (node s)) as [[w t]|[w t]].
        - destruct H as (s2 & -> & Q2 & <- & <-). cbn [andthen]. cbn zeta. cbn [andb andthen].
          cbn [drv with_drv phase_error set_cycle_iter]. assert (Hp : phase_error (drv s2) = false) by apply Q2. rewrite Hp.
          eexists. split; [reflexivity|]. split; [exact Q2|]. split; reflexivity.
        - destruct H as (s2 & -> & <- & <-). cbn [andthen]. exists s2. auto. }
      rewrite dispatch_phase. cbn zeta. set (s1 := with_drv _ s).
      destruct (check_calm s1) as (s2 & -> & D & Wd & Nd). cbn [andthen].
      assert (Q2 : calm s2) by (unfold calm; rewrite D; exact Q).
      assert (Hf : phase_error (drv s2) = false) by apply Q2. rewrite Hf. cbn [orb].
      change (world s1) with (world s) in Wd. change (node s1) with (node s) in Nd.
      set (s2' := with_drv (set_phase_error false) s2).
      assert (Q2' : calm s2') by (split; [apply Q2|]; split; [reflexivity|]; apply Q2).
      assert (Hask : agrees
        (ask_gate gate_of g s2' (enter_phase 1 n false (run_seq leaf_of gate_of (fun _ _ => 0%N) 1 acts))
            (fun s3 => Cont (with_drv (fun d => set_action_id (action_id d + skip_count (APhase n g false acts)) d) s3)))
        (go (executed (APhase n g false acts)) (world s) (node s))).
      { cbn [executed]. rewrite <- Wd, <- Nd. unfold ask_gate. destruct g as [g|].
        - rewrite Hgate. cbn [apply_signals fold_left]. destruct (opened g).
          + match goal with |- agrees (enter_phase _ _ _ _ ?x) _ => set (s3 := x) end. exact (Hen s3 Q2').
          + eexists. split; [reflexivity|]. split; [exact Q2'|]. split; reflexivity.
        - exact (Hen s2' Q2'). }
      destruct (go (executed (APhase n g false acts)) (world s) (node s)) as [[w t]|[w t]].
      + destruct Hask as (s4 & -> & Q4 & <- & <-). cbn [andthen].
        match goal with |- agrees (after_action _ _ ?x) _ => set (s5 := x) end.
        assert (Q5 : calm s5).
        { destruct Q4 as (A1 & A2 & A3 & A4). unfold s5, calm. cbn [with_drv drv action_error phase_error breakpoint breakpoint_id set_phase_error].
          rewrite A2. auto. }
        exists s5. split; [apply after_calm; exact Q5|]. split; [exact Q5|]. split; reflexivity.
      + destruct Hask as (s4 & -> & <- & <-). cbn [andthen]. exists s4. auto.
  Qed.
End Flat.

(** ** Effects on the files *)
Section Effects.
  Context {P : Type}.
  Implicit Types w : @machine P.

  Definition segments (l : list (cstring * list P)) : list (effect P) :=
    flat_map (fun x => Open (fst x) :: map Print (snd x)) l.

  Lemma put_same (d : @files P) p l : put d p l p = Some l.
  Proof. unfold put. destruct (list_eq_dec ascii_dec p p); [reflexivity|contradiction]. Qed.
  Lemma put_other (d : @files P) p q l : q <> p -> put d p l q = d q.
  Proof. intros N. unfold put. destruct (list_eq_dec ascii_dec q p); [contradiction|reflexivity]. Qed.

  Lemma print_all : forall l w path l0, fp w = Some path -> disk w path = Some l0 ->
    let w' := fold_left perform (map Print l) w in
    fp w' = Some path /\ verdict w' = verdict w /\ disk w' path = Some (l0 ++ l) /\ forall q, q <> path -> disk w' q = disk w q.
  Proof.
    induction l as [|x l IH]; intros w path l0 F D; cbn [map fold_left].
    - rewrite app_nil_r. auto.
    - cbn [perform]. rewrite F, D.
      destruct (IH (mk_machine (put (disk w) path (l0 ++ [x])) (Some path) (verdict w)) path (l0 ++ [x]) eq_refl (put_same _ _ _)) as (A & B & C & E).
      split; [exact A|]. split; [exact B|]. split; [rewrite C, <- app_assoc; reflexivity|].
      intros q N. rewrite (E q N). cbn [disk]. apply put_other, N.
  Qed.

  Lemma segments_performed : forall l w, NoDup (map fst l) ->
    let w' := fold_left perform (segments l) w in
    verdict w' = verdict w /\ (forall p c, In (p, c) l -> disk w' p = Some c) /\ (forall p, ~ In p (map fst l) -> disk w' p = disk w p).
  Proof.
    induction l as [|[p c] l IH]; intros w N; cbn [segments flat_map].
    - cbn. split; [reflexivity|]. split; [intros ? ? []|auto].
    - rewrite fold_left_app. cbn [fst snd fold_left perform]. cbn [map fst] in N. apply NoDup_cons_iff in N. destruct N as [N1 N2].
      set (w1 := mk_machine _ _ _). destruct (print_all c w1 p [] eq_refl (put_same _ _ _)) as (_ & B & C & E).
      set (w2 := fold_left perform (map Print c) w1) in *. fold (segments l). destruct (IH w2 N2) as (V & I & O).
      split; [rewrite V, B; reflexivity|]. split.
      + intros q d [H|H]; [|apply I, H]. injection H as <- <-. rewrite (O p N1). exact C.
      + intros q Nq. cbn [map fst In] in Nq. rewrite O by tauto. rewrite E by (intros ->; tauto). unfold w1. cbn [disk]. apply put_other. intros ->. tauto.
  Qed.

  (** Effects on some files only *)
  Definition confined (Q : cstring -> Prop) (e : effect P) : Prop :=
    match e with Open p => Q p | Print _ => True | Write p _ => Q p end.
  Lemma confined_performed : forall Q es w, Forall (confined Q) es -> (forall p, fp w = Some p -> Q p) ->
    (forall p, ~ Q p -> disk (fold_left perform es w) p = disk w p) /\
    (forall p, fp (fold_left perform es w) = Some p -> Q p).
  Proof.
    intros Q es. induction es as [|e es IH]; intros w F H; [auto|]. inversion_clear F as [|? ? F1 F2]. cbn [fold_left].
    assert (K : (forall p, ~ Q p -> disk (perform w e) p = disk w p) /\ (forall p, fp (perform w e) = Some p -> Q p)).
    { destruct e as [q|x|q l]; cbn [perform confined] in *.
      - split; [intros p N; apply put_other; intros ->; contradiction|]. intros p E. injection E as <-. exact F1.
      - destruct (fp w) as [q|] eqn:E; [|split; [reflexivity|discriminate]].
        destruct (disk w q) as [l|]; [|split; [reflexivity|intros p E'; apply H; congruence]].
        split; [intros p N; apply put_other; intros ->; apply N, H; reflexivity|]. intros p E'. injection E' as <-. apply H. reflexivity.
      - split; [intros p N; apply put_other; intros ->; contradiction|exact H]. }
    destruct K as [K1 K2]. destruct (IH (perform w e) F2 K2) as [A B]. split; [|exact B]. intros p N. rewrite (A p N). apply K1, N.
  Qed.
  Lemma confined_first : forall Q es n, Forall (confined Q) es -> Forall (confined Q) (firstn n es).
  Proof. intros Q es n F. rewrite <- (firstn_skipn n es) in F. apply Forall_app in F. apply F. Qed.
End Effects.

(** ** The run *)
Section TheRun.
  Context {P : Type}.
  Variable directory : cstring.
  Variable backend : cstring.
  Variable input : option ast.
  Variable shuffle : list (graph_key * ag_graph) -> list (graph_key * ag_graph).
  Variable max_iter : nat.
  Variable iteration : list nat -> list nat.
  Variable content : string -> nat -> list P.
  Variable rounds stage : nat.

  Local Notation step := (leaf_step directory input shuffle max_iter iteration content rounds stage).
  Local Notation doing := (leaf_action directory input shuffle max_iter iteration content rounds stage).
  Local Notation run := (cocogen directory backend input shuffle max_iter iteration content rounds stage).

  (** With a backend that can be compared *)
  Variable dynamic : bool.
  Hypothesis Hdynamic : STReqci (Some (TablesModel.text "dynamic")) (Some backend) = Val dynamic.
  Definition opened (g : gate) : bool :=
    match g with BackendIsDynamic => dynamic | BackendIsStatic => STReq (Some (TablesModel.text "static")) (Some backend) end.

  Lemma run_is : forall d,
    run d = match go step (executed opened startPhase) (mk_machine d None (Val tt)) Nothing with
            | inl (w, _) | inr (w, _) => (disk w, verdict w)
            end.
  Proof.
    intros d. unfold cocogen, CCNrun.
    set (s := with_drv reset_driver _).
    assert (A := dispatch_agrees step opened (leaf_fun directory input shuffle max_iter iteration content rounds stage) (gate_fun backend)
              (fun l i w t => eq_refl)).
    assert (Hg : forall g i (w : @machine P), gate_fun backend g i w = Some (opened g, w, [])).
    { intros [] i w; unfold gate_fun, opened; [rewrite Hdynamic|]; reflexivity. }
    specialize (A Hg startPhase eq_refl s). unfold s in A at 1. specialize (A (conj eq_refl (conj eq_refl (conj eq_refl eq_refl)))).
    change (PhaseDriverModel.world s) with (mk_machine d None (Val tt)) in A. change (PhaseDriverModel.node s) with Nothing in A.
    destruct (go step (executed opened startPhase) _ Nothing) as [[w t]|[w t]].
    - destruct A as (s' & -> & _ & <- & _). reflexivity.
    - destruct A as (s' & -> & <- & _). reflexivity.
  Qed.

  (** The actions after unpackLifetimes *)
  Definition backend_leaves : list leaf := flat_map (executed opened) [dynamicBackend; staticBackend; phaseDriver].
  Definition later : list leaf := backend_leaves ++ [Opens "genDot" ["ast.dot"%string]; Opens "genDefines" ["ccngen/ccn_defs.h"%string]; Show].
  Lemma executed_is : executed opened startPhase = [ScanAndParse; Semantic; UnpackLifetimes] ++ later.
  Proof. unfold later, backend_leaves, opened. destruct dynamic, (STReq _ _); reflexivity. Qed.

  Section Tree.
    Variable a : ast.
    Variable x : analysis.
    Definition effects_of (l : leaf) : list (effect P) := fst (fst (doing l (Analysed a x))).
    Definition result_of (l : leaf) : outcome unit := snd (fst (doing l (Analysed a x))).

    Lemma step_at : forall l w, l <> ScanAndParse /\ l <> Semantic ->
      step l w (Analysed a x) =
      match result_of l with
      | Val _ => (fold_left perform (effects_of l) w, Analysed a x, false)
      | o => (mk_machine (disk (fold_left perform (effects_of l) w)) (fp (fold_left perform (effects_of l) w)) o, Analysed a x, true)
      end.
    Proof.
      intros l w Nl.
      assert (T : snd (doing l (Analysed a x)) = Analysed a x) by (destruct l; try reflexivity; destruct Nl; contradiction).
      unfold leaf_step, result_of, effects_of. destruct (doing l (Analysed a x)) as [[es o] t']. cbn [snd] in T. subst t'. destruct o; reflexivity.
    Qed.

    Lemma later_go : forall ls, (forall l, In l ls -> l <> ScanAndParse /\ l <> Semantic) ->
      (Forall (fun l => result_of l = Val tt) ls /\
       forall w, go step ls w (Analysed a x) = inl (fold_left perform (flat_map effects_of ls) w, Analysed a x)) \/
      (exists l ls1 ls2, ls = ls1 ++ l :: ls2 /\ (forall u, result_of l <> Val u) /\ Forall (fun l => result_of l = Val tt) ls1 /\
         forall w, let w' := fold_left perform (flat_map effects_of (ls1 ++ [l])) w in
         go step ls w (Analysed a x) = inr (mk_machine (disk w') (fp w') (result_of l), Analysed a x)).
    Proof.
      induction ls as [|l ls IH]; intros N; [left; split; [constructor|reflexivity]|].
      assert (St := fun w => step_at l w (N l (or_introl eq_refl))).
      destruct (result_of l) as [[]| | | |] eqn:R;
        [|right; exists l, [], ls; rewrite R; split; [reflexivity|]; split; [discriminate|]; split; [constructor|];
          intros w; cbn [app flat_map go]; rewrite St, app_nil_r; reflexivity..].
      destruct IH as [(H1 & H2)|(l' & ls1 & ls2 & -> & H1 & H2 & H3)].
      - intros l' I. apply N. right. exact I.
      - left. split; [constructor; assumption|]. intros w. cbn [go]. rewrite St, H2. cbn [flat_map]. rewrite fold_left_app. reflexivity.
      - right. exists l', (l :: ls1), ls2. split; [reflexivity|]. split; [exact H1|]. split; [constructor; assumption|].
        intros w. cbn [app flat_map go]. rewrite St, fold_left_app. apply H3.
    Qed.
  End Tree.

  Lemma later_kind : forall l, In l later -> l <> ScanAndParse /\ l <> Semantic.
  Proof.
    assert (H : forallb (fun l => match l with ScanAndParse | Semantic => false | _ => true end) later = true).
    { unfold later, backend_leaves, opened. destruct dynamic, (STReq _ _); reflexivity. }
    rewrite forallb_forall in H. intros l I. specialize (H l I). destruct l; split; congruence.
  Qed.

  (** *** The files of the backends *)
  Definition file_of (o : output) : cstring * list P := (directory ++ fst o, text_of content (snd o)).

  Lemma opens_segments : forall name paths k, opens directory content name k paths = segments (map file_of (several name k paths)).
  Proof.
    intros name. induction paths as [|p paths IH]; intros k; [reflexivity|]. cbn [opens several map segments flat_map file_of fst snd app].
    unfold text_of. cbn [flat_map fst snd]. rewrite app_nil_r. f_equal. unfold prints. f_equal. apply IH.
  Qed.

  Lemma segments_app : forall l m, @segments P (l ++ m) = segments l ++ segments m.
  Proof. intros l m. unfold segments. apply flat_map_app. Qed.

  (** A file that is opened by one action and continued by others *)
  Definition chunk : Type := (string * string * list string)%type.
  Definition printer (n : string) : leaf := if String.eqb n "dynamicGenVisitSource" then VisitSource else Prints n.
  Lemma printer_effects : forall a x n, effects_of a x (printer n) = prints content n 0.
  Proof. intros a x n. unfold printer. destruct (String.eqb_spec n "dynamicGenVisitSource") as [->|]; reflexivity. Qed.
  Definition chunk_leaves (c : chunk) : list leaf := Opens (snd (fst c)) [fst (fst c)] :: map printer (snd c).
  Definition chunk_output (c : chunk) : output := one (fst (fst c)) ((snd (fst c), 1) :: map (fun n => (n, 0)) (snd c)).
  Lemma chunks_effects : forall a x cs, flat_map (effects_of a x) (flat_map chunk_leaves cs) = segments (map file_of (map chunk_output cs)).
  Proof.
    intros a x cs. rewrite map_map. unfold segments. rewrite (flat_map_concat_map _ (map _ cs)), map_map, <- flat_map_concat_map.
    induction cs as [|[[path name] names] cs IH]; [reflexivity|]. cbn [flat_map]. rewrite flat_map_app, IH. f_equal.
    unfold chunk_leaves, chunk_output, file_of, one, text_of. cbn [flat_map fst snd].
    unfold effects_of at 1. cbn [leaf_action fst snd map opens app]. f_equal. rewrite app_nil_r, map_app. f_equal.
    clear IH. induction names as [|n names IH]; [reflexivity|]. cbn [map flat_map fst snd]. rewrite map_app, <- IH, printer_effects. reflexivity.
  Qed.

  Definition chunks1 : list chunk :=
    map (fun o => (string_of_list_ascii (fst o), match snd o with (n, _) :: _ => n | [] => ""%string end, map fst (tl (snd o))))
      (firstn 11 (dynamic_outputs (mk_ast [] [] [] [] [] []))).
  Definition chunks2 : list chunk :=
    map (fun o => (string_of_list_ascii (fst o), match snd o with (n, _) :: _ => n | [] => ""%string end, map fst (tl (snd o))))
      (firstn 5 (skipn 11 (dynamic_outputs (mk_ast [] [] [] [] [] [])))).
  Definition chunks3 : list chunk :=
    map (fun o => (string_of_list_ascii (fst o), match snd o with (n, _) :: _ => n | [] => ""%string end, map fst (tl (snd o)))) common_outputs.

  Lemma backend_effects : forall a x,
    flat_map (effects_of a x) later =
    segments (map file_of ((if dynamic then dynamic_outputs a else []) ++
                           (if opened BackendIsStatic then [one "ccngen/ast.h" [("staticGenNodeStructs"%string, 1)]] else []) ++ common_outputs)).
  Proof.
    intros a x. unfold later, backend_leaves. cbn [opened].
    assert (C : flat_map (effects_of a x) (executed opened phaseDriver ++ [Opens "genDot" ["ast.dot"%string]; Opens "genDefines" ["ccngen/ccn_defs.h"%string]; Show]) =
                segments (map file_of common_outputs)).
    { change (executed opened phaseDriver ++ _) with (flat_map chunk_leaves chunks3 ++ [Show]).
      rewrite flat_map_app, chunks_effects. change (flat_map (effects_of a x) [Show]) with (@nil (effect P)). apply app_nil_r. }
    assert (D : flat_map (effects_of a x) (flat_map (executed opened) (match dynamicBackend with APhase _ _ _ l => l | _ => [] end)) =
                segments (map file_of (dynamic_outputs a))).
    { change (flat_map (executed opened) _) with
        (flat_map chunk_leaves chunks1 ++ [EquationFunctions] ++ flat_map chunk_leaves chunks2 ++ [UserTraversals] ++ [UserEquations] ++
         [Opens "dynamicGenTravFunctions" ["trav.c"; "ccngen/trav.h"]%string]).
      unfold dynamic_outputs. repeat rewrite map_app. repeat rewrite segments_app. repeat rewrite <- opens_segments. repeat rewrite flat_map_app.
      repeat rewrite chunks_effects. f_equal. f_equal; [apply app_nil_r|]. f_equal. f_equal; [apply app_nil_r|]. f_equal; [apply app_nil_r|].
      cbn [flat_map]. rewrite app_nil_r. apply (opens_segments "dynamicGenTravFunctions" (map TablesModel.text ["trav.c"; "ccngen/trav.h"]%string) 1). }
    assert (L : forall c : bool, flat_map (effects_of a x) (if c then [Opens "staticGenNodeStructs" ["ccngen/ast.h"%string]] else []) =
                segments (map file_of (if c then [one "ccngen/ast.h" [("staticGenNodeStructs"%string, 1)]] else []))).
    { intros []; [|reflexivity]. cbn. unfold prints. repeat rewrite app_nil_r. reflexivity. }
    repeat rewrite map_app. repeat rewrite segments_app. rewrite <- L, <- C. cbn [flat_map]. repeat rewrite flat_map_app. repeat rewrite app_nil_r.
    repeat rewrite <- app_assoc. f_equal.
    change (executed opened dynamicBackend) with
      (if dynamic then flat_map (executed opened) (match dynamicBackend with APhase _ _ _ l => l | _ => [] end) else []).
    clear -D. destruct dynamic; [rewrite <- D|]; reflexivity.
  Qed.

  (** *** The scheduler *)
  Lemma kept_verdict : forall es w, fp w <> None -> verdict (fold_left (@perform P) es w) = verdict w /\ fp (fold_left perform es w) <> None.
  Proof.
    induction es as [|e es IH]; intros w H; [auto|]. cbn [fold_left].
    assert (K : verdict (perform w e) = verdict w /\ fp (perform w e) <> None).
    { destruct e as [q|y|q l]; cbn [perform]; [split; [reflexivity|discriminate]| |split; [reflexivity|exact H]].
      destruct (fp w) as [q|] eqn:E; [|contradiction]. destruct (disk w q); split; try reflexivity; [discriminate|congruence]. }
    destruct K as [K1 K2]. destruct (IH _ K2) as [A B]. split; [rewrite A; exact K1|exact B].
  Qed.
  Lemma opens_confined : forall (Q : cstring -> Prop) name paths k, (forall p, In p paths -> Q (directory ++ p)) -> Forall (confined Q) (opens directory content name k paths).
  Proof.
    intros Q name. induction paths as [|p paths IH]; intros k H; [constructor|]. cbn [opens]. constructor; [apply H; left; reflexivity|].
    apply Forall_app. split; [|apply IH; intros q I; apply H; right; exact I].
    unfold prints. apply Forall_forall. intros e I. apply in_map_iff in I. destruct I as (y & <- & _). exact Logic.I.
  Qed.
  Lemma scheduler_confined : forall o, Forall (confined (diagnostic directory)) (scheduler_effects directory content rounds stage o).
  Proof.
    intros o. unfold scheduler_effects. cbn zeta.
    match goal with |- context [firstn stage ?l] => set (all := l) end.
    assert (F : Forall (confined (diagnostic directory)) all).
    { unfold all. apply Forall_app. split.
      - apply opens_confined. intros p I. unfold dot_files in I. destruct I as [<-|I].
        { eexists. left. f_equal. change (TablesModel.text "ag_dot/pre_induce.dot") with (str "ag_dot/" ++ str "pre_induce.dot"). reflexivity. }
        apply in_app_iff in I. destruct I as [I|[<-|[] ]].
        { apply in_map_iff in I. destruct I as (k & <- & _). unfold induce_name. eexists. left. f_equal.
          change (TablesModel.text "ag_dot/induce_") with (str "ag_dot/" ++ str "induce_"). rewrite <- app_assoc. reflexivity. }
        eexists. left. f_equal. change (TablesModel.text "ag_dot/partitioned.dot") with (str "ag_dot/" ++ str "partitioned.dot"). reflexivity.
      - constructor; [|constructor]. cbn [confined]. eexists. right. f_equal.
        change (TablesModel.text "log/ag_schedule.log") with (str "log/" ++ str "ag_schedule.log"). reflexivity. }
    destruct o; try (apply confined_first; exact F). exact F.
  Qed.
  Lemma scheduler_verdict : forall x w, verdict (fold_left perform (scheduler_effects directory content rounds stage (Val x)) w) = verdict w.
  Proof.
    intros x w. unfold scheduler_effects, dot_files. cbn zeta. cbn [opens app fold_left].
    etransitivity; [apply kept_verdict; discriminate|reflexivity].
  Qed.

  (** *** Ends *)
  Definition unchanged_files (d d' : @files P) : Prop := forall path, ~ diagnostic directory path -> d' path = d path.

  Lemma run_unread : input = None -> forall d, run d = (d, Exited).
  Proof. intros E d. rewrite run_is, executed_is, go_app. cbn [go]. unfold leaf_step at 1. cbn [leaf_action]. rewrite E. reflexivity. Qed.

  Section Read.
    Variable a : ast.
    Hypothesis Ei : input = Some a.

    Lemma run_semantic : (forall x, semantic shuffle max_iter a <> Val x) -> forall d,
      exists d', run d = (d', no_result (semantic shuffle max_iter a)) /\ unchanged_files d d'.
    Proof.
      intros N d. rewrite run_is, executed_is, go_app. cbn [go]. unfold leaf_step at 1. cbn [leaf_action]. rewrite Ei. cbn [fold_left].
      unfold leaf_step at 1. cbn [leaf_action]. set (o := semantic shuffle max_iter a) in *.
      destruct (confined_performed _ _ (mk_machine d None (Val tt)) (scheduler_confined o)) as [A _]; [discriminate|]. cbn [disk] in A.
      destruct o as [x| | | |]; [destruct (N x); reflexivity|..]; cbn [no_result map_outcome verdict disk]; eexists; (split; [reflexivity|exact A]).
    Qed.

    Variable x : analysis.
    Hypothesis Ex : semantic shuffle max_iter a = Val x.

    Lemma run_lifetimes : (forall u, lifetimes a x <> Val u) -> forall d,
      exists d', run d = (d', lifetimes a x) /\ unchanged_files d d'.
    Proof.
      intros N d. rewrite run_is, executed_is, go_app. cbn [go]. unfold leaf_step at 1. cbn [leaf_action]. rewrite Ei. cbn [fold_left].
      unfold leaf_step at 1. cbn [leaf_action]. rewrite Ex. change (no_result (Val x)) with (Val tt). cbv beta iota zeta.
      destruct (confined_performed _ _ (mk_machine d None (Val tt)) (scheduler_confined (Val x))) as [A _]; [discriminate|]. cbn [disk] in A.
      unfold leaf_step at 1. cbn [leaf_action fold_left].
      destruct (lifetimes a x) as [u| | | |]; [destruct (N u); reflexivity|..]; cbn [verdict disk]; eexists; (split; [reflexivity|exact A]).
    Qed.

    Hypothesis El : lifetimes a x = Val tt.

    Lemma run_later : forall d, exists w, verdict w = Val tt /\ (forall path, ~ diagnostic directory path -> disk w path = d path) /\
      run d = match go step later w (Analysed a x) with inl (w, _) | inr (w, _) => (disk w, verdict w) end.
    Proof.
      intros d. rewrite run_is, executed_is, go_app. cbn [go]. unfold leaf_step at 1. cbn [leaf_action]. rewrite Ei. cbn [fold_left].
      unfold leaf_step at 1. cbn [leaf_action]. rewrite Ex. change (no_result (Val x)) with (Val tt). cbv beta iota zeta.
      destruct (confined_performed _ _ (mk_machine d None (Val tt)) (scheduler_confined (Val x))) as [A _]; [discriminate|]. cbn [disk] in A.
      unfold leaf_step at 1. cbn [leaf_action fold_left]. rewrite El.
      eexists. split; [apply (scheduler_verdict x (mk_machine d None (Val tt)))|]. split; [exact A|reflexivity].
    Qed.

    Definition the_outputs : list output :=
      (if dynamic then dynamic_outputs a else []) ++
      (if opened BackendIsStatic then [one "ccngen/ast.h" [("staticGenNodeStructs"%string, 1)]] else []) ++ common_outputs.

    Lemma diagnostic_other : forall o, In o the_outputs -> ~ diagnostic directory (directory ++ fst o).
    Proof.
      assert (S : forall name k paths o, In o (several name k paths) -> In (fst o) paths).
      { intros name k paths. revert k. induction paths as [|p paths IH]; intros k o I; [destruct I|]. destruct I as [<-|I]; [left; reflexivity|right; apply (IH (S k)), I]. }
      assert (H : forall o, In o the_outputs ->
                match fst o with "a"%char :: "g"%char :: "_"%char :: _ | "l"%char :: "o"%char :: _ => False | _ => True end).
      { intros o I. unfold the_outputs in I. apply in_app_iff in I. destruct I as [I|I].
        - destruct dynamic; [|destruct I]. unfold dynamic_outputs in I.
          apply in_app_iff in I. destruct I as [I|I]; [repeat (destruct I as [<-|I]; [exact Logic.I|]); destruct I|].
          apply in_app_iff in I. destruct I as [I|I]; [apply S, in_map_iff in I; destruct I as (n & <- & _); exact Logic.I|].
          apply in_app_iff in I. destruct I as [I|I]; [repeat (destruct I as [<-|I]; [exact Logic.I|]); destruct I|].
          apply in_app_iff in I. destruct I as [I|I]; [apply S, in_map_iff in I; destruct I as (n & <- & _); exact Logic.I|].
          apply in_app_iff in I. destruct I as [I|I]; [apply S, in_map_iff in I; destruct I as (n & <- & _); exact Logic.I|].
          repeat (destruct I as [<-|I]; [exact Logic.I|]); destruct I.
        - apply in_app_iff in I. destruct I as [I|I]; [destruct (opened BackendIsStatic); [|destruct I]|];
            repeat (destruct I as [<-|I]; [exact Logic.I|]); destruct I. }
      intros o I (rest & [E|E]); apply app_inv_head in E; specialize (H o I); rewrite E in H; exact H.
    Qed.

    Lemma run_finishes : NoDup (map fst the_outputs) -> Forall (fun l => result_of a x l = Val tt) later -> forall d,
      exists d', run d = (d', Val tt) /\
        (forall path parts, In (path, parts) the_outputs -> d' (directory ++ path) = Some (text_of content parts)) /\
        (forall path, (forall o, In o the_outputs -> path <> directory ++ fst o) -> ~ diagnostic directory path -> d' path = d path).
    Proof.
      intros N R d. destruct (run_later d) as (w & V & U & ->).
      destruct (later_go a x later later_kind) as [(_ & ->)|(l & ls1 & ls2 & E & F & _)].
      2: { rewrite E in R. apply Forall_app in R. destruct R as [_ R]. inversion_clear R as [|? ? R1 _]. destruct (F tt R1). }
      rewrite backend_effects. fold the_outputs.
      destruct (segments_performed (map file_of the_outputs) w) as (A & B & C).
      { replace (map fst (map file_of the_outputs)) with (map (app directory) (map fst the_outputs)) by (rewrite !map_map; reflexivity). apply FinFun.Injective_map_NoDup; [|exact N]. intros p q. apply app_inv_head. }
      eexists. rewrite A, V. split; [reflexivity|]. split.
      - intros path parts I. apply B. apply (in_map file_of) in I. exact I.
      - intros path O Dg. rewrite C; [apply U, Dg|]. rewrite map_map. intros I. apply in_map_iff in I. destruct I as (o & E & I). exact (O o I (eq_sym E)).
    Qed.
    Lemma run_stops : ~ Forall (fun l => result_of a x l = Val tt) later -> exists l, In l later /\
      (forall u, result_of a x l <> Val u) /\ forall d, snd (run d) = result_of a x l.
    Proof.
      intros R. destruct (later_go a x later later_kind) as [(H & _)|(l & ls1 & ls2 & E & F & G & H)]; [destruct (R H)|].
      exists l. split; [rewrite E; apply in_app_iff; right; left; reflexivity|]. split; [exact F|]. intros d.
      destruct (run_later d) as (w & V & U & ->). rewrite H. reflexivity.
    Qed.

    Lemma later_results : Forall (fun l => result_of a x l = Val tt) later <->
      (dynamic = true -> (exists l, map_val (fun n => DGEFequations n iteration) (a_nodes a) = Val l) /\
                         (exists f, DGVSast (a_nodes a) (an_attributes x) (an_sequences x) iteration = Val f)).
    Proof.
      assert (Hv : forall A (o : outcome A), no_result o = Val tt <-> exists v, o = Val v).
      { intros A o. destruct o; cbn; split; intros H; try discriminate; try (destruct H; discriminate); eauto. }
      rewrite <- Hv, <- Hv. rewrite Forall_forall. split.
      - intros H D. assert (I : In EquationFunctions later /\ In VisitSource later).
        { unfold later, backend_leaves. cbn [flat_map]. rewrite !in_app_iff.
          change (executed opened dynamicBackend) with
            (if dynamic then flat_map (executed opened) (match dynamicBackend with APhase _ _ _ l => l | _ => [] end) else []).
          rewrite D. split; left; left; cbn; tauto. }
        split; [exact (H _ (proj1 I))|exact (H _ (proj2 I))].
      - intros H l I. destruct l; try reflexivity; try (destruct (later_kind _ I); contradiction).
        + exfalso. revert I. unfold later, backend_leaves, opened. destruct dynamic, (STReq _ _); cbn; intuition discriminate.
        + apply H. revert I. unfold later, backend_leaves, opened. destruct dynamic; [reflexivity|]. destruct (STReq _ _); cbn; intuition discriminate.
        + apply H. revert I. unfold later, backend_leaves, opened. destruct dynamic; [reflexivity|]. destruct (STReq _ _); cbn; intuition discriminate.
        + apply H. revert I. unfold later, backend_leaves, opened. destruct dynamic; [reflexivity|]. destruct (STReq _ _); cbn; intuition discriminate.
    Qed.
  End Read.
End TheRun.
