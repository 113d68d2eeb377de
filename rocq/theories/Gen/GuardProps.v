(** C59: no action of a generated compiler runs on a tree that breaks the
    specification. *)

From Coq Require Import String.
From Coq Require Import List Ascii NArith Bool Lia.
From Verif Require Import Base.Outcome Palm.StrModel Front.Syntax Front.ScannerModel Front.SymbolTableModel Front.SymbolTableSpec Front.CheckExistanceModel Front.CheckExistanceSpec
  Front.LifetimesModel Front.LifetimesSpec Front.LifetimesProof Front.FileModel Front.ParserModel Sched.FrontendModel Sched.ScheduleModel
  Copra.PhaseDriverModel Copra.PhaseDriverSpec
  Gen.CheckModel Gen.CheckSpec Gen.CheckProof Gen.CheckTrees Gen.CheckInst Gen.CompileModel Gen.CompilePasses Gen.CompileParsed Gen.CompileInst Gen.CompileProps
  Gen.AccessModel Gen.AccessMembers Gen.TablesModel Gen.TablesSpec Gen.TablesProof Gen.PhasesParsed Gen.PhasesWhole Gen.PhasesInst
  Gen.GuardModel Gen.GuardSpec Gen.GuardProof Gen.GuardInst.
Import ListNotations.
Local Open Scope list_scope.

(** C59, full statement, relative to a condition on the specification and its
    tree of actions: in every run of a compiler that cocogen generates from a
    file, with the check on, an action is run only on a tree that is consistent
    with the specification at that action, and the check stops the run only
    for a tree that is not.  [enforced] selects the lifetimes that count. *)
Definition trees_guarded (enforced : list ilifetime -> list ilifetime) (side : ast -> ast -> plan -> Prop) : Prop :=
  forall t p shuffle mx x bodies whole root, reads_file t p -> semantic shuffle mx (ast_of p) = Val x ->
    check_code (ast_of p) x = Val bodies -> compiler (ast_of p) whole ->
    usable_names (ast_of p) -> actions_by_name (ast_of p) -> side (ast_of p) (spec_of (ast_of p) x) whole ->
    exists first act, AST_START_PHASE (ast_of p) = Some first /\
      load_root root (ast_of p) (S (length (a_phases (ast_of p)))) first = Val act /\
      forall (W T : Type) (tree_in : T -> option ctree) leaf_fun gate_fun trav fuel d (w : W) v,
        keeps_shape tree_in (spec_of (ast_of p) x) leaf_fun ->
        (forall g i w b w' xs, gate_fun g i w = Some (b, w', xs) -> ~ In (SSetCheck false) xs) ->
        tree_check d = true -> (forall u, tree_in v = Some u -> shaped (spec_of (ast_of p) x) u) ->
        guarded_run tree_in (ast_of p) (spec_of (ast_of p) x) whole enforced
          (CCNrun leaf_fun gate_fun (fun i v => check_errors bodies trav i (tree_in v)) fuel act (start d w v)).

(** The conditions of C20. *)
Definition well_timed (a s : ast) (whole : plan) : Prop :=
  start_first a /\ used_once whole /\ forall l rest, In (l :: rest) (lifetime_lists s) -> plain_targets whole l.

Theorem C59_first_lifetimes_partial : trees_guarded (firstn 1) well_timed.
Proof.
  intros t p shuffle mx x bodies whole root R S Co C Us By (First & Once & Plain).
  destruct (tree_in_range t p R) as (P & U & Ui). destruct (tree_named t p R) as (N1 & N2 & N3).
  assert (B : before_scheduling (ast_of p) = Val (an_attributes x, an_members x)).
  { apply semantic_val in S. destruct S as ([s lits] & g & v & B & _ & _ & ->). exact B. }
  destruct (code_val _ x bodies Co) as (ste & ms & Tb & _).
  destruct (tree_exists _ x B bodies Co) as (first & l & E & C' & D).
  assert (whole = Plan (DPhase first) l) by exact (compiler_unique _ _ _ ste B Tb _ _ C C'). subst whole.
  destruct (names_checked _ _ _ B) as (Dn & _).
  assert (C0 := C). inversion C0 as [q l' Iq _ F]; subst q l'.
  destruct (load_compiler _ Dn Ui Us root By first l Iq F) as (act & Ra & Ld).
  exists first, act. split; [exact E|]. split; [apply Ld, D|].
  intros W T tree_in leaf_fun gate_fun trav fuel d w v Ku Kg Ch Sh.
  now apply (run_guarded _ P U N1 N2 N3 x B bodies Co First _ C D Once Plain).
Qed.
Print Assumptions C59_first_lifetimes_partial.

(** If nothing has two lifetimes, all of them count. *)
Theorem C59_all_lifetimes_partial : trees_guarded (fun l => l)
  (fun a s whole => well_timed a s whole /\ forall l, In l (lifetime_lists s) -> (length l <= 1)%nat).
Proof.
  intros t p shuffle mx x bodies whole root R S Co C Us By (Wt & One).
  destruct (C59_first_lifetimes_partial t p shuffle mx x bodies whole root R S Co C Us By Wt) as (first & act & E & L & K).
  exists first, act. split; [exact E|]. split; [exact L|]. intros W T tree_in leaf_fun gate_fun trav fuel d w v Ku Kg Ch Sh.
  destruct (K W T tree_in leaf_fun gate_fun trav fuel d w v Ku Kg Ch Sh) as [K1 K2 K3]. constructor.
  - exact K1.
  - intros i l w' v' u I Eu. apply (check_all _ whole One). exact (K2 i l w' v' u I Eu).
  - intros z Ez. destruct (K3 z Ez) as (u & Eu & N). exists u. split; [exact Eu|]. intros H. apply N. apply (check_all _ whole One). exact H.
Qed.
Print Assumptions C59_all_lifetimes_partial.

(** ** Instances *)

Definition node : nat -> list bool -> list (option ctree) -> ctree := @Copra.TravModel.Node (list bool).

Ltac lists_tac := intros l rest H; vm_compute in H;
  repeat (destruct H as [H|H]; [try discriminate H; injection H as <- _; plain_tac|]); destruct H.

Lemma apart_timed : well_timed apart_ast (spec_of apart_ast apart_analysis) apart_whole.
Proof.
  split; [|split].
  - exists (firstn 2 (a_phases apart_ast)), (nth 2 (a_phases apart_ast) (mk_phase [] None None [] false false)). split; reflexivity.
  - unfold used_once, distinct_names. vm_compute. Front.SetsInst.unique_names.
  - lists_tac.
Qed.

Example C59_instance : exists p, reads_file apart_text p /\ semantic (fun l => l) 1000 (ast_of p) = Val apart_analysis /\
  check_code (ast_of p) apart_analysis = Val apart_code /\ compiler (ast_of p) apart_whole /\
  usable_names (ast_of p) /\ actions_by_name (ast_of p) /\ well_timed (ast_of p) (spec_of (ast_of p) apart_analysis) apart_whole /\
  (forall l, In l (lifetime_lists (spec_of (ast_of p) apart_analysis)) -> (length l <= 1)%nat).
Proof.
  destruct (tree_read _ _ apart_read) as (p & F & E). exists p. rewrite E. split; [exact F|].
  split; [exact apart_analysed|]. split; [exact apart_checked|]. split; [exact apart_compiler|].
  split; [apply usable_right; vm_compute; reflexivity|]. split; [apply by_name_right; vm_compute; reflexivity|].
  split; [exact apart_timed|]. intros l H. vm_compute in H. repeat (destruct H as [<-|H]; [cbn; lia|]). destruct H.
Qed.

(** prog(num), with origin and other, with or without label; then num removed. *)
Definition with_label (b : bool) : ctree := node 2 [true; b; true] [Some (node 1 [true; false] []); None].
Definition without_num : ctree := node 2 [true; false; true] [None; None].
Definition halted {W T} (r : PhaseDriverModel.result leaf cstring W T) : option (halt * N) :=
  match r with Halt h z => Some (h, action_id (drv z)) | Cont _ => None end.
Definition apart_run (new : nat -> option ctree) := let r := run_of apart_code (act_of apart_ast) new None in (ran r, halted r).

(** Parse (pass 4) makes the tree, print (pass 1) removes the number: all
    actions run.  With a label the traversal count, action 6, is not reached;
    with the number, write is not. *)
Example C59_case :
  apart_run (fun v => match v with 4 => Some (with_label false) | 1 => Some without_num | _ => None end) = ([2; 4; 6; 7; 8]%N, None) /\
  apart_run (fun v => match v with 4 => Some (with_label true) | _ => None end) = ([2; 4]%N, Some (HCheckFailed, 6%N)) /\
  apart_run (fun v => match v with 4 => Some (with_label false) | _ => None end) = ([2; 4; 6; 7]%N, Some (HCheckFailed, 8%N)).
Proof. vm_compute. auto. Qed.
Example C59_user_code : forall b, keeps_shape (fun t => t) (spec_of apart_ast apart_analysis)
  (makes (fun v => match v with 4 => Some (with_label b) | 1 => Some without_num | _ => None end)).
Proof.
  intros b. apply makes_right. intros v t E. apply shaped_right.
  destruct v as [|[|[|[|[|v]]]]]; try discriminate E; injection E as <-; [vm_compute; reflexivity|destruct b; vm_compute; reflexivity].
Qed.

(** ** What does not hold *)

Lemma not_guarded : forall enforced (side : ast -> ast -> plan -> Prop) text a x code whole i l u t new,
  tree text = Some a -> analysed a = Val x -> check_code a x = Val code -> compiler a whole ->
  usable_b a = true -> by_name_b a = true -> side a (spec_of a x) whole ->
  (forall v u, new v = Some u -> shaped_b (spec_of a x) u = true) -> (forall u, t = Some u -> shaped_b (spec_of a x) u = true) ->
  In (EvRun i l tt (Some u)) (run_log (run_of code (act_of a) new t)) -> ~ consistent (spec_of a x) whole enforced i u ->
  ~ trees_guarded enforced side.
Proof.
  intros enforced side text a x code whole i l u t new Rd An Co C Us By Sd Hn Ht I No H.
  destruct (tree_read _ _ Rd) as (p & F & E).
  destruct (H text p (fun l => l) 1000 x code whole (mk_node [] true [] [] [] []) F) as (first & act & E1 & E2 & K); try (rewrite E; assumption).
  - rewrite E. apply usable_right, Us.
  - rewrite E. apply by_name_right, By.
  - rewrite E in *. unfold run_of, act_of in I. rewrite E1, E2 in I.
    destruct (K unit (option ctree) (fun t => t) (makes new) no_gate 9 9 driver0 tt t) as [_ K2 _].
    + apply makes_right. intros v u' Ev. apply shaped_right, (Hn v u' Ev).
    + exact no_gate_check.
    + reflexivity.
    + intros u' Eu. apply shaped_right, (Ht u' Eu).
    + apply No. exact (K2 i l tt (Some u) u I eq_refl).
Qed.

(** Phases that are written inside the start phase: the label may not exist
    from the pass fold on, action 4, but the check does not see it. *)
Theorem C59_phases_inside_refuted : ~ trees_guarded (firstn 1)
  (fun a s whole => used_once whole /\ forall l rest, In (l :: rest) (lifetime_lists s) -> plain_targets whole l).
Proof.
  apply (not_guarded _ _ inside_text inside_ast inside_analysis inside_code inside_whole 4%N (LPass 3) (node 1 [true] []) (Some (node 1 [true] [])) (fun _ => None)
    inside_read inside_analysed inside_checked inside_compiler); try (vm_compute; reflexivity).
  - split; [unfold used_once, distinct_names; vm_compute; Front.SetsInst.unique_names|lists_tac].
  - discriminate.
  - intros u E. injection E as <-. reflexivity.
  - vm_compute. tauto.
  - intros C. pose (n := hd (mk_node [] true [] [] [] []) (a_nodes (spec_of inside_ast inside_analysis))).
    destruct (C (node 1 [true] []) n) as [_ _ K _]; [constructor|exists 0%nat; split; reflexivity|].
    refine (K 0%nat _ _ eq_refl (or_introl eq_refl) _). split; [split|reflexivity].
    + eexists. eexists. split; [vm_compute; reflexivity|vm_compute; discriminate].
    + eexists. eexists. split; [vm_compute; reflexivity|vm_compute; reflexivity].
Qed.
Print Assumptions C59_phases_inside_refuted.

(** Second lifetimes do not count. *)
Theorem C59_every_lifetime_refuted : ~ trees_guarded (fun l => l)
  (fun a s whole => start_first a /\ used_once whole /\ forall ls l, In ls (lifetime_lists s) -> In l ls -> plain_targets whole l).
Proof.
  apply (not_guarded _ _ double_text double_ast double_analysis double_code double_whole 3%N (LPass 1) (node 1 [true] []) (Some (node 1 [true] [])) (fun _ => None)
    double_read double_analysed double_checked double_compiler); try (vm_compute; reflexivity).
  - split; [exists [], (hd (mk_phase [] None None [] false false) (a_phases double_ast)); split; reflexivity|].
    split; [unfold used_once, distinct_names; vm_compute; Front.SetsInst.unique_names|]. intros ls l H I. vm_compute in H.
    repeat (destruct H as [<-|H]; [vm_compute in I; repeat (destruct I as [<-|I]; [plain_tac|]); destruct I|]). destruct H.
  - discriminate.
  - intros u E. injection E as <-. reflexivity.
  - vm_compute. tauto.
  - intros C. pose (n := hd (mk_node [] true [] [] [] []) (a_nodes (spec_of double_ast double_analysis))).
    destruct (C (node 1 [true] []) n) as [_ _ K _]; [constructor|exists 0%nat; split; reflexivity|].
    refine (K 0%nat _ _ eq_refl (or_intror (or_introl eq_refl)) _). split; [split|reflexivity].
    + eexists. eexists. split; [vm_compute; reflexivity|vm_compute; discriminate].
    + exact I.
Qed.
Print Assumptions C59_every_lifetime_refuted.

(** The tree that the last action leaves is not checked: a compiler may come to
    its end with a tree that is consistent at no action. *)
Definition last_tree_guarded : Prop :=
  forall t p shuffle mx x bodies whole root first act, reads_file t p -> semantic shuffle mx (ast_of p) = Val x ->
    check_code (ast_of p) x = Val bodies -> compiler (ast_of p) whole -> well_timed (ast_of p) (spec_of (ast_of p) x) whole ->
    AST_START_PHASE (ast_of p) = Some first -> load_root root (ast_of p) (S (length (a_phases (ast_of p)))) first = Val act ->
    forall (leaf_fun : leaf -> N -> unit -> option ctree -> option (unit * option ctree * list signal)) gate_fun trav fuel d z u,
      keeps_shape (fun t => t) (spec_of (ast_of p) x) leaf_fun ->
      (forall g i w b w' xs, gate_fun g i w = Some (b, w', xs) -> ~ In (SSetCheck false) xs) -> tree_check d = true ->
      CCNrun leaf_fun gate_fun (fun i v => check_errors bodies trav i v) fuel act (start d tt None) = Cont z ->
      PhaseDriverModel.node z = Some u -> exists i, consistent (spec_of (ast_of p) x) whole (firstn 1) i u.

Lemma last_unguarded : forall text a x code whole first u new z,
  tree text = Some a -> analysed a = Val x -> check_code a x = Val code -> compiler a whole -> well_timed a (spec_of a x) whole ->
  AST_START_PHASE a = Some first ->
  load_root (mk_node [] true [] [] [] []) a (S (length (a_phases a))) first = Val (act_of a) ->
  (forall v u, new v = Some u -> shaped_b (spec_of a x) u = true) ->
  run_of code (act_of a) new None = Cont z -> PhaseDriverModel.node z = Some u ->
  (forall i, ~ consistent (spec_of a x) whole (firstn 1) i u) -> ~ last_tree_guarded.
Proof.
  intros text a x code whole first u new z Rd An Co C Wt St Ld Hn Er Eu No H.
  destruct (tree_read _ _ Rd) as (p & F & E).
  specialize (H text p (fun l => l) 1000 x code whole (mk_node [] true [] [] [] []) first (act_of a) F). rewrite E in H.
  destruct (H An Co C Wt St Ld (makes new) no_gate 9 9 driver0 z u) as (i & K).
  - apply makes_right. intros v t Et. apply shaped_right, (Hn v t Et).
  - exact no_gate_check.
  - reflexivity.
  - exact Er.
  - exact Eu.
  - exact (No i K).
Qed.

Definition wrong_child : ctree := node 2 [] [Some (node 2 [] [None])].
Lemma wrong_run : exists z, run_of single_code (act_of single_ast) (fun _ => Some wrong_child) None = Cont z /\
  PhaseDriverModel.node z = Some wrong_child.
Proof. eexists. split; vm_compute; reflexivity. Qed.
Theorem C59_last_tree_refuted : ~ last_tree_guarded.
Proof.
  destruct wrong_run as (z & Er & Eu).
  apply (last_unguarded single_text single_ast single_analysis single_code single_whole
    (hd (mk_phase [] None None [] false false) (a_phases single_ast)) wrong_child (fun _ => Some wrong_child) z
    single_read single_analysed single_checked single_compiler); [|reflexivity|vm_compute; reflexivity| |exact Er|exact Eu|].
  - split; [exists [], (hd (mk_phase [] None None [] false false) (a_phases single_ast)); split; reflexivity|].
    split; [unfold used_once, distinct_names; vm_compute; Front.SetsInst.unique_names|]. intros l rest I. vm_compute in I.
    repeat (destruct I as [I|I]; [discriminate I|]). destruct I.
  - intros v t Et. injection Et as <-. reflexivity.
  - intros i C. pose (n := nth 1 (a_nodes (spec_of single_ast single_analysis)) (mk_node [] true [] [] [] [])).
    destruct (C wrong_child n) as [K _ _ _]; [constructor|exists 1%nat; split; reflexivity|].
    destruct (K _ _ _ 0%nat (hd (mk_child [] [] false []) (nd_children n)) (node 2 [] [None]) n eq_refl eq_refl eq_refl) as [X|(m & S & I & _)].
    + exists 1%nat. split; reflexivity.
    + vm_compute in X. discriminate X.
    + destruct I.
Qed.
Print Assumptions C59_last_tree_refuted.
