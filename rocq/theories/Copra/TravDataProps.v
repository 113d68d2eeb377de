(** C50: every traversal has its own data. *)

From Coq Require Import String.
From Coq Require Import List Arith NArith Bool Ascii Lia.
From Verif Require Import Front.Syntax Front.ReachModel Front.ParserModel Front.FileModel Gen.TablesModel Sched.FrontendModel Gen.CompileModel Gen.CompileInst
  Gen.CompileVerdict Gen.CompileProps.
From Verif Require Import Base.Outcome Base.Heap Palm.StrModel Front.SetsInst Copra.TravModel
  Copra.TravDataModel Copra.TravDataSpec Copra.TravDataProof Copra.TravDataSafe Copra.TravDataInst.
Import ListNotations.
Local Open Scope string_scope.
Local Open Scope list_scope.
Local Open Scope outcome_scope.

Section Statements.
  Context {A W V : Type}.
  (** The travdata of each traversal with its default values, an allocator, the
      table of functions, the user's functions *)
  Variable fields : nat -> option (list (cstring * V)).
  Variable malloc : nat -> heap (block V) -> addr.
  Variable vtable : nat -> nat -> entry.
  Variable user : nat -> W -> tree A -> prog A W V.
  Variable init fini : nat -> W -> prog A W V.
  Definition assumed : Prop :=
    (forall trav fs, fields trav = Some fs -> NoDup (map fst fs)) /\ (forall n h, lookup h (malloc n h) = None).
  (** Running a function, or TRAVdo, on the C memory and on the stack of
      traversals *)
  Definition run_c n s p := exec (c_machine fields malloc) vtable user (c_has_data fields) init fini n (no_locals _) s p.
  Definition run_s n F p := exec (s_machine fields) vtable user (c_has_data fields) init fini n (no_locals _) F p.
  Definition do_c n s w t := visit (c_machine fields malloc) vtable user (c_has_data fields) init fini n s w t.
End Statements.

(** ** Refinement *)

(** When no traversal has been started, the memory holds no traversals. *)
Theorem C50_initially : forall V (fields : nat -> option (list (cstring * V))) h n,
  holds fields h [] (mk_memory h None n) [].
Proof.
  intros. constructor; cbn; auto; [constructor|constructor|intros x []].
Qed.
Print Assumptions C50_initially.

(** On a memory that holds the traversals [F], a program does what it does on
    the stack of traversals; afterwards the memory holds the resulting
    traversals, at the same addresses and with nothing else changed, allocated
    or freed. *)
Theorem C50_refines : forall A W V fields malloc vtable user init fini, @assumed V fields malloc ->
  forall n h0 ads s F p, holds fields h0 ads s F ->
  sim (fun (c : memory V * W * option (tree A)) a => holds fields h0 ads (fst (fst c)) (fst (fst a)) /\ snd (fst c) = snd (fst a) /\ snd c = snd a)
      (run_c fields malloc vtable user init fini n s p) (run_s fields vtable user init fini n F p).
Proof.
  intros A W V fields malloc vtable user init fini [D M] n h0 ads s F p H.
  pose proof (proj1 (sim_run fields D malloc M h0 vtable user init fini n) ads (map fst F) s F _ _ p (conj H eq_refl) (no_vars fields malloc ads)) as S.
  unfold run_c, run_s.
  destruct (exec (c_machine fields malloc) _ _ _ _ _ _ _ _ p), (exec (s_machine fields) _ _ _ _ _ _ _ _ p); try exact S. destruct S as [[S1 _] S2]. split; assumption.
Qed.
Print Assumptions C50_refines.

(** ** Isolation *)

(** A traversal that is started and ends leaves the memory as it was: the data
    of all other traversals is unchanged, and what was allocated is freed. *)
Theorem C50_start_keeps_data : forall A W V fields malloc vtable user init fini, @assumed V fields malloc ->
  forall n h0 ads s F (w : W) trav (t : option (tree A)) s' w' t', holds fields h0 ads s F ->
  run_c fields malloc vtable user init fini n s (PStart w trav t (fun w t => PRet w t)) = Val (s', w', t') ->
  current_traversal s' = current_traversal s /\ forall x, lookup (mem s') x = lookup (mem s) x.
Proof.
  intros A W V fields malloc vtable user init fini Hyp n h0 ads s F w trav t s' w' t' H R.
  pose proof (C50_refines A W V fields malloc vtable user init fini Hyp n h0 ads s F (PStart w trav t (fun w t => PRet w t)) H) as S.
  rewrite R in S. destruct (run_s fields vtable user init fini n F _) as [[[F' w1] r1]| | | |] eqn:E; try contradiction.
  apply start_keeps in E. cbn [fst] in E. subst F'. destruct S as [S _]. cbn [fst] in S.
  destruct S as [C' _ _ _ M'], H as [C _ _ _ M]. split; [congruence|]. intros x. now rewrite M, M'.
Qed.
Print Assumptions C50_start_keeps_data.

(** Within a traversal nothing but its own data changes. *)
Theorem C50_own_data : forall A W V fields malloc vtable user init fini, @assumed V fields malloc ->
  forall n h0 ads s F (w : W) (t : tree A) s' w' t', holds fields h0 ads s F ->
  do_c fields malloc vtable user init fini n s w t = Val (s', w', t') ->
  current_traversal s' = current_traversal s /\
  forall x, (forall trav, c_data trav s <> Val x) -> lookup (mem s') x = lookup (mem s) x.
Proof.
  intros A W V fields malloc vtable user init fini [D M] n h0 ads s F w t s' w' t' H R.
  destruct (sim_run fields D malloc M h0 vtable user init fini n) as [_ [SV _]].
  specialize (SV ads (map fst F) s F w t (conj H eq_refl)). unfold do_c in R. rewrite R in SV.
  destruct (visit (s_machine fields) _ _ _ _ _ n F w t) as [[[F' w1] r1]| | | |] eqn:E; try contradiction.
  destruct SV as [[H' _] _]. cbn [fst] in H'.
  apply (proj1 (proj2 (run_changes fields vtable user (c_has_data fields) init fini n))) in E. cbn [fst] in E.
  pose proof (holds_current _ _ _ _ _ H) as C. pose proof (holds_current _ _ _ _ _ H') as C'. split; [congruence|]. intros x N.
  rewrite (holds_mem _ _ _ _ _ H), (holds_mem _ _ _ _ _ H'). destruct H as [_ P _ _ Mm], H' as [_ P' _ _ _].
  destruct ads as [|[a o] ads].
  { destruct F, F'; try (exfalso; now inversion P); try (exfalso; now inversion P'); reflexivity. }
  destruct F as [|[ty r] F]; [inversion P|]. destruct F' as [|[ty' r'] F']; [inversion P'|].
  pose proof (changes_tl _ _ _ _ E) as Et. apply changes_none in Et; [|intros l L Q; unfold is_top in Q; cbn in Q; lia]. cbn in Et. subst F'.
  destruct E as [T _]. cbn in T. injection T as ->. apply proper_inv in P. apply proper_inv in P'.
  destruct P as [_ [[-> [-> _]]|[p [q [-> [-> _]]]]]], P' as [_ [[E1 [E2 _]]|[p' [q' [E1 [E2 _]]]]]]; try discriminate E1; subst.
  - reflexivity.
  - cbn [layout lookup]. destruct (N.eqb a x) eqn:Ea; [reflexivity|]. destruct (N.eqb_spec p x) as [->|]; [|reflexivity].
    exfalso. apply (N ty). unfold c_data. rewrite C. cbn [top]. rewrite Mm. cbn [layout lookup]. rewrite N.eqb_refl, Nat.eqb_refl. reflexivity.
Qed.
Print Assumptions C50_own_data.

(** A program that starts with no traversal leaves no frame and no data
    behind, and nothing else in memory is touched. *)
Theorem C50_no_leak : forall A W V fields malloc vtable user init fini, @assumed V fields malloc ->
  forall n h c p s' (w' : W) (t' : option (tree A)),
  run_c fields malloc vtable user init fini n (mk_memory h None c) p = Val (s', w', t') ->
  current_traversal s' = None /\ forall x, lookup (mem s') x = lookup h x.
Proof.
  intros A W V fields malloc vtable user init fini Hyp n h c p s' w' t' R.
  pose proof (C50_refines A W V fields malloc vtable user init fini Hyp n h [] _ [] p (C50_initially V fields h c)) as S.
  rewrite R in S. destruct (run_s fields vtable user init fini n [] p) as [[[F' w1] r1]| | | |]; try contradiction.
  destruct S as [[C P _ _ M] _]. cbn [fst] in *. split; [exact C|]. intros x. rewrite M. reflexivity.
Qed.
Print Assumptions C50_no_leak.

(** ** Default values *)

(** Before the user's init function is called, the data is new, and every field
    has its default value. *)
Theorem C50_defaults : forall V fields malloc, @assumed V fields malloc ->
  forall h0 ads s F trav fs, holds fields h0 ads s F -> fields trav = Some fs ->
  exists s' d, c_enter fields malloc trav s = Val s' /\ c_current s' = Val trav /\ c_data trav s' = Val d /\
    lookup (mem s) d = None /\
    (forall f v, In (f, v) fs -> c_load d f s' = Val v) /\
    exists a, holds fields h0 ((a, Some d) :: ads) s' ((trav, Some fs) :: F).
Proof.
  intros V fields malloc [D M] h0 ads s F trav fs H Ef.
  destruct (sim_enter fields D malloc M h0 trav ads (map fst F) s F (conj H eq_refl)) as [[a o] [s' [E R]]]. rewrite Ef in R.
  pose proof (sim_current fields h0 _ _ _ _ R) as Cu. pose proof (sim_data fields h0 trav _ _ _ _ R) as Da. cbn in Cu, Da. rewrite Nat.eqb_refl in Da.
  destruct (c_data trav s') as [d| | | |] eqn:Ed; try contradiction. cbn in Da.
  assert (Le : length F = length ads) by (symmetry; apply (proper_length fields); exact (holds_proper _ _ _ _ _ H)).
  pose proof Da as Db. cbn [level_addr] in Da. rewrite Le, Nat.eqb_refl in Da. cbn in Da. subst o.
  exists s', d. split; [exact E|]. split; [exact Cu|]. split; [exact Ed|]. split; [|split].
  - destruct R as [[_ _ N Ap _] _]. rewrite (holds_mem _ _ _ _ _ H). cbn [layout map fst] in N, Ap.
    apply NoDup_cons_iff in N. destruct N as [_ N]. apply NoDup_cons_iff in N. destruct N as [N _].
    rewrite lookup_out by exact N. apply Ap. right. now left.
  - intros f v I. pose proof (sim_load fields h0 d (length F) f _ _ _ _ R Db) as L. unfold s_load in L. cbn [nth_started snd] in L.
    rewrite Nat.eqb_refl in L. rewrite (get_field_unique _ fs f v (D _ _ Ef) I) in L.
    destruct (c_load d f s'); try contradiction. cbn in L. now subst.
  - exists a. exact (proj1 R).
Qed.
Print Assumptions C50_defaults.

(** ** No undefined behaviour *)

(** If all functions use the data of their own traversal only, and fields that
    it has, then traversing a tree does not go wrong: there is a result, unless
    it does not terminate or a table has an error entry. *)
Theorem C50_safe : forall A W V fields malloc vtable user init fini, @assumed V fields malloc ->
  (forall trav w t, fine fields trav (fun _ => None) (user trav w t)) ->
  (forall trav w, c_has_data fields trav = true -> fine fields trav (fun _ => None) (init trav w)) ->
  (forall trav w, c_has_data fields trav = true -> fine fields trav (fun _ => None) (fini trav w)) ->
  forall n h c (w : W) trav (t : option (tree A)) body,
  (forall w, fine fields trav (fun _ => None) (body w)) ->
  (forall p, p = PStart w trav t (fun w t => PRet w t) \/ p = PWith w trav body (fun w t => PRet w t) ->
   match run_c fields malloc vtable user init fini n (mk_memory h None c) p with
   | Val _ | NoFuel => True
   | Aborted => exists trav ty, vtable trav ty = EError
   | Undef | Exited => False
   end).
Proof.
  intros A W V fields malloc vtable user init fini Hyp U I1 I2 n h c w trav t body B p Hp.
  pose proof (C50_refines A W V fields malloc vtable user init fini Hyp n h [] _ [] p (C50_initially V fields h c)) as S.
  set (errs := exists trav ty, vtable trav ty = EError).
  assert (He : forall trav ty, vtable trav ty = EError -> errs) by (intros x y E; exists x, y; exact E).
  assert (G : good errs (fun _ => True) (run_s fields vtable user init fini n [] p)).
  { unfold run_s. destruct n as [|n]; [exact I|].
    destruct (run_good fields vtable user (c_has_data fields) init fini errs He U I1 I2 n) as [GE [GV [GP GQ]]].
    assert (W0 : wf fields [] []) by (split; [reflexivity|constructor]).
    destruct Hp as [->| ->]; cbn [exec].
    - eapply good_bind; [exact (GP _ trav _ w W0)|]. intros r1 R1. eapply good_bind; [exact (opt_good fields errs _ _ t _ _ (GV _ _) R1)|].
      intros r2 R2. eapply good_bind; [exact (GQ _ _ _ _ R2)|]. intros r3 R3. destruct n; exact I.
    - eapply good_bind; [exact (GP _ trav _ w W0)|]. intros r1 R1.
      eapply good_bind; [exact (GE _ _ _ _ _ _ (B (snd r1)) R1 (typed_none fields _ _))|].
      intros r2 R2. eapply good_bind; [exact (GQ _ _ _ _ R2)|]. intros r3 R3. destruct n; exact I. }
  destruct (run_c fields malloc vtable user init fini n (mk_memory h None c) p), (run_s fields vtable user init fini n [] p);
    try contradiction; exact G.
Qed.
Print Assumptions C50_safe.

(** ** Names *)

(** <PREFIX>init() and the function of the user for a node (gen_trav_data_ctors.c:19) *)
Definition init_function (t : itraversal) : cstring := ID_UPR (uid_of t) ++ nm "init".

(** The init function does not have a name of its own: a file is accepted in
    which it has the same name as the function for a node. *)
Theorem C50_init_name_refuted : exists p t n, reads_file init_text p /\ is_val (before_scheduling (ast_of p)) = true /\
  In t (a_traversals (ast_of p)) /\ tv_data t <> [] /\ In n (a_nodes (ast_of p)) /\
  node_entry t RUser n = init_function t.
Proof.
  destruct (CompileInst.tree init_text) as [a|] eqn:E; [|vm_compute in E; discriminate E]. destruct (tree_read _ _ E) as (p & F & Ea).
  exists p. rewrite Ea. clear Ea. vm_compute in E. injection E as <-.
  eexists. eexists. split; [exact F|]. split; [vm_compute; reflexivity|]. split; [left; reflexivity|]. split; [discriminate|].
  split; [left; reflexivity|]. vm_compute. reflexivity.
Qed.
Print Assumptions C50_init_name_refuted.

(** ** The hypotheses are met *)

(** SETIDcontains, with a counting traversal inside: 4, 1, 2 and 1 nodes, each
    count starting from 100; the search finds label 7, whatever is counted. *)
Example C50_example :
  assumed ex_fields ex_malloc /\
  (forall trav w t, fine ex_fields trav (fun _ => None) (ex_user trav w t)) /\
  (forall trav w, c_has_data ex_fields trav = true -> fine ex_fields trav (fun _ => None) (ex_init trav w)) /\
  (forall trav w, c_has_data ex_fields trav = true -> fine ex_fields trav (fun _ => None) (ex_fini trav w)) /\
  map_outcome (fun r => (snd (fst r), current_traversal (fst (fst r)), mem (fst (fst r))))
    (run_c ex_fields ex_malloc ex_vtable ex_user ex_init ex_fini 60 (mk_memory [(3%N, BData [])] None 0) (contains 7 (Some ex_tree))) =
  Val ([1; 101; 102; 101; 104], None, [(3%N, BData [])]) /\
  map_outcome (fun r => snd (fst r))
    (run_c ex_fields ex_malloc ex_vtable ex_user ex_init ex_fini 60 (mk_memory [] None 0) (contains 9 (Some ex_tree))) =
  Val [0; 101; 102; 101; 104].
Proof.
  split; [split; [exact ex_names|exact ex_malloc_fresh]|]. split; [exact ex_user_fine|]. split; [exact ex_init_fine|].
  split; [exact ex_fini_fine|]. split; vm_compute; reflexivity.
Qed.

(** Asking for the data of another traversal than the current one is undefined;
    so is a field of a traversal that has none. *)
Example C50_wrong_traversal :
  run_c ex_fields ex_malloc ex_vtable ex_user ex_init ex_fini 60 (mk_memory [] None 0)
    (PWith [] 1 (fun w => PData 0 0 (PLoad 0 lookup_f (fun x => PRet [x] None))) done) = Undef /\
  run_c ex_fields ex_malloc ex_vtable ex_user ex_init ex_fini 60 (mk_memory [] None 0)
    (PWith [] 2 (fun w => PData 0 2 (PRet w None)) done) = Undef.
Proof. split; vm_compute; reflexivity. Qed.
