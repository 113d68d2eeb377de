(** C56: lifetimes and nested phases of a specification are checked. *)

From Coq Require Import String.
From Coq Require Import List Ascii NArith Bool Lia Relations Permutation.
From Verif Require Import Base.Outcome Palm.StrModel Front.Syntax Front.SymbolTableModel Front.SymbolTableSpec Front.SymbolTableProof
  Front.CheckExistanceSpec Front.LifetimesModel Front.LifetimesSpec Front.LifetimesProof Front.FileModel Front.ParserModel Sched.FrontendModel Sched.ScheduleModel
  Gen.CompileSpec Gen.CompileModel Gen.CompilePasses Gen.CompileParsed Gen.CompileInst Gen.CompileProps Gen.AccessModel Gen.AccessMembers
  Gen.EvaluateModel Gen.StubsSpec Gen.RunSpec Gen.RunModel Gen.RunInst Gen.RunProps Gen.PhasesSpec Gen.PhasesProof Gen.PhasesParsed Gen.PhasesWhole Gen.PhasesInst.
Import ListNotations.

(** The condition under which the attributes of a node are those of its
    nodesets (C48). *)
Definition plain_sets (a : ast) : Prop := forall i x, declares_attribute a i x -> at_in_constructor x = false.

(** C56, full statement, relative to a condition on specifications, and with
    [looked_at every]: a specification that the semantic passes accept is
    accepted by the phase on lifetimes exactly if its lifetimes are right, and
    otherwise rejected. *)
Definition lifetimes_checked (looked_at : list ilifetime -> ilifetime -> Prop) (side : ast -> Prop) : Prop :=
  forall t p shuffle mx x, reads_file t p -> semantic shuffle mx (ast_of p) = Val x -> side (ast_of p) ->
    lifetimes (ast_of p) x = Val tt /\ (exists whole, compiler (ast_of p) whole /\ lifetime_rules looked_at (ast_of p) whole) \/
    (lifetimes (ast_of p) x = Exited \/ lifetimes (ast_of p) x = Aborted) /\
    ~ (exists whole, compiler (ast_of p) whole /\ lifetime_rules looked_at (ast_of p) whole).

(** It holds without recursive phases, for the first lifetime of each
    list. *)
Theorem C56_checked_partial : lifetimes_checked first_only (fun a => ~ endless a /\ plain_sets a).
Proof.
  intros t p shuffle mx x R S [Ne Con]. destruct (tree_in_range t p R) as (Pa & U & _). destruct (tree_named t p R) as (N1 & N2 & N3).
  apply semantic_val in S. destruct S as ([s lits] & g & v & B & _ & _ & ->). cbn [fst snd] in *.
  destruct (names_checked _ s lits B) as (_ & _ & (ste & Tb)).
  unfold lifetimes. rewrite Tb. cbn [bind an_attributes an_members].
  destruct (lifetimes_verdict (ast_of p) Pa U s lits B N1 N2 N3 ste Tb Con Ne (S (length (a_phases (ast_of p))))) as [[(ms & E) K]|[E K]]; [lia| |].
  - left. rewrite E. split; [reflexivity|exact K].
  - right. split; [|exact K]. destruct E as [E|E]; rewrite E; [left|right]; reflexivity.
Qed.
Print Assumptions C56_checked_partial.

(** In particular the phase ends, however deep phases are nested. *)
Theorem C56_ends : forall t p shuffle mx x, reads_file t p -> semantic shuffle mx (ast_of p) = Val x -> ~ endless (ast_of p) ->
  forall ste fuel, BSTast (ast_of p) = Val ste -> length (a_phases (ast_of p)) < fuel ->
  unpack_lifetimes ste fuel (finished (ast_of p) (an_attributes x) (an_members x)) <> NoFuel /\
  unpack_lifetimes ste fuel (finished (ast_of p) (an_attributes x) (an_members x)) <> Undef.
Proof.
  intros t p shuffle mx x R S Ne ste fuel Tb Hf. destruct (tree_in_range t p R) as (Pa & U & _). destruct (tree_named t p R) as (N1 & N2 & N3).
  apply semantic_val in S. destruct S as ([s lits] & g & v & B & _ & _ & ->). cbn [fst snd an_attributes an_members] in *.
  assert (K := lifetimes_outcome (ast_of p) Pa U s lits B N1 N2 N3 ste Tb Ne fuel Hf).
  destruct (unpack_lifetimes _ _ _); split; try discriminate; contradiction.
Qed.
Print Assumptions C56_ends.

(** It does not end, however long it runs, if a phase that is part of itself
    is among the phases written up to the start phase or reached from them:
    nothing rejects it. *)
Theorem C56_endless : forall t p shuffle mx x, reads_file t p -> semantic shuffle mx (ast_of p) = Val x -> endless (ast_of p) ->
  (forall y, written_attribute (ast_of p) y -> at_lifetimes y <> [] -> at_type y = AT_string \/ is_link (ast_of p) y) ->
  forall ste fuel, BSTast (ast_of p) = Val ste ->
  unpack_lifetimes ste fuel (finished (ast_of p) (an_attributes x) (an_members x)) = NoFuel.
Proof.
  intros t p shuffle mx x R S E T ste fuel Tb. destruct (tree_in_range t p R) as (Pa & U & _).
  apply semantic_val in S. destruct S as ([s lits] & g & v & B & _ & _ & ->). cbn [fst snd an_attributes an_members] in *.
  destruct (lifetimes_endless (ast_of p) Pa U s lits B ste Tb E fuel) as [[K _]|[_ K]]; [exact K|]. destruct (K T).
Qed.
Print Assumptions C56_endless.

(** The whole run: it ends well if and only if the compiler accepts the file
    and its lifetimes are right. *)
Theorem C56_run_partial : forall (P : Type) directory backend t p shuffle mx iteration (content : string -> nat -> list P) rounds stage d,
  backend_is_dynamic backend -> reads_file t p -> few_children (ast_of p) -> (forall l, Permutation (iteration l) l) ->
  ~ endless (ast_of p) -> plain_sets (ast_of p) ->
  snd (cocogen directory backend (Some (ast_of p)) shuffle mx iteration content rounds stage d) = Val tt <->
  (exists x fs, compile shuffle mx iteration t (Val (ast_of p, x, fs))) /\
  exists whole, compiler (ast_of p) whole /\ lifetime_rules first_only (ast_of p) whole.
Proof.
  intros P directory backend t p shuffle mx iteration content rounds stage d H R Few It Ne Con.
  rewrite (C55_status P directory backend t p shuffle mx iteration content rounds stage d H R Few It).
  assert (K : forall x fs, compile shuffle mx iteration t (Val (ast_of p, x, fs)) -> semantic shuffle mx (ast_of p) = Val x).
  { intros x fs C. inversion C as [p' F' E|]. subst. assert (p' = p) by exact (Front.FileProps.C47_one_tree t p' p F' R). subst p'.
    unfold translate in E. destruct (semantic shuffle mx (ast_of p)) as [y| | | |]; try discriminate.
    cbn [bind] in E. destruct (DGVSast _ _ _ _) as [f| | | |]; try discriminate. cbn in E. injection E as -> ->. reflexivity. }
  split.
  - intros (x & fs & C & L). split; [eauto|].
    destruct (C56_checked_partial t p shuffle mx x R (K x fs C) (conj Ne Con)) as [[_ W]|[[E|E] _]]; [exact W|congruence|congruence].
  - intros ((x & fs & C) & W). exists x, fs. split; [exact C|].
    destruct (C56_checked_partial t p shuffle mx x R (K x fs C) (conj Ne Con)) as [[L _]|[_ N]]; [exact L|contradiction].
Qed.
Print Assumptions C56_run_partial.

(** ** Instances *)

(** If the numbers of the actions are found, no phase is recursive. *)
Lemma numbered_ends : forall a ste fuel t, BSTast a = Val ste ->
  (forall p id, In p (a_phases a) -> In id (ph_actions p) -> is_declared a id) -> AITAast ste fuel a = Val t -> ~ endless a.
Proof.
  intros a ste fuel t Tb D E C. rewrite (AITA_endless a D ste (fun id d => BSTast_lookup a ste id d Tb) C fuel) in E. discriminate.
Qed.

Lemma accepted_ends : forall a x, analysed a = Val x -> (exists t, (bind (BSTast a) (fun ste => AITAast ste 100 a)) = Val t) -> ~ endless a.
Proof.
  intros a x S (t & E). unfold analysed in S. apply semantic_val in S. destruct S as ([s lits] & g & v & B & _).
  destruct (names_checked a s lits B) as (_ & _ & (ste & Tb)). rewrite Tb in E. cbn [bind] in E.
  exact (numbered_ends a ste 100 t Tb (actions_declared a s lits B) E).
Qed.

Example C56_instance : exists p x, reads_file nested_text p /\ semantic (fun l => l) 1000 (ast_of p) = Val x /\
  ~ endless (ast_of p) /\ plain_sets (ast_of p) /\ lifetimes (ast_of p) x = Val tt /\
  exists whole, compiler (ast_of p) whole /\ lifetime_rules first_only (ast_of p) whole.
Proof.
  destruct (tree_read _ _ nested_read) as (p & F & E).
  destruct (analysed nested_ast) as [x| | | |] eqn:A; [|exfalso; revert A; vm_compute; discriminate..].
  exists p, x.
  assert (S : semantic (fun l => l) 1000 (ast_of p) = Val x) by (rewrite E; exact A).
  assert (Ne : ~ endless (ast_of p)) by (rewrite E; apply (accepted_ends _ x A); eexists; vm_compute; reflexivity).
  assert (Con : plain_sets (ast_of p)).
  { rewrite E. intros i y (m & Hm & I). destruct i as [|[|i]]; cbn in Hm; [|discriminate|destruct i; discriminate].
    injection Hm as <-. cbn in I. destruct I as [<-|[]]. reflexivity. }
  assert (L : lifetimes (ast_of p) x = Val tt).
  { rewrite E. change (bind (Val x) (lifetimes nested_ast) = Val tt). rewrite <- A. vm_compute. reflexivity. }
  split; [exact F|]. split; [exact S|]. split; [exact Ne|]. split; [exact Con|]. split; [exact L|].
  destruct (C56_checked_partial nested_text p _ _ x F S (conj Ne Con)) as [[_ W]|[[K|K] _]]; [exact W|congruence|congruence].
Qed.

(** ** What does not hold *)

(** A phase that contains itself is accepted by all passes, and then cocogen
    does not end. *)
Theorem C56_recursive_phase_refuted : ~ lifetimes_checked first_only plain_sets.
Proof.
  intros H. destruct (tree_read _ _ again_read) as (p & F & E).
  destruct (analysed again_ast) as [x| | | |] eqn:A; [|exfalso; revert A; vm_compute; discriminate..].
  assert (S : semantic (fun l => l) 1000 (ast_of p) = Val x) by (rewrite E; exact A).
  assert (L : lifetimes (ast_of p) x = NoFuel).
  { rewrite E. change (bind (Val x) (lifetimes again_ast) = NoFuel). rewrite <- A. vm_compute. reflexivity. }
  destruct (H again_text p _ _ x F S) as [[K _]|[[K|K] _]]; try congruence.
  rewrite E. intros i y (m & Hm & I). destruct i; discriminate.
Qed.
Print Assumptions C56_recursive_phase_refuted.

Example C56_endless_instance : exists p x, reads_file again_text p /\ semantic (fun l => l) 1000 (ast_of p) = Val x /\
  endless (ast_of p) /\ (forall y, written_attribute (ast_of p) y -> at_lifetimes y <> [] -> at_type y = AT_string \/ is_link (ast_of p) y).
Proof.
  destruct (tree_read _ _ again_read) as (p & F & E).
  destruct (analysed again_ast) as [x| | | |] eqn:A; [|exfalso; revert A; vm_compute; discriminate..].
  exists p, x. rewrite E. split; [exact F|]. split; [exact A|]. split.
  - pose (main := nth 0 (a_phases again_ast) (mk_phase [] None None [] false false)).
    pose (again := nth 1 (a_phases again_ast) (mk_phase [] None None [] false false)).
    assert (Nm : names again_ast (ph_name again) (DPhase again)).
    { split; [unfold declarations; apply in_or_app; left; right; left; reflexivity|]. exists (ph_name again). split; [left; reflexivity|reflexivity]. }
    exists main, again. split; [|split].
    + exists [], main, [again]. split; [reflexivity|]. split; [reflexivity|]. split; [intros q []|left; reflexivity].
    + eapply Relation_Operators.rt1n_trans; [|apply rt1n_refl]. exists (ph_name again). split; [right; left; reflexivity|exact Nm].
    + apply t1n_step. exists (ph_name again). split; [right; left; reflexivity|exact Nm].
  - intros y W Ny. exfalso. destruct W as [(n & [<-|[]] & I)|(m & [] & _)]. cbn in I. destruct I as [<-|[]]. apply Ny. reflexivity.
Qed.

(** Only the first lifetime of a list is looked at: later ones may name actions
    that do not exist, and a node may be mandatory. *)
Theorem C56_every_lifetime_refuted : ~ lifetimes_checked every (fun a => ~ endless a /\ plain_sets a).
Proof.
  intros H. destruct (tree_read _ _ second_read) as (p & F & E).
  destruct (analysed second_ast) as [x| | | |] eqn:A; [|exfalso; revert A; vm_compute; discriminate..].
  assert (S : semantic (fun l => l) 1000 (ast_of p) = Val x) by (rewrite E; exact A).
  assert (L : lifetimes (ast_of p) x = Val tt).
  { rewrite E. change (bind (Val x) (lifetimes second_ast) = Val tt). rewrite <- A. vm_compute. reflexivity. }
  destruct (H second_text p _ _ x F S) as [[_ (whole & _ & [_ K _ _ _])]|[[K|K] _]]; try congruence.
  - split; [rewrite E; apply (accepted_ends _ x A); eexists; vm_compute; reflexivity|].
    rewrite E. intros i y (m & Hm & I). destruct i; discriminate.
  - rewrite E in K. destruct (K (hd (mk_node [] false [] [] [] []) (a_nodes second_ast)) (mk_lifetime LT_mandatory None None)) as [C|C];
      [left; reflexivity|right; left; reflexivity|discriminate C|discriminate C].
Qed.
Print Assumptions C56_every_lifetime_refuted.
