(** C55: the files that a run of cocogen leaves behind. *)

From Coq Require Import String.
From Coq Require Import List Ascii Bool Arith Permutation.
From Verif Require Import Base.Outcome Palm.StrModel Palm.StrProof Front.Syntax Front.CheckExistanceModel Front.SetsModel Front.SymbolTableProof Front.ParserModel Front.FileModel Front.FileSpec Front.FileProof Front.FileNamesSpec Front.FileNames Front.FileProps
  Front.PropagateModel Front.ProductRulesProof Front.NodesetPassesProof Sched.GraphModel Sched.ScheduleModel Sched.FrontendModel Gen.AccessModel Gen.TablesModel Gen.TablesProof Gen.EvalVariantsModel Gen.EvaluateModel
  Gen.CompileModel Gen.CompileParsed Gen.CompileInst Gen.CompilePasses Gen.CompileVerdict Gen.CompileProps Gen.AccessMembers Gen.DispatchReach Gen.StubsSpec Gen.StubsProof Gen.StubsProps Gen.StubsInst Gen.RunModel Gen.RunSpec Gen.RunProof Gen.RunNames Gen.RunInst.
Import ListNotations.
Local Open Scope list_scope.

(** The backend is chosen with the option --backend. *)
Definition backend_is_dynamic (backend : cstring) : Prop := STReqci (Some (str "dynamic")) (Some backend) = Val true.
Definition backend_is_other (backend : cstring) : Prop :=
  STReqci (Some (str "dynamic")) (Some backend) = Val false /\ backend <> str "static".

Lemma not_static : forall backend, backend_is_dynamic backend -> STReq (Some (TablesModel.text "static")) (Some backend) = false.
Proof.
  intros backend H. destruct (STReq (Some (TablesModel.text "static")) (Some backend)) eqn:E; [|reflexivity].
  apply STReq_iff in E. injection E as <-. vm_compute in H. discriminate H.
Qed.

Section Statements.
  Context {P : Type}.
  Variable directory backend : cstring.
  Variable shuffle : list (graph_key * ag_graph) -> list (graph_key * ag_graph).
  Variable mx : nat.
  Variable iteration : list nat -> list nat.
  Variable content : string -> nat -> list P.
  Variable rounds stage : nat.
  Notation run := (fun input => cocogen directory backend input shuffle mx iteration content rounds stage).

  Lemma dynamic_files : backend_is_dynamic backend -> forall a, the_outputs backend true a = outputs a.
  Proof. intros H a. unfold the_outputs, opened. rewrite (not_static backend H). reflexivity. Qed.
  Lemma other_files : backend_is_other backend -> forall a, the_outputs backend false a = common_outputs.
  Proof.
    intros (H & N) a. unfold the_outputs, opened. destruct (STReq _ _) eqn:E; [|reflexivity].
    apply STReq_iff in E. injection E as <-. destruct (N eq_refl).
  Qed.

  (** A run ends in one of these ways. *)
  Lemma run_cases : forall dynamic, STReqci (Some (TablesModel.text "dynamic")) (Some backend) = Val dynamic -> forall input,
    (exists o, o <> Val tt /\ forall d, snd (run input d) = o) \/
    (exists a x, input = Some a /\ semantic shuffle mx a = Val x /\ lifetimes a x = Val tt /\
       Forall (fun l => result_of directory input shuffle mx iteration content rounds stage a x l = Val tt) (later backend dynamic)).
  Proof.
    intros dynamic H [a|].
    2: { left. exists Exited. split; [discriminate|]. intros d. rewrite (run_unread _ _ _ _ _ _ _ _ _ dynamic H eq_refl d). reflexivity. }
    destruct (semantic shuffle mx a) as [x| | | |] eqn:S.
    2-5: left; eexists; split; [|intros d; destruct (run_semantic directory backend (Some a) shuffle mx iteration content rounds stage dynamic H a eq_refl) with (d := d) as (d' & E & _); [rewrite S; discriminate|]; rewrite E, S; cbn [snd]; reflexivity]; discriminate.
    destruct (lifetimes a x) as [[]| | | |] eqn:L.
    2-5: left; eexists; split; [|intros d; destruct (run_lifetimes directory backend (Some a) shuffle mx iteration content rounds stage dynamic H a eq_refl x S) with (d := d) as (d' & E & _); [rewrite L; discriminate|]; rewrite E, L; cbn [snd]; reflexivity]; discriminate.
    assert (D : {Forall (fun l => result_of directory (Some a) shuffle mx iteration content rounds stage a x l = Val tt) (later backend dynamic)} +
                {~ Forall (fun l => result_of directory (Some a) shuffle mx iteration content rounds stage a x l = Val tt) (later backend dynamic)}).
    { apply Forall_dec. intros l. destruct (result_of directory (Some a) shuffle mx iteration content rounds stage a x l) as [[]| | | |]; [left; reflexivity|right; discriminate..]. }
    destruct D as [D|D].
    - right. exists a, x. auto.
    - left. destruct (run_stops directory backend (Some a) shuffle mx iteration content rounds stage dynamic H a eq_refl x S L D) as (l & _ & N & E).
      eexists. split; [|exact E]. apply N.
  Qed.
End Statements.

(** The paths of an accepted file are distinct. *)
Lemma accepted_paths : forall shuffle mx a x, semantic shuffle mx a = Val x -> NoDup (map fst (outputs a)).
Proof.
  intros shuffle mx a x S. apply semantic_val in S. destruct S as ([s lits] & _ & _ & B & _).
  destruct (all_passes a s lits B) as (_ & _ & C & _). apply outputs_distinct; [exact (nodes_distinct a C)|exact (travs_distinct a C)].
Qed.

(** A file that is rejected before code is generated, because it cannot be
    read or because of its nodes, sets, attributes, visits or lifetimes,
    leaves all files as they were, except for those that show the work of the
    scheduler. *)
Theorem C55_rejected : forall (P : Type) directory backend b input shuffle mx iteration (content : string -> nat -> list P) rounds stage d,
  STReqci (Some (str "dynamic")) (Some backend) = Val b ->
  (forall a x, input = Some a -> semantic shuffle mx a = Val x -> lifetimes a x <> Val tt) ->
  exists d' o, cocogen directory backend input shuffle mx iteration content rounds stage d = (d', o) /\ o <> Val tt /\
  forall path, ~ diagnostic directory path -> d' path = d path.
Proof.
  intros P directory backend b input shuffle mx iteration content rounds stage d H R. destruct input as [a|].
  2: { exists d, Exited. split; [exact (run_unread directory backend None shuffle mx iteration content rounds stage b H eq_refl d)|]. split; [discriminate|reflexivity]. }
  destruct (semantic shuffle mx a) as [x| | | |] eqn:S.
  2-5: destruct (run_semantic directory backend (Some a) shuffle mx iteration content rounds stage b H a eq_refl) with (d := d) as (d' & E & U); [rewrite S; discriminate|];
    rewrite S in E; exists d'; eexists; (split; [exact E|]); (split; [discriminate|exact U]).
  assert (N : forall u, lifetimes a x <> Val u) by (intros []; exact (R a x eq_refl S)).
  destruct (run_lifetimes directory backend (Some a) shuffle mx iteration content rounds stage b H a eq_refl x S N d) as (d' & E & U).
  exists d', (lifetimes a x). split; [exact E|]. split; [apply N|exact U].
Qed.
Print Assumptions C55_rejected.

(** A run that ends well has written each of the files of RunSpec.v once, with
    exactly the output of the actions for this specification, and has changed
    no other file. *)
Theorem C55_finished : forall (P : Type) directory backend input shuffle mx iteration (content : string -> nat -> list P) rounds stage d d',
  backend_is_dynamic backend ->
  cocogen directory backend input shuffle mx iteration content rounds stage d = (d', Val tt) ->
  exists a, input = Some a /\ NoDup (map fst (outputs a)) /\
  (forall path parts, In (path, parts) (outputs a) -> d' (directory ++ path) = Some (text_of content parts)) /\
  (forall path, (forall o, In o (outputs a) -> path <> directory ++ fst o) -> ~ diagnostic directory path -> d' path = d path).
Proof.
  intros P directory backend input shuffle mx iteration content rounds stage d d' H R.
  destruct (run_cases directory backend shuffle mx iteration content rounds stage true H input) as [(o & N & E)|(a & x & -> & S & L & F)].
  - exfalso. apply N. rewrite <- (E d), R. reflexivity.
  - exists a. split; [reflexivity|]. assert (Nd := accepted_paths shuffle mx a x S). split; [exact Nd|].
    assert (Fin := run_finishes directory backend (Some a) shuffle mx iteration content rounds stage true H a eq_refl x S L).
    rewrite (dynamic_files backend H) in Fin. destruct (Fin Nd F d) as (d2 & E & A & B). rewrite R in E. injection E as <-. auto.
Qed.
Print Assumptions C55_finished.

(** How a run ends does not depend on the files that are there before; if it
    ends well, neither do the files that it writes. *)
Theorem C55_history : forall (P : Type) directory backend b input shuffle mx iteration (content : string -> nat -> list P) rounds stage d1 d2,
  STReqci (Some (str "dynamic")) (Some backend) = Val b ->
  let r1 := cocogen directory backend input shuffle mx iteration content rounds stage d1 in
  let r2 := cocogen directory backend input shuffle mx iteration content rounds stage d2 in
  snd r1 = snd r2 /\
  (snd r1 = Val tt -> forall path, ~ diagnostic directory path -> fst r1 path = fst r2 path \/ fst r1 path = d1 path /\ fst r2 path = d2 path).
Proof.
  intros P directory backend b input shuffle mx iteration content rounds stage d1 d2 H.
  destruct (run_cases directory backend shuffle mx iteration content rounds stage b H input) as [(o & N & E)|(a & x & -> & S & L & F)]; cbv zeta.
  - rewrite !E. split; [reflexivity|]. intros Eo. destruct (N Eo).
  - assert (Nd : NoDup (map fst (the_outputs backend b a))).
    { destruct b; [rewrite (dynamic_files backend H); exact (accepted_paths shuffle mx a x S)|].
      unfold the_outputs. destruct (opened backend false BackendIsStatic); cbn [app];
        (apply (NoDup_map_inv string_of_list_ascii); repeat (constructor; [cbn; intuition discriminate|]); constructor). }
    assert (Fin := run_finishes directory backend (Some a) shuffle mx iteration content rounds stage b H a eq_refl x S L Nd F).
    destruct (Fin d1) as (e1 & -> & A1 & B1). destruct (Fin d2) as (e2 & -> & A2 & B2). cbn [fst snd]. split; [reflexivity|]. intros _ path Dg.
    destruct (in_dec (list_eq_dec ascii_dec) path (map (fun o => directory ++ fst o) (the_outputs backend b a))) as [I|I].
    + left. apply in_map_iff in I. destruct I as ([q parts] & <- & I). cbn [fst]. rewrite (A1 q parts I), (A2 q parts I). reflexivity.
    + right. split; [apply B1|apply B2]; try exact Dg; intros o Io E; apply I; apply in_map_iff; exists o; auto.
Qed.
Print Assumptions C55_history.

(** A run ends well if and only if the file is one that the compiler accepts
    and the lifetimes of it can be resolved. *)
Theorem C55_status : forall (P : Type) directory backend t p shuffle mx iteration (content : string -> nat -> list P) rounds stage d,
  backend_is_dynamic backend -> reads_file t p -> few_children (ast_of p) -> (forall l, Permutation (iteration l) l) ->
  snd (cocogen directory backend (Some (ast_of p)) shuffle mx iteration content rounds stage d) = Val tt <->
  exists x fs, compile shuffle mx iteration t (Val (ast_of p, x, fs)) /\ lifetimes (ast_of p) x = Val tt.
Proof.
  intros P directory backend t p shuffle mx iteration content rounds stage d H F Few It. destruct (tree_in_range t p F) as (Pa & U & _).
  assert (Res := later_results directory backend (Some (ast_of p)) shuffle mx iteration content rounds stage true H (ast_of p)).
  split.
  - intros E. destruct (run_cases directory backend shuffle mx iteration content rounds stage true H (Some (ast_of p))) as [(o & N & Eo)|(a & x & Ea & S & L & Fr)].
    + exfalso. apply N. rewrite <- (Eo d), E. reflexivity.
    + injection Ea as <-. destruct (proj1 (Res x) Fr eq_refl) as (_ & (fs & G)).
      exists x, fs. split; [|exact L]. assert (C := compile_read shuffle mx iteration t p F). unfold translate in C. rewrite S in C. cbn [bind] in C. rewrite G in C. exact C.
  - intros (x & fs & C & L). inversion C as [p' F' E|]. subst.
    assert (p' = p) by exact (C47_one_tree t p' p F' F). subst p'.
    unfold translate in E. destruct (semantic shuffle mx (ast_of p)) as [y| | | |] eqn:S; try discriminate.
    cbn [bind] in E. destruct (DGVSast _ _ _ _) as [f| | | |] eqn:Ge; try discriminate. cbn in E. injection E as -> ->.
    assert (Nd := accepted_paths shuffle mx (ast_of p) x S).
    assert (Fin := run_finishes directory backend (Some (ast_of p)) shuffle mx iteration content rounds stage true H (ast_of p) eq_refl x S L).
    rewrite (dynamic_files backend H) in Fin. destruct (Fin Nd) with (d := d) as (d2 & E' & _); [|rewrite E'; reflexivity].
    apply (proj2 (Res x)). intros _. split; [|eauto]. apply semantic_val in S. destruct S as ([s lits] & _ & _ & B & _).
    apply map_val_exists. intros n In_n.
    destruct (equations_val (ast_of p) s lits Pa U B Few iteration It n (nd_equations n) In_n (fun e I => I)) as (r & E2 & _).
    exists (concat r). unfold DGEFequations. change (all (DGEFequation n iteration) (nd_equations n)) with (map_val (DGEFequation n iteration) (nd_equations n)).
    rewrite E2. reflexivity.
Qed.
Print Assumptions C55_status.

(** ** Instances *)

(** A run for the file [stubs_text] ends well, also if files are there. *)
Example C55_instance : exists p d', reads_file stubs_text p /\ ast_of p = stubs_ast /\
  run_of "new" "Dynamic" (Some (ast_of p)) old = (d', Val tt) /\ backend_is_dynamic (str "Dynamic") /\
  List.length (outputs stubs_ast) = 31 /\
  map (fun path => d' (str path)) ["gen/trav_data.c"; "gen/ccngen/equations/var.h"; "gen/user/trav_names.c"; "gen/ccngen/equations/prog.h"; "gen/makefile"]%string =
  [ Some [("new", ("dynamicSwitchTravData", 1)); ("new", ("dynamicGenTravDataCtors", 0))]; Some [("new", ("dynamicGenEquationFunctions", 2))];
    Some [("new", ("dynamicUserGenTraversals", 1))]; Some [("old", ("", 0))]; Some [("old", ("", 0))] ]%string.
Proof.
  destruct (tree_read _ _ stubs_read) as (p & F & E). exists p. rewrite E.
  destruct (run_of "new" "Dynamic" (Some stubs_ast) old) as [d' o] eqn:R. exists d'.
  split; [exact F|]. split; [reflexivity|].
  assert (o = Val tt).
  { apply (f_equal snd) in R. cbn [snd] in R. rewrite <- R. vm_compute. reflexivity. }
  subst o. split; [reflexivity|]. split; [vm_compute; reflexivity|]. split; [vm_compute; reflexivity|].
  apply (f_equal fst) in R. cbn [fst] in R. rewrite <- R. vm_compute. reflexivity.
Qed.

(** A node that is not declared is found before any file is touched. *)
Example C55_rejected_instance : exists p, reads_file missing_text p /\
  (forall x, semantic (fun l => l) 1000 (ast_of p) <> Val x) /\
  snd (run_of "new" "dynamic" (Some (ast_of p)) old) = Exited.
Proof.
  destruct (tree_read _ _ missing_read) as (p & F & E). exists p. rewrite E. split; [exact F|]. split; [intros x S; vm_compute in S; discriminate S|].
  vm_compute. reflexivity.
Qed.

(** ** What does not hold *)

(** A specification that the scheduler accepts can be rejected by the generator
    of visit functions.  Then files of an earlier run and files of this run lie
    side by side: the header of the nodes is new, but the traversal functions
    and the files of the user are old, and visit.c has only its first
    lines. *)
Theorem C55_all_or_nothing_refuted : exists p d', reads_file early_text p /\
  run_of "new" "dynamic" (Some (ast_of p)) old = (d', Exited) /\
  (exists l, d' (str "gen/ccngen/ast.h") = Some (map (fun x => ("new"%string, x)) l)) /\
  d' (str "gen/visit.c") <> old (str "gen/visit.c") /\
  d' (str "gen/trav.c") = old (str "gen/trav.c") /\ d' (str "gen/user/passes.c") = old (str "gen/user/passes.c").
Proof.
  destruct (tree_read _ _ early_read) as (p & F & E). exists p. rewrite E.
  destruct (run_of "new" "dynamic" (Some early_ast) old) as [d' o] eqn:R. exists d'. split; [exact F|].
  assert (X : (o, map (fun path => d' (str path)) ["gen/visit.c"; "gen/trav.c"; "gen/user/passes.c"; "gen/ccngen/ast.h"]%string) =
    (Exited, [Some [("new", ("dynamicSwitchToVisitSource", 1)); ("new", ("dynamicGenVisitSource", 0))]; Some [("old", ("", 0))]; Some [("old", ("", 0))];
      Some (map (fun x => ("new", x)) (snd (hd (one "" []) (outputs early_ast))))])%string).
  { transitivity (snd (run_of "new" "dynamic" (Some early_ast) old),
      map (fun path => fst (run_of "new" "dynamic" (Some early_ast) old) (str path)) ["gen/visit.c"; "gen/trav.c"; "gen/user/passes.c"; "gen/ccngen/ast.h"]%string).
    - rewrite R. reflexivity.
    - vm_compute. reflexivity. }
  cbn [map] in X. injection X as -> X1 X2 X3 X4. split; [reflexivity|]. split; [exists (snd (hd (one "" []) (outputs early_ast))); exact X4|].
  split; [intros Eq; assert (Z := eq_trans (eq_sym X1) Eq); discriminate Z|]. split; [exact X2|exact X3].
Qed.
Print Assumptions C55_all_or_nothing_refuted.

(** Files that a later run does not write are not removed, although all *.c
    and *.h files in the directories belong to the generated compiler: the
    declarations of functions for equations of nodes that no longer have any
    stay. *)
Theorem C55_only_current_refuted : exists p q d1 d2, reads_file stubs_text p /\ reads_file later_text q /\
  run_of "first" "dynamic" (Some (ast_of p)) fresh = (d1, Val tt) /\
  run_of "second" "dynamic" (Some (ast_of q)) d1 = (d2, Val tt) /\
  d2 (str "gen/ccngen/equations/var.h") = Some [("first", ("dynamicGenEquationFunctions", 2))]%string /\
  d2 (str "gen/user/eq_add.c") <> None /\ d2 (str "gen/user/trav_count.c") <> None /\
  forall parts, ~ In (str "ccngen/equations/var.h", parts) (outputs (ast_of q)).
Proof.
  destruct (tree_read _ _ stubs_read) as (p & F & E). destruct (tree_read _ _ later_read) as (q & F2 & E2). exists p, q. rewrite E, E2.
  destruct (run_of "first" "dynamic" (Some stubs_ast) fresh) as [d1 o1] eqn:R1. destruct (run_of "second" "dynamic" (Some later_ast) d1) as [d2 o2] eqn:R2.
  exists d1, d2. split; [exact F|]. split; [exact F2|].
  assert (X : (o1, o2, map (fun path => d2 (str path)) ["gen/ccngen/equations/var.h"; "gen/user/eq_add.c"; "gen/user/trav_count.c"]%string) =
    (Val tt, Val tt, [Some [("first", ("dynamicGenEquationFunctions", 2))]; Some [("first", ("dynamicUserGenEquations", 1))]; Some [("first", ("dynamicUserGenTraversals", 2))]])%string).
  { transitivity (snd (run_of "first" "dynamic" (Some stubs_ast) fresh),
      snd (run_of "second" "dynamic" (Some later_ast) (fst (run_of "first" "dynamic" (Some stubs_ast) fresh))),
      map (fun path => fst (run_of "second" "dynamic" (Some later_ast) (fst (run_of "first" "dynamic" (Some stubs_ast) fresh))) (str path))
        ["gen/ccngen/equations/var.h"; "gen/user/eq_add.c"; "gen/user/trav_count.c"]%string).
    - rewrite R1. cbn [fst snd]. rewrite R2. reflexivity.
    - vm_compute. reflexivity. }
  cbn [map] in X. injection X as -> -> X1 X2 X3. split; [reflexivity|]. split; [exact R2|]. split; [exact X1|].
  split; [intros Eq; assert (Z := eq_trans (eq_sym X2) Eq); discriminate Z|]. split; [intros Eq; assert (Z := eq_trans (eq_sym X3) Eq); discriminate Z|].
  intros parts I. apply (in_map fst) in I. cbn [fst] in I. vm_compute in I. intuition discriminate.
Qed.
Print Assumptions C55_only_current_refuted.

(** With any other backend a run ends well, but writes no compiler.  This holds
    for "typed", which the description of the option --backend names. *)
Theorem C55_backend_refuted : backend_is_other (str "typed") /\ exists p d', reads_file stubs_text p /\
  run_of "new" "typed" (Some (ast_of p)) fresh = (d', Val tt) /\
  forall path parts, In (path, parts) (dynamic_outputs (ast_of p)) -> d' (str "gen/" ++ path) = None.
Proof.
  split; [split; [vm_compute; reflexivity|discriminate]|].
  destruct (tree_read _ _ stubs_read) as (p & F & E). exists p. rewrite E.
  destruct (run_of "new" "typed" (Some stubs_ast) fresh) as [d' o] eqn:R. exists d'. split; [exact F|].
  assert (X : (o, map (fun x => d' (str "gen/" ++ fst x)) (dynamic_outputs stubs_ast)) = (Val tt, map (fun _ => None) (dynamic_outputs stubs_ast))).
  { transitivity (snd (run_of "new" "typed" (Some stubs_ast) fresh),
      map (fun x => fst (run_of "new" "typed" (Some stubs_ast) fresh) (str "gen/" ++ fst x)) (dynamic_outputs stubs_ast)).
    - rewrite R. reflexivity.
    - vm_compute. reflexivity. }
  assert (X1 := f_equal fst X). assert (X2 := f_equal snd X). cbn [fst snd] in X1, X2. subst o. split; [reflexivity|].
  intros path parts I. clear -X2 I. induction (dynamic_outputs stubs_ast) as [|x l IH]; [destruct I|]. cbn [map] in X2. injection X2 as Y1 Y2.
  destruct I as [->|I]; [exact Y1|exact (IH Y2 I)].
Qed.
Print Assumptions C55_backend_refuted.
