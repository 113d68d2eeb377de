(** C62: what cocogen accepts, and what the compiler that it generates does,
    does not depend on the addresses of its data. *)

From Coq Require Import String.
From Coq Require Import List Bool Arith NArith Lia Permutation.
From Verif Require Import Base.Outcome Palm.StrModel Front.Syntax Front.SetsSpec Front.ParserModel Front.FileModel Front.FileProps Front.PropagateModel Front.NodesetPassesProof
  Sched.GraphModel Sched.ScheduleModel Sched.ScheduleGraphs Sched.PartitionModel Sched.FrontendModel Gen.AccessModel Gen.EvalVariantsModel Gen.EvalVariantsSpec Gen.EvaluateModel Gen.StubsModel Gen.StubsSpec Gen.StubsProps Gen.StubsInst
  Gen.CompileModel Gen.CompileParsed Gen.CompilePasses Gen.CompileInst Gen.CompileProps Gen.RunModel Gen.RunInst Gen.RunProps Gen.ReproduceSpec Gen.ReproduceProof Gen.ReproduceTable Gen.ReproduceInst.
Import ListNotations.
Local Open Scope list_scope.

(** The result of the semantic passes, errors included, for a specification
    that the passes before the scheduler accept. *)
Theorem C62_analysis : forall shuffle1 shuffle2 mx t p r, reads_file t p -> iterates shuffle1 -> iterates shuffle2 ->
  before_scheduling (ast_of p) = Val r -> semantic shuffle1 mx (ast_of p) = semantic shuffle2 mx (ast_of p).
Proof.
  intros shuffle1 shuffle2 mx t p r F S1 S2 B. destruct (tree_in_range t p F) as (P & U & _).
  exact (analysis_any_order shuffle1 shuffle2 mx _ r P U S1 S2 B).
Qed.
Print Assumptions C62_analysis.

(** If one run accepts a file, so does every other one, with the same visits
    and with visit functions that do the same. *)
Theorem C62_compile : forall shuffle1 shuffle2 iteration1 iteration2 mx t a x f,
  iterates shuffle1 -> iterates shuffle2 -> iterates iteration1 -> iterates iteration2 ->
  compile shuffle1 mx iteration1 t (Val (a, x, f)) ->
  exists g, compile shuffle2 mx iteration2 t (Val (a, x, g)) /\ same_code (a_nodes a) f g.
Proof.
  intros shuffle1 shuffle2 it1 it2 mx t a x f S1 S2 I1 I2 C. inversion C as [p F E|]. subst. clear C. destruct (tree_in_range t p F) as (P & U & _).
  unfold translate in E. destruct (semantic shuffle1 mx (ast_of p)) as [y| | | |] eqn:Es; try discriminate. cbn [bind] in E.
  destruct (DGVSast _ _ _ it1) as [f'| | | |] eqn:Ef in E; try discriminate. cbn [bind map_outcome fst snd] in E. injection E as <- <- <-.
  assert (X := proj1 (semantic_val _ _ _ _) Es). destruct X as ((s & lits) & g0 & v & B & _).
  apply (semantic_any_order shuffle1 shuffle2 mx _ y P U S1 S2) in Es.
  destruct (code_any_order (ast_of p) s lits P U B it1 it2 I1 I2 _ _ _ Ef) as (g & Eg & Sg).
  exists g. split; [|exact Sg]. assert (R := compile_read shuffle2 mx it2 t p F). unfold translate in R. rewrite Es in R. cbn [bind] in R.
  rewrite Eg in R. exact R.
Qed.
Print Assumptions C62_compile.

(** The files for the user: the same names, and the same functions in each. *)
Theorem C62_user_files : forall iteration1 iteration2 t p r d, reads_file t p -> iterates iteration1 -> iterates iteration2 ->
  before_scheduling (ast_of p) = Val r -> user_directory iteration1 (ast_of p) = Val d ->
  exists e, user_directory iteration2 (ast_of p) = Val e /\ same_files d e.
Proof.
  intros it1 it2 t p [s lits] d F I1 I2 B E. destruct (tree_in_range t p F) as (P & U & _).
  exact (directory_any_order (ast_of p) s lits P U B it1 it2 I1 I2 d E).
Qed.
Print Assumptions C62_user_files.

(** The header for the equations of a node: the same prototypes. *)
Theorem C62_headers : forall iteration1 iteration2 t p r n d, reads_file t p -> iterates iteration1 -> iterates iteration2 ->
  before_scheduling (ast_of p) = Val r -> In n (a_nodes (ast_of p)) -> DGEFequations n iteration1 = Val d ->
  exists e, DGEFequations n iteration2 = Val e /\ Permutation d e.
Proof.
  intros it1 it2 t p [s lits] n d F I1 I2 B In_n E. destruct (tree_in_range t p F) as (P & U & _).
  exact (equations_any_order (ast_of p) s lits P U B it1 it2 I1 I2 n d In_n E).
Qed.
Print Assumptions C62_headers.

(** Whether a whole run ends well. *)
Theorem C62_status : forall (P : Type) directory backend t p shuffle1 shuffle2 iteration1 iteration2 mx
  (content1 content2 : string -> nat -> list P) rounds1 rounds2 stage1 stage2 d1 d2,
  backend_is_dynamic backend -> reads_file t p -> few_children (ast_of p) ->
  iterates shuffle1 -> iterates shuffle2 -> iterates iteration1 -> iterates iteration2 ->
  snd (cocogen directory backend (Some (ast_of p)) shuffle1 mx iteration1 content1 rounds1 stage1 d1) = Val tt ->
  snd (cocogen directory backend (Some (ast_of p)) shuffle2 mx iteration2 content2 rounds2 stage2 d2) = Val tt.
Proof.
  intros P directory backend t p shuffle1 shuffle2 it1 it2 mx content1 content2 rounds1 rounds2 stage1 stage2 d1 d2 H F Few S1 S2 I1 I2 E.
  apply (C55_status P directory backend t p shuffle1 mx it1 content1 rounds1 stage1 d1 H F Few I1) in E.
  destruct E as (x & fs & C & L). destruct (C62_compile shuffle1 shuffle2 it1 it2 mx t _ x fs S1 S2 I1 I2 C) as (g & D & _).
  apply (C55_status P directory backend t p shuffle2 mx it2 content2 rounds2 stage2 d2 H F Few I2). exists x, g. auto.
Qed.
Print Assumptions C62_status.

(** The orders above are those of tables of palm (C01, C03) whose keys are
    addresses: for children, ... *)
Theorem C62_children_iterated : forall address : nat -> N, (forall c d, address c = address d -> c = d) ->
  exists iteration, iterates iteration /\ forall l, NoDup l -> iterated address l = Val (iteration l).
Proof.
  intros address Inj. exists (order_of Nat.eq_dec address). split; [exact (order_iterates Nat.eq_dec address Inj)|exact (order_right Nat.eq_dec address Inj)].
Qed.
Print Assumptions C62_children_iterated.

(** ... and for the graphs, which are in lists below their type. *)
Theorem C62_graphs_iterated : forall address : target -> N, (forall x y, address x = address y -> x = y) ->
  exists shuffle : list (graph_key * ag_graph) -> list (graph_key * ag_graph), iterates shuffle /\
  forall l, exists types, iterated address (nodup target_dec (map (fun g => key_of (fst g)) l)) = Val types /\
    shuffle l = flat_map (fun t => filter (fun g => if target_dec (key_of (fst g)) t then true else false) l) types.
Proof.
  intros address Inj. exists (group_order target_dec address (fun g : graph_key * ag_graph => key_of (fst g))).
  split; [exact (groups_iterate target_dec address Inj _)|]. intros l. destruct (groups_right target_dec address Inj (fun g : graph_key * ag_graph => key_of (fst g)) l) as (types & E1 & E2).
  exists types. split; [exact E1|exact E2].
Qed.
Print Assumptions C62_graphs_iterated.

(** Two places for two children, and two orders. *)
Example C62_orders_instance :
  iterated (fun c => 32 * N.of_nat c)%N [0; 1] = Val [0; 1] /\ iterated (fun c => 992 - 32 * N.of_nat c)%N [0; 1] = Val [1; 0].
Proof. vm_compute. split; reflexivity. Qed.

(** *** Instances *)

(** The texts do depend on the addresses: with another order of iteration
    visit.c asks for the children in another order ... *)
Theorem C62_visit_text_refuted : exists x f g,
  compile (fun l => l) 10 (fun l => l) pair_text (Val (pair_ast, x, f)) /\
  compile (fun l => l) 10 (@rev nat) pair_text (Val (pair_ast, x, g)) /\ f <> g.
Proof.
  exists pair_analysis, pair_functions, other_functions. destruct (tree_read _ _ pair_read) as (p & F & E).
  assert (C := fun it => compile_read (fun l => l) 10 it pair_text p F). rewrite E in C.
  split; [|split].
  - assert (R := C (fun l => l)). rewrite pair_translated in R. exact R.
  - assert (R := C (@rev nat)). rewrite other_translated in R. exact R.
  - discriminate.
Qed.
Print Assumptions C62_visit_text_refuted.

(** ... and the functions in the files for the user are in another order. *)
Theorem C62_user_text_refuted : exists p r d e, reads_file pair_text p /\ before_scheduling (ast_of p) = Val r /\
  user_directory (fun l => l) (ast_of p) = Val d /\ user_directory (@rev nat) (ast_of p) = Val e /\ d <> e.
Proof.
  destruct (tree_read _ _ pair_read) as (p & F & E). exists p, pair_passes, pair_directory, other_directory. rewrite E.
  split; [exact F|]. split; [exact pair_accepted|]. split; [exact pair_generated|]. split; [exact other_generated|]. discriminate.
Qed.
Print Assumptions C62_user_text_refuted.

Example C62_instance :
  shown_files pair_directory =
    [("passes.c", ["p"]); ("eq_pair.c", ["EVALpair_this_size"; "EVALpair_this_size_left_NULL"; "EVALpair_this_size_right_NULL"; "EVALpair_this_size_left_NULL_right_NULL"]);
     ("eq_leaf.c", ["EVALleaf_this_size"])]%string /\
  shown_files other_directory =
    [("passes.c", ["p"]); ("eq_pair.c", ["EVALpair_this_size"; "EVALpair_this_size_right_NULL"; "EVALpair_this_size_left_NULL"; "EVALpair_this_size_left_NULL_right_NULL"]);
     ("eq_leaf.c", ["EVALleaf_this_size"])]%string.
Proof. vm_compute. split; reflexivity. Qed.

(** The hypotheses of C62_status. *)
Example C62_status_instance : exists p, reads_file pair_text p /\ few_children (ast_of p) /\ backend_is_dynamic (str "dynamic") /\
  snd (run_of "new" "dynamic" (Some (ast_of p)) fresh) = Val tt.
Proof.
  destruct (tree_read _ _ pair_read) as (p & F & E). exists p. rewrite E. split; [exact F|]. split.
  { apply few_if. intros n I. cbn in I. repeat destruct I as [<-|I]; try destruct I; cbn; lia. }
  split; vm_compute; reflexivity.
Qed.
