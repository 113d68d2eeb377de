(** C60: programs that build, change, copy and free trees. *)

From Coq Require Import String.
From Coq Require Import List Ascii NArith ZArith Bool Lia.
From Verif Require Import Base.Outcome Base.Heap Palm.StrModel Front.Syntax Front.SetsInst Front.ParserModel Front.FileModel Sched.FrontendModel
  Gen.NodesModel Gen.NodesSpec Gen.NodesProof Gen.NodesBuild Gen.NodesInst Gen.NodesProps Gen.TravChildSpec Gen.CompileInst
  Gen.AccessModel Gen.AccessSpec Gen.AccessInst Gen.AccessProps
  Gen.LifecycleModel Gen.LifecycleSpec Gen.LifecycleProof Gen.LifecycleRun Gen.LifecycleFile Gen.LifecycleInst.
Import ListNotations.
Local Open Scope string_scope.
Local Open Scope list_scope.

(** For a specification file that the passes accept: a program that is right
    for variables that hold trees runs to its end with the generated functions
    (or there is no memory left), sees what it should see, its variables hold
    the trees they should hold, no block belongs to two of them or twice to
    one, and apart from the blocks of the trees the memory is as it was.

    The full property has no conditions on names and computed strings.  It is
    false: C51_names_refuted, C51_macros_refuted, C60_constructor_refuted,
    C60_free_refuted. *)
Theorem C60_programs_partial : forall t p s lits debug debug_ast malloc h0 program st seen, reads_file t p ->
  before_scheduling (ast_of p) = Val (s, lits) ->
  distinct_accessors (finished (ast_of p) s lits) -> distinct_functions (finished (ast_of p) s lits) ->
  usable_names (ast_of p) -> no_computed_strings (ast_of p) -> standard malloc ->
  meanings (a_nodes (finished (ast_of p) s lits)) program [] = Some (st, seen) ->
  exists n, forall fuel, n <= fuel ->
    returns malloc (run_program (finished (ast_of p) s lits) debug debug_ast malloc fuel program ([], h0)) (fun r =>
      snd r = seen /\ exists blocks,
        rep_vars (a_nodes (finished (ast_of p) s lits)) (snd (fst r)) (fst (fst r)) st blocks /\
        NoDup blocks /\ grown h0 (snd (fst r)) blocks).
Proof.
  intros t p s lits debug debug_ast malloc h0 program st seen F B DA DF Us Ns Std M.
  exists (needed (a_nodes (finished (ast_of p) s lits)) program []). intros fuel Fu. apply returns_ok.
  eapply ok_impl.
  - eapply (program_ok _ debug debug_ast malloc DA DF (file_good t p F s lits B Us) (file_free t p F s lits B Ns) Std fuel h0 program ([], h0) []);
      [|exact M|exact Fu].
    exists []. split; [constructor|]. split; [constructor|apply grown_refl].
  - intros r [H ->]. split; [reflexivity|exact H].
Qed.
Print Assumptions C60_programs_partial.

(** A program that ends without trees has freed everything, and nothing else. *)
Theorem C60_no_leak_partial : forall t p s lits debug debug_ast malloc h0 program st seen, reads_file t p ->
  before_scheduling (ast_of p) = Val (s, lits) ->
  distinct_accessors (finished (ast_of p) s lits) -> distinct_functions (finished (ast_of p) s lits) ->
  usable_names (ast_of p) -> no_computed_strings (ast_of p) -> standard malloc ->
  meanings (a_nodes (finished (ast_of p) s lits)) program [] = Some (st, seen) -> Forall (fun v => v = None) st ->
  exists n, forall fuel, n <= fuel ->
    returns malloc (run_program (finished (ast_of p) s lits) debug debug_ast malloc fuel program ([], h0)) (fun r =>
      Forall (fun v => v = NULL) (fst (fst r)) /\ forall x, lookup (snd (fst r)) x = lookup h0 x).
Proof.
  intros t p s lits debug debug_ast malloc h0 program st seen F B DA DF Us Ns Std M E.
  destruct (C60_programs_partial t p s lits debug debug_ast malloc h0 program st seen F B DA DF Us Ns Std M) as (n & K).
  exists n. intros fuel Fu. destruct (K fuel Fu) as [(r & Er & _ & blocks & R & _ & G)|X]; [left|right; exact X].
  exists r. split; [exact Er|].
  assert (X : blocks = [] /\ Forall (fun v => v = NULL) (fst (fst r))).
  { clear G K M. induction R as [|v vs o st fp fps R1 R IH]; [auto|]. inversion E as [|? ? E1 E2]; subst. inversion R1; subst.
    destruct (IH E2) as [-> A]. auto. }
  destruct X as [-> A]. split; [exact A|]. intros x. apply G. intros [].
Qed.
Print Assumptions C60_no_leak_partial.

(** With these names the constructors, and without computed strings the
    functions that free nodes, are correct C. *)
Theorem C60_correct_C_partial : forall t p s lits, reads_file t p -> before_scheduling (ast_of p) = Val (s, lits) ->
  (usable_names (ast_of p) -> Forall constructor_compiles (a_nodes (finished (ast_of p) s lits))) /\
  (no_computed_strings (ast_of p) -> Forall free_compiles (a_nodes (finished (ast_of p) s lits))).
Proof.
  intros t p s lits F B. split; [intros Us; apply good_compiles, (file_good t p F s lits B Us)|exact (file_free t p F s lits B)].
Qed.
Print Assumptions C60_correct_C_partial.

(** ** What is false *)

(** The constructor is not correct C for accepted files with a child "Node", ... *)
Theorem C60_constructor_refuted : ~ forall t p s lits, reads_file t p -> before_scheduling (ast_of p) = Val (s, lits) ->
  Forall constructor_compiles (a_nodes (finished (ast_of p) s lits)).
Proof.
  intros H. destruct (accepted_read _ _ _ node_read node_accepted) as (p & F & B & Ea).
  specialize (H _ p _ _ F B). rewrite Ea in H. inversion H as [|? ? X _]. destruct X as (_ & X & _). apply X. vm_compute. tauto.
Qed.
Print Assumptions C60_constructor_refuted.
(** ... an attribute of a user type with capitals, or a synthesized attribute
    that is in the constructor and not the first attribute. *)
Example C60_constructor_user : exists p s lits, reads_file user_text p /\ before_scheduling (ast_of p) = Val (s, lits) /\
  ~ Forall constructor_compiles (a_nodes (finished (ast_of p) s lits)).
Proof.
  destruct (accepted_read _ _ _ user_read user_accepted) as (p & F & B & Ea). do 3 eexists. split; [exact F|]. split; [exact B|].
  rewrite Ea. intros H. inversion H as [|? ? X _]. destruct X as (_ & _ & X & _).
  specialize (X _ (or_introl eq_refl)). vm_compute in X. intuition discriminate.
Qed.
Example C60_constructor_second : exists p s lits, reads_file second_text p /\ before_scheduling (ast_of p) = Val (s, lits) /\
  ~ Forall constructor_compiles (a_nodes (finished (ast_of p) s lits)).
Proof.
  destruct (accepted_read _ _ _ second_read second_accepted) as (p & F & B & Ea). do 3 eexists. split; [exact F|]. split; [exact B|].
  rewrite Ea. intros H. inversion H as [|? ? X _]. destruct X as (_ & _ & _ & X).
  specialize (X _ (or_intror (or_introl eq_refl)) eq_refl). discriminate.
Qed.
Theorem C60_free_refuted : ~ forall t p s lits, reads_file t p -> before_scheduling (ast_of p) = Val (s, lits) ->
  Forall free_compiles (a_nodes (finished (ast_of p) s lits)).
Proof.
  intros H. destruct (accepted_read _ _ _ string_read string_accepted) as (p & F & B & Ea).
  specialize (H _ p _ _ F B). rewrite Ea in H. inversion H as [|? ? X _]. specialize (X _ (or_introl eq_refl) eq_refl). discriminate.
Qed.
Print Assumptions C60_free_refuted.

(** The functions do not notice that a node becomes its own child: no command
    fails, no variable holds a tree, and two blocks are lost. *)
Theorem C60_own_child_refuted : ~ forall t p s lits program fuel h vs h' seen, reads_file t p ->
  before_scheduling (ast_of p) = Val (s, lits) ->
  run_program (finished (ast_of p) s lits) true true plenty fuel program ([], h) = Val (vs, h', seen) ->
  Forall (fun v => v = NULL) vs -> forall x, lookup h' x = lookup h x.
Proof.
  intros H. destruct (accepted_read _ _ _ access_read access_accepted) as (p & F & B & Ea).
  specialize (H _ p _ _ losing 3 [] [NULL] (match run_program access_final true true plenty 3 losing ([], []) with Val r => snd (fst r) | _ => [] end) [] F B).
  rewrite Ea in H. specialize (H ltac:(vm_compute; reflexivity) ltac:(repeat constructor) 1%N). vm_compute in H. discriminate.
Qed.
Print Assumptions C60_own_child_refuted.

(** ** A file and a program *)
Example C60_hypotheses : exists p s lits, reads_file access_text p /\ before_scheduling (ast_of p) = Val (s, lits) /\
  access_final = finished (ast_of p) s lits /\ distinct_accessors access_final /\ distinct_functions access_final /\
  usable_names (ast_of p) /\ no_computed_strings (ast_of p).
Proof.
  destruct (accepted_read _ _ _ access_read access_accepted) as (p & F & B & Ea). exists p, (fst access_passes), (snd access_passes).
  assert (P : plainly_named (ast_of p)).
  { rewrite Ea. split; intros n I; cbn [access_ast a_nodes a_nodesets] in I;
      repeat (destruct I as [<-|I]; [split; [vm_compute; intuition discriminate|vm_compute; discriminate]|]); destruct I. }
  assert (D := C51_names _ p _ _ F B P). split; [exact F|]. split; [exact B|]. rewrite Ea in *. split; [reflexivity|].
  split; [exact (proj1 D)|]. split; [exact (proj2 D)|]. split; [apply usable_right; reflexivity|apply strings_right; reflexivity].
Qed.
Example C60_meanings :
  meanings (a_nodes access_final) (building ++ changing ++ freeing) [] =
    Some ([None; None; None; None; None], [Number 7; Number 8; Text (Some (nm "x")); Text None; Text (Some (nm "yy"))]) /\
  run_program access_final true true plenty 4 (building ++ changing ++ freeing) ([], []) =
    Val ([NULL; NULL; NULL; NULL; NULL], [], [Number 7; Number 8; Text (Some (nm "x")); Text None; Text (Some (nm "yy"))]) /\
  map_outcome (fun r => List.length (snd (fst r))) (run_program access_final true true plenty 4 (building ++ changing) ([], [])) = Val (8 + 9).
Proof. split; [|split]; vm_compute; reflexivity. Qed.
