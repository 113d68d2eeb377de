(** C54: the files in user/ make a generated compiler complete. *)

From Coq Require Import String.
From Coq Require Import List Ascii Bool Arith Lia Permutation.
From Verif Require Import Base.Outcome Palm.StrModel Front.Syntax Front.CheckExistanceSpec Front.SetsModel Front.SetsSpec Front.SetsProof Front.SymbolTableSpec
  Front.ParserModel Front.ScannerSpec Front.FileModel Front.FileSpec Front.FileNamesSpec Front.FileNames Front.PropagateModel
  Sched.FrontendModel Copra.TravModel Copra.TravSpec Copra.TravProof Gen.TablesModel Gen.TablesSpec Gen.TablesProof Gen.EvalVariantsModel Gen.EvalVariantsSpec
  Gen.CompileParsed Gen.CompileInst Gen.AccessModel Gen.AccessProps Gen.DispatchModel Gen.DispatchSpec Gen.DispatchProof Gen.DispatchProps
  Gen.StubsModel Gen.StubsSpec Gen.StubsProof Gen.StubsNames Gen.StubsRun Gen.StubsInst.
Import ListNotations.
Local Open Scope list_scope.

(** The files hold the stubs and nothing else, each file is written once.  The
    tables of children may be iterated in any order. *)
Theorem C54_files : forall t p s lits order, reads_file t p -> before_scheduling (ast_of p) = Val (s, lits) -> few_children (ast_of p) ->
  (forall l, Permutation (order l) l) ->
  exists directory, user_directory order (ast_of p) = Val directory /\ NoDup (map fst directory) /\
  forall file f b, (exists functions, In (file, functions) directory /\ In (f, b) functions) <-> stub (ast_of p) file f b.
Proof.
  intros t p s lits order F B Few Po. destruct (tree_in_range t p F) as (P & U & Pu).
  destruct (directory_val (ast_of p) s lits P U B Few order Po) as (ts & l & _ & _ & E & N). eexists. split; [exact E|]. split; [exact N|].
  exact (directory_stubs (ast_of p) s lits P U Pu B Few order Po _ E).
Qed.
Print Assumptions C54_files.

(** Whatever function the generated tables name is in the runtime library,
    generated or a stub; so are the functions that the constructors of the
    data of traversals call, and the calls in visit functions agree with the
    parameters of the stubs.  The full statement has the functions of gates as
    well, see [C54_gate_refuted]. *)
Theorem C54_linked_partial : forall t p s lits, reads_file t p -> before_scheduling (ast_of p) = Val (s, lits) -> few_children (ast_of p) ->
  (exists tables, generated_tables (ast_of p) = Val tables /\
   forall c f, In c tables -> ca_name c <> str "ccn_trav_vtable" -> In f (ca_entries c) ->
     of_runtime f \/ generated (ast_of p) f \/ exists file b, stub (ast_of p) file f b) /\
  (forall tr u, In tr (a_traversals (ast_of p)) -> tv_data tr <> [] -> tv_uid tr = Some u ->
     stub (ast_of p) (traversal_file tr) (ID_UPR u ++ str "init") Return_nothing /\
     stub (ast_of p) (traversal_file tr) (ID_UPR u ++ str "fini") Return_nothing) /\
  (forall n r order st c f args, In n (a_nodes (ast_of p)) -> (forall l, Permutation (order l) l) ->
     DGVSvisit_sequence_eval n order r = Val (Some st) -> In (c, (f, args)) st ->
     stub (ast_of p) (equation_file n) f (Default_value args)).
Proof.
  intros t p s lits F B Few. destruct (tree_in_range t p F) as (P & U & Pu). split; [|split].
  - exact (table_functions (ast_of p) s lits P U Pu B).
  - intros tr u I D E. split; constructor; assumption.
  - exact (visit_calls (ast_of p) s lits P U B Few).
Qed.
Print Assumptions C54_linked_partial.

(** No function is defined twice.  The full statement is without
    [names_apart], see [C54_clash_refuted]. *)
Theorem C54_once_partial : forall t p s lits order, reads_file t p -> before_scheduling (ast_of p) = Val (s, lits) -> few_children (ast_of p) ->
  (forall l, Permutation (order l) l) -> names_apart (ast_of p) ->
  exists directory, user_directory order (ast_of p) = Val directory /\ NoDup (map fst (flat_map snd directory)).
Proof.
  intros t p s lits order F B Few Po Na. destruct (tree_in_range t p F) as (P & U & Pu).
  destruct (directory_val (ast_of p) s lits P U B Few order Po) as (ts & l & _ & _ & E & N). eexists. split; [exact E|].
  exact (all_once (ast_of p) s lits P U Pu B Few order Po Na (fun n => node_letters t p n F) _ E).
Qed.
Print Assumptions C54_once_partial.

(** A traversal of a compiler with only the stubs gives back the tree it was
    started on, and has called the handlers of all nodes it is for.  The full
    statement is without conditions on names, see C52. *)
Theorem C54_unchanged_partial : forall t p s lits order, reads_file t p -> before_scheduling (ast_of p) = Val (s, lits) -> few_children (ast_of p) ->
  (forall l, Permutation (order l) l) -> names_apart (ast_of p) -> usable_names (ast_of p) -> all_for_something (ast_of p) ->
  exists directory calls, user_directory order (ast_of p) = Val directory /\ dispatch (ast_of p) = Val calls /\
  forall A W (others : cstring -> W -> TravModel.tree A -> prog A W) tr i x, In tr (a_traversals (ast_of p)) -> traversal_number (ast_of p) tr i -> fits (ast_of p) x ->
    exists visited, called (ast_of p) i x visited /\
    forall st w, exists fuel, forall f, fuel <= f ->
      RUNstart calls (linked others directory) f st w (Some x) i =
        Val (mk_tstate (stack st) (TFree i :: rev (map (TUser i) visited) ++ TInit i :: tlog st), w, Some x).
Proof.
  intros t p s lits order F B Few Po Na Us Fs. destruct (tree_in_range t p F) as (P & U & Pu).
  destruct (directory_val (ast_of p) s lits P U B Few order Po) as (ts & l & _ & _ & E & N).
  destruct (C52_start_partial t p s lits F B Us Fs) as (calls & Ec & H). eexists _, calls. split; [exact E|]. split; [exact Ec|].
  intros A W others tr i x It Ti Fx.
  destruct (unchanged (ast_of p) s lits P U Pu B Few order Po Na (fun n => node_letters t p n F) Fs others _ E tr i It Ti x Fx) as (v & Cv & D).
  exists v. split; [exact Cv|]. intros st w.
  destruct (H A W _ st w x i _ _ _ (D (mk_tstate (i :: stack st) (TInit i :: tlog st)) w eq_refl)) as (fuel & Q). exists fuel. exact Q.
Qed.
Print Assumptions C54_unchanged_partial.

(** ** What is false *)

Lemma few_if : forall a, (forall n, In n (a_nodes a) -> List.length (nd_children n) < 64) -> few_children a.
Proof.
  intros a H n e children In_n Ie O. apply Nat.le_lt_trans with (List.length (seq 0 (List.length (nd_children n)))); [|rewrite seq_length; apply H, In_n].
  apply NoDup_incl_length; [apply (oc_once _ _ _ O)|]. intros c I. apply (oc_all _ _ _ O) in I. destruct I as ((x & Hx & _) & _).
  apply in_seq. assert (c < List.length (nd_children n)) by (apply nth_error_Some; congruence). lia.
Qed.

(** There is no stub for the function of a gate. *)
Theorem C54_gate_refuted : ~ forall t p s lits, reads_file t p -> before_scheduling (ast_of p) = Val (s, lits) -> few_children (ast_of p) ->
  forall ph f, In ph (a_phases (ast_of p)) -> ph_gate ph = Some f ->
    of_runtime f \/ generated (ast_of p) f \/ exists file b, stub (ast_of p) file f b.
Proof.
  intros H. destruct (accepted_read _ _ _ stubs_read stubs_accepted) as (p & F & B & E).
  assert (Fw : few_children (ast_of p)).
  { rewrite E. apply few_if. intros n I. destruct I as [<-|[<-|[<-|[<-|[]]]]]; cbn; lia. }
  destruct (C54_files stubs_text p _ _ (fun l => l) F B Fw (fun l => Permutation_refl l)) as (d & Ed & _ & St).
  assert (R := H stubs_text p _ _ F B Fw). rewrite E in R, Ed, St. rewrite stubs_generated in Ed. injection Ed as <-. clear H F B E Fw p.
  destruct (R _ (str "ready") (or_introl eq_refl) eq_refl) as [X|[X|(file & b & X)]].
  - cbn in X. repeat (destruct X as [X|X]; [discriminate X|]). destruct X.
  - destruct X as [(n & prefix & _ & Ip & X)|(tr & prefix & _ & _ & Ip & X)].
    + cbn in Ip. destruct Ip as [<-|[<-|[<-|[]]]]; discriminate X.
    + cbn in Ip. destruct Ip as [<-|[<-|[]]]; discriminate X.
  - apply St in X. destruct X as (fs & I1 & I2). assert (K : In (str "ready") (map fst (flat_map snd stubs_directory))).
    { apply in_map_iff. exists (str "ready", b). split; [reflexivity|]. apply in_flat_map. exists (file, fs). auto. }
    clear -K. revert K. vm_compute. intros K. repeat (destruct K as [K|K]; [discriminate K|]). destruct K.
Qed.
Print Assumptions C54_gate_refuted.

(** A pass whose function has the name of a handler is accepted. *)
Theorem C54_clash_refuted : ~ forall t p s lits order, reads_file t p -> before_scheduling (ast_of p) = Val (s, lits) -> few_children (ast_of p) ->
  (forall l, Permutation (order l) l) ->
  exists directory, user_directory order (ast_of p) = Val directory /\ NoDup (map fst (flat_map snd directory)).
Proof.
  intros H. destruct (accepted_read _ _ _ clash_read clash_accepted) as (p & F & B & E).
  assert (Fw : few_children (ast_of p)).
  { rewrite E. apply few_if. intros n I. destruct I as [<-|[]]; cbn; lia. }
  destruct (H clash_text p _ _ (fun l => l) F B Fw (fun l => Permutation_refl l)) as (d & Ed & N).
  rewrite E, clash_generated in Ed. injection Ed as <-. clear -N. revert N. vm_compute. intros N. inversion N as [|x l N1 N2]; subst.
  apply N1. left. reflexivity.
Qed.
Print Assumptions C54_clash_refuted.

(** ** Example *)

Example C54_example : exists p s lits, reads_file stubs_text p /\ before_scheduling (ast_of p) = Val (s, lits) /\
  few_children (ast_of p) /\ names_apart (ast_of p) /\ usable_names (ast_of p) /\ all_for_something (ast_of p) /\
  (exists directory, user_directory (fun l => l) (ast_of p) = Val directory /\ shown_files directory =
    [("passes.c", ["PRTPrint"; "doParse"]); ("trav_names.c", ["NMSnum"; "NMSvar"]);
     ("trav_count.c", ["CNTinit"; "CNTfini"; "CNTnum"; "CNTvar"; "CNTadd"; "CNTprog"]);
     ("eq_add.c", ["EVALadd_this_size"; "EVALadd_this_size_right_NULL"]);
     ("eq_var.c", ["EVALvar_this_size"]); ("eq_num.c", ["EVALnum_this_size"])]%string) /\
  fits (ast_of p) stubs_tree.
Proof.
  destruct (accepted_read _ _ _ stubs_read stubs_accepted) as (p & F & B & E).
  exists p, (fst stubs_passes), (snd stubs_passes). split; [exact F|]. split; [exact B|]. rewrite E. clear F B E p. repeat apply conj.
  - apply few_if. intros n I. destruct I as [<-|[<-|[<-|[<-|[]]]]]; cbn; lia.
  - constructor.
    + assert (Pl : forall l, forallb (fun c => negb (Ascii.eqb c "_"%char)) l = true -> plain l).
      { intros l H I. rewrite forallb_forall in H. apply H in I. discriminate I. }
      intros n e I Ie. destruct I as [<-|[<-|[<-|[<-|[]]]]]; cbn in Ie; [destruct Ie| | |];
        destruct Ie as [<-|[]]; (split; [apply Pl; vm_compute; reflexivity|]); (split; [apply Pl; vm_compute; reflexivity|]); intros c Ec; discriminate Ec.
    + intros n I. destruct I as [<-|[<-|[<-|[<-|[]]]]]; cbn [nd_equations map]; repeat constructor; intros [].
    + intros t n _ _ I _. destruct I as [<-|[<-|[<-|[<-|[]]]]]; split; vm_compute; discriminate.
    + vm_compute. repeat constructor; cbn; intuition discriminate.
    + intros p I. destruct I as [<-|[<-|[]]]; (split; [|intros x; discriminate]);
        intros t u x It Eu Ix; destruct It as [<-|[<-|[]]]; cbn [tv_uid] in Eu; injection Eu as <-; discriminate.
  - split.
    + intros id I. cbn in I. repeat destruct I as [<-|I]; try (vm_compute; discriminate). destruct I.
    + intros x y I J. cbn in I, J. destruct I as [<-|[<-|[]]]; repeat destruct J as [<-|J]; try (vm_compute; discriminate); destruct J.
    + intros x I. cbn in I. destruct I as [<-|[]]; vm_compute; discriminate.
  - intros t I (e & S & Et & DS & N). cbn in I. destruct I as [<-|[<-|[]]]; [|discriminate Et]. cbn [tv_nodes] in Et. injection Et as <-.
    apply (N (text "var")).
    assert (L : denotes (a_nodesets stubs_ast) (EReference (text "expr")) (fun x => In x (map ID_LWR [text "num"; text "var"; text "add"]))).
    { eapply den_reference with (n := nth 0 (a_nodesets stubs_ast) (mk_nodeset [] (EReference []) [])); [cbn; auto|reflexivity|].
      change (ns_expr _) with (ELiteral (parse_literal [text "num"; text "var"; text "add"])). constructor. intros x. reflexivity. }
    assert (M : denotes (a_nodesets stubs_ast) (ELiteral (parse_literal [text "add"])) (fun x => In x (map ID_LWR [text "add"]))).
    { constructor. intros x. reflexivity. }
    assert (D : denotes (a_nodesets stubs_ast) (EOperation SO_difference (EReference (text "expr")) (ELiteral (parse_literal [text "add"])))
      (fun x => In x (map ID_LWR [text "num"; text "var"; text "add"]) /\ ~ In x (map ID_LWR [text "add"]))).
    { apply (den_difference _ _ _ _ _ _ L M). intros x. reflexivity. }
    refine (proj2 (denotes_unique _ _ _ _ _ DS D _) _).
    + vm_compute. repeat constructor; cbn; intuition discriminate.
    + split; [right; left; reflexivity|]. intros [X|[]]. discriminate X.
  - exists stubs_directory. split; [exact stubs_generated|]. vm_compute. reflexivity.
  - assert (Ex : denotes (a_nodesets stubs_ast) (ns_expr (nth 0 (a_nodesets stubs_ast) (mk_nodeset [] (EReference []) []))) (fun x => In x (map ID_LWR [text "num"; text "var"; text "add"]))).
    { change (ns_expr _) with (ELiteral (parse_literal [text "num"; text "var"; text "add"])). constructor. intros x. reflexivity. }
    assert (Ad : forall n, In n (a_nodes stubs_ast) -> In (ID_LWR (nd_name n)) (map ID_LWR [text "num"; text "var"; text "add"]) -> admits stubs_ast (text "expr") n).
    { intros n I J. split; [exact I|]. right. eexists _, _. split; [left; reflexivity|]. split; [reflexivity|]. split; [exact Ex|exact J]. }
    set (l := a_nodes stubs_ast). assert (I0 : forall k n, nth_error l k = Some n -> In n l) by (intros k n; apply nth_error_In).
    unfold stubs_tree. eapply fits_node; [apply (I0 0); reflexivity|vm_compute; reflexivity|]. cbn [nd_children]. constructor; [|constructor].
    eapply slot_child; [apply Ad; [apply (I0 1); reflexivity|vm_compute; tauto]|vm_compute; reflexivity|].
    eapply fits_node; [apply (I0 1); reflexivity|vm_compute; reflexivity|]. cbn [nd_children]. constructor; [|constructor; [apply slot_null|constructor]].
    eapply slot_child; [apply Ad; [apply (I0 3); reflexivity|vm_compute; tauto]|vm_compute; reflexivity|].
    eapply fits_node; [apply (I0 3); reflexivity|vm_compute; reflexivity|]. constructor.
Qed.

(** The traversals on this tree: numbers of the node types of the nodes whose
    handlers are called. *)
Definition no_others (f : cstring) (w : unit) (t : TravModel.tree unit) : prog unit unit := PRet w None.
Definition run_stubs (i : nat) : option (TravModel.tree unit) * list nat :=
  match dispatch stubs_ast with
  | Val calls => match RUNstart calls (linked no_others stubs_directory) 9 (mk_tstate [] []) tt (Some stubs_tree) i with
                 | Val (st, _, r) => (r, rev (flat_map (fun e => match e with TUser _ x => [node_type x] | _ => [] end) (tlog st)))
                 | _ => (None, [])
                 end
  | _ => (None, [])
  end.
Example C54_run : run_stubs 1 = (Some stubs_tree, [4]) /\ run_stubs 2 = (Some stubs_tree, [1; 2; 4]).
Proof. split; vm_compute; reflexivity. Qed.
