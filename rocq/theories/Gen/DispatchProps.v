(** C52: the handlers that a traversal of a specification file calls. *)

From Coq Require Import String.
From Coq Require Import List Ascii Bool Arith Lia.
From Verif Require Import Base.Outcome Palm.StrModel Front.Syntax Front.CheckExistanceSpec Front.SetsModel Front.SetsSpec Front.SetsProof Front.SymbolTableSpec
  Front.ParserModel Front.ScannerSpec Front.FileModel Front.FileSpec Front.FileNamesSpec Front.FileNames
  Sched.FrontendModel Copra.TravModel Copra.TravSpec Copra.TravProof Gen.TablesModel Gen.TablesSpec Gen.TablesProof
  Gen.CompileParsed Gen.CompileInst Gen.AccessModel Gen.AccessProps Gen.DispatchModel Gen.DispatchSpec Gen.DispatchTables Gen.DispatchProof Gen.DispatchInst.
Import ListNotations.
Local Open Scope string_scope.
Local Open Scope list_scope.

(** For every file that the passes accept, the generated tables exist. *)
Theorem C52_defined : forall t p s lits, reads_file t p -> before_scheduling (ast_of p) = Val (s, lits) ->
  exists calls, dispatch (ast_of p) = Val calls.
Proof.
  intros t p s lits F B. destruct (tree_in_range t p F) as (P & U & _).
  destruct (reach_defined (ast_of p) P s lits B) as (ste & ts & reach & _ & _ & _ & E & _). eauto.
Qed.
Print Assumptions C52_defined.

(** A compiler with these tables does to a tree what the specification says.
    The full statement is without the last two conditions, see
    [C52_null_refuted] and [C52_empty_refuted]. *)
Theorem C52_runs_partial : forall t p s lits, reads_file t p -> before_scheduling (ast_of p) = Val (s, lits) -> usable_names (ast_of p) -> all_for_something (ast_of p) ->
  exists calls, dispatch (ast_of p) = Val calls /\
  forall A W (functions : cstring -> W -> TravModel.tree A -> prog A W) st w x st' w' r,
    does (ast_of p) functions st w x st' w' r ->
    exists fuel, forall f, fuel <= f -> RUNdo calls functions f st w x = Val (st', w', r).
Proof.
  intros t p s lits F B Us Fs. destruct (tree_in_range t p F) as (P & U & Pu).
  destruct (dispatch_right (ast_of p) P U s lits B Pu Us Fs) as (calls & E & C & _). exists calls. split; [exact E|exact C].
Qed.
Print Assumptions C52_runs_partial.

(** and nothing else, as long as all nodes it meets have the declared
    children ([TRAVdo_typed] gives no result otherwise). *)
Theorem C52_nothing_else_partial : forall t p s lits, reads_file t p -> before_scheduling (ast_of p) = Val (s, lits) -> usable_names (ast_of p) -> all_for_something (ast_of p) ->
  exists calls g, dispatch (ast_of p) = Val calls /\ describes (ast_of p) g /\
  forall A W (functions : cstring -> W -> TravModel.tree A -> prog A W) fuel st w x st' w' r,
    TRAVdo_typed g (entry_at calls) (function_at calls functions) fuel st w x = Val (st', w', r) ->
    does (ast_of p) functions st w x st' w' r.
Proof.
  intros t p s lits F B Us Fs. destruct (tree_in_range t p F) as (P & U & Pu).
  destruct (dispatch_right (ast_of p) P U s lits B Pu Us Fs) as (calls & E & _ & C).
  destruct (described (ast_of p) P U s lits B Us) as (g & G). exists calls, g. split; [exact E|]. split; [exact G|].
  intros. eapply C; eassumption.
Qed.
Print Assumptions C52_nothing_else_partial.

(** So the specification leaves no choice. *)
Theorem C52_one_result_partial : forall t p s lits, reads_file t p -> before_scheduling (ast_of p) = Val (s, lits) -> usable_names (ast_of p) -> all_for_something (ast_of p) ->
  forall A W (functions : cstring -> W -> TravModel.tree A -> prog A W) st w x s1 w1 r1 s2 w2 r2,
    does (ast_of p) functions st w x s1 w1 r1 -> does (ast_of p) functions st w x s2 w2 r2 ->
    s1 = s2 /\ w1 = w2 /\ r1 = r2.
Proof.
  intros t p s lits F B Us Fs A W functions st w x s1 w1 r1 s2 w2 r2 D1 D2.
  destruct (C52_runs_partial t p s lits F B Us Fs) as (calls & _ & C).
  destruct (C _ _ _ _ _ _ _ _ _ D1) as (f1 & E1). destruct (C _ _ _ _ _ _ _ _ _ D2) as (f2 & E2).
  specialize (E1 (f1 + f2) ltac:(lia)). specialize (E2 (f1 + f2) ltac:(lia)). rewrite E1 in E2. injection E2. auto.
Qed.
Print Assumptions C52_one_result_partial.

(** A traversal that is started on a tree begins and ends with its data, and
    the handlers are called for it. *)
Theorem C52_start_partial : forall t p s lits, reads_file t p -> before_scheduling (ast_of p) = Val (s, lits) -> usable_names (ast_of p) -> all_for_something (ast_of p) ->
  exists calls, dispatch (ast_of p) = Val calls /\
  forall A W (functions : cstring -> W -> TravModel.tree A -> prog A W) st w x i st' w' r,
    does (ast_of p) functions (mk_tstate (i :: stack st) (TInit i :: tlog st)) w x st' w' r ->
    exists fuel, forall f, fuel <= f ->
      RUNstart calls functions f st w (Some x) i = Val (mk_tstate (stack st) (TFree i :: tlog st'), w', r).
Proof.
  intros t p s lits F B Us Fs. destruct (C52_runs_partial t p s lits F B Us Fs) as (calls & E & C). exists calls. split; [exact E|].
  intros A W functions st w x i st' w' r D. destruct (C _ _ _ _ _ _ _ _ _ D) as (fuel & R). exists fuel. intros f L. specialize (R f L).
  unfold RUNstart, TRAVstart. unfold RUNdo in R. change (TRAVpush i st) with (mk_tstate (i :: stack st) (TInit i :: tlog st)).
  cbn [TravModel.opt]. rewrite R. cbn [bind].
  destruct (TRAVdo_keeps _ _ _ _ _ _ _ _ _ R) as [K _]. cbn [stack] in K. unfold TRAVpop. rewrite K. reflexivity.
Qed.
Print Assumptions C52_start_partial.

(** ** Every handler is for one node type in one traversal *)

Lemma upper_part : forall p p' q q', (forall c, In c p -> upper_byte c = c) -> (forall c, In c p' -> upper_byte c = c) ->
  (exists c l, q = c :: l /\ upper_byte c <> c) -> (exists c l, q' = c :: l /\ upper_byte c <> c) -> p ++ q = p' ++ q' -> p = p' /\ q = q'.
Proof.
  intros p p' q q' H H' (c & l & -> & N) (c' & l' & -> & N') E. apply app_eq_app in E. destruct E as (m & [[E1 E2]|[E1 E2]]).
  - destruct m as [|d m]; [rewrite app_nil_r in E1; subst; auto|]. exfalso. cbn [app] in E2. injection E2 as -> _.
    apply N'. apply H. rewrite E1. apply in_app_iff. right. left. reflexivity.
  - destruct m as [|d m]; [rewrite app_nil_r in E1; subst; auto|]. exfalso. cbn [app] in E2. injection E2 as -> _.
    apply N. apply H'. rewrite E1. apply in_app_iff. right. left. reflexivity.
Qed.
Lemma lower_start : forall i, identifier_ok i -> exists c l, ID_LWR i = c :: l /\ upper_byte c <> c.
Proof.
  intros i (c & l & -> & L & _). exists (lower_byte c), (map lower_byte l). split; [reflexivity|].
  unfold is_letter in L. cbn in L. repeat destruct L as [<-|L]; try (vm_compute; discriminate). destruct L.
Qed.

Lemma node_letters : forall t p n, reads_file t p -> In n (a_nodes (ast_of p)) -> identifier_ok (nd_name n).
Proof.
  intros t p n F I. destruct (file_names t p F) as [N _]. rewrite Forall_forall in N. apply N. unfold tree_names.
  rewrite !in_app_iff. right; right; right; left. apply in_flat_map. exists n. split; [exact I|]. left. reflexivity.
Qed.

Theorem C52_handlers_apart : forall t p s lits, reads_file t p -> before_scheduling (ast_of p) = Val (s, lits) ->
  forall i j i' j' f, meant (ast_of p) i j (Calls f) -> meant (ast_of p) i' j' (Calls f) -> i = i' /\ j = j'.
Proof.
  intros t p s lits F B i j i' j' f M M'.
  assert (X : forall i j, meant (ast_of p) i j (Calls f) -> exists n e pre, In n (a_nodes (ast_of p)) /\ node_number (ast_of p) n j /\
    f = pre ++ ID_LWR (nd_name n) /\ (forall c, In c pre -> upper_byte c = c) /\ TablesModel.value_of (traversal_enum (ast_of p)) e = Some i /\
    ((exists u, ~ reserved_uid u /\ pre = ID_UPR u /\ e = text "TRAV_" ++ pre) \/
     In (e, pre) [(text "TRAV_free", text "DEL"); (text "TRAV_check", text "CHK"); (text "TRAV_cpy", text "CPY")])).
  { clear M M'. intros k l M. inversion M as [t0 u n i0 j0 It In_ Tn Nn Fo U|  |e prefix n i0 j0 In_ Is V Nn]; subst.
    - destruct Tn as (u' & U' & V). rewrite U in U'. injection U' as <-.
      exists n, (text "TRAV_" ++ ID_UPR u), (ID_UPR u). repeat split; auto; [intros c Ic; exact (upr_no_lower u c Ic)|].
      left. exists u. split; [exact (uids_free (ast_of p) s lits B t0 u It U)|]. auto.
    - exists n, (text e), (text prefix). repeat split; auto.
      + intros c Ic. destruct Is as [Is|[Is|[Is|[]]]]; injection Is as <- <-; cbn in Ic; repeat destruct Ic as [<-|Ic]; try reflexivity; destruct Ic.
      + right. destruct Is as [Is|[Is|[Is|[]]]]; injection Is as <- <-; cbn; auto. }
  destruct (X i j M) as (n & e & pre & In1 & N1 & E1 & P1 & V1 & C1).
  destruct (X i' j' M') as (n' & e' & pre' & In2 & N2 & E2 & P2 & V2 & C2).
  rewrite E1 in E2. apply upper_part in E2; [|exact P1|exact P2|apply lower_start, (node_letters t p n F In1)|apply lower_start, (node_letters t p n' F In2)].
  destruct E2 as [<- E2]. apply upr_lwr in E2. unfold node_number in N1, N2. rewrite E2 in N1. split; [|congruence].
  assert (Ee : e = e'); [|congruence].
  assert (R : forall u, ~ reserved_uid u -> ID_UPR u <> text "DEL" /\ ID_UPR u <> text "CHK" /\ ID_UPR u <> text "CPY").
  { intros u N. repeat split; intros K; apply N; unfold reserved_uid; rewrite K; cbn; tauto. }
  destruct C1 as [(u & N & -> & ->)|C1]; destruct C2 as [(u' & N' & Eu & ->)|C2].
  - reflexivity.
  - exfalso. destruct (R u N) as (A1 & A2 & A3). destruct C2 as [C2|[C2|[C2|[]]]]; apply (f_equal snd) in C2; cbn [snd] in C2; congruence.
  - exfalso. destruct (R u' N') as (A1 & A2 & A3). destruct C1 as [C1|[C1|[C1|[]]]]; apply (f_equal snd) in C1; cbn [snd] in C1; congruence.
  - destruct C1 as [C1|[C1|[C1|[]]]]; destruct C2 as [C2|[C2|[C2|[]]]]; 
    assert (K1 := f_equal fst C1); assert (K2 := f_equal snd C1); assert (K3 := f_equal fst C2); assert (K4 := f_equal snd C2);
    cbn [fst snd] in K1, K2, K3, K4; subst; try reflexivity; discriminate.
Qed.
Print Assumptions C52_handlers_apart.

(** ** What is false *)

(** A node type may be called Null; then its handler is not called. *)
Theorem C52_null_refuted : ~ forall t p s lits, reads_file t p -> before_scheduling (ast_of p) = Val (s, lits) -> all_for_something (ast_of p) ->
  exists calls, dispatch (ast_of p) = Val calls /\
  forall A W (functions : cstring -> W -> TravModel.tree A -> prog A W) st w x st' w' r,
    does (ast_of p) functions st w x st' w' r ->
    exists fuel, forall f, fuel <= f -> RUNdo calls functions f st w x = Val (st', w', r).
Proof.
  intros H. destruct (accepted_read _ _ _ null_read null_accepted) as (p & F & B & E).
  destruct (H null_text p _ _ F B) as (calls & D & C).
  { rewrite E. intros t I (e & S & Et & _). destruct I as [<-|[]]. discriminate Et. }
  rewrite E in D, C. clear H F B E p.
  assert (C1 : calls 1 0 = Val (text "TRAVerror")).
  { assert (X : exists c, dispatch null_ast = Val c /\ c 1 0 = Val (text "TRAVerror")).
    { destruct (dispatch null_ast) as [c| | | |] eqn:Ec; try discriminate D. exists c. split; [reflexivity|].
      assert (Y : (match dispatch null_ast with Val c => c 1 0 | _ => NoFuel end) = Val (text "TRAVerror")) by (vm_compute; reflexivity).
      rewrite Ec in Y. exact Y. }
    destruct X as (c & Ec & X). congruence. }
  set (x := Node 0 tt []). set (st := @mk_tstate unit [1] []).
  destruct (C unit unit (fun _ w y => PRet w (Some y)) st tt x (tlogged (TUser 1 x) st) tt (Some x)) as (fuel & R).
  - apply (does_call _ _ st tt x 1 (text "VISnull")).
    + reflexivity.
    + apply (fits_node null_ast (hd (mk_node [] false [] [] [] []) (a_nodes null_ast))); [left; reflexivity|vm_compute; reflexivity|constructor].
    + apply (meant_handler null_ast (hd (mk_traversal [] None None []) (a_traversals null_ast)) (text "VIS")
               (hd (mk_node [] false [] [] [] []) (a_nodes null_ast))); try (left; reflexivity); try reflexivity.
      exists (text "VIS"). split; [reflexivity|vm_compute; reflexivity].
    + constructor.
  - specialize (R (S fuel) ltac:(lia)). unfold RUNdo in R. cbn [TRAVdo] in R. unfold entry_at in R. cbn [stack st node_type x] in R.
    rewrite C1 in R. discriminate R.
Qed.
Print Assumptions C52_null_refuted.

(** The set of a traversal may be empty; then it is for all node types. *)
Theorem C52_empty_refuted : ~ forall t p s lits, reads_file t p -> before_scheduling (ast_of p) = Val (s, lits) -> usable_names (ast_of p) ->
  exists calls, dispatch (ast_of p) = Val calls /\
  forall A W (functions : cstring -> W -> TravModel.tree A -> prog A W) st w x st' w' r,
    does (ast_of p) functions st w x st' w' r ->
    exists fuel, forall f, fuel <= f -> RUNdo calls functions f st w x = Val (st', w', r).
Proof.
  intros H. destruct (accepted_read _ _ _ empty_read empty_accepted) as (p & F & B & E).
  destruct (H empty_text p _ _ F B) as (calls & D & C).
  { rewrite E. split.
    - intros id I. cbn in I. repeat destruct I as [<-|I]; try (vm_compute; discriminate). destruct I.
    - intros x y I J. cbn in I, J. destruct I as [<-|[]]; repeat destruct J as [<-|J]; try (vm_compute; discriminate); destruct J.
    - intros x I. cbn in I. destruct I as [<-|[]]. vm_compute. discriminate. }
  rewrite E in D, C. clear H F B E p.
  assert (C1 : calls 1 1 = Val (text "VISprog")).
  { assert (X : exists c, dispatch empty_ast = Val c /\ c 1 1 = Val (text "VISprog")).
    { destruct (dispatch empty_ast) as [c| | | |] eqn:Ec; try discriminate D. exists c. split; [reflexivity|].
      assert (Y : (match dispatch empty_ast with Val c => c 1 1 | _ => NoFuel end) = Val (text "VISprog")) by (vm_compute; reflexivity).
      rewrite Ec in Y. exact Y. }
    destruct X as (c & Ec & X). congruence. }
  set (n := hd (mk_node [] false [] [] [] []) (a_nodes empty_ast)). set (t := hd (mk_traversal [] None None []) (a_traversals empty_ast)).
  assert (Nn : node_number empty_ast n 1) by (vm_compute; reflexivity).
  assert (Tn : traversal_number empty_ast t 1) by (exists (text "VIS"); split; [reflexivity|vm_compute; reflexivity]).
  set (x := Node 1 tt []). set (st := @mk_tstate unit [1] []).
  destruct (C unit unit (fun _ w y => PRet w (Some y)) st tt x st tt (Some x)) as (fuel & R).
  - apply (does_walk _ _ st tt 1 tt [] 1).
    + reflexivity.
    + apply (fits_node empty_ast n); [left; reflexivity|exact Nn|constructor].
    + apply (meant_walk empty_ast t n); [left; reflexivity|left; reflexivity|exact Tn|exact Nn|].
      intros (S & DS & Sn). change (tv_nodes t) with (Some (EOperation SO_difference (ELiteral (parse_literal [text "prog"])) (ELiteral (parse_literal [text "prog"])))) in DS.
      inversion DS as [| | | |e1 e2 S1 S2 S0 D1 D2 Q Ee]; subst. apply Q in Sn. destruct Sn as [Y1 Y2]. apply Y2.
      apply (denotes_unique _ _ _ _ (NoDup_nil _ : names_unique (a_nodesets empty_ast)) D1 D2). exact Y1.
    + constructor.
  - specialize (R (S fuel) ltac:(lia)). unfold RUNdo in R. cbn [TRAVdo] in R. unfold entry_at in R. cbn [stack st node_type x] in R.
    unfold function_at in R. cbn [node_type x] in R. rewrite !C1 in R. vm_compute in R. discriminate R.
Qed.
Print Assumptions C52_empty_refuted.

(** ** Examples *)

Example C52_example : exists p, reads_file dispatch_text p /\ before_scheduling (ast_of p) = Val (fst dispatch_passes, snd dispatch_passes) /\
  ast_of p = dispatch_ast /\ usable_names dispatch_ast /\ all_for_something dispatch_ast.
Proof.
  destruct (accepted_read _ _ _ dispatch_read dispatch_accepted) as (p & F & B & E). exists p. split; [exact F|]. split; [exact B|]. split; [exact E|].
  split; [split|].
  - intros id I. cbn in I. repeat destruct I as [<-|I]; try (vm_compute; discriminate). destruct I.
  - intros x y I J. cbn in I, J. destruct I as [<-|[<-|[]]]; repeat destruct J as [<-|J]; try (vm_compute; discriminate); destruct J.
  - intros x I. cbn in I. destruct I as [<-|[]]. vm_compute. discriminate.
  - intros t I (e & S & Et & DS & N). cbn in I. destruct I as [<-|[<-|[]]]; [|discriminate Et]. cbn [tv_nodes] in Et. injection Et as <-.
    apply (N (text "var")).
    assert (L : denotes (a_nodesets dispatch_ast) (EReference (text "leaf")) (fun x => In x (map ID_LWR [text "num"; text "var"]))).
    { eapply den_reference with (n := nth 1 (a_nodesets dispatch_ast) (mk_nodeset [] (EReference []) [])); [cbn; auto|reflexivity|].
      change (ns_expr _) with (ELiteral (parse_literal [text "num"; text "var"])). constructor. intros x. reflexivity. }
    assert (M : denotes (a_nodesets dispatch_ast) (ELiteral (parse_literal [text "num"])) (fun x => In x (map ID_LWR [text "num"]))).
    { constructor. intros x. reflexivity. }
    assert (D : denotes (a_nodesets dispatch_ast) (EOperation SO_difference (EReference (text "leaf")) (ELiteral (parse_literal [text "num"])))
      (fun x => In x (map ID_LWR [text "num"; text "var"]) /\ ~ In x (map ID_LWR [text "num"]))).
    { apply (den_difference _ _ _ _ _ _ L M). intros x. reflexivity. }
    refine (proj2 (denotes_unique _ _ _ _ _ DS D _) _).
    + vm_compute. repeat constructor; cbn; intuition discriminate.
    + split; [right; left; reflexivity|]. intros [X|[]]. discriminate X.
Qed.

(** All functions that TRAVdo calls, by traversal and node type. *)
Example C52_table : table dispatch_ast = dispatch_table.
Proof. vm_compute. reflexivity. Qed.
Example C52_shown : shown dispatch_table =
  [["TRAVerror"; "TRAVerror"; "TRAVerror"; "TRAVerror"; "TRAVerror"; "TRAVerror"; "?"];
   ["TRAVerror"; "TRAVchildren"; "TRAVnop"; "TRAVchildren"; "NMSvar"; "TRAVnop"; "?"];
   ["TRAVerror"; "CNTprog"; "CNTnote"; "CNTadd"; "CNTvar"; "CNTnum"; "?"];
   ["TRAVerror"; "DELprog"; "DELnote"; "DELadd"; "DELvar"; "DELnum"; "?"];
   ["TRAVerror"; "CHKprog"; "CHKnote"; "CHKadd"; "CHKvar"; "CHKnum"; "?"];
   ["TRAVerror"; "CPYprog"; "CPYnote"; "CPYadd"; "CPYvar"; "CPYnum"; "?"];
   ["?"; "?"; "?"; "?"; "?"; "?"; "?"]].
Proof. vm_compute. reflexivity. Qed.

(** A run of each traversal on the tree prog(add(var, num), note(num)). *)
Definition run_names (i : nat) : list string :=
  match dispatch dispatch_ast with
  | Val calls => match RUNstart calls note_calls 9 (mk_tstate [] []) [] (Some small_tree) i with Val (_, w, _) => map string_of_list_ascii w | _ => [] end
  | _ => []
  end.
Example C52_runs : run_names 1 = ["NMSvar"] /\ run_names 2 = ["CNTprog"; "CNTadd"; "CNTvar"; "CNTnum"; "CNTnote"; "CNTnum"].
Proof. vm_compute. auto. Qed.

(** A tree, and what Count does to it. *)
Definition a_node (k : nat) : inode := nth k (a_nodes dispatch_ast) (mk_node [] false [] [] [] []).
Example C52_does : exists s', does dispatch_ast note_calls (mk_tstate [2] []) [] tiny_tree s' [text "CNTprog"; text "CNTnum"] (Some tiny_tree).
Proof.
  assert (L : denotes (a_nodesets dispatch_ast) (EReference (text "leaf")) (fun x => In x (map ID_LWR [text "num"; text "var"]))).
  { eapply den_reference with (n := nth 1 (a_nodesets dispatch_ast) (mk_nodeset [] (EReference []) [])); [cbn; auto|reflexivity|].
    change (ns_expr _) with (ELiteral (parse_literal [text "num"; text "var"])). constructor. intros x. reflexivity. }
  assert (F5 : fits dispatch_ast (Node 5 tt [])).
  { apply (fits_node dispatch_ast (a_node 4)); [cbn; auto 10|vm_compute; reflexivity|constructor]. }
  assert (M : forall k j f, In (a_node k) (a_nodes dispatch_ast) -> node_number dispatch_ast (a_node k) j ->
    text "CNT" ++ ID_LWR (nd_name (a_node k)) = f -> meant dispatch_ast 2 j (Calls f)).
  { intros k j f I N <-. apply (meant_handler dispatch_ast (nth 1 (a_traversals dispatch_ast) (mk_traversal [] None None [])) (text "CNT"));
      [cbn; auto|exact I|exists (text "CNT"); split; [reflexivity|vm_compute; reflexivity]|exact N|exact Logic.I|reflexivity]. }
  assert (A : admits dispatch_ast (text "expr") (a_node 4)).
  { split; [cbn; auto 10|]. right. exists (nth 0 (a_nodesets dispatch_ast) (mk_nodeset [] (EReference []) [])), (fun x => In x (map ID_LWR [text "num"; text "var"]) \/ In x (map ID_LWR [text "add"])).
    split; [cbn; auto|]. split; [reflexivity|]. split; [|left; vm_compute; auto].
    change (ns_expr _) with (EOperation SO_iunion (EReference (text "leaf")) (ELiteral (parse_literal [text "add"]))).
    apply den_union with (A := fun x => In x (map ID_LWR [text "num"; text "var"])) (B := fun x => In x (map ID_LWR [text "add"]));
      [exact L|apply (den_literal _ [text "add"]); intros x; reflexivity|intros x; reflexivity]. }
  eexists. eapply does_call with (f := text "CNTprog").
  - reflexivity.
  - apply (fits_node dispatch_ast (a_node 0)); [cbn; auto|vm_compute; reflexivity|].
    change (nd_children (a_node 0)) with [mk_child (text "body") (text "expr") true []; mk_child (text "remark") (text "note") false []].
    constructor; [|constructor; [constructor|constructor]]. apply slot_child with (m := a_node 4); [exact A|vm_compute; reflexivity|exact F5].
  - apply (M 0); [cbn; auto|vm_compute; reflexivity|vm_compute; reflexivity].
  - unfold note_calls. cbn [app]. unfold tiny_tree. eapply runs_children; [|apply runs_return].
    eapply each_child; [|apply each_null; apply each_none]. eapply does_call with (f := text "CNTnum").
    + reflexivity.
    + exact F5.
    + apply (M 4); [cbn; auto 10|vm_compute; reflexivity|vm_compute; reflexivity].
    + cbn [app]. eapply runs_children; [apply each_none|apply runs_return].
Qed.
