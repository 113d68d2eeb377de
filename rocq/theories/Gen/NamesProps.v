(** C61: no two things in generated code have one name. *)

From Coq Require Import String.
From Coq Require Import List Ascii Bool Arith Lia Permutation.
From Verif Require Import Base.Outcome Palm.StrModel Front.Syntax Front.CheckExistanceSpec Front.SetsModel Front.SetsSpec Front.SetsProof Front.SymbolTableSpec
  Gen.NodesModel Gen.NodesProof  Front.ParserModel Front.ScannerSpec Front.FileModel Front.FileSpec Front.FileNamesSpec Front.FileNames Front.PropagateModel
  Sched.FrontendModel Gen.TablesModel Gen.TablesSpec Gen.TablesProof Gen.CompileParsed Gen.CompileInst Gen.TravChildSpec Gen.AccessModel Gen.AccessSpec Gen.AccessInst Gen.AccessProps
  Gen.StubsModel Gen.StubsSpec Gen.StubsProof Gen.StubsProps Gen.NamesModel Gen.NamesSpec Gen.NamesProof Gen.NamesWhole Gen.NamesTags Gen.NamesInst.
Import ListNotations.
Local Open Scope string_scope.
Local Open Scope list_scope.

(** Functions, tables, enumerators and type names, with those of the runtime
    library and of palm.  The number of visits and the order of children in a
    visit are arbitrary.  The full statement is without [clear_names] and
    [distinct_functions], see [C61_ordinary_refuted]; [plainly_named] trees
    have the latter (C51_names). *)
Theorem C61_ordinary_partial : forall t p s lits visits order, reads_file t p -> before_scheduling (ast_of p) = Val (s, lits) -> few_children (ast_of p) ->
  (forall l, Permutation (order l) l) -> clear_names (ast_of p) -> distinct_functions (finished (ast_of p) s lits) ->
  exists names, ordinary_names visits order (ast_of p) = Val names /\ NoDup names.
Proof.
  intros t p s lits visits order F B Few Po Cn DF. destruct (tree_in_range t p F) as (P & U & Pu). destruct (file_names t p F) as [Ok Va].
  refine (ordinary_once (ast_of p) s lits P U Pu B Few order Po _ _ Cn visits DF).
  - intros x I. rewrite Forall_forall in Ok. apply (Ok x I).
  - intros e v I J N. specialize (Va e I). rewrite Forall_forall in Va. destruct (Va v J) as [[H _]|H]; [exact H|]. elim N. exact H.
Qed.
Print Assumptions C61_ordinary_partial.

(** Structures, unions and enums.  The full statement is without [clear_tags]
    and [distinct_accessors], see [C61_tags_refuted]. *)
Theorem C61_tags_partial : forall t p s lits visits, reads_file t p -> before_scheduling (ast_of p) = Val (s, lits) ->
  distinct_accessors (finished (ast_of p) s lits) -> clear_tags (finished (ast_of p) s lits) ->
  NoDup (tag_names visits (finished (ast_of p) s lits)).
Proof.
  intros t p s lits visits F B DA Ct. destruct (tree_in_range t p F) as (P & U & Pu).
  exact (tags_once (ast_of p) s lits P U Pu B visits DA Ct).
Qed.
Print Assumptions C61_tags_partial.

(** Macros.  The full statement is without [clear_macros] and
    [distinct_accessors], see [C61_macros_refuted]. *)
Theorem C61_macros_partial : forall t p s lits, reads_file t p -> before_scheduling (ast_of p) = Val (s, lits) ->
  distinct_accessors (finished (ast_of p) s lits) -> clear_macros (finished (ast_of p) s lits) ->
  NoDup (macro_names (finished (ast_of p) s lits)).
Proof.
  intros t p s lits F B DA Cm. destruct (tree_in_range t p F) as (P & U & Pu). exact (macros_once (ast_of p) s lits Pu B DA Cm).
Qed.
Print Assumptions C61_macros_partial.

(** The members of each structure and union.  The full statement is without
    [clear_members], see [C61_members_refuted]. *)
Theorem C61_members_partial : forall t p s lits, reads_file t p -> before_scheduling (ast_of p) = Val (s, lits) ->
  clear_members (finished (ast_of p) s lits) -> Forall (@NoDup cstring) (structs (finished (ast_of p) s lits)).
Proof.
  intros t p s lits F B Cm. destruct (tree_in_range t p F) as (P & U & Pu). destruct (file_names t p F) as [Ok _].
  refine (members_once (ast_of p) s lits P U B _ Cm). intros x I. rewrite Forall_forall in Ok. apply (Ok x I).
Qed.
Print Assumptions C61_members_partial.

(** ** What is false *)

Lemma accepted_tree : forall c, is_accepted c ->
  exists p, reads_file (ac_text c) p /\ before_scheduling (ast_of p) = Val (fst (ac_passes c), snd (ac_passes c)) /\ ast_of p = ac_ast c.
Proof. intros c (T & B). exact (accepted_read _ _ _ T B). Qed.
#[local] Hint Resolve uid_accepted values_accepted child_accepted library_accepted enum_accepted tags_accepted assert_accepted node_type_accepted data_accepted members_accepted mark_accepted : names_files.
Lemma twice_times : forall x l, times x l = 2 -> ~ NoDup l.
Proof.
  intros x l T N. rewrite (NoDup_count_occ (list_eq_dec ascii_dec)) in N. specialize (N (list_ascii_of_string x)). unfold times in T. lia.
Qed.

(** Accepted files with a function that is defined twice: a uid AST, which is
    not reserved; values of an enum that agree up to case; a child or a pass
    with a name of the runtime library *)
Theorem C61_ordinary_refuted : forall c x,
  In (c, x) [(uid_file, "ASTnum"); (values_file, "OP_add"); (child_file, "TRAVgetCurrent"); (library_file, "STRcpy")] ->
  exists p s lits names, reads_file (ac_text c) p /\ before_scheduling (ast_of p) = Val (s, lits) /\ few_children (ast_of p) /\
  ordinary_names (fun _ => 1) (fun l => l) (ast_of p) = Val names /\ times x names = 2 /\ ~ NoDup names.
Proof.
  assert (G : forall c x, is_accepted c ->
    forallb (fun n => Nat.ltb (List.length (nd_children n)) 64) (a_nodes (ac_ast c)) = true ->
    ordinary_names (fun _ => 1) (fun l => l) (ac_ast c) = Val (ordinary_of (ac_ast c)) -> times x (ordinary_of (ac_ast c)) = 2 ->
    exists p s lits names, reads_file (ac_text c) p /\ before_scheduling (ast_of p) = Val (s, lits) /\ few_children (ast_of p) /\
    ordinary_names (fun _ => 1) (fun l => l) (ast_of p) = Val names /\ times x names = 2 /\ ~ NoDup names).
  { intros c x A Fw O X. destruct (accepted_tree c A) as (p & F & B' & E). exists p. do 2 eexists. exists (ordinary_of (ac_ast c)). split; [exact F|]. split; [exact B'|].
    rewrite E. split; [|split; [exact O|split; [exact X|exact (twice_times _ _ X)]]].
    apply few_if. rewrite forallb_forall in Fw. intros n I. apply Nat.ltb_lt, Fw, I. }
  intros c x I. repeat (destruct I as [E|I]; [injection E as <- <-; apply G; [auto with names_files|vm_compute; reflexivity..]|]). destruct I.
Qed.
Print Assumptions C61_ordinary_refuted.

(** The name of an enum, and names of nodes and attributes, in names of structures *)
Theorem C61_tags_refuted : forall c x, In (c, x) [(enum_file, "nodesettype"); (tags_file, "NODE_CHILDREN_NUM_STRUCT")] ->
  exists p s lits, reads_file (ac_text c) p /\ before_scheduling (ast_of p) = Val (s, lits) /\
  distinct_accessors (finished (ast_of p) s lits) /\
  times x (tag_names (fun _ => 1) (finished (ast_of p) s lits)) = 2 /\ ~ NoDup (tag_names (fun _ => 1) (finished (ast_of p) s lits)).
Proof.
  assert (G : forall c x, is_accepted c ->
    once (accessors (finished_of c)) = true -> times x (tag_names (fun _ => 1) (finished_of c)) = 2 ->
    exists p s lits, reads_file (ac_text c) p /\ before_scheduling (ast_of p) = Val (s, lits) /\ distinct_accessors (finished (ast_of p) s lits) /\
    times x (tag_names (fun _ => 1) (finished (ast_of p) s lits)) = 2 /\ ~ NoDup (tag_names (fun _ => 1) (finished (ast_of p) s lits))).
  { intros c x A O X. destruct (accepted_tree c A) as (p & F & B' & E). exists p. do 2 eexists. split; [exact F|]. split; [exact B'|].
    rewrite E. fold (finished_of c). split; [|split; [exact X|exact (twice_times _ _ X)]].
    unfold distinct_accessors. revert O. generalize (accessors (finished_of c)). clear. induction l as [|y l IH]; intros O; [constructor|].
    cbn in O. apply andb_true_iff in O. destruct O as [O1 O2]. constructor; [|exact (IH O2)]. intros I. apply negb_true_iff in O1.
    assert (X : existsb (name_eqb y) l = true). { apply existsb_exists. exists y. split; [exact I|]. apply name_eqb_refl. }
    congruence. }
  intros c x I. repeat (destruct I as [E|I]; [injection E as <- <-; apply G; [auto with names_files|vm_compute; reflexivity..]|]). destruct I.
Qed.
Print Assumptions C61_tags_refuted.

(** Accessors with the names of macros of palm and of the generated ast.h, and
    of the travdata *)
Theorem C61_macros_refuted : forall c x, In (c, x) [(assert_file, "DBUG_ASSERT"); (node_type_file, "NODE_TYPE"); (data_file, "DATA_VIS_GET")] ->
  exists p s lits, reads_file (ac_text c) p /\ before_scheduling (ast_of p) = Val (s, lits) /\ plainly_named (ast_of p) /\
  times x (macro_names (finished (ast_of p) s lits)) = 2 /\ ~ NoDup (macro_names (finished (ast_of p) s lits)).
Proof.
  assert (G : forall c x, is_accepted c ->
    plainly_named (ac_ast c) -> times x (macro_names (finished_of c)) = 2 ->
    exists p s lits, reads_file (ac_text c) p /\ before_scheduling (ast_of p) = Val (s, lits) /\ plainly_named (ast_of p) /\
    times x (macro_names (finished (ast_of p) s lits)) = 2 /\ ~ NoDup (macro_names (finished (ast_of p) s lits))).
  { intros c x A O X. destruct (accepted_tree c A) as (p & F & B' & E). exists p. do 2 eexists. split; [exact F|]. split; [exact B'|].
    rewrite E. fold (finished_of c). split; [exact O|]. split; [exact X|exact (twice_times _ _ X)]. }
  intros c x I. repeat (destruct I as [E|I]; [injection E as <- <-; apply G; [auto with names_files| |vm_compute; reflexivity];
    (split; intros n J; vm_compute in J; repeat (destruct J as [<-|J]; [split; [vm_compute; intuition discriminate|vm_compute; discriminate]|]); destruct J)|]). destruct I.
Qed.
Print Assumptions C61_macros_refuted.

(** An attribute called like the member that holds the children, or like the
    mark of an attribute of the grammar *)
Theorem C61_members_refuted : forall c x, In (c, x) [(members_file, "num_children"); (mark_file, "ccn_val_set")] ->
  exists p s lits, reads_file (ac_text c) p /\ before_scheduling (ast_of p) = Val (s, lits) /\
  exists members, In members (structs (finished (ast_of p) s lits)) /\ times x members = 2 /\ ~ NoDup members.
Proof.
  assert (G : forall c x, is_accepted c ->
    existsb (fun l => Nat.eqb (times x l) 2) (structs (finished_of c)) = true ->
    exists p s lits, reads_file (ac_text c) p /\ before_scheduling (ast_of p) = Val (s, lits) /\
    exists members, In members (structs (finished (ast_of p) s lits)) /\ times x members = 2 /\ ~ NoDup members).
  { intros c x A X. destruct (accepted_tree c A) as (p & F & B' & E). exists p. do 2 eexists. split; [exact F|]. split; [exact B'|].
    rewrite E. fold (finished_of c). apply existsb_exists in X. destruct X as (l & I & X). apply Nat.eqb_eq in X. exists l. split; [exact I|]. split; [exact X|exact (twice_times _ _ X)]. }
  intros c x I. repeat (destruct I as [E|I]; [injection E as <- <-; apply G; [auto with names_files|vm_compute; reflexivity..]|]). destruct I.
Qed.
Print Assumptions C61_members_refuted.

(** ** Example *)

Definition names_final : ast := Eval vm_compute in finished names_ast (fst names_passes) (snd names_passes).
Example C61_example : exists p s lits, reads_file names_text p /\ before_scheduling (ast_of p) = Val (s, lits) /\
  few_children (ast_of p) /\ clear_names (ast_of p) /\ plainly_named (ast_of p) /\ clear_tags (finished (ast_of p) s lits) /\
  clear_macros (finished (ast_of p) s lits) /\ clear_members (finished (ast_of p) s lits).
Proof.
  destruct (accepted_read _ _ _ names_read names_accepted) as (p & F & B & E).
  exists p, (fst names_passes), (snd names_passes). split; [exact F|]. split; [exact B|].
  assert (Fw : few_children (ast_of p)). { rewrite E. apply few_if. intros n I. destruct I as [<-|[<-|[<-|[<-|[]]]]]; cbn; lia. }
  assert (Fx : forall file f b, stub (ast_of p) file f b -> ~ In f fixed_names).
  { intros file f b St. destruct (C54_files names_text p _ _ (fun l => l) F B Fw (fun l => Permutation_refl l)) as (d & Ed & _ & S).
    apply S in St. destruct St as (fs & I1 & I2). rewrite E in Ed. assert (K : In f (map fst (flat_map snd d))).
    { apply in_map_iff. exists (f, b). split; [reflexivity|]. apply in_flat_map. exists (file, fs). auto. }
    assert (X : match user_directory (fun l => l) names_ast with
      | Val d => forallb (fun f => negb (existsb (name_eqb f) fixed_names)) (map fst (flat_map snd d)) | _ => false end = true) by (vm_compute; reflexivity).
    rewrite Ed in X. rewrite forallb_forall in X. apply X in K. intros I. apply negb_true_iff in K.
    assert (Y : existsb (name_eqb f) fixed_names = true). { apply existsb_exists. exists f. split; [exact I|]. apply name_eqb_refl. }
    congruence. }
  split; [exact Fw|]. rewrite E in Fx |- *. change (finished names_ast (fst names_passes) (snd names_passes)) with names_final. clear F B E Fw p.
  assert (Bg : forall w x, beginsb w x = false -> ~ starts w x). { intros w x H S. apply beginsb_iff in S. congruence. }
  assert (En : forall w x, endsb w x = false -> ~ ends w x). { intros w x H S. apply endsb_iff in S. congruence. }
  assert (Ni : forall x l, existsb (name_eqb x) l = false -> ~ In x l).
  { intros x l H I. assert (Y : existsb (name_eqb x) l = true). { apply existsb_exists. exists x. split; [exact I|]. apply name_eqb_refl. } congruence. }
  split; [|split; [|split; [|split]]].
  - constructor.
    + split.
      * intros id I. cbn in I. repeat destruct I as [<-|I]; try (vm_compute; discriminate). destruct I.
      * intros x y I J. cbn in I, J. destruct I as [<-|[<-|[]]]; repeat destruct J as [<-|J]; try (vm_compute; discriminate); destruct J.
      * intros x I. cbn in I. destruct I as [<-|[<-|[]]]; vm_compute; discriminate.
    + constructor.
      * assert (Pl : forall l, forallb (fun c => negb (Ascii.eqb c "_"%char)) l = true -> StubsSpec.plain l).
        { intros l H I. rewrite forallb_forall in H. apply H in I. discriminate I. }
        intros n e I Ie. destruct I as [<-|[<-|[<-|[<-|[]]]]]; cbn in Ie; [destruct Ie| | |];
          destruct Ie as [<-|[]]; (split; [apply Pl; vm_compute; reflexivity|]); (split; [apply Pl; vm_compute; reflexivity|]); intros c Ec; discriminate Ec.
      * intros n I. destruct I as [<-|[<-|[<-|[<-|[]]]]]; cbn [nd_equations map]; repeat constructor; intros [].
      * intros t n _ _ I _. destruct I as [<-|[<-|[<-|[<-|[]]]]]; split; vm_compute; discriminate.
      * vm_compute. repeat constructor; cbn; intuition discriminate.
      * intros p I. destruct I as [<-|[<-|[]]]; (split; [|intros x; discriminate]);
          intros t u x It Eu Ix; destruct It as [<-|[<-|[]]]; cbn [tv_uid] in Eu; injection Eu as <-; discriminate.
    + exact Fx.
    + intros u I. cbn in I. destruct I as [<-|[<-|[]]]; (split; [vm_compute; discriminate|]); (split; [apply Bg|apply En]; vm_compute; reflexivity).
    + assert (Sp : forall f u c r, f = u ++ c :: r -> forallb (fun c => negb (existsb (Ascii.eqb c) (str "abcdefghijklmnopqrstuvwxyz"))) u = true ->
        existsb (Ascii.eqb c) (str "abcdefghijklmnopqrstuvwxyz") = true -> split_name f u (c :: r)).
      { intros f u c r -> Hu Hc. split; [reflexivity|]. split.
        - intros d I J. rewrite forallb_forall in Hu. apply Hu in I. apply negb_true_iff in I.
          assert (Y : existsb (Ascii.eqb d) (str "abcdefghijklmnopqrstuvwxyz") = true) by (apply existsb_exists; exists d; split; [exact J|apply Ascii.eqb_refl]). congruence.
        - exists c, r. split; [reflexivity|]. apply existsb_exists in Hc. destruct Hc as (d & I & Ed). apply Ascii.eqb_eq in Ed. subst d. exact I. }
      intros q I. destruct I as [<-|[<-|[]]]; (split; [|split; apply En; vm_compute; reflexivity]).
      * exists (str "PRTP"), (str "rint"). split; [apply Sp; vm_compute; reflexivity|]. split; [apply Ni; vm_compute; reflexivity|]. split; [apply Bg|apply En]; vm_compute; reflexivity.
      * exists (str "SP"), (str "doParse"). split; [apply Sp; vm_compute; reflexivity|]. split; [apply Ni; vm_compute; reflexivity|]. split; [apply Bg|apply En]; vm_compute; reflexivity.
    + intros n c I J. destruct I as [<-|[<-|[<-|[<-|[]]]]]; cbn in J; repeat destruct J as [<-|J]; try destruct J;
        (split; [apply Ni; vm_compute; reflexivity|]); split; apply Bg; vm_compute; reflexivity.
    + intros e I. destruct I as [<-|[]]. split; [|apply Bg; vm_compute; reflexivity]. vm_compute. intuition discriminate.
    + intros e I. destruct I as [<-|[]]. split; [vm_compute; repeat constructor; cbn; intuition discriminate|]. apply Ni. vm_compute. reflexivity.
  - split; intros n I; cbn [names_ast a_nodes a_nodesets] in I; repeat (destruct I as [<-|I]; [split; [vm_compute; intuition discriminate|vm_compute; discriminate]|]); destruct I.
  - constructor.
    + intros e I. destruct I as [<-|[]]. split; [apply Ni; vm_compute; reflexivity|]. intros w J. cbn in J. repeat (destruct J as [<-|J]; [apply Bg; vm_compute; reflexivity|]). destruct J.
    + intros n I. cbn [names_final a_nodes] in I. repeat (destruct I as [<-|I]; [split; [vm_compute; discriminate|]; split; [apply Bg|apply En]; vm_compute; reflexivity|]). destruct I.
  - constructor.
    + intros x I. cbn in I. repeat (destruct I as [<-|I]; [split; [vm_compute; discriminate|apply Bg; vm_compute; reflexivity]|]). destruct I.
    + intros x y c I. cbn in I. repeat (destruct I as [I|I]; [injection I as <- <- <-; apply Ni; vm_compute; reflexivity|]). destruct I.
  - intros n I x J. cbn [names_final a_nodes] in I. repeat (destruct I as [<-|I]; [cbn in J; repeat (destruct J as [<-|J]; [split; vm_compute; discriminate|]); destruct J|]). destruct I.
Qed.

(** Some of the names *)
Example C61_names : (let l := ordinary_of names_ast in
    times "ASTnum" l = 1 /\ times "OP_plus" l = 1 /\ times "NT_NUM" l = 1 /\ times "CNTnum" l = 1 /\ times "SPdoParse" l = 1 /\ times "PRTPrint" l = 1 /\
    times "TRAVleft" l = 1 /\ times "EVALadd_this_size_right_NULL" l = 1 /\ times "CCNvisit_num_1" l = 1 /\ times "CCNaccess_readonly_add_size" l = 1 /\
    times "count_vtable" l = 1 /\ times "inner_ids_table" l = 1) /\
  (let l := tag_names (fun _ => 1) names_final in times "NODE_NUM_SIZE_STRUCT" l = 1 /\ times "data_cnt" l = 1 /\ times "op_type" l = 1) /\
  (let l := macro_names names_final in times "EXPR_SIZE" l = 1 /\ times "DATA_CNT_GET" l = 1).
Proof. vm_compute. repeat split. Qed.
