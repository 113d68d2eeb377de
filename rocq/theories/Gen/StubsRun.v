(** What a compiler with the stubs does. *)

From Coq Require Import String.
From Coq Require Import List Ascii Bool Arith Lia Permutation.
From Verif Require Import Base.Outcome Palm.StrModel Front.Syntax Front.CheckExistanceModel Front.CheckExistanceSpec Front.CheckExistanceProof Front.SetsModel Front.SetsSpec Front.SetsProof Front.SymbolTableModel Front.SymbolTableSpec Front.SymbolTableProof
  Front.ReachModel Front.PropagateModel Front.PropagateSpec Front.NodesetPassesProof Front.ScannerSpec Front.FileModel Front.FileSpec Front.FileNamesSpec Front.FileNames Sched.FrontendModel
  Copra.TravModel Copra.TravSpec Copra.TravProof Gen.TablesModel Gen.TablesSpec Gen.TablesProof Gen.EvalVariantsModel Gen.EvalVariantsSpec Gen.EvalVariantsProof Gen.EvalVariantsProps
  Front.ProductRulesProof Gen.CompileVerdict Gen.AccessModel Gen.AccessMembers Gen.DispatchModel Gen.DispatchSpec Gen.DispatchReach Gen.DispatchProof Gen.DispatchProps
  Gen.StubsModel Gen.StubsSpec Gen.StubsProof Gen.StubsNames.
From Verif Require Gen.EvalVariantsNames.
Import ListNotations.
Local Open Scope list_scope.
Local Open Scope outcome_scope.

Section Accepted.
  Variable a : ast.
  Variable s : pra.
  Variable lits : list Syntax.literal.
  Hypothesis P : parsed_ast a.
  Hypothesis U : unmarked a.
  Hypothesis Pu : uids_present a.
  Hypothesis B : before_scheduling a = Val (s, lits).
  Hypothesis Few : few_children a.

  (** ** Linking *)
  Lemma visit_calls : forall n r order st c f args, In n (a_nodes a) -> (forall l, Permutation (order l) l) ->
    DGVSvisit_sequence_eval n order r = Val (Some st) -> In (c, (f, args)) st -> stub a (equation_file n) f (Default_value args).
  Proof.
    intros n r order st c f args In_n Po Est I. unfold DGVSvisit_sequence_eval in Est.
    destruct (get_equation n r) as [e|] eqn:Eg; [|discriminate].
    assert (Ie := proj1 (EvalVariantsNames.get_equation_some n r e Eg)).
    destruct (accepted_good a s lits P U B n In_n) as (D & Rs). specialize (Rs e Ie).
    destruct (collect_children_right n D (eq_args e) Rs) as (children & C & O).
    assert (Fc := Few n e children In_n Ie O).
    assert (X : exists null, (forall d, null d = true -> optional n d) /\ is_variant n e children r null (f, args)).
    { destruct (list_eq_dec Nat.eq_dec children []) as [Ec|Ec].
      - destruct (no_children n D e Rs children O C order r Ec) as (p & E & H).
        rewrite E in Est. cbn in Est. injection Est as <-. destruct I as [I|[]]. apply (f_equal snd) in I. cbn [snd] in I. subst p.
        exists (fun _ => false). split; [discriminate|]. apply H. intros r' d _ _ K. discriminate.
      - rewrite (some_children n D e Rs children O C Fc order (Po children) r Ec) in Est. cbn in Est. injection Est as <-.
        apply in_map_iff in I. destruct I as (m & Em & _).
        destruct (call_branch_variant n D e Rs children O order (Po children) r m) as (_ & V). rewrite Em in V. cbn [snd] in V.
        exists (absent_call children order m). split; [|exact V]. intros d Hd. destruct (in_dec Nat.eq_dec d children) as [Id|Id]; [apply O in Id; apply Id|].
        unfold absent_call in Hd. rewrite (table_out n e children O order (Po children)) in Hd by exact Id. discriminate. }
    destruct X as (null & Legal & [V1 V2]). cbn [fst snd] in V1, V2. rewrite (EvalVariantsNames.variant_name_found n r e _ Eg) in V1. subst f.
    apply stub_equation; assumption.
  Qed.

  Lemma table_functions : exists tables, generated_tables a = Val tables /\
    forall c f, In c tables -> ca_name c <> str "ccn_trav_vtable" -> In f (ca_entries c) ->
      of_runtime f \/ generated a f \/ exists file b, stub a file f b.
  Proof.
    destruct (reach_defined a P s lits B) as (ste & ts & reach & Es & Eu & Em & _ & Rn & R).
    exists (vtables reach (finished a s lits)). split.
    { unfold generated_tables. rewrite B. cbn [bind]. rewrite Es. cbn [bind]. rewrite Eu. cbn [bind fst snd]. rewrite Em. reflexivity. }
    assert (Ui : forall t, In t (a_traversals a) -> tv_uid t = Some (uid_of t)).
    { intros t I. unfold uid_of. destruct (tv_uid t) eqn:Et; [reflexivity|]. exfalso. apply (Pu t I Et). }
    assert (Fn : forall m, In m (a_nodes (finished a s lits)) -> exists n, In n (a_nodes a) /\ nd_name n = nd_name m).
    { intros m I. assert (Q := node_names a P U s lits B). apply (in_map nd_name) in I. rewrite Q in I. apply in_map_iff in I. destruct I as (n & E & I). eauto. }
    intros c f Ic Nc If. unfold vtables in Ic. apply in_app_iff in Ic. destruct Ic as [Ic|Ic].
    - apply in_map_iff in Ic. destruct Ic as (t & <- & It). change (a_traversals (finished a s lits)) with (a_traversals a) in It.
      destruct If as [<-|If]; [left; left; reflexivity|]. apply in_map_iff in If. destruct If as (m & <- & Im).
      destruct (Fn m Im) as (n & In_n & En). rewrite <- (Rn t n m En). unfold node_entry. destruct (reach t n) eqn:Er; try (left; cbn; tauto).
      right; right. exists (traversal_file t), Walk_children. rewrite <- En. apply stub_handler; auto. apply (R t n It In_n). exact Er.
    - assert (Sys : forall prefix name, In prefix ["CPY"; "CHK"; "DEL"]%string ->
        In f (ca_entries (system_vtable (finished a s lits) prefix name)) -> of_runtime f \/ generated a f \/ exists file b, stub a file f b).
      { intros prefix name Ip I. destruct I as [<-|I]; [left; left; reflexivity|]. apply in_map_iff in I. destruct I as (m & <- & Im).
        destruct (string_dec prefix "ERR") as [->|Ne]; [left; left; reflexivity|]. right; left. left. destruct (Fn m Im) as (n & In_n & En).
        exists n, prefix. rewrite En. auto. }
      assert (Dat : forall name prefix, In prefix ["TRAVdataInit"; "TRAVdataFree"]%string ->
        In f (ca_entries (data_table (finished a s lits) name prefix)) -> of_runtime f \/ generated a f \/ exists file b, stub a file f b).
      { intros name prefix Ip I. destruct I as [<-|I]; [left; cbn; tauto|]. apply in_app_iff in I. destruct I as [I|[<-|[<-|[<-|[]]]]]; try (left; cbn; tauto).
        apply in_map_iff in I. destruct I as (t & <- & It). change (a_traversals (finished a s lits)) with (a_traversals a) in It.
        unfold data_entry. destruct (tv_data t) eqn:Ed; [left; cbn; tauto|]. right; left; right. exists t, prefix. split; [exact It|]. split; [congruence|]. auto. }
      destruct Ic as [<-|[<-|[<-|[<-|[<-|[<-|[<-|[<-|[]]]]]]]]].
      + apply (Sys "CPY" "copy")%string; [cbn; tauto|exact If].
      + apply (Sys "CHK" "check")%string; [cbn; tauto|exact If].
      + apply (Sys "DEL" "free")%string; [cbn; tauto|exact If].
      + destruct If as [<-|If]; [left; left; reflexivity|]. apply in_map_iff in If. destruct If as (m & <- & _). left; left; reflexivity.
      + exfalso. apply Nc. reflexivity.
      + destruct If as [<-|If]; [left; cbn; tauto|]. apply in_map_iff in If. destruct If as (p & <- & Ip). right; right.
        exists (str "passes.c"), Return_root. apply (stub_pass a p). exact Ip.
      + apply (Dat "trav_data_init_vtable" "TRAVdataInit")%string; [cbn; tauto|exact If].
      + apply (Dat "trav_data_free_vtable" "TRAVdataFree")%string; [cbn; tauto|exact If].
  Qed.

  (** ** Running *)
  Variable order : list nat -> list nat.
  Hypothesis Po : forall l, Permutation (order l) l.
  Hypothesis Na : names_apart a.
  Hypothesis Nn : forall n, In n (a_nodes a) -> identifier_ok (nd_name n).
  Hypothesis Us : usable_names a.
  Hypothesis Fs : all_for_something a.

  Lemma for_dec : forall t n, In t (a_traversals a) -> In n (a_nodes a) -> is_for a t n \/ ~ is_for a t n.
  Proof.
    intros t n It In_n. destruct (reach_defined a P s lits B) as (ste & ts & reach & _ & _ & _ & _ & _ & R). destruct (R t n It In_n) as (Q & _).
    assert (K : taken_for a t n <-> is_for a t n) by (unfold taken_for; assert (X := Fs t It); tauto).
    destruct (reach t n) eqn:Er; try (left; apply K, Q; reflexivity); right; intros F; apply K, Q in F; discriminate.
  Qed.

  Section Run.
    Context {A W : Type}.
    Variable others : cstring -> W -> tree A -> prog A W.
    Variable dir : list cfile.
    Hypothesis Ed : user_directory order a = Val dir.
    Variable t : itraversal.
    Variable i : nat.
    Hypothesis It : In t (a_traversals a).
    Hypothesis Ti : traversal_number a t i.

    Lemma handler_linked : forall u n w x, tv_uid t = Some u -> In n (a_nodes a) -> is_for a t n ->
      linked others dir (ID_UPR u ++ ID_LWR (nd_name n)) w x = PChildren w (Some x) (fun w r => PRet w r).
    Proof.
      intros u n w x Eu In_n F. unfold linked.
      rewrite (defined_in a s lits P U Pu B Few order Po Na Nn dir (traversal_file t) _ Walk_children Ed); [reflexivity|].
      apply stub_handler; auto.
    Qed.

    Definition after (st : tstate A) (l : list (tree A)) : tstate A := mk_tstate (stack st) (rev (map (TUser i) l) ++ tlog st).
    Lemma after_app : forall st l l', after (after st l) l' = after st (l ++ l').
    Proof. intros st l l'. unfold after. cbn [stack tlog]. rewrite map_app, rev_app_distr, app_assoc. reflexivity. Qed.

    Lemma unchanged : forall (x : tree A), fits a x -> exists l, called a i x l /\
      forall st w, innermost st = Some i -> does a (linked others dir) st w x (after st l) w (Some x).
    Proof.
      induction x as [j y kids IH] using tree_ind'. intros F. inversion F as [n j' y' kids' In_n Nj Fk]; subst.
      assert (K : exists l, each_called a i kids l /\ forall st w, innermost st = Some i -> each_does a (linked others dir) st w kids (after st l) w kids).
      { clear F Nj. revert IH Fk. generalize (nd_children n) as cs. intros cs IH Fk. induction Fk as [|c o cs kids Ho Fk IHk].
        - exists []. split; [constructor|]. intros st w _. unfold after. cbn. destruct st; constructor.
        - destruct (IHk (fun c I => IH c (or_intror I))) as (l & Cl & Dl). destruct o as [x|].
          + inversion Ho as [|c' m x' Ad Nm Fx]; subst. destruct (IH x (or_introl eq_refl) Fx) as (l1 & C1 & D1). exists (l1 ++ l). split; [constructor; assumption|].
            intros st w Hi. rewrite <- after_app. apply each_child with (s1 := after st l1) (w1 := w); [apply D1; exact Hi|]. apply Dl. exact Hi.
          + exists l. split; [constructor; exact Cl|]. intros st w Hi. constructor. apply Dl. exact Hi. }
      destruct K as (l & Cl & Dl). destruct (for_dec t n It In_n) as [Fo|Nf].
      - destruct (tv_uid t) as [u|] eqn:Eu; [|exfalso; apply (Pu t It Eu)].
        assert (M : meant a i j (Calls (ID_UPR u ++ ID_LWR (nd_name n)))) by (apply meant_handler with t; assumption).
        exists (Node j y kids :: l). split; [apply called_handler with (ID_UPR u ++ ID_LWR (nd_name n)); assumption|].
        intros st w Hi. apply does_call with (i := i) (f := ID_UPR u ++ ID_LWR (nd_name n)); [exact Hi|exact F|exact M|].
        rewrite (handler_linked u n w (Node j y kids) Eu In_n Fo).
        assert (E : after st (Node j y kids :: l) = after (tlogged (TUser i (Node j y kids)) st) l).
        { unfold after, tlogged. cbn [stack tlog map rev]. rewrite <- app_assoc. reflexivity. }
        rewrite E. eapply runs_children; [apply Dl; exact Hi|]. constructor.
      - assert (M : meant a i j Walks) by (apply meant_walk with t n; assumption).
        exists l. split; [apply called_none; assumption|]. intros st w Hi. apply does_walk with (i := i); auto.
    Qed.
  End Run.
End Accepted.
