(** C57: what a command line of cocogen means. *)

From Coq Require Import String.
From Coq Require Import List Ascii Bool NArith Lia.
From Verif Require Import Base.Outcome Palm.StrModel Front.Syntax Front.ScannerModel Front.ParserModel Front.FileModel Copra.PhaseDriverModel Sched.GraphModel Sched.ScheduleModel
  Gen.AccessModel Gen.TablesModel Gen.CompileInst Gen.CompileProps Gen.StubsInst Gen.RunSpec Gen.RunModel Gen.RunInst Gen.RunProps Gen.CommandLineModel Gen.CommandLineSpec Gen.CommandLineProof
  Gen.CommandLineNumber Gen.CommandLineOptions Gen.CommandLineFiles.
Import ListNotations.
Local Open Scope list_scope.

Definition directory_of (l : list item) : cstring := value "gen-dir" (str "ccngen/") l.

Lemma dirify : forall d, FSdirifyString d = if list_eq_dec ascii_dec d [] then Undef else Val (with_slash d).
Proof.
  intros d. unfold FSdirifyString, with_slash. destruct d as [|c d _] using rev_ind; [reflexivity|].
  rewrite rev_app_distr, last_last. cbn [rev app]. destruct (list_eq_dec ascii_dec (d ++ [c]) []) as [E|_]; [apply app_eq_nil in E; destruct E as [_ E]; discriminate E|].
  destruct (Ascii.eqb_spec c "/") as [E|D]; destruct (ascii_dec c "/"); try contradiction; reflexivity.
Qed.
Lemma last_default : forall (vs : list cstring) d o, o = last (map Some vs) None -> match o with None => d | Some v => v end = last vs d.
Proof.
  intros vs d o ->. destruct vs as [|v vs _] using rev_ind; [reflexivity|]. rewrite map_app. cbn [map]. rewrite !last_last. reflexivity.
Qed.
Lemma number_default : forall s' l, number_fact initial l s' -> strtoul (value "ag-scheduler-max-iter" (str "1000") l) = Some (s_max_iter s').
Proof.
  unfold number_fact, value. intros s' l H. destruct (values "ag-scheduler-max-iter" l) as [|v vs _] using rev_ind.
  - cbn [map last] in *. rewrite H. reflexivity.
  - rewrite map_app in H. cbn [map] in H. rewrite last_last in *. exact H.
Qed.

(** A proper line *)
Lemma proper_line : forall l args, writes_line l args -> proper l -> exists s, facts initial l s /\
  CLprocessArgs args = if list_eq_dec ascii_dec (directory_of l) [] then Undef
                       else match operands l with [file] => Val (inr (s, with_slash (directory_of l), file)) | _ => Val (inl 1%N) end.
Proof.
  intros l args W P. apply proper_fine in P. destruct (options_fine l initial (line_ok l args W) P) as (s & E & F). exists s. split; [exact F|].
  unfold CLprocessArgs. rewrite (getopt_writes l args W), E.
  assert (G : match s_gen_dir s with None => TablesModel.text "ccngen/" | Some d => d end = directory_of l).
  { apply last_default. apply F. }
  rewrite G, dirify. destruct (list_eq_dec ascii_dec (directory_of l) []); reflexivity.
Qed.
Lemma accepted_line : forall args r, CLprocessArgs args = Val (inr r) -> exists l, writes_line l args /\ proper l.
Proof.
  intros args r H. unfold CLprocessArgs in H. destruct (getopt_all args) as [es ws] eqn:G. destruct (CLoptions initial es) as [n|s] eqn:E; [discriminate H|].
  destruct (getopt_reads (length args) args (le_n _)) as (l & W & E1 & E2).
  { rewrite G. intros I. destruct (question_mark_stops es initial I) as (n & X). congruence. }
  exists l. split; [exact W|]. apply proper_fine. rewrite G in E1. cbn [fst] in E1. subst es. exact (options_inr l initial s (line_ok l args W) E).
Qed.

(** A run is started for a command line if and only if it consists of options
    of cocogen, written in one of the usual ways and in any order, and of
    exactly one operand, which is the name of the specification. *)
Theorem C57_accepted : forall args dir file,
  (exists s, CLprocessArgs args = Val (inr (s, dir, file))) <->
  exists l, writes_line l args /\ proper l /\ operands l = [file] /\ directory_of l <> [] /\ dir = with_slash (directory_of l).
Proof.
  intros args dir file. split.
  - intros (s & H). destruct (accepted_line args _ H) as (l & W & P). exists l. split; [exact W|]. split; [exact P|].
    destruct (proper_line l args W P) as (s' & _ & E). rewrite H in E. destruct (list_eq_dec _ (directory_of l) []) as [|N]; [discriminate E|].
    destruct (operands l) as [|f [|]]; try discriminate E. injection E as -> -> ->. auto.
  - intros (l & W & P & O & N & ->). destruct (proper_line l args W P) as (s & _ & E). exists s. rewrite E, O.
    destruct (list_eq_dec _ (directory_of l) []); [contradiction|reflexivity].
Qed.
Print Assumptions C57_accepted.

(** The settings of the run: of several values for an option, the last one
    counts. *)
Theorem C57_settings : forall l args s dir file, writes_line l args -> CLprocessArgs args = Val (inr (s, dir, file)) ->
  match s_backend s with None => str "dynamic" | Some b => b end = value "backend" (str "dynamic") l /\
  reads_number (value "ag-scheduler-max-iter" (str "1000") l) (s_max_iter s) /\
  s_breakpoint s = last (map Some (values "breakpoint" l)) None /\
  (s_show_ast s = true <-> given "show-ast" l) /\ (s_debug s = true <-> given "debug" l) /\
  (s_verbosity s = true <-> exists n, In (Vs n) l).
Proof.
  intros l args s dir file W H.
  assert (P : proper l).
  { apply proper_fine. unfold CLprocessArgs in H. rewrite (getopt_writes l args W) in H. destruct (CLoptions initial (flat_map events l)) as [n|s'] eqn:E; [discriminate H|].
    exact (options_inr l initial s' (line_ok l args W) E). }
  destruct (proper_line l args W P) as (s' & F & E). rewrite H in E. destruct (list_eq_dec _ (directory_of l) []) as [|_]; [discriminate E|].
  destruct (operands l) as [|f [|]]; try discriminate E. injection E as <- _ _. destruct F as (_ & F2 & _ & F4 & F5 & F6 & _ & F8 & F9).
  split; [exact (last_default _ _ _ F6)|]. split; [apply strtoul_iff, number_default; exact F9|]. split; [exact F8|].
  unfold flag_fact in *. cbn [s_show_ast s_debug s_verbosity initial] in F2, F4, F5. rewrite F4, F5, F2, !Exists_exists. unfold given, is_vs.
  split; [|split].
  - split; [intros [X|(x & I & <-)]; [discriminate X|exact I]|intros I; right; eauto].
  - split; [intros [X|(x & I & <-)]; [discriminate X|exact I]|intros I; right; eauto].
  - split; [intros [X|(x & I & (n & ->))]; [discriminate X|eauto]|intros (n & I); right; eauto].
Qed.
Print Assumptions C57_settings.

(** Questions are answered, and end the program well, whatever follows. *)
Theorem C57_question : forall l q lss rest, Forall2 writes (l ++ [Switch q]) lss -> proper l -> In q ["help"; "version"; "show-structure"]%string ->
  CLprocessArgs (concat lss ++ rest) = Val (inl 0%N).
Proof.
  intros l q lss rest W P Q.
  assert (G : forall l lss, Forall2 writes l lss -> forall rest, fst (getopt_all (concat lss ++ rest)) = flat_map events l ++ fst (getopt_all rest)).
  { clear. induction 1 as [|i x l lss W _ IH]; intros rest; [reflexivity|]. cbn [concat flat_map]. rewrite <- !app_assoc. rewrite <- (IH rest).
    destruct W as [w O|s name I S|s name v I S|s name v I S|n].
    - cbn [app events]. rewrite (getopt_operand w _ O). reflexivity.
    - cbn [app]. rewrite (getopt_long_arg _ _ (spelling_nonempty s name S)). unfold long_case.
      rewrite (split_plain s (spelling_plain s name S)), (find_long_spells s name false S I). destruct (getopt_all _). reflexivity.
    - change ([str "--" ++ s ++ str "=" ++ v] ++ concat lss ++ rest) with ((str "--" ++ (s ++ str "=" ++ v)) :: concat lss ++ rest).
      rewrite getopt_long_arg by (intros E; apply app_eq_nil in E; destruct E as [_ E]; discriminate E). unfold long_case.
      rewrite (split_joined s v (spelling_plain s name S)), (find_long_spells s name true S I). destruct (getopt_all _). reflexivity.
    - change ([str "--" ++ s; v] ++ concat lss ++ rest) with ((str "--" ++ s) :: v :: concat lss ++ rest).
      rewrite (getopt_long_arg _ _ (spelling_nonempty s name S)). unfold long_case.
      rewrite (split_plain s (spelling_plain s name S)), (find_long_spells s name true S I). destruct (getopt_all _). reflexivity.
    - cbn [repeat]. change (["-"%char :: "v"%char :: repeat "v"%char n] ++ concat lss ++ rest) with (("-"%char :: "v"%char :: repeat "v"%char n) :: concat lss ++ rest).
      rewrite getopt_letters by discriminate. cbn [fst events repeat map]. f_equal. cbn [map app]. f_equal. induction n as [|n IHn]; [reflexivity|]. cbn. f_equal. exact IHn. }
  specialize (G _ _ W rest). unfold CLprocessArgs. destruct (getopt_all (concat lss ++ rest)) as [es ws]. cbn [fst] in G. subst es.
  assert (K : Forall item_ok l).
  { assert (X : Forall item_ok (l ++ [Switch q])) by (clear - W; induction W as [|i x l' lss' Wi _ IH]; constructor; [exact (writes_ok i x Wi)|exact IH]).
    apply Forall_app in X. apply X. }
  rewrite flat_map_app, <- app_assoc, CLoptions_app. destruct (options_fine l initial K (proj1 (proper_fine l) P)) as (s & -> & _).
  rewrite CLoptions_app. destruct (not_fine_stops (Switch q) s) as [N _].
  { destruct Q as [<-|[<-|[<-|[]]]]; cbn; tauto. }
  cbn [flat_map]. rewrite app_nil_r. rewrite N; [reflexivity|]. unfold question. destruct Q as [<-|[<-|[<-|[]]]]; auto.
Qed.
Print Assumptions C57_question.

(** A line that is not accepted ends the program: with status 0 only if it
    asks a question, otherwise with status 1.  The one exception is an empty
    name for the directory. *)
Lemma returned_question : forall n args code v, length args <= n -> In (code, v) (fst (getopt_all args)) -> In code [20; 34; 104]%N ->
  exists s q, In q ["help"; "version"; "show-structure"]%string /\ spells s q /\ In (str "--" ++ s) args.
Proof.
  induction n as [|n IH]; intros args code v Hn I C.
  { destruct args; [destruct I|cbn in Hn; lia]. }
  destruct args as [|w args]; [destruct I|]. cbn [length] in Hn.
  assert (Next : In (code, v) (fst (getopt_all args)) -> exists s q, In q ["help"; "version"; "show-structure"]%string /\ spells s q /\ In (str "--" ++ s) (w :: args)).
  { intros X. destruct (IH args code v ltac:(lia) X C) as (s & q & A & B & D). exists s, q. split; [exact A|]. split; [exact B|right; exact D]. }
  assert (Codes : forall name, code = code_of name -> In name (switches ++ valued) -> In name ["help"; "version"; "show-structure"]%string).
  { intros name -> X. cbn in X. repeat destruct X as [<-|X]; try contradiction; try (cbn; tauto); vm_compute in C; intuition discriminate. }
  assert (Q : (code, v) <> question_mark) by (intros X; injection X as -> _; vm_compute in C; intuition discriminate).
  destruct (argument_cases w) as [O|[->|[(body & Nb & ->)|(c & letters & Nc & ->)]]].
  - rewrite (getopt_operand w args O) in I. exact (Next I).
  - destruct I.
  - rewrite (getopt_long_arg body args Nb) in I. unfold long_case in I. destruct (split_value body) as [s x] eqn:Sp. apply split_inv in Sp. subst body.
    destruct (find_long s) as [[b c]|] eqn:F.
    2: { destruct (getopt_all args). destruct I as [I|I]; [symmetry in I; destruct (Q I)|exact (Next I)]. }
    destruct (find_long_found s b c F) as (name & Sn & K & ->). destruct b.
    + assert (V : forall y, (code_of name, Some y) = (code, v) -> False).
      { intros y X. injection X as X _. assert (J := Codes name (eq_sym X) (in_or_app _ _ _ (or_intror K))).
        apply (kinds_apart name); [|exact K]. destruct J as [<-|[<-|[<-|[]]]]; cbn; tauto. }
      destruct x as [x|].
      * destruct (getopt_all args). destruct I as [I|I]; [destruct (V _ I)|exact (Next I)].
      * destruct args as [|y args]; [destruct I as [I|[]]; symmetry in I; destruct (Q I)|]. cbn [length] in Hn.
        assert (Next2 : In (code, v) (fst (getopt_all args)) -> exists s q, In q ["help"; "version"; "show-structure"]%string /\ spells s q /\ In (str "--" ++ s) args).
        { intros X. exact (IH args code v ltac:(lia) X C). }
        destruct (getopt_all args). destruct I as [I|I]; [destruct (V _ I)|]. destruct (Next2 I) as (s' & q & A & B & D). exists s', q.
        split; [exact A|]. split; [exact B|right; right; exact D].
    + destruct (getopt_all args). destruct I as [I|I]; [|exact (Next I)]. destruct x as [x|]; [symmetry in I; destruct (Q I)|].
      injection I as I _. exists s, name. split; [apply (Codes name (eq_sym I)); apply in_or_app; left; exact K|]. split; [exact Sn|left; rewrite app_nil_r; reflexivity].
  - rewrite (getopt_letters c letters args Nc) in I. cbn [fst] in I. apply in_app_or in I. destruct I as [I|I]; [|exact (Next I)].
    exfalso. apply in_map_iff in I. destruct I as (x & E & _). unfold short_option in E. destruct (Ascii.eqb x "v"); [|symmetry in E; exact (Q E)].
    injection E as <- _. vm_compute in C. intuition discriminate.
Qed.
Lemma options_inl : forall es s n, CLoptions s es = inl n -> n = 1%N \/ n = 0%N /\ exists code v, In (code, v) es /\ In code [20; 34; 104]%N.
Proof.
  induction es as [|[code v] es IH]; intros s n H; [discriminate H|]. cbn [CLoptions] in H.
  destruct (CLoption s (code, v)) as [m|s1] eqn:E.
  - injection H as <-. unfold CLoption in E. destruct s as [ve vy pr br co se sh de ba di it bp]. cbn [fst snd] in E.
    assert (X : In code [20; 34; 104]%N \/ ~ In code [20; 34; 104]%N) by (destruct (in_dec N.eq_dec code [20; 34; 104]%N); auto).
    destruct X as [X|X].
    + right. destruct X as [<-|[<-|[<-|[]]]]; injection E as <-; (split; [reflexivity|]); eexists; exists v; (split; [left; reflexivity|]); cbn; tauto.
    + left. repeat match type of E with
      | inr _ = inl _ => discriminate E
      | inl 1%N = inl _ => injection E as <-; reflexivity
      | inl 0%N = inl _ => exfalso; apply X; cbn; tauto
      | match ?x with _ => _ end = _ => destruct x
      end.
  - destruct (IH s1 n H) as [->|(-> & c & w & I & C)]; [left; reflexivity|]. right. split; [reflexivity|]. exists c, w. split; [right; exact I|exact C].
Qed.

Theorem C57_otherwise : forall args,
  match CLprocessArgs args with
  | Val (inr _) => True
  | Val (inl n) => n = 1%N \/ n = 0%N /\ exists s q, In q ["help"; "version"; "show-structure"]%string /\ spells s q /\ In (str "--" ++ s) args
  | Undef => exists l, writes_line l args /\ proper l /\ directory_of l = []
  | Aborted | Exited | NoFuel => False
  end.
Proof.
  intros args. unfold CLprocessArgs. destruct (getopt_all args) as [es ws] eqn:G. destruct (CLoptions initial es) as [n|s] eqn:E.
  - destruct (options_inl es initial n E) as [->|(-> & c & v & I & C)]; [left; reflexivity|]. right. split; [reflexivity|].
    apply (returned_question (length args) args c v (le_n _)); [rewrite G; exact I|exact C].
  - rewrite dirify. destruct (list_eq_dec _ _ []) as [Em|_].
    + cbn [bind]. destruct (getopt_reads (length args) args (le_n _)) as (l & W & E1 & E2).
      { rewrite G. intros I. destruct (question_mark_stops es initial I) as (n & X). congruence. }
      rewrite G in E1. cbn [fst] in E1. subst es. assert (P := options_inr l initial s (line_ok l args W) E).
      exists l. split; [exact W|]. split; [apply proper_fine; exact P|].
      destruct (options_fine l initial (line_ok l args W) P) as (s' & E' & F). rewrite E in E'. injection E' as <-.
      rewrite <- Em. symmetry. apply last_default. apply F.
    + cbn [bind]. destruct ws as [|f [|]]; auto.
Qed.
Print Assumptions C57_otherwise.

Section Runs.
  Context {P : Type}.
  Variable source : cstring -> option ast.
  Variable shuffle : list (graph_key * ag_graph) -> list (graph_key * ag_graph).
  Variable iteration : list nat -> list nat.
  Variable content : string -> nat -> list P.
  Variable rounds stage : nat.
  Notation run := (main source shuffle iteration content rounds stage).

  Lemma generate_cocogen : forall dir backend input mx d, generate shuffle iteration content rounds stage dir backend input mx None d =
    let r := cocogen dir backend input shuffle mx iteration content rounds stage d in (fst r, status (snd r)).
  Proof. intros dir backend input mx d. unfold generate, cocogen. change (set_breakpoint None driver0) with driver0. destruct (CCNrun _ _ _ _ _ _) as [s|[] s]; reflexivity. Qed.

  (** The meaning of a line for a run *)
  Lemma main_line : forall l args t d file n, writes_line l args -> proper l -> operands l = [file] -> directory_of l <> [] ->
    reads_number (value "ag-scheduler-max-iter" (str "1000") l) n ->
    run args t d = (let (t, ok) := ensure_all t (directories (with_slash (directory_of l))) in
      if ok then let (d, o) := generate shuffle iteration content rounds stage (with_slash (directory_of l)) (value "backend" (str "dynamic") l) (source file) (N.to_nat n)
                                 (last (map Some (values "breakpoint" l)) None) d in (t, d, o)
      else (t, d, Val 1%N)).
  Proof.
    intros l args t d file n W Pr O N Nu. destruct (proper_line l args W Pr) as (s & F & E). rewrite O in E.
    destruct (list_eq_dec _ (directory_of l) []) as [|_]; [contradiction|]. unfold main. rewrite E.
    destruct F as (_ & _ & _ & _ & _ & F6 & _ & F8 & F9). apply strtoul_iff in Nu. rewrite (number_default s l F9) in Nu. injection Nu as <-.
    assert (B : match s_backend s with None => TablesModel.text "dynamic" | Some b => b end = value "backend" (str "dynamic") l) by exact (last_default _ _ _ F6).
    rewrite B. unfold value_fact in F8. cbn [s_breakpoint initial] in F8. rewrite F8. reflexivity.
  Qed.
End Runs.

(** How a line is written does not matter: not the place of the operand, not
    the order of different options, nor their spelling.  The result of a run
    depends on four options only. *)
Theorem C57_order : forall (P : Type) source shuffle iteration (content : string -> nat -> list P) rounds stage l l' args args' t d,
  writes_line l args -> writes_line l' args' -> proper l -> proper l' -> operands l = operands l' ->
  (forall name, In name ["backend"; "gen-dir"; "breakpoint"; "ag-scheduler-max-iter"]%string -> values name l = values name l') ->
  main source shuffle iteration content rounds stage args t d = main source shuffle iteration content rounds stage args' t d.
Proof.
  intros P source shuffle iteration content rounds stage l l' args args' t d W W' Pr Pr' O V.
  assert (D : directory_of l = directory_of l') by (unfold directory_of, value; rewrite V; [reflexivity|cbn; tauto]).
  assert (Hn : value "ag-scheduler-max-iter" (str "1000") l = value "ag-scheduler-max-iter" (str "1000") l') by (unfold value; rewrite V; [reflexivity|cbn; tauto]).
  destruct (proper_line l args W Pr) as (s & F & E). destruct (proper_line l' args' W' Pr') as (s' & F' & E'). rewrite <- D, <- O in E'.
  destruct (list_eq_dec ascii_dec (directory_of l) []) as [Em|N]; [unfold main; rewrite E, E'; reflexivity|].
  destruct (operands l) as [|f [|]] eqn:Ol; [unfold main; rewrite E, E'; reflexivity| |unfold main; rewrite E, E'; reflexivity].
  destruct (C57_settings l args s _ f W E) as (_ & Nu & _).
  rewrite (main_line source shuffle iteration content rounds stage l args t d f (s_max_iter s) W Pr Ol N Nu).
  rewrite (main_line source shuffle iteration content rounds stage l' args' t d f (s_max_iter s) W' Pr' (eq_sym O)).
  - rewrite <- D. unfold value. rewrite !V by (cbn; tauto). reflexivity.
  - rewrite <- D. exact N.
  - rewrite <- Hn. exact Nu.
Qed.
Print Assumptions C57_order.

(** A proper line starts a run for the specification that it names, with the
    directory, backend and limit that it gives, after the directories have
    been made and without any other change. *)
Theorem C57_run : forall (P : Type) source shuffle iteration (content : string -> nat -> list P) rounds stage l args t d file n,
  writes_line l args -> proper l -> operands l = [file] -> directory_of l <> [] -> values "breakpoint" l = [] ->
  reads_number (value "ag-scheduler-max-iter" (str "1000") l) n ->
  let dir := with_slash (directory_of l) in
  t dir = Some Directory \/ t (parent dir) = Some Directory -> (forall q, In q (wanted_directories dir) -> t q <> Some Other) ->
  exists t',
    main source shuffle iteration content rounds stage args t d =
      (t', fst (cocogen dir (value "backend" (str "dynamic") l) (source file) shuffle (N.to_nat n) iteration content rounds stage d),
       status (snd (cocogen dir (value "backend" (str "dynamic") l) (source file) shuffle (N.to_nat n) iteration content rounds stage d))) /\
    forall q, t' q = if in_dec (list_eq_dec ascii_dec) q (wanted_directories dir) then Some Directory else t q.
Proof.
  intros P source shuffle iteration content rounds stage l args t d file n W Pr O N B Nu dir D Ot.
  rewrite (main_line source shuffle iteration content rounds stage l args t d file n W Pr O N Nu). fold dir. rewrite B. cbn [map last].
  assert (S : ends_slash dir).
  { unfold dir, with_slash. destruct (ascii_dec (last (directory_of l) "/"%char) "/") as [E|_].
    - exists (removelast (directory_of l)). rewrite (app_removelast_last "/"%char N) at 1. rewrite E. reflexivity.
    - exists (directory_of l). reflexivity. }
  destruct (directories_made t dir S D Ot) as (t' & E & H). rewrite E. cbv zeta. rewrite generate_cocogen. exists t'. split; [reflexivity|exact H].
Qed.
Print Assumptions C57_run.

(** Each file that a run writes (C55) lies directly in one of these
    directories. *)
Theorem C57_files : forall t p rounds dir path, reads_file t p ->
  In path (map fst (outputs (ast_of p))) \/ In path (dot_files rounds) \/ path = str "log/ag_schedule.log" ->
  exists q, In q (wanted_directories dir) /\ lies_in q (dir ++ path).
Proof.
  intros t p rounds dir path F [I|I]; [exact (outputs_places t p dir path F I)|exact (diagnostic_places rounds dir path I)].
Qed.
Print Assumptions C57_files.

(** Without the directory above, the program ends with status 1 and leaves
    everything as it was; so it does for lines that are wrong. *)
Theorem C57_untouched : forall (P : Type) source shuffle iteration (content : string -> nat -> list P) rounds stage args t d,
  (forall s dir file, CLprocessArgs args = Val (inr (s, dir, file)) -> t dir = Some Other \/ t dir = None /\ t (parent dir) <> Some Directory) ->
  exists o, main source shuffle iteration content rounds stage args t d = (t, d, o).
Proof.
  intros P source shuffle iteration content rounds stage args t d H. unfold main.
  destruct (CLprocessArgs args) as [[n|[[s dir] file] ]| | | |]; try (eexists; reflexivity). specialize (H s dir file eq_refl).
  exists (Val 1%N). unfold directories. cbn [ensure_all]. unfold FSensureDirExists. destruct H as [->|(-> & N)]; [reflexivity|].
  destruct (t (parent dir)) as [[]|]; [destruct (N eq_refl)|reflexivity|reflexivity].
Qed.
Print Assumptions C57_untouched.

(** ** Instances *)

Lemma unique_spelling : forall s name, In name (switches ++ valued) -> begins (str s) (str name) = true ->
  forallb (fun other => negb (begins (str s) (str other)) || String.eqb other name) (switches ++ valued) = true -> spells (str s) name.
Proof.
  intros s name I B F. split; [exact I|]. right. split; [apply begins_iff; exact B|]. intros other Io Po. rewrite forallb_forall in F. specialize (F other Io).
  apply orb_true_iff in F. destruct F as [F|F]; [|apply String.eqb_eq; exact F]. apply begins_iff in Po. rewrite Po in F. discriminate F.
Qed.
Definition line_items : list item :=
  [Valued "gen-dir" (str "old"); Operand (str "spec.ccn"); Switch "show-ast"; Valued "ag-scheduler-max-iter" (str "200"); Vs 1; Valued "gen-dir" (str "gen")].
Definition line : list cstring :=
  map str ["--gen-dir=old"; "spec.ccn"; "--show-a"; "--ag"; "200"; "-vv"; "--gen-dir"; "gen"]%string.
Lemma line_written : writes_line line_items line.
Proof.
  apply (writes_item _ [str "--gen-dir=old"]); [apply (writes_joined (str "gen-dir") "gen-dir" (str "old")); [cbn; tauto|split; [cbn; tauto|left; reflexivity] ]|].
  apply (writes_item _ [str "spec.ccn"]); [apply writes_operand; right; discriminate|].
  apply (writes_item _ [str "--show-a"]); [apply (writes_switch (str "show-a") "show-ast"); [cbn; tauto|apply unique_spelling; [cbn; tauto|reflexivity|reflexivity] ]|].
  apply (writes_item _ [str "--ag"; str "200"]); [apply (writes_apart (str "ag") "ag-scheduler-max-iter"); [cbn; tauto|apply unique_spelling; [cbn; tauto|reflexivity|reflexivity] ]|].
  apply (writes_item _ [str "-vv"]); [exact (writes_vs 1)|].
  apply (writes_item _ [str "--gen-dir"; str "gen"]); [apply (writes_apart (str "gen-dir") "gen-dir"); [cbn; tauto|split; [cbn; tauto|left; reflexivity] ]|constructor].
Qed.
Lemma line_proper : proper line_items.
Proof.
  apply proper_fine. repeat constructor; try (intros [H|[H|H] ]; discriminate H); try (intros (v & H & _); discriminate H).
  intros (v & H & E). injection H as <-. vm_compute in E. discriminate E.
Qed.

(** The working directory, with a directory for output of an earlier run *)
Definition here : CommandLineModel.tree :=
  fun q => if is_in q [str ""; str "gen/"; str "gen/user/"] then Some Directory else if is_in q [str "gen/makefile"] then Some Other else None.
Definition sources (file : cstring) : option ast := if same_name file (str "spec.ccn") then Some stubs_ast else None.

Example C57_instance : exists t' d', operands line_items = [str "spec.ccn"] /\ with_slash (directory_of line_items) = str "gen/" /\
  reads_number (value "ag-scheduler-max-iter" (str "1000") line_items) 200 /\
  main sources (fun l => l) (fun l => l) (written "new") 1 2 line here old = (t', d', Val 0%N) /\
  map t' (wanted_directories (str "gen/")) = repeat (Some Directory) 6 /\
  d' (str "gen/user/trav_names.c") = Some [("new", ("dynamicUserGenTraversals", 1))]%string /\ d' (str "gen/makefile") = old (str "gen/makefile").
Proof.
  destruct (main sources (fun l => l) (fun l => l) (written "new") 1 2 line here old) as [ [t' d'] o] eqn:R. exists t', d'.
  split; [reflexivity|]. split; [reflexivity|]. split; [apply strtoul_iff; reflexivity|].
  assert (X : (o, map t' (wanted_directories (str "gen/")), d' (str "gen/user/trav_names.c"), d' (str "gen/makefile")) =
    (Val 0%N, repeat (Some Directory) 6, Some [("new", ("dynamicUserGenTraversals", 1))]%string, old (str "gen/makefile"))).
  { transitivity (let '(t', d', o) := main sources (fun l => l) (fun l => l) (written "new") 1 2 line here old in
      (o, map t' (wanted_directories (str "gen/")), d' (str "gen/user/trav_names.c"), d' (str "gen/makefile"))).
    - rewrite R. reflexivity.
    - vm_compute. reflexivity. }
  apply pair_equal_spec in X. destruct X as [X X3]. apply pair_equal_spec in X. destruct X as [X X2]. apply pair_equal_spec in X. destruct X as [-> X1].
  split; [reflexivity|]. split; [exact X1|]. split; [exact X2|exact X3].
Qed.
(** A question, and lines that are wrong: an unknown option, a beginning of
    several names, no operand, two operands, a value that is missing *)
Example C57_other_lines :
  map (fun l => CLprocessArgs (map str l))
    [["-v"; "--help"; "--unknown"]; ["--unknown"; "f"]; ["--ver"; "f"]; ["-v"]; ["f"; "--"; "-v"]; ["f"; "--backend"] ]%string =
  Val (inl 0%N) :: repeat (Val (inl 1%N)) 5.
Proof. vm_compute. reflexivity. Qed.

(** ** What does not hold *)

(** The description of the options names the options -b, with a breakpoint, and
    -v, which is the same as --verbose.  There is no option -b, and --verbose
    does not show the actions of the compiler. *)
Theorem C57_described_refuted :
  CLprocessArgs (map str ["-b"; "semantic"; "f"]%string) = Val (inl 1%N) /\
  (exists s, CLprocessArgs (map str ["--verbose"; "f"]%string) = Val (inr (s, str "ccngen/", str "f")) /\ s_verbosity s = false) /\
  (exists s, CLprocessArgs (map str ["-v"; "f"]%string) = Val (inr (s, str "ccngen/", str "f")) /\ s_verbosity s = true).
Proof. split; [reflexivity|]. split; eexists; (split; [vm_compute; reflexivity|reflexivity]). Qed.
Print Assumptions C57_described_refuted.

(** --consistency-checks, like --profiling, --serialise, --breakpoints,
    --inspectpoints and --dot, is accepted everywhere and has no effect. *)
Theorem C57_consistency_checks_refuted : forall (P : Type) source shuffle iteration (content : string -> nat -> list P) rounds stage l1 l2 i args args' t d,
  In i [Switch "consistency-checks"; Switch "profiling"; Switch "serialise"; Switch "breakpoints"; Switch "inspectpoints"; Valued "dot" (str "f")] ->
  writes_line (l1 ++ l2) args -> writes_line (l1 ++ i :: l2) args' -> proper (l1 ++ l2) ->
  main source shuffle iteration content rounds stage args' t d = main source shuffle iteration content rounds stage args t d.
Proof.
  intros P source shuffle iteration content rounds stage l1 l2 i args args' t d I W W' Pr. symmetry.
  apply (C57_order P source shuffle iteration content rounds stage (l1 ++ l2) (l1 ++ i :: l2) args args' t d W W' Pr).
  - apply proper_fine in Pr. apply Forall_app in Pr. apply proper_fine. apply Forall_app. split; [apply Pr|]. constructor; [|apply Pr].
    cbn in I. split.
    + intros [H|[H|H] ]; subst i; intuition discriminate.
    + intros (v & -> & _). intuition discriminate.
  - unfold operands. rewrite !flat_map_app. f_equal. cbn in I. repeat destruct I as [<-|I]; try contradiction; reflexivity.
  - intros name Hn. unfold values. rewrite !flat_map_app. f_equal. cbn in I. repeat destruct I as [<-|I]; try contradiction; try reflexivity.
    cbn in Hn. repeat destruct Hn as [<-|Hn]; try contradiction; reflexivity.
Qed.
Print Assumptions C57_consistency_checks_refuted.

(** The limit of the scheduler need not be a number: text after it is ignored,
    and with a minus sign it is a very large number. *)
Theorem C57_limit_refuted : exists s s',
  CLprocessArgs (map str ["--ag-scheduler-max-iter"; "20,5 %"; "f"]%string) = Val (inr (s, str "ccngen/", str "f")) /\ s_max_iter s = 20%N /\
  CLprocessArgs (map str ["--ag-scheduler-max-iter"; "-1"; "f"]%string) = Val (inr (s', str "ccngen/", str "f")) /\ s_max_iter s' = (2 ^ 64 - 1)%N.
Proof. eexists. eexists. split; [vm_compute; reflexivity|]. split; [reflexivity|]. split; [vm_compute; reflexivity|reflexivity]. Qed.
Print Assumptions C57_limit_refuted.

(** An empty name of the directory is not rejected: the character before the
    text is looked at. *)
Theorem C57_empty_directory_refuted : CLprocessArgs (map str ["--gen-dir="; "f"]%string) = Undef.
Proof. vm_compute. reflexivity. Qed.
Print Assumptions C57_empty_directory_refuted.
