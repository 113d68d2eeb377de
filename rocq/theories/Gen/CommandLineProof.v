(** Lemmas about the command line. *)

From Coq Require Import String.
From Coq Require Import List Ascii Bool NArith Lia.
From Verif Require Import Base.Outcome Palm.StrModel Gen.AccessModel Gen.TablesModel Gen.RunSpec Gen.CommandLineModel Gen.CommandLineSpec.
Import ListNotations.
Local Open Scope list_scope.

Lemma same_name_iff : forall s t, same_name s t = true <-> s = t.
Proof.
  induction s as [|c s IH]; intros [|d t]; cbn; try (split; intros; congruence).
  rewrite andb_true_iff, Ascii.eqb_eq, IH. split; [intros [-> ->]; reflexivity|intros E; injection E as -> ->; auto].
Qed.
Lemma begins_iff : forall s t, begins s t = true <-> prefix_of s t.
Proof.
  induction s as [|c s IH]; intros [|d t]; cbn.
  - split; [exists []; reflexivity|reflexivity].
  - split; [exists (d :: t); reflexivity|reflexivity].
  - split; [discriminate|intros (r & E); discriminate E].
  - rewrite andb_true_iff, Ascii.eqb_eq, IH. split; [intros [-> (r & ->)]; exists r; reflexivity|intros (r & E); injection E as -> ->; split; [reflexivity|exists r; reflexivity]].
Qed.
Lemma str_inj : forall s t, str s = str t -> s = t.
Proof. intros s t E. rewrite <- (string_of_list_ascii_of_string s), <- (string_of_list_ascii_of_string t). unfold str in E. rewrite E. reflexivity. Qed.

(** The table *)
Definition name_of (e : string * bool * N) : string := fst (fst e).
Definition code_of (name : string) : N :=
  match find (fun e => String.eqb (name_of e) name) long_options with Some e => snd e | None => 63%N end.

Lemma names_distinct : NoDup (map name_of long_options).
Proof. repeat (constructor; [cbn; intuition discriminate|]). constructor. Qed.
Lemma table_names : forall name, In name (switches ++ valued) <-> In name (map name_of long_options).
Proof. intros name. cbn. intuition. Qed.
Lemma entry_of : forall name, In name (switches ++ valued) -> exists e, In e long_options /\ name_of e = name.
Proof. intros name H. apply table_names, in_map_iff in H. destruct H as (e & E & I). exists e. auto. Qed.
Lemma entry_kind : forall e, In e long_options ->
  snd e = code_of (name_of e) /\ (if snd (fst e) then In (name_of e) valued else In (name_of e) switches).
Proof. assert (H : Forall (fun e => snd e = code_of (name_of e) /\ (if snd (fst e) then In (name_of e) valued else In (name_of e) switches)) long_options).
  { repeat (constructor; [split; [reflexivity|cbn; tauto]|]). constructor. }
  rewrite Forall_forall in H. exact H. Qed.
Lemma kinds_apart : forall name, In name switches -> In name valued -> False.
Proof. intros name H. cbn in H. repeat destruct H as [<-|H]; try contradiction; cbn; intuition discriminate. Qed.
Lemma same_entry : forall e e', In e long_options -> In e' long_options -> name_of e = name_of e' -> e = e'.
Proof.
  assert (N := names_distinct). induction long_options as [|x l IH]; [intros e e' []|]. cbn [map] in N. apply NoDup_cons_iff in N. destruct N as [N Nd].
  intros e e' [->|I] [->|I'] E; [reflexivity| | |exact (IH Nd e e' I I' E)].
  - destruct N. rewrite E. apply in_map. exact I'.
  - destruct N. rewrite <- E. apply in_map. exact I.
Qed.

Lemma filter_one {A B} (f : A -> B) (p : A -> bool) (l : list A) e :
  NoDup (map f l) -> In e l -> p e = true -> (forall e', In e' l -> p e' = true -> f e' = f e) -> filter p l = [e].
Proof.
  induction l as [|x l IH]; intros N I P H; [destruct I|]. cbn [map] in N. apply NoDup_cons_iff in N. destruct N as [N Nd].
  assert (R : forall e0, In e0 l -> f e0 = f x -> False) by (intros e0 I0 E; apply N; rewrite <- E; apply in_map; exact I0).
  cbn [filter]. destruct I as [->|I].
  - rewrite P. f_equal. clear - R H. assert (H' : forall e', In e' l -> p e' = true -> f e' = f e) by (intros; apply H; [right|]; assumption). clear H.
    induction l as [|y l IH]; [reflexivity|]. cbn [filter]. destruct (p y) eqn:E.
    + destruct (R y (or_introl eq_refl) (H' y (or_introl eq_refl) E)).
    + apply IH; [intros e0 I0; apply R; right; exact I0|intros e' I'; apply H'; right; exact I'].
  - destruct (p x) eqn:E.
    + destruct (R e I). symmetry. exact (H x (or_introl eq_refl) E).
    + apply IH; auto. intros e' I'. apply H. right. exact I'.
Qed.

Lemma find_long_spells : forall s name (b : bool), spells s name -> (if b then In name valued else In name switches) ->
  find_long s = Some (b, code_of name).
Proof.
  intros s name b (I & H) K. destruct (entry_of name I) as (e & Ie & <-).
  assert (X : (snd (fst e), snd e) = (b, code_of (name_of e))).
  { destruct (entry_kind e Ie) as (-> & K'). f_equal. destruct (snd (fst e)), b; try reflexivity; destruct (kinds_apart (name_of e)); assumption. }
  unfold find_long. destruct (find _ long_options) as [e'|] eqn:F.
  - apply find_some in F. destruct F as (I' & F). apply same_name_iff in F. change (s = str (name_of e')) in F.
    assert (E : name_of e' = name_of e).
    { destruct H as [H|(_ & H)]; [apply str_inj; congruence|]. apply H; [apply table_names, in_map; exact I'|exists []; rewrite app_nil_r; symmetry; exact F]. }
    rewrite (same_entry e' e I' Ie E). rewrite X. reflexivity.
  - destruct H as [H|(Pr & H)].
    + exfalso. assert (Fn := find_none _ _ F e Ie). cbn beta in Fn. assert (T : same_name s (entry_name e) = true) by (apply same_name_iff; exact H). congruence.
    + rewrite (filter_one name_of _ long_options e names_distinct Ie); [rewrite X; reflexivity|apply begins_iff; exact Pr|].
      intros e' I' B. apply begins_iff in B. apply H; [apply table_names, in_map; exact I'|exact B].
Qed.

Lemma find_long_found : forall s (b : bool) code, find_long s = Some (b, code) -> exists name,
  spells s name /\ (if b then In name valued else In name switches) /\ code = code_of name.
Proof.
  intros s b code H. unfold find_long in H. destruct (find _ long_options) as [e|] eqn:F.
  - apply find_some in F. destruct F as (I & F). apply same_name_iff in F. injection H as <- <-. exists (name_of e).
    destruct (entry_kind e I) as (C & K). split; [|split; [exact K|exact C]]. split; [apply table_names, in_map; exact I|left; exact F].
  - destruct (filter _ long_options) as [|e [|]] eqn:Fi; try discriminate H. injection H as <- <-. exists (name_of e).
    assert (Ie : In e (filter (fun e => begins s (entry_name e)) long_options)) by (rewrite Fi; left; reflexivity).
    apply filter_In in Ie. destruct Ie as (I & B). apply begins_iff in B. destruct (entry_kind e I) as (C & K). split; [|split; [exact K|exact C]].
    split; [apply table_names, in_map; exact I|]. right. split; [exact B|]. intros other Io Po.
    destruct (entry_of other Io) as (e' & I' & <-). assert (X : In e' (filter (fun e => begins s (entry_name e)) long_options)).
    { apply filter_In. split; [exact I'|apply begins_iff; exact Po]. }
    rewrite Fi in X. destruct X as [->|[]]. reflexivity.
Qed.

(** Spellings have no '='. *)
Lemma spelling_plain : forall s name, spells s name -> ~ In "="%char s.
Proof.
  intros s name (I & H) E.
  assert (In "="%char (str name)) by (destruct H as [->|((r & ->) & _)]; [exact E|apply in_or_app; left; exact E]).
  cbn in I. repeat destruct I as [<-|I]; try contradiction; cbn in H0; intuition discriminate.
Qed.
Lemma split_plain : forall s, ~ In "="%char s -> split_value s = (s, None).
Proof.
  induction s as [|c s IH]; intros N; [reflexivity|]. cbn. destruct (Ascii.eqb_spec c "=") as [->|D]; [destruct N; left; reflexivity|].
  rewrite IH; [reflexivity|intros I; apply N; right; exact I].
Qed.
Lemma split_joined : forall s v, ~ In "="%char s -> split_value (s ++ str "=" ++ v) = (s, Some v).
Proof.
  induction s as [|c s IH]; intros v N; [reflexivity|]. cbn [app split_value]. destruct (Ascii.eqb_spec c "=") as [->|D]; [destruct N; left; reflexivity|].
  rewrite IH; [reflexivity|intros I; apply N; right; exact I].
Qed.
Lemma split_inv : forall b s v, split_value b = (s, v) -> b = s ++ match v with None => [] | Some v => str "=" ++ v end.
Proof.
  induction b as [|c b IH]; intros s v H; [injection H as <- <-; reflexivity|]. cbn in H. destruct (Ascii.eqb_spec c "=") as [->|D].
  - injection H as <- <-. reflexivity.
  - destruct (split_value b) as [n w]. injection H as <- <-. rewrite (IH n w eq_refl). reflexivity.
Qed.

(** What getopt_long returns for an item *)
Definition events (i : item) : list returned :=
  match i with
  | Operand _ => []
  | Switch name => [(code_of name, None)]
  | Valued name v => [(code_of name, Some v)]
  | Vs n => repeat (118%N, None) (S n)
  end.

Lemma spelling_nonempty : forall s name, spells s name -> s <> [].
Proof.
  intros s name (I & [->|(_ & H)]) E.
  - cbn in I. repeat destruct I as [<-|I]; try contradiction; discriminate E.
  - subst s. assert (A := H "verbose"%string (or_introl eq_refl) (ex_intro _ _ eq_refl)).
    assert (B := H "help"%string (or_intror (or_introl eq_refl)) (ex_intro _ _ eq_refl)). congruence.
Qed.

(** The first argument *)
Lemma getopt_operand : forall w rest, operand_like w ->
  getopt_all (w :: rest) = (fst (getopt_all rest), w :: snd (getopt_all rest)).
Proof.
  intros w rest [->|H]; [cbn; destruct (getopt_all rest); reflexivity|].
  destruct w as [|c w]; [cbn; destruct (getopt_all rest); reflexivity|].
  destruct (ascii_dec c "-") as [->|D]; [destruct (H w eq_refl)|].
  cbn [getopt_all]. destruct c as [[] [] [] [] [] [] [] []]; try (destruct (getopt_all rest); reflexivity). destruct D. reflexivity.
Qed.
Definition long_case (body : cstring) (rest : list cstring) : list returned * list cstring :=
          let (name, value) := split_value body in
          match find_long name with
          | None => let (l, w) := getopt_all rest in (question_mark :: l, w)
          | Some (false, code) =>
              let (l, w) := getopt_all rest in
              ((match value with None => (code, None) | Some _ => question_mark end) :: l, w)
          | Some (true, code) =>
              match value with
              | Some v => let (l, w) := getopt_all rest in ((code, Some v) :: l, w)
              | None =>
                  match rest with
                  | [] => ([question_mark], [])
                  | v :: rest => let (l, w) := getopt_all rest in ((code, Some v) :: l, w)
                  end
              end
          end.
Lemma getopt_long_arg : forall body rest, body <> [] -> getopt_all ((str "--" ++ body) :: rest) = long_case body rest.
Proof. intros [|c body] rest H; [destruct (H eq_refl)|]. reflexivity. Qed.
Lemma getopt_letters : forall c letters rest, c <> "-"%char ->
  getopt_all (("-"%char :: c :: letters) :: rest) = (map short_option (c :: letters) ++ fst (getopt_all rest), snd (getopt_all rest)).
Proof.
  intros c letters rest H. cbn [getopt_all]. destruct c as [[] [] [] [] [] [] [] []];
    try (destruct (getopt_all rest); reflexivity). destruct H. reflexivity.
Qed.

Lemma operands_cons : forall i l, operands (i :: l) = match i with Operand w => [w] | _ => [] end ++ operands l.
Proof. reflexivity. Qed.
Lemma operands_only : forall ws, operands (map Operand ws) = ws /\ flat_map events (map Operand ws) = [].
Proof. induction ws as [|w ws (A & B)]; [split; reflexivity|]. split; [|exact B]. change (w :: operands (map Operand ws) = w :: ws). rewrite A. reflexivity. Qed.

Lemma getopt_writes : forall l args, writes_line l args -> getopt_all args = (flat_map events l, operands l).
Proof.
  intros l args H. induction H as [|ws|i l its args W H IH].
  - reflexivity.
  - destruct (operands_only ws) as (A & B). rewrite A, B. reflexivity.
  - destruct W as [w O|s name I S|s name v I S|s name v I S|n].
    + cbn [app flat_map events operands]. rewrite (getopt_operand w args O), IH. reflexivity.
    + cbn [app]. rewrite (getopt_long_arg _ _ (spelling_nonempty s name S)). unfold long_case.
      rewrite (split_plain s (spelling_plain s name S)), (find_long_spells s name false S I), IH. reflexivity.
    + cbn [app]. assert (N : s ++ str "=" ++ v <> []) by (intros E; apply app_eq_nil in E; destruct E as [_ E]; discriminate E).
      change ([str "--" ++ s ++ str "=" ++ v] ++ args) with ((str "--" ++ (s ++ str "=" ++ v)) :: args).
      rewrite (getopt_long_arg _ _ N). unfold long_case.
      rewrite (split_joined s v (spelling_plain s name S)), (find_long_spells s name true S I), IH. reflexivity.
    + change ([str "--" ++ s; v] ++ args) with ((str "--" ++ s) :: v :: args). rewrite (getopt_long_arg _ _ (spelling_nonempty s name S)). unfold long_case.
      rewrite (split_plain s (spelling_plain s name S)), (find_long_spells s name true S I), IH. reflexivity.
    + cbn [repeat]. change (["-"%char :: "v"%char :: repeat "v"%char n] ++ args) with (("-"%char :: "v"%char :: repeat "v"%char n) :: args).
      rewrite getopt_letters by discriminate. rewrite IH. cbn [fst snd flat_map operands events repeat app map].
      replace (map short_option (repeat "v"%char n)) with (repeat (118%N, @None cstring) n) by (induction n as [|n IHn]; [reflexivity|cbn; rewrite IHn; reflexivity]).
      reflexivity.
Qed.

Lemma letters_vs : forall letters, ~ In question_mark (map short_option letters) -> letters = repeat "v"%char (length letters).
Proof.
  induction letters as [|c l IH]; intros N; [reflexivity|]. cbn. f_equal.
  - unfold map, short_option in N. destruct (Ascii.eqb_spec c "v") as [->|D]; [reflexivity|]. destruct N. left. reflexivity.
  - apply IH. intros I. apply N. right. exact I.
Qed.

Lemma argument_cases : forall w : cstring, operand_like w \/ w = str "--" \/
  (exists body, body <> [] /\ w = str "--" ++ body) \/ (exists c letters, c <> "-"%char /\ w = "-"%char :: c :: letters).
Proof.
  intros [|c w]; [left; right; discriminate|]. destruct (ascii_dec c "-") as [->|D]; [|left; right; intros r E; congruence].
  destruct w as [|c w]; [left; left; reflexivity|]. destruct (ascii_dec c "-") as [->|D].
  - destruct w as [|c w]; [right; left; reflexivity|]. right. right. left. exists (c :: w). split; [discriminate|reflexivity].
  - right. right. right. exists c, w. auto.
Qed.

Lemma getopt_reads : forall n args, length args <= n -> ~ In question_mark (fst (getopt_all args)) ->
  exists l, writes_line l args /\ fst (getopt_all args) = flat_map events l /\ snd (getopt_all args) = operands l.
Proof.
  induction n as [|n IH]; intros args Hn N.
  { destruct args; [|cbn in Hn; lia]. exists []. split; [constructor|auto]. }
  destruct args as [|w args]; [exists []; split; [constructor|auto]|]. cbn [length] in Hn.
  destruct (argument_cases w) as [O|[->|[(body & Nb & ->)|(c & letters & Nc & ->)]]].
  - rewrite (getopt_operand w args O) in *. cbn [fst snd] in *. destruct (IH args ltac:(lia) N) as (l & W & E1 & E2).
    exists (Operand w :: l). split; [exact (writes_item (Operand w) [w] l args (writes_operand w O) W)|]. rewrite operands_cons. cbn [flat_map events app]. rewrite <- E1, <- E2. auto.
  - exists (map Operand args). split; [constructor|]. destruct (operands_only args) as (A & B). rewrite A, B. split; reflexivity.
  - rewrite (getopt_long_arg body args Nb) in *. unfold long_case in *. destruct (split_value body) as [s v] eqn:Sp. apply split_inv in Sp. subst body.
    destruct (find_long s) as [[b code]|] eqn:F.
    2: { destruct (getopt_all args). destruct N. left. reflexivity. }
    destruct (find_long_found s b code F) as (name & Sn & K & ->). destruct b.
    + destruct v as [v|].
      * destruct (getopt_all args) as [es ws] eqn:G. cbn [fst snd] in *. destruct (IH args ltac:(lia)) as (l & W & E1 & E2).
        { rewrite G. intros I. apply N. right. exact I. }
        rewrite G in E1, E2. cbn [fst snd] in E1, E2. exists (Valued name v :: l). split; [exact (writes_item _ _ l args (writes_joined s name v K Sn) W)|].
        rewrite operands_cons. cbn [flat_map events app]. rewrite <- E1, <- E2. auto.
      * destruct args as [|v args]; [destruct N; left; reflexivity|]. rewrite app_nil_r in *.
        destruct (getopt_all args) as [es ws] eqn:G. cbn [fst snd length] in *. destruct (IH args ltac:(lia)) as (l & W & E1 & E2).
        { rewrite G. intros I. apply N. right. exact I. }
        rewrite G in E1, E2. cbn [fst snd] in E1, E2. exists (Valued name v :: l). split; [exact (writes_item _ _ l args (writes_apart s name v K Sn) W)|].
        rewrite operands_cons. cbn [flat_map events app]. rewrite <- E1, <- E2. auto.
    + destruct (getopt_all args) as [es ws] eqn:G. cbn [fst snd] in *. destruct v as [v|]; [destruct N; left; reflexivity|]. rewrite app_nil_r in *.
      destruct (IH args ltac:(lia)) as (l & W & E1 & E2).
      { rewrite G. intros I. apply N. right. exact I. }
      rewrite G in E1, E2. cbn [fst snd] in E1, E2. exists (Switch name :: l). split; [exact (writes_item _ _ l args (writes_switch s name K Sn) W)|].
      rewrite operands_cons. cbn [flat_map events app]. rewrite <- E1, <- E2. auto.
  - rewrite (getopt_letters c letters args Nc) in *. cbn [fst snd] in *.
    destruct (IH args ltac:(lia)) as (l & W & E1 & E2). { intros I. apply N. apply in_or_app. right. exact I. }
    assert (V := letters_vs (c :: letters)). rewrite V; [|intros I; apply N; apply in_or_app; left; exact I].
    exists (Vs (length letters) :: l). split; [exact (writes_item _ _ l args (writes_vs (length letters)) W)|].
    rewrite operands_cons. cbn [flat_map events app]. rewrite <- E1, <- E2. split; [|reflexivity]. f_equal. cbn [length]. clear.
    generalize (S (length letters)) as k. induction k as [|k IH]; [reflexivity|cbn; rewrite <- IH; reflexivity].
Qed.
