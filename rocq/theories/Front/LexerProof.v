(** Proofs about keywords and the lexer's flags. *)

From Coq Require Import String.
From Coq Require Import List Ascii Bool NArith.
From Verif Require Import Base.Outcome Front.LexerModel Front.LexerSpec.
Import ListNotations.
Local Open Scope outcome_scope.
Local Open Scope string_scope.
Local Open Scope list_scope.

Lemma assoc_in : forall l w t, assoc w l = Some t -> In (w, t) l.
Proof.
  induction l as [|[x v] l IH]; intros w t E; cbn [assoc] in E; [discriminate|].
  destruct (String.eqb_spec x w) as [->|N]; [injection E as ->; now left|right; auto].
Qed.
Lemma assoc_none : forall l w, assoc w l = None -> ~ In w (map fst l).
Proof.
  induction l as [|[x v] l IH]; intros w E; cbn [assoc] in E; [intros []|].
  destruct (String.eqb_spec x w) as [->|N]; [discriminate|]. cbn [map fst]. intros [->|H]; [congruence|].
  exact (IH w E H).
Qed.
Definition subset (a b : list string) : bool := forallb (fun x => existsb (String.eqb x) b) a.
Lemma existsb_eqb : forall w l, existsb (String.eqb w) l = true <-> In w l.
Proof.
  intros w l. rewrite existsb_exists. split.
  - intros (x & I & E). apply String.eqb_eq in E. now subst.
  - intros I. exists w. split; [exact I|apply String.eqb_refl].
Qed.
Lemma subset_in : forall a b, subset a b = true -> forall w, In w a -> In w b.
Proof.
  intros a b H w I. unfold subset in H. rewrite forallb_forall in H. specialize (H w I).
  now apply existsb_eqb in H.
Qed.

Lemma keywords_words : forall w, In w (map fst keywords) <-> is_keyword w.
Proof. intros w. split; apply subset_in; vm_compute; reflexivity. Qed.
Lemma c_keywords_words : forall w, In w c_keywords <-> is_c_keyword w.
Proof. intros w. split; apply subset_in; vm_compute; reflexivity. Qed.
Lemma keyword_names : forall w t, assoc w keywords = Some t -> t = token_name w.
Proof.
  intros w t E. apply assoc_in in E.
  assert (K : forallb (fun p => String.eqb (snd p) (token_name (fst p))) keywords = true) by (vm_compute; reflexivity).
  rewrite forallb_forall in K. specialize (K _ E). now apply String.eqb_eq in K.
Qed.
Lemma keyword_found : forall w, is_keyword w -> assoc w keywords = Some (token_name w).
Proof.
  intros w K. destruct (assoc w keywords) as [t|] eqn:E.
  - now rewrite (keyword_names w t E).
  - apply assoc_none in E. destruct E. now apply keywords_words.
Qed.
Lemma keyword_not_found : forall w, ~ is_keyword w -> assoc w keywords = None.
Proof.
  intros w K. destruct (assoc w keywords) as [t|] eqn:E; [|reflexivity].
  destruct K. apply keywords_words. apply assoc_in in E. exact (in_map fst _ _ E).
Qed.

Lemma lex_app : forall ls ls' f, lex f (ls ++ ls') =
  (let! r := lex f ls in let! s := lex (fst r) ls' in Val (fst s, snd r ++ snd s)).
Proof.
  induction ls as [|l ls IH]; intros ls' f; cbn [app lex].
  - cbn [bind fst snd]. destruct (lex f ls') as [[? ?]| | | |]; reflexivity.
  - destruct (lex_one f l) as [[f1 t]| | | |]; cbn [bind fst snd]; try reflexivity.
    rewrite IH. destruct (lex f1 ls) as [[f2 ts]| | | |]; cbn [bind fst snd]; try reflexivity.
    destruct (lex f2 ls') as [[f3 ts']| | | |]; reflexivity.
Qed.

Lemma keyword_dec : forall w, is_keyword w \/ ~ is_keyword w.
Proof.
  intros w. destruct (existsb (String.eqb w) language_words) eqn:E.
  - left. now apply existsb_eqb.
  - right. intros H. apply existsb_eqb in H. congruence.
Qed.
Lemma c_keyword_dec : forall w, is_c_keyword w \/ ~ is_c_keyword w.
Proof.
  intros w. destruct (existsb (String.eqb w) c99_words) eqn:E.
  - left. now apply existsb_eqb.
  - right. intros H. apply existsb_eqb in H. congruence.
Qed.
Lemma c_keyword_test : forall w, existsb (String.eqb w) c_keywords = true <-> is_c_keyword w.
Proof. intros w. rewrite existsb_eqb. apply c_keywords_words. Qed.

Definition on (e : bool) : flags := mk_flags true e false.
Definition off (e : bool) : flags := mk_flags false e false.

Lemma lex_other : forall e l, other l ->
  (bad_name l /\ lex_one (on e) l = Exited) \/
  (~ bad_name l /\ exists t, plain l t /\ lex_one (on e) l = Val (on e, t)).
Proof.
  intros e l [N1 N2]. destruct l as [w|c| |t|t|t|t].
  - assert (w <> "enum" /\ w <> "values") as [W1 W2] by (split; congruence).
    apply String.eqb_neq in W1. apply String.eqb_neq in W2.
    cbn [lex_one]. unfold lex_word. rewrite W1, W2.
    destruct (keyword_dec w) as [K|K].
    + right. split; [intros (x & E & _ & B); injection E as <-; contradiction|].
      rewrite (keyword_found w K). eexists. split; [apply plain_keyword, K|reflexivity].
    + rewrite (keyword_not_found w K). destruct (String.eqb_spec w "NULL") as [->|Nn].
      * right. split; [|exists T_NULL; split; [constructor|reflexivity]].
        intros (x & E & C & _). injection E as <-. revert C.
        assert (existsb (String.eqb "NULL") c99_words = false) as F by reflexivity.
        intros C. apply existsb_eqb in C. congruence.
      * unfold check_c_keyword. cbn [on yy_lex_keywords negb].
        destruct (existsb (String.eqb w) c_keywords) eqn:C.
        -- left. split; [|reflexivity]. exists w. split; [reflexivity|]. split; [now apply c_keyword_test|exact K].
        -- assert (~ is_c_keyword w) as Nc by (intros H; apply c_keyword_test in H; congruence).
           right. split; [intros (x & E & B & _); injection E as <-; contradiction|].
           exists (T_ID w). split; [now apply plain_id|reflexivity].
  - right. split; [intros (x & E & _); discriminate|]. exists (T_char c). split; [constructor|].
    cbn [lex_one]. destruct (Ascii.eqb c "{"); [reflexivity|]. destruct (Ascii.eqb c "}"); reflexivity.
  - right. split; [intros (x & E & _); discriminate|]. eexists. split; [constructor|reflexivity].
  - right. split; [intros (x & E & _); discriminate|]. eexists. split; [constructor|reflexivity].
  - right. split; [intros (x & E & _); discriminate|]. eexists. split; [constructor|reflexivity].
  - right. split; [intros (x & E & _); discriminate|]. eexists. split; [constructor|reflexivity].
  - right. split; [intros (x & E & _); discriminate|]. eexists. split; [constructor|reflexivity].
Qed.

Lemma lex_others : forall e ls, Forall (fun l => other l /\ ~ brace l) ls ->
  (Exists bad_name ls /\ lex (on e) ls = Exited) \/
  (~ Exists bad_name ls /\ exists ts, Forall2 plain ls ts /\ lex (on e) ls = Val (on e, ts)).
Proof.
  intros e ls. induction ls as [|l ls IH]; intros H.
  - right. split; [intros X; inversion X|]. exists []. split; [constructor|reflexivity].
  - inversion H as [|? ? [Ho _] Hs]; subst. cbn [lex].
    destruct (lex_other e l Ho) as [[B E]|[B (t & P & E)]]; rewrite E; cbn [bind fst snd].
    + left. split; [now left|reflexivity].
    + destruct (IH Hs) as [[X F]|[X (ts & Q & F)]]; rewrite F; cbn [bind fst snd].
      * left. split; [now right|reflexivity].
      * right. split; [intros Y; inversion Y; contradiction|]. exists (t :: ts). split; [now constructor|reflexivity].
Qed.

Lemma lex_values : forall vals e, (forall l, In l vals -> (exists w, l = Word w) \/ (exists c, l = Symbol c /\ ~ brace l)) ->
  ~ In (Word "NULL") vals ->
  (forall a b, vals = a ++ b -> e = true \/ In (Word "enum") a -> ~ In (Word "values") b) ->
  exists e' ts, Forall2 value vals ts /\ lex (off e) vals = Val (off e', ts).
Proof.
  induction vals as [|l vals IH]; intros e H N M; [exists e, []; split; [constructor|reflexivity]|].
  assert (exists e1 t, value l t /\ lex_one (off e) l = Val (off e1, t) /\
            (e1 = true -> e = true \/ l = Word "enum")) as (e1 & t & V & E & G).
  { destruct (H l (or_introl eq_refl)) as [(w & ->)|(c & -> & B)].
    - cbn [lex_one]. unfold lex_word.
      assert (w <> "NULL") as Nn by (intros ->; apply N; now left).
      destruct (String.eqb_spec w "enum") as [->|N1].
      + exists true, (T_ID "enum"). split; [constructor|]. split; [reflexivity|auto].
      + destruct (String.eqb_spec w "values") as [->|N2].
        * destruct e.
          { destruct (M [] (Word "values" :: vals) eq_refl); [now left|now left]. }
          exists false, (T_ID "values"). split; [constructor|]. split; [reflexivity|discriminate].
        * exists e, (T_ID w). split; [constructor|]. split; [|auto].
          destruct (assoc w keywords); [reflexivity|].
          destruct (String.eqb_spec w "NULL"); [contradiction|]. reflexivity.
    - exists e, (T_char c). split; [constructor|]. split; [|auto]. cbn [lex_one].
      destruct (Ascii.eqb_spec c "{") as [->|_]; [destruct B; now left|].
      destruct (Ascii.eqb_spec c "}") as [->|_]; [destruct B; now right|]. reflexivity. }
  destruct (IH e1) as (e2 & ts & F & R).
  - intros x I. apply H. now right.
  - intros I. apply N. now right.
  - intros a b -> X. apply (M (l :: a) b eq_refl). destruct X as [X|X]; [|right; now right].
    destruct (G X) as [ -> | -> ]; [now left|right; now left].
  - exists e2, (t :: ts). split; [now constructor|]. cbn [lex]. rewrite E. cbn [bind fst snd]. now rewrite R.
Qed.

Lemma lex_part : forall e p, well_formed p -> manageable p ->
  (has_bad_name p /\ lex (on e) (lexemes p) = Exited) \/
  (~ has_bad_name p /\ exists e' ts, part_tokens p ts /\ lex (on e) (lexemes p) = Val (on e', ts)).
Proof.
  intros e [m1 m2 vals|l] W M.
  - destruct W as (W1 & W2 & Wv). destruct M as (Mn & Me). cbn [lexemes has_bad_name].
    assert (exists e' tsv, Forall2 value vals tsv /\ lex (off false) vals = Val (off e', tsv)) as (e' & tsv & Fv & Ev).
    { apply lex_values.
      - intros l I. rewrite Forall_forall in Wv. auto.
      - exact Mn.
      - intros a b Eq [X|X]; [discriminate|]. exact (Me a b Eq X). }
    cbn [lex]. change (lex_one (on e) (Word "enum")) with (Val (on true, T_keyword "T_ENUM")).
    cbn [bind fst snd]. rewrite lex_app.
    destruct (lex_others true m1 W1) as [[B E1]|[B1 (ts1 & F1 & E1)]]; rewrite E1; cbn [bind fst snd].
    { left. split; [apply Exists_app; now left|reflexivity]. }
    cbn [lex]. change (lex_one (on true) (Symbol "{")) with (Val (on true, T_char "{")).
    cbn [bind fst snd]. rewrite lex_app.
    destruct (lex_others true m2 W2) as [[B E2]|[B2 (ts2 & F2 & E2)]]; rewrite E2; cbn [bind fst snd].
    { left. split; [apply Exists_app; now right|reflexivity]. }
    right. split; [intros X; apply Exists_app in X; destruct X; contradiction|].
    exists e', (T_keyword "T_ENUM" :: ts1 ++ T_char "{" :: ts2 ++ T_keyword "T_VALUES" :: T_char "{" ::
       tsv ++ [T_char "}"; T_char "}"]).
    split; [now constructor|].
    cbn [lex]. change (lex_one (on true) (Word "values")) with (Val (mk_flags true true true, T_keyword "T_VALUES")).
    cbn [bind fst snd].
    change (lex_one (mk_flags true true true) (Symbol "{")) with (Val (off false, T_char "{")).
    cbn [bind fst snd]. rewrite lex_app, Ev. cbn [bind fst snd lex].
    change (lex_one (off e') (Symbol "}")) with (Val (on e', T_char "}")). cbn [bind fst snd].
    change (lex_one (on e') (Symbol "}")) with (Val (on e', T_char "}")). cbn [bind fst snd]. reflexivity.
  - cbn [lexemes has_bad_name lex]. destruct (lex_other e l W) as [[B E]|[B (t & P & E)]]; rewrite E; cbn [bind fst snd].
    + left. split; [exact B|reflexivity].
    + right. split; [exact B|]. exists e, [t]. split; [now constructor|reflexivity].
Qed.

Lemma lex_parts : forall ps e, Forall well_formed ps -> Forall manageable ps ->
  (Exists has_bad_name ps /\ lex (on e) (flat_map lexemes ps) = Exited) \/
  (~ Exists has_bad_name ps /\ exists e' tss, Forall2 part_tokens ps tss /\
     lex (on e) (flat_map lexemes ps) = Val (on e', List.concat tss)).
Proof.
  induction ps as [|p ps IH]; intros e W M.
  - right. split; [intros X; inversion X|]. exists e, []. split; [constructor|reflexivity].
  - inversion W as [|? ? Wp Ws]; subst. inversion M as [|? ? Mp Ms]; subst. cbn [flat_map]. rewrite lex_app.
    destruct (lex_part e p Wp Mp) as [[B E]|[B (e1 & ts & P & E)]]; rewrite E; cbn [bind fst snd].
    + left. split; [now left|reflexivity].
    + destruct (IH e1 Ws Ms) as [[X F]|[X (e2 & tss & Q & F)]]; rewrite F; cbn [bind fst snd].
      * left. split; [now right|reflexivity].
      * right. split; [intros Y; inversion Y; contradiction|]. exists e2, (ts :: tss).
        split; [now constructor|reflexivity].
Qed.
