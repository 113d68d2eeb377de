(** C46: the characters of a specification are read as the tokens that stand
    there, at the places where they stand. *)

From Coq Require Import String.
From Coq Require Import List Ascii Bool Arith Lia.
From Verif Require Import Base.Outcome Front.LexerModel Front.ScannerModel Front.ScannerSpec Front.ScannerMatch.
From Verif Require Import Front.ScannerText Front.ScannerRuns Front.ScannerUnique Front.ScannerWhole Front.ScannerInst.
Import ListNotations.
Local Open Scope outcome_scope.
Local Open Scope string_scope.
Local Open Scope list_scope.

(** The model of flex picks the longest text that a pattern matches, and the
    first of the patterns that match a text of this length. *)
Theorem C46_longest_match : forall rs s a n, best rs s = Some (a, n) <->
  exists before r after, rs = before ++ r :: after /\ a = act r /\ n <= length s /\ matches (pattern r) (firstn n s) /\
    (forall q m, In q rs -> n < m <= length s -> ~ matches (pattern q) (firstn m s)) /\
    (forall q, In q before -> ~ matches (pattern q) (firstn n s)).
Proof. exact best_iff. Qed.
Print Assumptions C46_longest_match.

(** Tokens with white space and comments between them are read as these
    tokens; C42 is about their kinds. *)
Theorem C46_tokens : forall ps, laid_out ps ->
  (let! r := scan (text_of ps) in Val (map the_token (fst r))) =
  (let! r := lex init_flags (lexemes_of ps) in Val (snd r)).
Proof.
  intros ps L. apply laid_before_nil in L. pose proof (scan_layout ps [] L (or_introl eq_refl)) as S.
  rewrite app_nil_r in S. destruct (lex init_flags (lexemes_of ps)) as [[f toks]| | | |]; try now elim S.
  - destruct S as (ts & s & -> & <- & _). reflexivity.
  - rewrite S. reflexivity.
Qed.
Print Assumptions C46_tokens.

(** Layout does not matter. *)
Theorem C46_layout_free : forall ps qs, laid_out ps -> laid_out qs -> lexemes_of ps = lexemes_of qs ->
  (let! r := scan (text_of ps) in Val (map the_token (fst r))) =
  (let! r := scan (text_of qs) in Val (map the_token (fst r))).
Proof. intros ps qs P Q E. rewrite (C46_tokens ps P), (C46_tokens qs Q), E. reflexivity. Qed.
Print Assumptions C46_layout_free.

(** Every text is tokens, white space and comments up to its end, to a
    comment that is not closed, or to a place where nothing of this begins;
    and in one way only. *)
Theorem C46_all_texts : forall t,
  exists ps tail, t = text_of ps ++ tail /\ laid_before ps tail /\
    (tail = [] \/ open_comment tail \/ stray tail) /\
    forall qs tail', t = text_of qs ++ tail' -> laid_before qs tail' ->
      (tail' = [] \/ open_comment tail' \/ stray tail') -> qs = ps /\ tail' = tail.
Proof.
  intros t. destruct (all_pieces _ t (le_n _)) as (ps & tail & E & L & T). exists ps, tail. split; [exact E|].
  split; [exact L|]. split; [exact T|]. intros qs tail' E' L' T'. apply (one_layout qs ps tail' tail L' L T' T). congruence.
Qed.
Print Assumptions C46_all_texts.

(** A character that begins nothing ends the program. *)
Theorem C46_stray_rejected : forall ps tail, laid_before ps tail -> stray tail -> scan (text_of ps ++ tail) = Exited.
Proof. exact scan_stray. Qed.
Print Assumptions C46_stray_rejected.

(** The scanner always comes to an end. *)
Theorem C46_terminates : forall t, scan t = Exited \/ exists ts s, scan t = Val (ts, s) /\ input s = [].
Proof.
  intros t. destruct (all_pieces _ t (le_n _)) as (ps & tail & -> & L & T).
  assert (X : (tail = [] \/ open_comment tail) \/ stray tail) by tauto. destruct X as [X|X].
  - pose proof (scan_layout ps tail L X) as S. destruct (lex init_flags (lexemes_of ps)) as [[f toks]| | | |]; try now elim S.
    + destruct S as (ts & s & E & _ & N & _). right. eauto.
    + now left.
  - left. now apply scan_stray.
Qed.
Print Assumptions C46_terminates.

(** Every token is reported at the line and columns where it stands, and the
    table of lines, which error messages quote from, holds the lines of the
    text that are not empty.  The full statement has no [one_line]. *)
Theorem C46_places_partial : forall ps ts s, laid_out ps -> Forall one_line (lexemes_of ps) ->
  scan (text_of ps) = Val (ts, s) ->
  map (fun t => (the_line t, first_column t, last_column t)) ts =
  map (fun o => (line_at (fst o), column_at (fst o), column_at (fst o) + length (lexeme_text (snd o)) - 1))
    (occurrences [] ps) /\
  line_map s = written_lines (numbered 1 (lines (text_of ps))).
Proof.
  intros ps ts s L O E. apply laid_before_nil in L. pose proof (scan_layout ps [] L (or_introl eq_refl)) as S.
  rewrite app_nil_r in S. destruct (lex init_flags (lexemes_of ps)) as [[f toks]| | | |]; try now elim S.
  - destruct S as (ts' & s' & E' & _ & _ & _ & P). rewrite E in E'. injection E' as <- <-. exact (P O).
  - congruence.
Qed.
Print Assumptions C46_places_partial.

(** A string over two lines: the token after it stands in column 5 of line 2
    and is reported in column 8. *)
Theorem C46_places_refuted : laid_out two_lines /\
  exists ts s, scan (text_of two_lines) = Val (ts, s) /\
  map (fun t => (the_line t, first_column t)) ts = [(2, 1); (2, 8)] /\
  map (fun o => (line_at (fst o), column_at (fst o))) (occurrences [] two_lines) = [(1, 1); (2, 5)].
Proof.
  split; [apply laid_outb_sound; vm_compute; reflexivity|].
  eexists _, _. split; [vm_compute; reflexivity|]. split; reflexivity.
Qed.
Print Assumptions C46_places_refuted.

(** A comment that is not closed is no error: the rest of the file is
    ignored. *)
Theorem C46_open_comment_refuted : forall ps tail, laid_before ps tail -> open_comment tail ->
  (let! r := scan (text_of ps ++ tail) in Val (map the_token (fst r))) =
  (let! r := lex init_flags (lexemes_of ps) in Val (snd r)).
Proof.
  intros ps tail L T. pose proof (scan_layout ps tail L (or_intror T)) as S.
  destruct (lex init_flags (lexemes_of ps)) as [[f toks]| | | |]; try now elim S.
  - destruct S as (ts & s & -> & <- & _). reflexivity.
  - rewrite S. reflexivity.
Qed.
Print Assumptions C46_open_comment_refuted.

Example C46_sample : laid_out sample_layout /\ Forall one_line (lexemes_of sample_layout) /\
  exists ts s, scan (text_of sample_layout) = Val (ts, s) /\ length ts = 33 /\
    nth 4 (map (fun t => (the_token t, the_line t, first_column t, last_column t)) ts) (T_NULL, 0, 0, 0)
      = (T_char "{", 5, 10, 10) /\
    In (T_STRINGVAL "a \"" string // no comment") (map the_token ts) /\ length (line_map s) = 6.
Proof.
  split; [apply laid_outb_sound; vm_compute; reflexivity|]. split.
  - apply Forall_forall. intros l I. apply no_newline. revert l I. apply forallb_forall. vm_compute. reflexivity.
  - eexists _, _. split; [vm_compute; reflexivity|]. split; [reflexivity|]. split; [reflexivity|].
    split; [cbn; tauto | reflexivity].
Qed.
Example C46_open : open_comment sample_tail /\ laid_before [w "node"; sp] sample_tail.
Proof.
  split.
  - exists (txt " open" ++ newline :: txt "int * "). split; [reflexivity|]. intros a b E.
    assert (F : forall u, (fix f u := match u with c :: v => negb (ScannerNext.prefixb (txt "*/") u) && f v | [] => true end) u = true ->
      forall a b, u <> a ++ txt "*/" ++ b).
    { clear. intros u H a. revert u H. induction a as [|c a IH]; intros u H b ->; [discriminate H|].
      cbn [app] in H. rewrite andb_true_iff in H. exact (IH _ (proj2 H) b eq_refl). }
    refine (F _ _ a b E). vm_compute. reflexivity.
  - split; [apply piece_okb_sound; reflexivity|]. split; [apply apartb_sound; reflexivity|].
    split; [apply piece_okb_sound; reflexivity|]. split; [exact I | exact I].
Qed.
Example C46_stray : stray (txt "#") /\ scan (txt "node #") = Exited.
Proof. split; [apply (stray_not "#" [] 1); vm_compute; reflexivity | vm_compute; reflexivity]. Qed.
