(** Messages show the place they are about (C67). *)

From Coq Require Import String.
From Coq Require Import List Ascii Bool Arith ZArith Lia.
From Verif Require Import Base.Outcome Front.LexerModel Front.ScannerModel Front.ScannerSpec Front.ScannerMatch Front.ScannerNext
  Front.ScannerText Front.ScannerPlace Front.ScannerProof Front.ScannerRuns Front.ScannerWhole Front.MessageModel Front.MessageSpec.
From Verif Require Palm.CtinfoModel.
Import ListNotations.
Local Open Scope outcome_scope.
Local Open Scope string_scope.
Local Open Scope list_scope.

(** * Lines *)

Lemma lines_above : forall t acc init l, ~ In newline acc -> lines_from acc t = init ++ [l] ->
  exists above, acc ++ t = above ++ l /\ (above = [] \/ exists u, above = u ++ [newline]) /\ ~ In newline l /\
    length init = count_occ ascii_dec above newline.
Proof.
  induction t as [|c t IH]; intros acc init l N E; cbn [lines_from] in E.
  - destruct init as [|x init]; [|destruct init; discriminate E]. injection E as <-. exists []. rewrite app_nil_r. auto.
  - destruct (Ascii.eqb_spec c newline) as [->|Nc].
    + destruct init as [|x init]; [destruct t; cbn in E; [discriminate|destruct (Ascii.eqb _ _); [discriminate|]];
        exfalso; revert E; injection 1 as _ E; destruct (lines_not_nil t [a] E)|].
      injection E as <- E. destruct (IH [] init l (fun x => x) E) as (above & A & B & C & D).
      exists (acc ++ newline :: above). cbn [app] in A. rewrite A, <- app_assoc. split; [reflexivity|]. split; [|split; [exact C|]].
      * right. destruct B as [->|(u & ->)]; [exists acc; reflexivity|exists (acc ++ newline :: u); now rewrite <- app_assoc].
      * rewrite count_occ_app. rewrite (proj1 (count_occ_not_In ascii_dec acc newline) N). cbn [Nat.add count_occ length].
        destruct (ascii_dec newline newline) as [_|X]; [|now elim X]. now rewrite D.
    + destruct (IH (acc ++ [c]) init l) as (above & A & R); [|exact E|].
      * rewrite in_app_iff. cbn. intros [X|[X|[]]]; auto.
      * exists above. rewrite <- app_assoc in A. exact (conj A R).
Qed.

Lemma number_lines : forall l n k x, In (k, x) (numbered n l) <-> n <= k /\ nth_error l (k - n) = Some x.
Proof.
  induction l as [|y l IH]; intros n k x; cbn [numbered].
  - split; [intros []|intros [_ H]; destruct (k - n); discriminate].
  - cbn [In]. rewrite IH. split.
    + intros [E|[L E]]; [injection E as <- <-; rewrite Nat.sub_diag; auto|]. split; [lia|].
      replace (k - n) with (S (k - (n + 1))) by lia. exact E.
    + intros [L E]. destruct (Nat.eq_dec k n) as [->|D].
      * left. rewrite Nat.sub_diag in E. injection E as ->. reflexivity.
      * right. split; [lia|]. replace (k - n) with (S (k - (n + 1))) in E by lia. exact E.
Qed.

Lemma lookup_in : forall m n x, (forall y, In (n, y) m -> y = x) -> In (n, x) m -> lookup_line m n = Some x.
Proof.
  intros m n x U I. unfold lookup_line. destruct (find _ m) as [[k y]|] eqn:F.
  - apply find_some in F. destruct F as [F K]. apply Nat.eqb_eq in K. cbn [fst snd] in *. subst k. now rewrite (U y F).
  - apply find_none with (x := (n, x)) in F; [|exact I]. cbn in F. rewrite Nat.eqb_refl in F. discriminate.
Qed.

Lemma firstn_numbered : forall l n k, firstn k (numbered n l) = numbered n (firstn k l).
Proof. induction l as [|x l IH]; intros n [|k]; cbn; try reflexivity. now rewrite IH. Qed.

Lemma saved_line : forall t k n x, nth_error (lines t) n = Some x -> x <> [] -> n < k -> lookup_line (saved t k) (n + 1) = Some x.
Proof.
  intros t k n x E N L. unfold saved, written_lines. rewrite firstn_numbered.
  assert (G : forall y, In (n + 1, y) (numbered 1 (firstn k (lines t))) <-> y = x).
  { intros y. rewrite number_lines. replace (n + 1 - 1) with n by lia.
    assert (F : nth_error (firstn k (lines t)) n = Some x).
    { rewrite <- E. clear -L. revert n L. generalize (lines t) as l. induction k as [|k IH]; intros l n L; [lia|].
      destruct l as [|y l]; [reflexivity|]. destruct n as [|n]; [reflexivity|]. cbn. apply IH. lia. }
    rewrite F. split; [intros [_ H]; injection H as ->; reflexivity|intros ->; split; [lia|reflexivity]]. }
  apply lookup_in.
  - intros y I. apply in_rev, filter_In in I. apply G, I.
  - apply -> in_rev. apply filter_In. split; [now apply G|]. cbn [snd]. destruct x; [now elim N|reflexivity].
Qed.

(** A word without newline stands in some line. *)
Lemma stands_at : forall before w after, ~ In newline w -> w <> [] ->
  exists left right, stands (before ++ w ++ after) before w (line_at before) left right /\
    column_at before = length left + 1 /\
    forall k, line_at before <= k -> lookup_line (saved (before ++ w ++ after) k) (line_at before) = Some (left ++ w ++ right).
Proof.
  intros before w after N NE. destruct (at_line_exists before) as (init & l & H).
  pose proof (at_line_line _ _ _ H) as HL. pose proof (at_line_column _ _ _ H) as HC.
  pose proof (at_line_plain before init l w H N) as H'. destruct (at_line_rest _ _ _ after H') as (more & M).
  rewrite <- app_assoc in M. set (right := firstn (span dot after) after) in *.
  exists l, right. split; [|split; [exact HC|]].
  - destruct (lines_above before [] init l (fun x => x) H) as (above & A & B & C & D). cbn [app] in A.
    exists above, (skipn (span dot after) after). split; [|split; [exact A|split; [exact B|split; [|split]]]].
    + rewrite A. rewrite <- !app_assoc. unfold right. now rewrite (firstn_skipn (span dot after) after).
    + assert (X : forall u, skipn (span dot u) u = [] \/ exists v, skipn (span dot u) u = newline :: v).
      { clear. induction u as [|c u IH]; [left; reflexivity|]. cbn [span]. destruct (dot c) eqn:Dc; [exact IH|].
        right. exists u. cbn. unfold dot in Dc. destruct (Ascii.eqb_spec newline c) as [->|_]; [reflexivity|discriminate]. }
      apply X.
    + rewrite !in_app_iff. intros [X|[X|X]]; [exact (C X)|exact (N X)|].
      revert X. apply no_newline. apply span_firstn.
    + rewrite HL, D. reflexivity.
  - intros k K. rewrite HL in *. apply saved_line; [| |lia].
    + rewrite M, nth_error_app2 by lia. rewrite Nat.sub_diag. cbn. now rewrite <- app_assoc.
    + destruct l; [destruct w; [now elim NE|discriminate]|discriminate].
Qed.

(** * Printing *)

Lemma percent_d_nat : forall n, percent_d (Z.of_nat n) = number_text n.
Proof. intros [|n]; [reflexivity|]. cbn [Z.of_nat percent_d]. rewrite SuccNat2Pos.id_succ. reflexivity. Qed.

Lemma shown : forall file n left w right, w <> [] ->
  PrintInfo file (mk_ctinfo (Z.of_nat n) (Z.of_nat (length left + 1)) 0 (Z.of_nat (length left + length w)) (Some (left ++ w ++ right))) =
  place_text file n left w ++ marked_line left w right.
Proof.
  intros file n left w right N. assert (L : 1 <= length w) by (destruct w; [now elim N|cbn; lia]).
  assert (P : PrintLocation (mk_ctinfo (Z.of_nat n) (Z.of_nat (length left + 1)) 0 (Z.of_nat (length left + length w)) (Some (left ++ w ++ right))) =
    marked_line left w right).
  { unfold PrintLocation, marked_line, Palm.CtinfoModel.quoted, Palm.CtinfoModel.marker.
    cbn [Palm.CtinfoModel.source_line Palm.CtinfoModel.first_column Palm.CtinfoModel.last_column].
    replace (Z.to_nat (Z.of_nat (length left + 1) - 1)) with (length left) by lia.
    replace (Z.to_nat (Z.of_nat (length left + length w) - Z.max 1 (Z.of_nat (length left + 1)))) with (length w - 1) by lia.
    change Palm.CtinfoModel.space with " "%char. cbn [txt list_ascii_of_string repeat app]. rewrite <- !app_assoc. reflexivity. }
  unfold PrintInfo, Palm.CtinfoModel.PrintInfo_form.
  cbn [Palm.CtinfoModel.first_line Palm.CtinfoModel.last_line Palm.CtinfoModel.first_column Palm.CtinfoModel.last_column].
  replace (Z.of_nat (length left + 1) <=? 0)%Z with false by (symmetry; apply Z.leb_gt; lia). rewrite andb_false_r.
  replace (Z.of_nat (length left + length w) <=? 0)%Z with false by (symmetry; apply Z.leb_gt; lia).
  replace (0 <? Z.of_nat (length left + length w))%Z with true by (symmetry; apply Z.ltb_lt; lia).
  change (0 <=? 0)%Z with true. cbn [orb andb]. unfold place_text. cbv zeta.
  destruct (Nat.eqb_spec (length left + 1) (length left + length w)) as [E|E].
  - replace (Z.of_nat (length left + 1) =? Z.of_nat (length left + length w))%Z with true by (symmetry; apply Z.eqb_eq; lia).
    unfold PrintLineCol. rewrite P. cbn [Palm.CtinfoModel.first_line Palm.CtinfoModel.first_column]. rewrite !percent_d_nat.
    rewrite <- !app_assoc. reflexivity.
  - replace (Z.of_nat (length left + 1) =? Z.of_nat (length left + length w))%Z with false by (symmetry; apply Z.eqb_neq; lia).
    unfold PrintRange. rewrite P.
    cbn [Palm.CtinfoModel.first_line Palm.CtinfoModel.last_line Palm.CtinfoModel.first_column Palm.CtinfoModel.last_column].
    change (0 =? 0)%Z with true. cbn [orb]. rewrite !percent_d_nat. rewrite <- !app_assoc. reflexivity.
Qed.

(** * Names *)

Lemma occurrences_split : forall ps b before l, In (before, l) (occurrences b ps) ->
  exists after, b ++ text_of ps = before ++ lexeme_text l ++ after.
Proof.
  induction ps as [|p ps IH]; intros b before l I; [destruct I|]. cbn [text_of flat_map]. fold (text_of ps).
  assert (R : In (before, l) (occurrences (b ++ piece_text p) ps) ->
    exists after, b ++ piece_text p ++ text_of ps = before ++ lexeme_text l ++ after).
  { intros J. destruct (IH _ _ _ J) as (after & E). exists after. rewrite <- E, <- app_assoc. reflexivity. }
  destruct p as [l'| | | |]; cbn [occurrences] in I; try exact (R I).
  destruct I as [E|I]; [|exact (R I)]. injection E as <- <-. exists (text_of ps). reflexivity.
Qed.

Lemma occurrences_lexeme : forall ps b before l, In (before, l) (occurrences b ps) -> In l (lexemes_of ps).
Proof.
  induction ps as [|p ps IH]; intros b before l I; [destruct I|].
  destruct p as [l'| | | |]; cbn [occurrences lexemes_of] in *; try exact (IH _ _ _ I).
  destruct I as [E|I]; [injection E as _ <-; left; reflexivity|right; exact (IH _ _ _ I)].
Qed.

Lemma laid_lexeme : forall ps tail l, laid_before ps tail -> In l (lexemes_of ps) -> lexeme_ok l.
Proof.
  induction ps as [|p ps IH]; intros tail l L I; [destruct I|]. destruct L as (O & _ & L).
  destruct p as [l'| | | |]; cbn [lexemes_of] in I; try exact (IH _ _ L I).
  destruct I as [<-|I]; [exact O|exact (IH _ _ L I)].
Qed.

Lemma lexeme_some : forall l, lexeme_ok l -> lexeme_text l <> [].
Proof.
  intros [w|c| |t|t|t|t] O; cbn [lexeme_ok lexeme_text] in *; try discriminate.
  - destruct O as (c & u & -> & _). discriminate.
  - destruct O as [(a & b & -> & _)|(u & -> & _)]; [destruct a; discriminate|discriminate].
  - destruct O as (u & -> & _). discriminate.
  - destruct O as [O _]. exact O.
Qed.

Lemma nth_map_place : forall ts os k o, map place ts = map place_of os -> nth_error os k = Some o ->
  exists t, nth_error ts k = Some t /\ place t = place_of o.
Proof.
  intros ts os k o E H. apply (map_nth_error place_of) in H. rewrite <- E in H.
  rewrite nth_error_map in H. destruct (nth_error ts k) as [t|]; [|discriminate]. exists t. split; [reflexivity|]. cbn [option_map] in H. congruence.
Qed.

Theorem names_shown : forall file ps tail ts s k before w, laid_before ps tail -> tail = [] \/ open_comment tail ->
  Forall one_line (lexemes_of ps) ->
  scan (text_of ps ++ tail) = Val (ts, s) -> nth_error (occurrences [] ps) k = Some (before, Word w) ->
  exists t number left right, nth_error ts k = Some t /\ stands (text_of ps ++ tail) before (txt w) number left right /\
    forall n, make_id t = Some n ->
      PrintInfo file (id_to_info (line_map s) n) = place_text file number left (txt w) ++ marked_line left (txt w) right.
Proof.
  intros file ps tail ts s k before w L T O E H. assert (In' := nth_error_In _ _ H).
  assert (Lx := occurrences_lexeme _ _ _ _ In'). assert (Ok := laid_lexeme _ _ _ L Lx).
  destruct (occurrences_split _ _ _ _ In') as (after' & Et'). cbn [app] in Et'.
  assert (Et : text_of ps ++ tail = before ++ lexeme_text (Word w) ++ (after' ++ tail)) by (rewrite Et', <- !app_assoc; reflexivity).
  set (after := after' ++ tail) in *. clearbody after. clear Et'.
  pose proof (scan_layout ps tail L T) as S.
  destruct (lex init_flags (lexemes_of ps)) as [[f toks]| | | |]; try now elim S.
  2: congruence.
  destruct S as (ts' & s' & E' & _ & _ & _ & P). rewrite E in E'. injection E' as <- <-. destruct (P O) as [Pp Pm].
  destruct (nth_map_place _ _ _ _ Pp H) as (t & Ht & Pt).
  rewrite Forall_forall in O. assert (Ol := O _ Lx). unfold one_line in Ol.
  destruct (stands_at before (lexeme_text (Word w)) after Ol (lexeme_some _ Ok)) as (left & right & St & Cl & Q).
  exists t, (line_at before), left, right. split; [exact Ht|]. rewrite Et. split; [exact St|].
  intros n Hn. unfold make_id in Hn. destruct (the_token t); try discriminate. injection Hn as <-.
  unfold id_to_info. cbn [ID_ROW ID_COL_BEGIN ID_COL_END]. unfold place, place_of in Pt. cbn [fst snd] in Pt.
  injection Pt as P1 P2 P3. rewrite P1, P2, P3, Pm, Et, Cl. cbn [lexeme_text].
  assert (W : written_lines (numbered 1 (lines (before ++ txt w ++ after))) =
    saved (before ++ txt w ++ after) (length (lines (before ++ txt w ++ after)))).
  { unfold saved. rewrite firstn_all2; [reflexivity|]. rewrite numbered_length. lia. }
  rewrite W, Q.
  - replace (length left + 1 + length (txt w) - 1) with (length left + length (txt w)) by lia.
    apply shown. exact (lexeme_some _ Ok).
  - destruct (at_line_exists before) as (init & l & Hl). rewrite (at_line_line _ _ _ Hl). cbn [lexeme_text].
    destruct (at_line_rest _ _ _ (txt w ++ after) Hl) as (more & ->). rewrite app_length. cbn. lia.
Qed.

(** * Messages of the scanner and the parser *)

Lemma runs_message : forall k s ts s', runs k s ts s' -> forall f, scan_message (k + f) s = scan_message f s'.
Proof.
  intros k s ts s' H. induction H as [s|k s o s1 ts s2 N E H IH]; intros f; [reflexivity|].
  cbn [Nat.add scan_message]. destruct (input s) as [|c t]; [now elim N|]. rewrite E. apply IH.
Qed.

Lemma runs_syntax : forall k s ts s', runs k s ts s' -> forall f j,
  syntax_message (k + f) (length ts + j) s = syntax_message f j s'.
Proof.
  intros k s ts s' H. induction H as [s|k s o s1 ts s2 N E H IH]; intros f j; [reflexivity|].
  cbn [Nat.add syntax_message]. destruct (input s) as [|c t]; [now elim N|]. rewrite E.
  destruct o as [x|]; apply IH.
Qed.

(** The scanner before a word that stands behind a layout *)
Lemma before_word : forall ps c u f toks, laid_before ps (c :: u) -> c <> newline -> Forall one_line (lexemes_of ps) ->
  lex init_flags (lexemes_of ps) = Val (f, toks) ->
  exists ts s, goes (init_scanner (text_of ps ++ c :: u)) ts s /\ length ts = length toks /\
    YY_START s = INITIAL /\ input s = c :: u /\ mode s = f /\ placed (text_of ps) s.
Proof.
  intros ps c u f toks L N O E.
  pose proof (layout_runs ps (init_scanner (text_of ps ++ c :: u)) (c :: u) (at_top_init _) eq_refl L) as R.
  cbn [init_scanner mode] in R. rewrite E in R. destruct R as (ts & s1 & A & B & C & D & F & G).
  destruct (G [] (placed_init _) O) as [P _]. cbn [app] in P.
  destruct (enter s1 c u B C N) as (s2 & A2 & B2 & C2 & D2 & F2).
  exists ts, s2. split; [rewrite <- (app_nil_r ts); exact (goes_trans _ _ _ _ _ A A2)|].
  split; [rewrite <- F; symmetry; apply map_length|]. split; [exact B2|]. split; [congruence|]. split; [congruence|]. apply F2, P.
Qed.

(** What the message about a word shows whose end the scanner has reached. *)
Lemma word_shown : forall file before w rest s, placed before s -> YY_START s = INITIAL -> input s = w ++ rest ->
  ~ In newline w -> w <> [] ->
  exists number left right, stands (before ++ w ++ rest) before w number left right /\
    forall f l, PrintInfo file (keyword_info (length w) (advance w f INITIAL l s rest)) =
      place_text file number left w ++ marked_line left w right.
Proof.
  intros file before w rest s [PL P] S E N NE. rewrite S in P. destruct P as [PC PM].
  destruct (stands_at before w rest N NE) as (left & right & St & Cl & Q).
  exists (line_at before), left, right. split; [exact St|]. intros f l. unfold keyword_info, advance.
  cbn [yylineno yycolumn line_map].
  assert (Z0' : newlines w = 0) by (unfold newlines; now apply count_occ_not_In).
  rewrite Z0', Nat.add_0_r, PL, PC, PM, E, PL, Cl, Q by lia. rewrite <- (shown file (line_at before) left w right NE). f_equal. f_equal; lia.
Qed.

Lemma fuel_enough : forall t ts s, goes (init_scanner t) ts s -> input s <> [] ->
  exists k f, runs k (init_scanner t) ts s /\ 2 * length t + 2 = k + S f.
Proof.
  intros t ts s (k & R & M) N. pose proof (measure_init t).
  assert (1 <= measure s) by (unfold measure; destruct (input s); [now elim N | cbn [length]; lia]).
  exists k, (2 * length t + 2 - k - 1). split; [exact R|lia].
Qed.

Theorem c_keyword_shown : forall file ps w rest f toks, laid_before ps (txt w ++ rest) -> Forall one_line (lexemes_of ps) ->
  lexeme_ok (Word w) -> apart (Token (Word w)) rest ->
  lex init_flags (lexemes_of ps) = Val (f, toks) -> lex_one f (Word w) = Exited ->
  exists i number left right, message_of_scanner (text_of ps ++ txt w ++ rest) = Some i /\
    stands (text_of ps ++ txt w ++ rest) (text_of ps) (txt w) number left right /\
    PrintInfo file i = place_text file number left (txt w) ++ marked_line left (txt w) right.
Proof.
  intros file ps w rest f toks L O K A E X. assert (K' := K). destruct K' as (c & u & Ew & Lc & Fu).
  assert (Nw : ~ In newline (txt w)).
  { rewrite Ew. intros [I|I].
    - subst c. revert Lc. clear. intros H. apply letter_iff in H. discriminate H.
    - rewrite Forall_forall in Fu. apply Fu in I. revert I. clear. intros H. apply word_iff in H. discriminate H. }
  assert (NE : txt w <> []) by (rewrite Ew; discriminate).
  assert (Nc : c <> newline) by (intros ->; apply Nw; rewrite Ew; left; reflexivity).
  assert (L' := L). rewrite Ew in L'. cbn [app] in L'.
  destruct (before_word ps c (u ++ rest) f toks L' Nc O E) as (ts & s & G & _ & S & I & M & P).
  replace (c :: u ++ rest) with (txt w ++ rest) in * by (rewrite Ew; reflexivity).
  destruct (word_shown file _ (txt w) rest s P S I Nw NE) as (number & left & right & St & Sh).
  assert (Ni : input s <> []) by (rewrite I, Ew; discriminate).
  destruct (fuel_enough _ _ _ G Ni) as (k & g & R & Fe).
  exists (keyword_info (length (txt w)) (advance (txt w) (mode s) INITIAL (yy_stack s) s rest)), number, left, right.
  split; [|split; [exact St|apply Sh]].
  unfold message_of_scanner. rewrite Fe, (runs_message _ _ _ _ R). cbn [scan_message].
  assert (St' := step_token s (Word w) rest S I K A). rewrite M, X in St'. cbn [bind] in St'. rewrite St'.
  destruct (next_token (Word w) rest K A) as (c' & t' & E1 & N1). cbn [lexeme_text] in *.
  assert (Ta : token_act (Word w) = identifier /\ check_c_keyword f w = Exited).
  { cbn [token_act]. unfold found. apply letter_iff in Lc. rewrite (lookup_word w c u Ew Lc). cbn [lex_one] in X. unfold lex_word in X.
    destruct (assoc w keywords) eqn:As; [discriminate|]. destruct (String.eqb_spec w "NULL"); [discriminate|].
    assert (Nk : String.eqb w "enum" = false /\ String.eqb w "values" = false).
    { split; apply String.eqb_neq; intros ->; vm_compute in As; discriminate As. }
    destruct Nk as [K1 K2]. rewrite K1, K2 in X. split; [reflexivity|]. destruct (check_c_keyword f w); try discriminate. reflexivity. }
  destruct Ta as [Ta Tc]. rewrite Ta in N1. rewrite I at 1. rewrite E1. unfold last_words. rewrite S, I, E1, best_next, N1, <- E1, <- I.
  destruct (take_advance s (txt w) rest ltac:(congruence) I) as [F T]. rewrite F, T, S, M, str_txt, Tc. reflexivity.
Qed.

Theorem syntax_error_shown : forall file ps l rest f toks r, laid_before ps (lexeme_text l ++ rest) -> Forall one_line (lexemes_of ps) ->
  lexeme_ok l -> one_line l -> apart (Token l) rest ->
  lex init_flags (lexemes_of ps) = Val (f, toks) -> lex_one f l = Val r ->
  exists i number left right, message_of_parser (length toks) (text_of ps ++ lexeme_text l ++ rest) = Some i /\
    stands (text_of ps ++ lexeme_text l ++ rest) (text_of ps) (lexeme_text l) number left right /\
    PrintInfo file i = place_text file number left (lexeme_text l) ++ marked_line left (lexeme_text l) right.
Proof.
  intros file ps l rest f toks r L O K Nl A E X. assert (NE := lexeme_some l K). unfold one_line in Nl.
  destruct (lexeme_text l) as [|c u] eqn:Ew; [now elim NE|].
  assert (Nc : c <> newline) by (intros ->; apply Nl; left; reflexivity).
  destruct (before_word ps c (u ++ rest) f toks L Nc O E) as (ts & s & G & Lt & S & I & M & P).
  change (c :: u ++ rest) with ((c :: u) ++ rest) in *.
  destruct (word_shown file _ (c :: u) rest s P S I Nl NE) as (number & left & right & St & Sh).
  assert (Ni : input s <> []) by (rewrite I; discriminate).
  destruct (fuel_enough _ _ _ G Ni) as (k & g & R & Fe).
  exists (keyword_info (length (c :: u)) (advance (c :: u) (fst r) INITIAL (yy_stack s) s rest)), number, left, right.
  split; [|split; [exact St|apply Sh]].
  unfold message_of_parser. rewrite Fe, <- Lt, <- (Nat.add_0_r (length ts)), (runs_syntax _ _ _ _ R). cbn [syntax_message].
  rewrite <- Ew in I. assert (St' := step_token s l rest S I K A). rewrite M, X in St'. cbn [bind] in St'. cbv zeta in St'. rewrite St'.
  rewrite I, Ew. cbn [app]. change (input (advance (c :: u) (fst r) INITIAL (yy_stack s) s rest)) with rest.
  replace (length (c :: u ++ rest) - length rest) with (length (c :: u)) by (cbn [length]; rewrite app_length; lia).
  reflexivity.
Qed.

(** A character that begins nothing *)
Lemma next_stray : forall c t, stray (c :: t) -> next c t = (unexpected, 1).
Proof.
  intros c t (NE & NO & NP). destruct (next c t) as [a n] eqn:N.
  unfold next in N. destruct (letter c) eqn:L.
  { exfalso. apply (NP (Token (Word (str (firstn (Datatypes.S (span word_char t)) (c :: t))))) (skipn (span word_char t) t)).
    - cbn [piece_ok lexeme_ok]. rewrite txt_str. exists c, (firstn (span word_char t) t). split; [reflexivity|].
      split; [now apply letter_iff | apply (forall_forallb _ _ _ word_iff), span_firstn].
    - cbn [piece_text lexeme_text]. rewrite txt_str. cbn [firstn app]. now rewrite firstn_skipn. }
  destruct (digit c) eqn:D.
  { exfalso. apply (NP (Token (Number (str [c]))) t); [|reflexivity]. cbn. split; [discriminate|]. constructor; [now apply digit_iff | constructor]. }
  destruct (Ascii.eqb_spec "-" c) as [<-|N1].
  { exfalso. apply (NP (Token (Symbol "-")) t); [cbn; tauto | reflexivity]. }
  destruct (Ascii.eqb_spec quote c) as [<-|N2].
  { destruct (close t) as [k|] eqn:C; [|congruence]. exfalso.
    destruct (close_split (length t) t k (le_n _) C) as (b & r & -> & B & _).
    apply (NP (Token (Quoted (str b))) r).
    - cbn [piece_ok lexeme_ok]. now rewrite txt_str.
    - cbn [piece_text lexeme_text]. rewrite txt_str. cbn. rewrite <- app_assoc. reflexivity. }
  destruct (Ascii.eqb_spec "/" c) as [<-|N3].
  { destruct t as [|d t]; [congruence|]. destruct (Ascii.eqb_spec "/" d) as [<-|M1].
    - exfalso. apply (NP (Line_comment []) t); [intros [] | reflexivity].
    - destruct (Ascii.eqb_spec "*" d) as [<-|M2]; [|congruence]. exfalso.
      destruct (comment_split t) as [(b & r & -> & B)|M].
      + apply (NP (Block_comment b) r B). cbn [piece_text]. rewrite <- !app_assoc. reflexivity.
      + apply NO. exists t. auto. }
  destruct (white c) eqn:W.
  { exfalso. apply (NP (White c) t); [now apply white_iff | reflexivity]. }
  destruct (Ascii.eqb_spec newline c) as [<-|N4].
  { exfalso. apply (NP Newline t); [exact I | reflexivity]. }
  destruct (lookup [c] literals) as [a'|] eqn:Lk; [|congruence]. exfalso.
  apply (NP (Token (Symbol c)) t); [|reflexivity]. exact (lookup_single c a' Lk L).
Qed.

Theorem stray_shown : forall file ps c rest f toks, laid_before ps (c :: rest) -> Forall one_line (lexemes_of ps) ->
  stray (c :: rest) -> lex init_flags (lexemes_of ps) = Val (f, toks) ->
  exists i number left right, message_of_scanner (text_of ps ++ c :: rest) = Some i /\
    stands (text_of ps ++ c :: rest) (text_of ps) [c] number left right /\
    PrintInfo file i = place_text file number left [c] ++
      txt " |> " ++ [newline] ++ txt "    " ++ repeat " "%char (length left) ++ txt "^" ++ [newline].
Proof.
  intros file ps c rest f toks L O Sy E.
  assert (Nc : c <> newline) by (destruct (stray_start _ Sy) as (c' & u' & Ec & Nc); injection Ec as -> _; exact Nc).
  destruct (before_word ps c rest f toks L Nc O E) as (ts & s & G & _ & S & I & M & P).
  assert (Nw : ~ In newline [c]) by (intros [H|[]]; exact (Nc H)).
  destruct (stands_at (text_of ps) [c] rest Nw ltac:(discriminate)) as (left & right & St & Cl & _).
  destruct P as [PL P]. rewrite S in P. destruct P as [PC _].
  assert (Ni : input s <> []) by (rewrite I; discriminate).
  destruct (fuel_enough _ _ _ G Ni) as (k & g & R & Fe).
  assert (Nx := next_stray c rest Sy).
  exists (unexpected_info (take 1 s)), (line_at (text_of ps)), left, right. split; [|split; [exact St|]].
  - unfold message_of_scanner. rewrite Fe, (runs_message _ _ _ _ R). cbn [scan_message].
    rewrite (step_stray s S) by (rewrite I; exact Sy). rewrite I at 1. unfold last_words. rewrite S, I, best_next, Nx. reflexivity.
  - destruct (take_advance s [c] rest ltac:(congruence) I) as [_ T]. cbn [length] in T. rewrite T. unfold unexpected_info, advance.
    cbn [yylineno yycolumn]. assert (Z0' : newlines [c] = 0) by (unfold newlines; now apply count_occ_not_In).
    rewrite Z0', Nat.add_0_r, PL, PC, Cl. cbn [length].
    replace (Z.of_nat (length left + 1 + 1) - 1)%Z with (Z.of_nat (length left + 1)) by lia.
    unfold PrintInfo, Palm.CtinfoModel.PrintInfo_form.
    cbn [Palm.CtinfoModel.first_line Palm.CtinfoModel.last_line Palm.CtinfoModel.first_column Palm.CtinfoModel.last_column].
    replace (Z.of_nat (length left + 1) <=? 0)%Z with false by (symmetry; apply Z.leb_gt; lia). rewrite andb_false_r.
    change (0 <=? 0)%Z with true. cbn [orb]. unfold PrintLineCol, PrintLocation, Palm.CtinfoModel.quoted, Palm.CtinfoModel.marker.
    cbn [Palm.CtinfoModel.source_line Palm.CtinfoModel.first_line Palm.CtinfoModel.first_column Palm.CtinfoModel.last_column].
    replace (Z.to_nat (Z.of_nat (length left + 1) - 1)) with (length left) by lia.
    replace (Z.to_nat (0 - Z.max 1 (Z.of_nat (length left + 1)))) with 0 by lia.
    unfold place_text. cbv zeta. cbn [length]. rewrite Nat.eqb_refl. rewrite !percent_d_nat.
    change Palm.CtinfoModel.space with " "%char. cbn [txt list_ascii_of_string repeat app].
    repeat (rewrite <- !app_assoc; cbn [app]). reflexivity.
Qed.
