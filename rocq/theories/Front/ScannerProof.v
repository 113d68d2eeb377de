(** Runs of the scanner. *)

From Coq Require Import String.
From Coq Require Import List Ascii Bool Arith Lia.
From Verif Require Import Base.Outcome Front.LexerModel Front.ScannerModel Front.ScannerSpec Front.ScannerNext.
From Verif Require Import Front.ScannerText Front.ScannerPlace.
Import ListNotations.
Local Open Scope outcome_scope.
Local Open Scope string_scope.
Local Open Scope list_scope.
Local Arguments best : simpl never.
Local Arguments dot : simpl never.

(** * Tokens of lexemes *)

Lemma lookup_app : forall w l m, lookup w (l ++ m) = match lookup w l with Some a => Some a | None => lookup w m end.
Proof.
  intros w l m. induction l as [|[k a] l IH]; [reflexivity|]. cbn [app lookup].
  destruct (list_eq_dec ascii_dec k w); [reflexivity | exact IH].
Qed.
Lemma lookup_none : forall c t l, letter c = true -> forallb (fun k => negb (head_in letter k)) l = true -> lookup (c :: t) l = None.
Proof.
  intros c t l L. induction l as [|[k a] l IH]; [reflexivity|]. cbn [forallb lookup]. rewrite andb_true_iff. intros [F G].
  destruct (list_eq_dec ascii_dec k (c :: t)) as [->|]; [|apply IH, G]. cbn in F. rewrite L in F. discriminate.
Qed.
Definition word_act (w t : string) : action :=
  if String.eqb w "enum" then keyword_enum else if String.eqb w "values" then keyword_values else keyword t.
Lemma lookup_map : forall w l,
  lookup (txt w) (map (fun k => (txt (fst k), word_act (fst k) (snd k))) l) =
  match assoc w l with Some t => Some (word_act w t) | None => None end.
Proof.
  intros w l. induction l as [|[k t] l IH]; [reflexivity|]. cbn [map lookup assoc fst snd].
  destruct (list_eq_dec ascii_dec (txt k) (txt w)) as [E|N].
  - assert (k = w) as -> by (rewrite <- (str_txt k), <- (str_txt w); now f_equal). rewrite String.eqb_refl. reflexivity.
  - destruct (String.eqb_spec k w) as [->|]; [now elim N | exact IH].
Qed.

Definition symbol_literals : list (text * action) := firstn 15 literals.
Lemma literals_split : literals =
  symbol_literals ++ map (fun k => (txt (fst k), word_act (fst k) (snd k))) keywords
  ++ [(txt "->", keyword "T_ARROW"); (txt "NULL", null)].
Proof. vm_compute. reflexivity. Qed.

Lemma lookup_word : forall w c t, txt w = c :: t -> letter c = true ->
  lookup (txt w) literals =
  match assoc w keywords with Some k => Some (word_act w k) | None => if String.eqb w "NULL" then Some null else None end.
Proof.
  intros w c t E L. rewrite literals_split, !lookup_app, lookup_map.
  rewrite E at 1. rewrite lookup_none by (exact L || vm_compute; reflexivity).
  destruct (assoc w keywords); [reflexivity|]. cbn [lookup].
  destruct (list_eq_dec ascii_dec (txt "->") (txt w)) as [X|_].
  { rewrite E in X. injection X as <- _. discriminate L. }
  destruct (list_eq_dec ascii_dec (txt "NULL") (txt w)) as [X|N].
  - assert (w = "NULL") as -> by (rewrite <- (str_txt w), <- X; reflexivity). reflexivity.
  - destruct (String.eqb_spec w "NULL") as [->|]; [now elim N | reflexivity].
Qed.

Lemma run_token : forall l s, lexeme_ok l ->
  run_action (token_act l) (lexeme_text l) s =
  let! r := lex_one (mode s) l in Val (Some (snd r), set_mode (fst r) s).
Proof.
  assert (SM : forall s, set_mode (mode s) s = s) by (intros []; reflexivity).
  intros [w|c| |t|t|t|t] s O; cbn [lexeme_ok lexeme_text token_act lex_one] in *.
  - destruct O as (c & u & E & L & _). apply letter_iff in L. unfold found. rewrite (lookup_word w c u E L).
    unfold lex_word. destruct (String.eqb_spec w "enum") as [->|N1].
    + cbn. reflexivity.
    + destruct (String.eqb_spec w "values") as [->|N2].
      * cbn. destruct (in_enum (mode s)); cbn; rewrite ?SM; reflexivity.
      * destruct (assoc w keywords) as [k|].
        -- unfold word_act. apply String.eqb_neq in N1, N2. rewrite N1, N2. cbn. rewrite str_txt, SM. reflexivity.
        -- destruct (String.eqb w "NULL"); cbn; [rewrite SM; reflexivity|]. rewrite str_txt.
           destruct (check_c_keyword (mode s) w); cbn; rewrite ?SM; reflexivity.
  - cbn [txt list_ascii_of_string In] in O.
    repeat (destruct O as [<-|O]; [cbn; try (destruct (in_enum_values (mode s)); cbn); rewrite ?SM; reflexivity|]).
    destruct O.
  - cbn. rewrite SM. reflexivity.
  - cbn. rewrite str_txt, SM. reflexivity.
  - cbn. rewrite str_txt, SM. reflexivity.
  - cbn. rewrite str_txt, SM. reflexivity.
  - cbn [run_action bind fst snd]. rewrite SM. cbn [length skipn].
    replace (S (length (txt t ++ [quote])) - 2) with (length (txt t)) by (rewrite app_length; cbn [length]; lia).
    rewrite firstn_length_app, str_txt. reflexivity.
Qed.

Local Arguments Ascii.eqb : simpl never.

(** * Steps *)

Lemma newlines_none : forall x, ~ In newline x -> newlines x = 0.
Proof. intros x N. unfold newlines. now apply count_occ_not_In. Qed.

Definition advance (x : text) (f : flags) (c : condition) (st : list condition) (s : scanner) (r : text) : scanner :=
  mk_scanner f c st (yylineno s + newlines x) (yycolumn s + length x) (line_map s) r.

Lemma take_advance : forall s x r, YY_START s <> SAVELINE -> input s = x ++ r ->
  firstn (length x) (input s) = x /\ take (length x) s = advance x (mode s) (YY_START s) (yy_stack s) s r.
Proof.
  intros s x r N E. unfold take, advance. rewrite E, firstn_length_app, skipn_length_app.
  destruct (YY_START s); auto. now elim N.
Qed.

Lemma step_initial : forall s c t a n, YY_START s = INITIAL -> input s = c :: t -> next c t = (a, n) ->
  step s =
  (let! r := run_action a (firstn n (input s)) (take n s) in
   Val (match fst r with
        | None => None
        | Some k => Some (mk_located k (yylineno s + newlines (firstn n (input s))) (yycolumn s)
                                     (yycolumn s + length (firstn n (input s)) - 1))
        end, snd r)).
Proof. intros s c t a n S E N. unfold step. rewrite S, E, best_next, N. reflexivity. Qed.

Lemma step_token : forall s l rest, YY_START s = INITIAL -> input s = lexeme_text l ++ rest ->
  lexeme_ok l -> apart (Token l) rest ->
  step s =
  (let! r := lex_one (mode s) l in
   let x := lexeme_text l in
   Val (Some (mk_located (snd r) (yylineno s + newlines x) (yycolumn s) (yycolumn s + length x - 1)),
        advance x (fst r) INITIAL (yy_stack s) s rest)).
Proof.
  intros s l rest S E O A. destruct (next_token l rest O A) as (c & t & E1 & N).
  rewrite (step_initial s c t _ _ S (eq_trans E E1) N).
  assert (NS : YY_START s <> SAVELINE) by congruence.
  destruct (take_advance s _ _ NS E) as [F T]. rewrite F, T, run_token by exact O.
  change (mode (advance (lexeme_text l) (mode s) (YY_START s) (yy_stack s) s rest)) with (mode s).
  destruct (lex_one (mode s) l) as [[f k]| | | |]; cbn; rewrite ?S; reflexivity.
Qed.

Lemma step_white : forall s c rest, YY_START s = INITIAL -> input s = c :: rest -> white c = true ->
  step s = Val (None, advance [c] (mode s) INITIAL (yy_stack s) s rest).
Proof.
  intros s c rest S E W. rewrite (step_initial s c rest _ _ S E (next_white c rest W)).
  assert (NS : YY_START s <> SAVELINE) by congruence.
  destruct (take_advance s [c] rest NS E) as [F T]. cbn [length] in T. rewrite T. cbn. now rewrite S.
Qed.

Lemma step_newline : forall s rest, YY_START s = INITIAL -> input s = newline :: rest ->
  step s = Val (None, mk_scanner (mode s) SAVELINE (INITIAL :: yy_stack s) (yylineno s + 1) (yycolumn s + 1) (line_map s) rest).
Proof.
  intros s rest S E. rewrite (step_initial s newline rest _ _ S E (next_newline rest)).
  assert (NS : YY_START s <> SAVELINE) by congruence.
  destruct (take_advance s [newline] rest NS E) as [F T]. cbn [length] in T. rewrite T. unfold advance. rewrite S. reflexivity.
Qed.

Lemma step_line_comment : forall s t rest, YY_START s = INITIAL -> input s = txt "//" ++ t ++ rest ->
  ~ In newline t -> rest = [] \/ starts_with (eq newline) rest ->
  step s = Val (None, advance (txt "//" ++ t) (mode s) INITIAL (yy_stack s) s rest).
Proof.
  intros s t rest S E N R.
  assert (SP : span dot (t ++ rest) = length t).
  { rewrite span_app by (now apply no_newline). destruct R as [->|(c & u & -> & <-)]; [cbn [span] | replace (span dot (newline :: u)) with 0 by reflexivity]; apply Nat.add_0_r. }
  assert (NX : next "/" ("/"%char :: t ++ rest) = (skip, length (txt "//" ++ t))).
  { rewrite next_slash, Ascii.eqb_refl, SP. reflexivity. }
  rewrite (step_initial s _ _ _ _ S E NX). assert (NS : YY_START s <> SAVELINE) by congruence.
  rewrite app_assoc in E. destruct (take_advance s (txt "//" ++ t) rest NS E) as [F T]. rewrite T, S. reflexivity.
Qed.

Lemma step_comment_start : forall s rest, YY_START s = INITIAL -> input s = txt "/*" ++ rest ->
  step s = Val (None, advance (txt "/*") (mode s) COMMENT (INITIAL :: yy_stack s) s rest).
Proof.
  intros s rest S E.
  assert (NX : next "/" ("*"%char :: rest) = (push COMMENT, length (txt "/*"))) by reflexivity.
  rewrite (step_initial s _ _ _ _ S E NX). assert (NS : YY_START s <> SAVELINE) by congruence.
  destruct (take_advance s (txt "/*") rest NS E) as [F T]. rewrite T, S. unfold advance. cbn [run_action bind fst snd yy_push_state mode YY_START yy_stack yylineno yycolumn line_map input].
  reflexivity.
Qed.

Lemma step_stray : forall s, YY_START s = INITIAL -> stray (input s) -> step s = Exited.
Proof.
  intros s S (NE & NO & NP). destruct (input s) as [|c t] eqn:E; [now elim NE|].
  destruct (next c t) as [a n] eqn:N. rewrite (step_initial s c t a n S E N).
  enough (a = unexpected) as -> by reflexivity.
  destruct (one_piece c t) as [(p & rest & E1 & O & _)|[O|_]]; [now elim (NP p rest O) | now elim NO|].
  (* no piece: every other choice is one *)
  unfold next in N. destruct (letter c) eqn:L.
  { exfalso. apply (NP (Token (Word (str (firstn (Datatypes.S (span word_char t)) (c :: t))))) (skipn (span word_char t) t)).
    - cbn [piece_ok lexeme_ok]. rewrite txt_str. exists c, (firstn (span word_char t) t). split; [reflexivity|].
      split; [now apply letter_iff | apply (forall_forallb _ _ _ word_iff), span_firstn].
    - cbn [piece_text lexeme_text]. rewrite txt_str. cbn [firstn app]. now rewrite firstn_skipn. }
  destruct (digit c) eqn:D.
  { exfalso. apply (NP (Token (Number (str [c]))) t); [|reflexivity]. cbn. split; [discriminate|]. constructor; [now apply digit_iff | constructor]. }
  destruct (Ascii.eqb_spec "-" c) as [<-|N1].
  { exfalso. apply (NP (Token (Symbol "-")) t); [cbn; tauto | reflexivity]. }
  destruct (Ascii.eqb_spec quote c) as [<-|N2].
  { destruct (close t) as [k|] eqn:C; [|congruence]. exfalso.
    destruct (close_split (length t) t k (le_n _) C) as (b & r & -> & B & _).
    apply (NP (Token (Quoted (str b))) r).
    - cbn [piece_ok lexeme_ok]. now rewrite txt_str.
    - cbn [piece_text lexeme_text]. rewrite txt_str. cbn. rewrite <- app_assoc. reflexivity. }
  destruct (Ascii.eqb_spec "/" c) as [<-|N3].
  { destruct t as [|d t]; [congruence|]. destruct (Ascii.eqb_spec "/" d) as [<-|M1].
    - exfalso. apply (NP (Line_comment []) t); [intros [] | reflexivity].
    - destruct (Ascii.eqb_spec "*" d) as [<-|M2]; [|congruence]. exfalso.
      destruct (comment_split t) as [(b & r & -> & B)|M].
      + apply (NP (Block_comment b) r B). cbn [piece_text]. rewrite <- !app_assoc. reflexivity.
      + apply NO. exists t. auto. }
  destruct (white c) eqn:W.
  { exfalso. apply (NP (White c) t); [now apply white_iff | reflexivity]. }
  destruct (Ascii.eqb_spec newline c) as [<-|N4].
  { exfalso. apply (NP Newline t); [exact I | reflexivity]. }
  destruct (lookup [c] literals) as [a'|] eqn:Lk; [|congruence]. exfalso.
  apply (NP (Token (Symbol c)) t); [|reflexivity]. exact (lookup_single c a' Lk L).
Qed.

(** In a comment *)
Lemma best_comment : forall c s, best COMMENT_rules (c :: s) =
  if prefixb (txt "*/") (c :: s) then Some (push INITIAL, 2)
  else if Ascii.eqb newline c then Some (push SAVELINE, 1) else Some (skip, 1).
Proof.
  intros c s. unfold COMMENT_rules. rewrite !best_cons. unfold one_rule. cbn [pattern act word].
  rewrite longest_literal. unfold one. rewrite !longest_chr. unfold dot.
  destruct (Ascii.eqb_spec newline c) as [<-|N].
  - cbn. reflexivity.
  - destruct (prefixb (txt "*/") (c :: s)); reflexivity.
Qed.

Lemma step_comment_end : forall s rest, YY_START s = COMMENT -> input s = txt "*/" ++ rest ->
  step s = Val (None, advance (txt "*/") (mode s) INITIAL (COMMENT :: yy_stack s) s rest).
Proof.
  intros s rest S E. unfold step. rewrite S. cbn [rules]. rewrite E.
  change (txt "*/" ++ rest) with ("*"%char :: "/"%char :: rest). rewrite best_comment.
  replace (prefixb (txt "*/") ("*"%char :: "/"%char :: rest)) with true by reflexivity.
  assert (NS : YY_START s <> SAVELINE) by congruence.
  destruct (take_advance s (txt "*/") rest NS E) as [F T]. cbn [length txt list_ascii_of_string] in T.
  change (length (txt "*/")) with 2 in T. rewrite T, S. reflexivity.
Qed.

Lemma step_comment_newline : forall s rest, YY_START s = COMMENT -> input s = newline :: rest ->
  step s = Val (None, mk_scanner (mode s) SAVELINE (COMMENT :: yy_stack s) (yylineno s + 1) (yycolumn s + 1) (line_map s) rest).
Proof.
  intros s rest S E. unfold step. rewrite S. cbn [rules]. rewrite E, best_comment.
  replace (prefixb (txt "*/") (newline :: rest)) with false by reflexivity. rewrite Ascii.eqb_refl.
  assert (NS : YY_START s <> SAVELINE) by congruence.
  destruct (take_advance s [newline] rest NS E) as [F T]. cbn [length] in T. rewrite T. unfold advance. rewrite S. reflexivity.
Qed.

Lemma step_comment_other : forall s c rest, YY_START s = COMMENT -> input s = c :: rest ->
  c <> newline -> prefixb (txt "*/") (c :: rest) = false ->
  step s = Val (None, advance [c] (mode s) COMMENT (yy_stack s) s rest).
Proof.
  intros s c rest S E N P. unfold step. rewrite S. cbn [rules]. rewrite E, best_comment, P.
  apply not_eq_sym, Ascii.eqb_neq in N. rewrite N.
  assert (NS : YY_START s <> SAVELINE) by congruence.
  destruct (take_advance s [c] rest NS E) as [F T]. cbn [length] in T. rewrite T, S. reflexivity.
Qed.

(** Before a line *)
Lemma best_save : forall c s, best SAVELINE_rules (c :: s) =
  if Ascii.eqb newline c then Some (save_newline, 1) else Some (save_line, span dot (c :: s)).
Proof.
  intros c s. unfold SAVELINE_rules. rewrite !best_cons. unfold one_rule. cbn [pattern act].
  rewrite longest_star. unfold one. rewrite longest_chr. cbn [span]. unfold dot at 1 3.
  destruct (Ascii.eqb newline c); reflexivity.
Qed.

Lemma step_save_newline : forall s rest, YY_START s = SAVELINE -> input s = newline :: rest ->
  step s = Val (None, mk_scanner (mode s) SAVELINE (yy_stack s) (yylineno s + 1) 0 (line_map s) rest).
Proof.
  intros s rest S E. unfold step. rewrite S. cbn [rules]. rewrite E, best_save, Ascii.eqb_refl.
  unfold take. rewrite S, E. reflexivity.
Qed.

Lemma step_save_line : forall s c t x l, YY_START s = SAVELINE -> input s = c :: t -> c <> newline ->
  yy_stack s = x :: l ->
  step s = Val (None, mk_scanner (mode s) x l (yylineno s) 1
                  ((yylineno s, firstn (span dot (input s)) (input s)) :: line_map s) (input s)).
Proof.
  intros s c t x l S E N ST. unfold step. rewrite S. cbn [rules]. rewrite E, best_save.
  apply not_eq_sym, Ascii.eqb_neq in N. rewrite N. rewrite <- E. cbn [run_action].
  unfold take. rewrite S. cbn [mode YY_START yy_stack yylineno yycolumn line_map input].
  rewrite newlines_none by (apply no_newline, span_firstn). rewrite Nat.add_0_r.
  unfold yy_pop_state. cbn [mode YY_START yy_stack yylineno yycolumn line_map input].
  rewrite ST, firstn_skipn. reflexivity.
Qed.
