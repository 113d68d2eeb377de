(** C67: an error message about a specification shows the place it is about. *)

From Coq Require Import String.
From Coq Require Import List Ascii Bool Arith ZArith.
From Verif Require Import Base.Outcome Front.LexerModel Front.ScannerModel Front.ScannerSpec Front.ScannerNext Front.ScannerText
  Front.ScannerWhole Front.ScannerInst Front.MessageModel Front.MessageSpec Front.MessageProof Front.MessageInst.
Import ListNotations.
Local Open Scope outcome_scope.
Local Open Scope string_scope.
Local Open Scope list_scope.

(** A file of tokens, white space and comments, of which the last may be left
    open, without strings over several lines: what the checks print for a name
    of the file is the name of the file, the number of the line and the
    columns where the name stands, and the line itself with the name marked.
    C46_all_texts: every file that is read to its end has this form.  The full
    statement has no [one_line]. *)
Theorem C67_names_partial : forall file ps tail ts s k before w,
  laid_before ps tail -> tail = [] \/ open_comment tail -> Forall one_line (lexemes_of ps) ->
  scan (text_of ps ++ tail) = Val (ts, s) -> nth_error (occurrences [] ps) k = Some (before, Word w) ->
  exists t number left right, nth_error ts k = Some t /\ stands (text_of ps ++ tail) before (txt w) number left right /\
    forall n, make_id t = Some n ->
      PrintInfo file (id_to_info (line_map s) n) = place_text file number left (txt w) ++ marked_line left (txt w) right.
Proof. exact names_shown. Qed.
Print Assumptions C67_names_partial.

(** A word that is a keyword of C where a name is expected. *)
Theorem C67_c_keyword_partial : forall file ps w rest f toks,
  laid_before ps (txt w ++ rest) -> Forall one_line (lexemes_of ps) ->
  lexeme_ok (Word w) -> apart (Token (Word w)) rest ->
  lex init_flags (lexemes_of ps) = Val (f, toks) -> lex_one f (Word w) = Exited ->
  exists i number left right, message_of_scanner (text_of ps ++ txt w ++ rest) = Some i /\
    stands (text_of ps ++ txt w ++ rest) (text_of ps) (txt w) number left right /\
    PrintInfo file i = place_text file number left (txt w) ++ marked_line left (txt w) right.
Proof. exact c_keyword_shown. Qed.
Print Assumptions C67_c_keyword_partial.

(** A token that the parser does not accept there. *)
Theorem C67_syntax_partial : forall file ps l rest f toks r,
  laid_before ps (lexeme_text l ++ rest) -> Forall one_line (lexemes_of ps) ->
  lexeme_ok l -> one_line l -> apart (Token l) rest ->
  lex init_flags (lexemes_of ps) = Val (f, toks) -> lex_one f l = Val r ->
  exists i number left right, message_of_parser (length toks) (text_of ps ++ lexeme_text l ++ rest) = Some i /\
    stands (text_of ps ++ lexeme_text l ++ rest) (text_of ps) (lexeme_text l) number left right /\
    PrintInfo file i = place_text file number left (lexeme_text l) ++ marked_line left (lexeme_text l) right.
Proof. exact syntax_error_shown. Qed.
Print Assumptions C67_syntax_partial.

(** A character that begins nothing: the place is right, and an empty line is
    shown instead of the line. *)
Theorem C67_stray_partial : forall file ps c rest f toks,
  laid_before ps (c :: rest) -> Forall one_line (lexemes_of ps) -> stray (c :: rest) ->
  lex init_flags (lexemes_of ps) = Val (f, toks) ->
  exists i number left right, message_of_scanner (text_of ps ++ c :: rest) = Some i /\
    stands (text_of ps ++ c :: rest) (text_of ps) [c] number left right /\
    PrintInfo file i = place_text file number left [c] ++
      txt " |> " ++ [newline] ++ txt "    " ++ repeat " "%char (length left) ++ txt "^" ++ [newline].
Proof. exact stray_shown. Qed.
Print Assumptions C67_stray_partial.

(** Behind a string over two lines: the name "x" stands in column 5 of line 2;
    column 8 is printed, and the line is not shown. *)
Theorem C67_strings_refuted : laid_out two_lines /\
  exists ts s t n, scan (text_of two_lines) = Val (ts, s) /\ nth_error ts 1 = Some t /\ make_id t = Some n /\
    stands (text_of two_lines) (quote :: txt "a" ++ newline :: txt "bc" ++ [quote; " "%char]) (txt "x") 2 (txt "bc" ++ [quote; " "%char]) [] /\
    PrintInfo (txt "f.ccn") (id_to_info (line_map s) n) = txt " --> f.ccn:2:8" ++ [newline].
Proof.
  split; [apply laid_outb_sound; vm_compute; reflexivity|].
  eexists _, _, _, _. split; [vm_compute; reflexivity|]. split; [reflexivity|]. split; [reflexivity|]. split; [|vm_compute; reflexivity].
  exists (quote :: txt "a" ++ [newline]), []. split; [reflexivity|]. split; [reflexivity|]. split; [right; exists (quote :: txt "a"); reflexivity|].
  split; [left; reflexivity|]. split; [|reflexivity]. cbn. intros H. repeat destruct H as [H|H]; try discriminate H; destruct H.
Qed.
Print Assumptions C67_strings_refuted.

(** The line with a character that begins nothing is not shown. *)
Theorem C67_stray_refuted :
  ~ forall file ps c rest, laid_before ps (c :: rest) -> Forall one_line (lexemes_of ps) -> stray (c :: rest) ->
      exists i number left right, message_of_scanner (text_of ps ++ c :: rest) = Some i /\
        stands (text_of ps ++ c :: rest) (text_of ps) [c] number left right /\
        PrintInfo file i = place_text file number left [c] ++ marked_line left [c] right.
Proof.
  intros H. destruct (H [] [] "#"%char []) as (i & number & left & right & M & _ & P); [exact I|constructor| |].
  - apply (stray_not "#" [] 1). vm_compute. reflexivity.
  - assert (E : message_of_scanner (text_of [] ++ ["#"%char]) = Some (mk_ctinfo 1 1 0 0 (Some []))) by (vm_compute; reflexivity).
    rewrite E in M. injection M as <-. clear H E.
    assert (X : In "#"%char (PrintInfo [] (mk_ctinfo 1 1 0 0 (Some [])))).
    { rewrite P. apply in_app_iff. right. unfold marked_line. rewrite !in_app_iff. right. right. left. left. reflexivity. }
    vm_compute in X. repeat destruct X as [X|X]; try discriminate X; destruct X.
Qed.
Print Assumptions C67_stray_refuted.

(** ** Instances *)

Example C67_name : laid_before small [] /\ Forall one_line (lexemes_of small) /\
  nth_error (occurrences [] small) 1 = Some (txt "// one" ++ newline :: txt "node ", Word "Expr") /\
  printed (text_of small) 1 = Some small_shown.
Proof.
  split; [apply laid_before_nil, laid_outb_sound; vm_compute; reflexivity|]. split; [|split; vm_compute; reflexivity].
  apply Forall_forall. intros l I. apply no_newline. revert l I. apply forallb_forall. vm_compute. reflexivity.
Qed.
Example C67_while : exists f toks, lex init_flags (lexemes_of bad_word) = Val (f, toks) /\ lex_one f (Word "while") = Exited /\
  option_map (PrintInfo (txt "f.ccn")) (message_of_scanner (text_of bad_word ++ txt "while" ++ bad_word_rest)) =
  Some (txt " --> f.ccn:2.6-10" ++ newline :: txt " |> node while {" ++ newline :: txt "         ^~~~~" ++ [newline]).
Proof. eexists _, _. split; [vm_compute; reflexivity|]. split; vm_compute; reflexivity. Qed.
Example C67_brace : exists f toks r, lex init_flags (lexemes_of bad_word) = Val (f, toks) /\ lex_one f (Symbol "{") = Val r /\
  option_map (PrintInfo (txt "f.ccn")) (message_of_parser (length toks) (text_of bad_word ++ txt "{" ++ bad_word_rest)) =
  Some (txt " --> f.ccn:2:6" ++ newline :: txt " |> node { {" ++ newline :: txt "         ^" ++ [newline]).
Proof. eexists _, _, _. split; [vm_compute; reflexivity|]. split; [vm_compute; reflexivity|]. vm_compute. reflexivity. Qed.
Example C67_stray_instance : stray ("#"%char :: after_bad) /\
  option_map (PrintInfo (txt "f.ccn")) (message_of_scanner (text_of bad_word ++ "#"%char :: after_bad)) =
  Some (txt " --> f.ccn:2:6" ++ newline :: txt " |> " ++ newline :: txt "         ^" ++ [newline]).
Proof. split; [apply (stray_not "#" after_bad 1); vm_compute; reflexivity|vm_compute; reflexivity]. Qed.
