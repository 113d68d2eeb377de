(** C10: wrapping of messages; C11: counters; C43: locations. *)

From Coq Require Import String.
From Coq Require Import List ZArith Ascii Bool.
From Verif Require Import Base.Outcome Palm.StrModel Palm.CtinfoModel Palm.CtinfoSpec Palm.CtinfoProof Palm.CtinfoInst.
Import ListNotations.
Local Open Scope list_scope.

(** C10: the printed lines are the pieces of the message after replacing some
    blanks by spaces or breaks: lines are broken only there, and no visible
    character is lost, added or moved - unless the message has an '@'. *)
Theorem C10_text_kept :
  forall (line_length : nat) (msg : list ascii),
    exists out, rebroken msg out /\ pieces out (message_lines line_length msg) /\
      (~ In at_sign msg ->
       visible (concat (message_lines line_length msg)) = visible msg).
Proof. exact text_kept. Qed.
Print Assumptions C10_text_kept.

(** No printed line is too long if all words of the message are shorter than
    the line length.  Partial: the full claim is about single lines with short
    words in messages that may have long words elsewhere; see
    [C10_long_word_refuted]. *)
Theorem C10_lines_fit_partial :
  forall (line_length : nat) (msg : list ascii),
    words_short line_length msg ->
    Forall (fun l => List.length l <= line_length) (message_lines line_length msg).
Proof. exact lines_fit. Qed.
Print Assumptions C10_lines_fit_partial.

(** With the header ("error: ", ...) every line fits the fixed width. *)
Theorem C10_headed_lines_fit_partial :
  forall (header msg : list ascii),
    List.length header <= message_line_length ->
    words_short (message_line_length - List.length header) msg ->
    Forall (fun l => List.length (header ++ l) <= message_line_length)
           (message_lines (message_line_length - List.length header) msg).
Proof. exact headed_lines_fit. Qed.
Print Assumptions C10_headed_lines_fit_partial.

(** The message buffer always holds the whole text. *)
Theorem C10_buffer_holds_message :
  forall (b : buffer) (text : list ascii),
    buf_text (Format2Buffer b text) = Some text /\
    List.length text < buf_size (Format2Buffer b text).
Proof. exact buffer_holds. Qed.
Print Assumptions C10_buffer_holds_message.

(** What is printed shows as these lines, the header before the first one. *)
Theorem C10_lines_shown :
  forall (header l : list ascii) (ls : list (list ascii)),
    Forall (fun x => ~ In newline x) (header :: l :: ls) ->
    shown_lines (print_lines header (l :: ls)) = ((header ++ l) :: ls, []).
Proof. exact printed_lines. Qed.
Print Assumptions C10_lines_shown.

(** The full claims are false: after a long word nothing is wrapped any more,
    here a line of 11 characters with words of one letter, for length 5. *)
Theorem C10_long_word_refuted :
  message_lines 5 (txt "aaaaaaa
b c d e f g") = [txt "aaaaaaa
b c d e f g"].
Proof. vm_compute. reflexivity. Qed.
Print Assumptions C10_long_word_refuted.

(** An '@' in a message is lost and breaks the line. *)
Theorem C10_at_sign_refuted :
  exists msg, message_lines 80 msg = [txt "a"; txt "b"] /\ visible msg = txt "a@b".
Proof. exists (txt "a@b"). vm_compute. split; reflexivity. Qed.
Print Assumptions C10_at_sign_refuted.

Example C10_case : words_short 12 msg0 /\
  message_lines 12 msg0 = [txt "the quick"; txt "brown fox"; txt "jumps over"; txt "the dog"].
Proof. split; [apply words_short_of|]; vm_compute; reflexivity. Qed.

(** C11: in every sequence of calls (fewer than 2^31), each call gets the
    answer determined by the numbers of errors and warnings reported before
    it; the run ends early only by exiting. *)
Theorem C11_counters :
  forall (calls : list call), (Z.of_nat (List.length calls) <= INT_MAX)%Z ->
    exists answers, cti_run counters_init calls = Val answers /\
      (forall k a, nth_error answers k = Some a ->
         exists x, nth_error calls k = Some x /\ a = answer_after (firstn k calls) x) /\
      (List.length answers < List.length calls ->
       exists l s e w, answers = l ++ [Exit s e w]).
Proof. exact counters_correct. Qed.
Print Assumptions C11_counters.

Example C11_case :
  cti_run counters_init calls0 =
  Val [Nothing; Nothing; Nothing; Number 1; Nothing; Exit 1 1 1].
Proof. vm_compute. reflexivity. Qed.

(** C43: under the quoted source line, the caret is below the character in
    column [first_column], preceded by spaces only, and the marker ends below
    column [last_column] (if that is not before the caret). *)
Theorem C43_marker_at_column :
  forall (i : ctinfo) (l : list ascii),
    (1 <= first_column i)%Z -> source_line i = Some l ->
    (first_column i <= Z.of_nat (List.length l))%Z ->
    nth (Z.to_nat (first_column i) - 1 + 4) (quoted l) nul = nth (Z.to_nat (first_column i) - 1) l nul /\
    nth (Z.to_nat (first_column i) - 1 + 4) (marker i) nul = "^"%char /\
    (forall k, k < Z.to_nat (first_column i) - 1 + 4 -> nth k (marker i) nul = space) /\
    List.length (marker i) = Z.to_nat (Z.max (first_column i) (last_column i)) + 4.
Proof. exact marker_at_column. Qed.
Print Assumptions C43_marker_at_column.

(** "Values that are 0/NULL are not displayed" (ctinfo.h) is false: with no
    line and no column, the form with line and column is printed. *)
Theorem C43_zero_values_refuted : PrintInfo_form (mk_ctinfo 0 0 0 0 None) = WLineCol.
Proof. reflexivity. Qed.
Print Assumptions C43_zero_values_refuted.

Example C43_case : marker (mk_ctinfo 3 2 3 4 (Some (txt "abcdef"))) = txt "     ^~~".
Proof. vm_compute. reflexivity. Qed.
