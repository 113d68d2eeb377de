(** C47: a file is read as the specification that it contains. *)

From Coq Require Import String.
From Coq Require Import List Ascii Bool Lia.
From Verif Require Import Base.Outcome Palm.StrModel Front.LexerModel Front.LexerSpec Front.ScannerModel Front.ScannerSpec.
From Verif Require Import Front.ScannerText Front.ScannerWhole Front.ScannerProps.
From Verif Require Import Front.Syntax Front.ParserModel Front.ParserSpec Front.SetsInst Front.ParserRun Front.ParserSound Front.ParserInst.
From Verif Require Import Front.ParserProps Front.FileModel Front.FileSpec Front.FileParts Front.FileWhole Front.FileInst.
Import ListNotations.
Local Open Scope outcome_scope.
Local Open Scope string_scope.
Local Open Scope list_scope.

(** Every file that contains the words of a specification, with any white
    space and comments between them, is accepted, with the tree of this
    specification and no other.  The full statement has neither
    [declaration_ok] (C45) nor the condition on the values of enums in
    [names_ok] (C42). *)
Theorem C47_file_read_partial : forall d ts ps, written d ts -> Forall declaration_ok d -> Forall names_ok d ->
  laid_out ps -> lexemes_of ps = map spell ts ->
  forall p, reads_file (text_of ps) p <-> p = tree_of d.
Proof.
  intros d ts ps W O N L E p. destruct (written_lexed d ts W N) as (f & ks & X & K).
  pose proof (C46_tokens ps L) as S. rewrite E, X in S. cbn [bind snd] in S.
  destruct (scan (text_of ps)) as [[lts s]| | | |] eqn:SC; try discriminate S. cbn [bind fst] in S. injection S as S.
  split.
  - intros (lts' & s' & ks' & SC' & K' & P). rewrite SC in SC'. injection SC' as <- <-. rewrite S, K in K'. injection K' as <-.
    now apply (C45_reads_partial d ts W O).
  - intros ->. exists lts, s, ts. split; [exact SC|]. split; [now rewrite S|]. now apply (C45_reads_partial d ts W O).
Qed.
Print Assumptions C47_file_read_partial.

(** For every specification there is such a file. *)
Theorem C47_every_specification_partial : forall d, Forall expressible d -> Forall declaration_ok d -> Forall names_ok d ->
  exists ts ps, written d ts /\ laid_out ps /\ lexemes_of ps = map spell ts /\
    forall p, reads_file (text_of ps) p <-> p = tree_of d.
Proof.
  intros d X O N. destruct (write_all_declarations d X) as (ts & W).
  assert (S : Forall lexeme_ok (map spell ts)) by (apply Forall_map; exact (written_spelled d ts W N)).
  destruct (one_per_line_laid _ S) as [L E]. exists ts, (one_per_line (map spell ts)). split; [exact W|]. split; [exact L|].
  split; [exact E|]. now apply (C47_file_read_partial d ts).
Qed.
Print Assumptions C47_every_specification_partial.

(** No file has two trees. *)
Theorem C47_one_tree : forall t p q, reads_file t p -> reads_file t q -> p = q.
Proof.
  intros t p q (a & s & k & A & B & C) (a' & s' & k' & A' & B' & C'). rewrite A in A'. injection A' as <- <-.
  rewrite B in B'. injection B' as <-. exact (C45_one_reading _ _ _ C C').
Qed.
Print Assumptions C47_one_tree.

(** Nothing else is accepted: an accepted file consists of words, white space
    and comments, possibly up to a comment that is not closed; its tokens are
    those of these words, and apart from commas and the brackets of lifetime
    ranges they are the tokens of a specification with this tree (apart from
    info strings of traversals). *)
Theorem C47_nothing_else : forall t p, reads_file t p ->
  exists ps tail f ks ts d us, t = text_of ps ++ tail /\ laid_before ps tail /\ (tail = [] \/ open_comment tail) /\
    lex init_flags (lexemes_of ps) = Val (f, ks) /\ toks_of ks = Some ts /\
    written d us /\ words us = words ts /\ quiet p = quiet (tree_of d).
Proof.
  intros t p (lts & s & ts & A & B & C). destruct (C45_nothing_else ts p C) as (d & us & W & E & Q).
  destruct (all_pieces _ t (le_n _)) as (ps & tail & -> & L & T).
  assert (X : (tail = [] \/ open_comment tail) \/ stray tail) by tauto. destruct X as [X|X].
  2: { rewrite (scan_stray ps tail L X) in A. discriminate. }
  pose proof (scan_layout ps tail L X) as S. destruct (lex init_flags (lexemes_of ps)) as [[f ks]| | | |] eqn:LX; try now elim S.
  - destruct S as (lts' & s' & A' & M & _). rewrite A in A'. injection A' as <- <-. exists ps, tail, f, ks, ts, d, us.
    split; [reflexivity|]. split; [exact L|]. split; [exact X|]. split; [exact LX|]. split; [now rewrite <- M|]. auto.
  - congruence.
Qed.
Print Assumptions C47_nothing_else.

(** Each file is accepted or not, by a program. *)
Theorem C47_decided : exists f : text -> option parser, forall t p, reads_file t p <-> f t = Some p.
Proof.
  exists read_file. exact read_file_iff.
Qed.
Print Assumptions C47_decided.

(** An enum with the values enum and values: the file is rejected, in the
    other order it is accepted. *)
Theorem C47_enum_values_refuted :
  (forall p, ~ reads_file tricky_text p) /\ (exists p, reads_file tricky_swapped_text p).
Proof.
  split.
  - intros p H. apply read_file_iff in H. vm_compute in H. discriminate.
  - destruct (read_file tricky_swapped_text) as [p|] eqn:E; [exists p; now apply read_file_iff | vm_compute in E; discriminate].
Qed.
Print Assumptions C47_enum_values_refuted.

(** The text of an example and its tree. *)
Example C47_example : reads_file example_text (tree_of example) /\
  Forall declaration_ok example /\ Forall names_ok example /\ Forall expressible example.
Proof.
  split; [|split; [|split]].
  - apply read_file_iff. vm_compute. reflexivity.
  - constructor; [|constructor; [|constructor; [|constructor]]].
    + repeat split; try (repeat constructor; fail). intros H. now elim H.
    + discriminate.
    + constructor; [discriminate | discriminate|]. repeat constructor. intros X. now elim X.
  - constructor; [|constructor; [|constructor; [|constructor]]]; apply names_okb_sound; vm_compute; reflexivity.
  - constructor; [|constructor; [|constructor; [|constructor]]]; cbn; repeat constructor. discriminate.
Qed.
