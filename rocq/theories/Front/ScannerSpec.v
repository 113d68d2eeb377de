(** How a specification looks as text: tokens with white space and comments
    between them, and where a token stands. *)

From Coq Require Import String.
From Coq Require Import List Ascii Bool Arith.
From Verif Require Import Front.LexerModel Front.ScannerModel.
Import ListNotations.
Local Open Scope string_scope.
Local Open Scope list_scope.

(** * Regular expressions, for the model of flex's matching *)

Inductive matches : regex -> text -> Prop :=
| match_empty : matches Empty []
| match_chr : forall p c, p c = true -> matches (Chr p) [c]
| match_cat : forall r s t u, matches r t -> matches s u -> matches (Cat r s) (t ++ u)
| match_left : forall r s t, matches r t -> matches (Alt r s) t
| match_right : forall r s t, matches s t -> matches (Alt r s) t
| match_none : forall r, matches (Star r) []
| match_more : forall r t u, matches r t -> matches (Star r) u -> matches (Star r) (t ++ u).

(** * Text *)

Definition is_letter (c : ascii) : Prop := In c (txt "ABCDEFGHIJKLMNOPQRSTUVWXYZabcdefghijklmnopqrstuvwxyz").
Definition is_digit (c : ascii) : Prop := In c (txt "0123456789").
Definition in_word (c : ascii) : Prop := is_letter c \/ is_digit c \/ c = "_"%char.

Definition digits (t : text) : Prop := t <> [] /\ Forall is_digit t.
Definition fraction (t : text) : Prop := exists a b, t = a ++ "."%char :: b /\ digits a /\ digits b.

(** The inside of a string: a backslash comes with another character. *)
Inductive string_body : text -> Prop :=
| body_end : string_body []
| body_char : forall c t, c <> quote -> c <> backslash -> string_body t -> string_body (c :: t)
| body_escape : forall c t, c <> newline -> string_body t -> string_body (backslash :: c :: t).

Definition lexeme_text (l : lexeme) : text :=
  match l with
  | Word w => txt w
  | Symbol c => [c]
  | Arrow => txt "->"
  | Float_number t | Negative_number t | Number t => txt t
  | Quoted t => quote :: txt t ++ [quote]
  end.
Definition lexeme_ok (l : lexeme) : Prop :=
  match l with
  | Word w => exists c t, txt w = c :: t /\ is_letter c /\ Forall in_word t
  | Symbol c => In c (txt "()[]{},=;!|&-.")
  | Arrow => True
  | Float_number t => fraction (txt t) \/ exists u, txt t = "-"%char :: u /\ fraction u
  | Negative_number t => exists u, txt t = "-"%char :: u /\ digits u
  | Number t => digits (txt t)
  | Quoted t => string_body (txt t)
  end.

Inductive piece :=
| Token (l : lexeme)
| White (c : ascii)
| Newline
| Line_comment (t : text)
| Block_comment (t : text).

Definition piece_text (p : piece) : text :=
  match p with
  | Token l => lexeme_text l
  | White c => [c]
  | Newline => [newline]
  | Line_comment t => txt "//" ++ t
  | Block_comment t => txt "/*" ++ t ++ txt "*/"
  end.
Definition piece_ok (p : piece) : Prop :=
  match p with
  | Token l => lexeme_ok l
  | White c => c = " "%char \/ c = tab \/ c = return_
  | Newline => True
  | Line_comment t => ~ In newline t
  | Block_comment t => forall a b, t ++ txt "*/" = a ++ txt "*/" ++ b -> b = []
  end.
Definition text_of (ps : list piece) : text := flat_map piece_text ps.
Definition starts_with (P : ascii -> Prop) (t : text) : Prop := exists c u, t = c :: u /\ P c.

(** What may not come right after a piece, because it would be read as a part
    of it. *)
Definition apart (p : piece) (rest : text) : Prop :=
  match p with
  | Token (Word _) => ~ starts_with in_word rest
  | Token (Symbol c) => c = "-"%char -> ~ starts_with (fun d => d = ">"%char \/ is_digit d) rest
  | Token (Float_number _) => ~ starts_with is_digit rest
  | Token (Negative_number _) | Token (Number _) =>
      ~ starts_with is_digit rest /\ ~ (exists c u, rest = "."%char :: c :: u /\ is_digit c)
  | Token Arrow | Token (Quoted _) => True
  | White _ | Newline | Block_comment _ => True
  | Line_comment _ => rest = [] \/ starts_with (eq newline) rest
  end.
Fixpoint laid_out (ps : list piece) : Prop :=
  match ps with
  | [] => True
  | p :: ps => piece_ok p /\ apart p (text_of ps) /\ laid_out ps
  end.

Fixpoint lexemes_of (ps : list piece) : list lexeme :=
  match ps with
  | [] => []
  | Token l :: ps => l :: lexemes_of ps
  | _ :: ps => lexemes_of ps
  end.

(** * Places *)

(** Every token with the text before it. *)
Fixpoint occurrences (before : text) (ps : list piece) : list (text * lexeme) :=
  match ps with
  | [] => []
  | Token l :: ps => (before, l) :: occurrences (before ++ lexeme_text l) ps
  | p :: ps => occurrences (before ++ piece_text p) ps
  end.

(** The lines of a text; the last one is what has been written of the line. *)
Fixpoint lines_from (line : text) (t : text) : list text :=
  match t with
  | [] => [line]
  | c :: t => if Ascii.eqb c newline then line :: lines_from [] t else lines_from (line ++ [c]) t
  end.
Definition lines (t : text) : list text := lines_from [] t.

(** Numbers from 1. *)
Definition line_at (before : text) : nat := length (lines before).
Definition column_at (before : text) : nat := length (last (lines before) []) + 1.

Definition one_line (l : lexeme) : Prop := ~ In newline (lexeme_text l).

(** * Texts that are no layout *)

(** Pieces before other text. *)
Fixpoint laid_before (ps : list piece) (tail : text) : Prop :=
  match ps with
  | [] => True
  | p :: ps => piece_ok p /\ apart p (text_of ps ++ tail) /\ laid_before ps tail
  end.
(** A comment that is not closed. *)
Definition open_comment (t : text) : Prop :=
  exists u, t = txt "/*" ++ u /\ forall a b, u <> a ++ txt "*/" ++ b.
(** A place where no piece begins. *)
Definition stray (t : text) : Prop :=
  t <> [] /\ ~ open_comment t /\ forall p rest, piece_ok p -> t <> piece_text p ++ rest.

(** The lines of a text that are not empty, with their numbers, the last one
    first. *)
Fixpoint numbered (n : nat) (l : list text) : list (nat * text) :=
  match l with [] => [] | x :: l => (n, x) :: numbered (n + 1) l end.
Definition written_lines (l : list (nat * text)) : list (nat * text) :=
  rev (filter (fun x => match snd x with [] => false | _ => true end) l).
