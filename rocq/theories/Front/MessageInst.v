(** Example texts for C67. *)

From Coq Require Import String.
From Coq Require Import List Ascii Bool Arith.
From Verif Require Import Base.Outcome Front.LexerModel Front.ScannerModel Front.ScannerSpec Front.ScannerInst
  Front.MessageModel.
Import ListNotations.
Local Open Scope string_scope.
Local Open Scope list_scope.

(** What is printed for the [k]th token of a text, if it is a name. *)
Definition printed (t : text) (k : nat) : option text :=
  match scan t with
  | Val (ts, s) =>
      match nth_error ts k with
      | Some x => match make_id x with Some n => Some (PrintInfo (txt "f.ccn") (id_to_info (line_map s) n)) | None => None end
      | None => None
      end
  | _ => None
  end.

(** "node" and a name in the second line *)
Definition small : list piece := [Line_comment (txt " one"); Newline; w "node"; sp; w "Expr"; sp; sym "{"; sym "}"].
Definition small_shown : text :=
  txt " --> f.ccn:2.6-9" ++ newline :: txt " |> node Expr {}" ++ newline :: txt "         ^~~~" ++ [newline].

(** A C keyword as name, and a character that begins nothing *)
Definition bad_word : list piece := [Newline; w "node"; sp].
Definition bad_word_rest : text := txt " {" ++ newline :: txt "}".
Definition after_bad : text := txt " x".
