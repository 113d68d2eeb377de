(** What a message should show of the place it is about. *)

From Coq Require Import String.
From Coq Require Import List Ascii Arith DecimalString.
From Verif Require Import Front.ScannerModel.
Import ListNotations.
Local Open Scope string_scope.
Local Open Scope list_scope.

(** Behind [before] in a file with the text [t] stands [w]; it is in the line
    with the given number, after [left] and before [right]. *)
Definition stands (t before w : text) (number : nat) (left right : text) : Prop :=
  exists above below,
    t = above ++ (left ++ w ++ right) ++ below /\ before = above ++ left /\
    (above = [] \/ exists u, above = u ++ [newline]) /\ (below = [] \/ exists u, below = newline :: u) /\
    ~ In newline (left ++ w ++ right) /\
    number = count_occ ascii_dec above newline + 1.

Definition number_text (n : nat) : text := txt (NilEmpty.string_of_uint (Nat.to_uint n)).

(** The name of the file, the number of the line, and the first and last
    column of [w]. *)
Definition place_text (file : text) (number : nat) (left w : text) : text :=
  let first := length left + 1 in
  let last := length left + length w in
  txt " --> " ++ file ++ txt ":" ++ number_text number ++
  (if Nat.eqb first last then txt ":" ++ number_text first
   else txt "." ++ number_text first ++ txt "-" ++ number_text last) ++ [newline].

(** The line, and marks under [w]. *)
Definition marked_line (left w right : text) : text :=
  txt " |> " ++ left ++ w ++ right ++ [newline] ++
  txt "    " ++ repeat " "%char (length left) ++ "^"%char :: repeat "~"%char (length w - 1) ++ [newline].
