(** What the generated files should look like: the calls are a history of
    blocks being opened (+1) and closed (-1) and of text written at the depth
    reached so far. *)

From Coq Require Import List ZArith Ascii Bool.
From Verif Require Import Gen.IndentModel.
Import ListNotations.
Local Open Scope Z_scope.

Inductive event :=
| Open_block
| Close_block
| Text (indented : bool) (text : list ascii)
| New_file.

Definition opt (b : bool) (e : event) : list event := if b then [e] else [].

Definition events_of (k : call) : list event :=
  match k with
  | Increase => [Open_block]
  | Decrease => [Close_block]
  | OpenFile _ => [New_file]
  | Print s text =>
      opt (GN_INCREASE_WS_BEFORE s) Open_block ++ opt (GN_DECREASE_WS_BEFORE s) Close_block ++
      [Text (negb (GN_NO_WS s)) text] ++
      opt (GN_INCREASE_WS_AFTER s) Open_block ++ opt (GN_DECREASE_WS_AFTER s) Close_block
  end.
Definition history (ks : list call) : list event := flat_map events_of ks.

Definition change (e : event) : Z :=
  match e with Open_block => 1 | Close_block => -1 | _ => 0 end.

(** Blocks open after a history. *)
Definition depth (es : list event) : Z := fold_right Z.add 0 (map change es).

(** No more blocks are closed than were opened, nor more opened at a time
    than the level's type can hold. *)
Definition never_over_closed (es : list event) : Prop :=
  forall past future, es = past ++ future -> 0 <= depth past.
Definition over_closed (es : list event) : Prop := exists past future, es = past ++ future /\ depth past < 0.
Definition not_too_deep (es : list event) : Prop :=
  forall past future, es = past ++ future -> depth past < 65536.
Definition file_first (es : list event) : Prop :=
  forall past i t future, es = past ++ Text i t :: future -> In New_file past.

(** The files, the newest first: four blanks per open block before every
    piece of indented text. *)
Inductive written : list event -> list (list ascii) -> Prop :=
| written_nothing : written [] []
| written_file : forall es fs, written es fs -> written (es ++ [New_file]) ([] :: fs)
| written_block : forall es fs e, written es fs -> e = Open_block \/ e = Close_block -> written (es ++ [e]) fs
| written_text : forall es f fs i t, written es (f :: fs) ->
    written (es ++ [Text i t])
      ((f ++ (if i then repeat " "%char (Z.to_nat (4 * depth es)) else []) ++ t) :: fs).

Definition can_open (k : call) : Prop := match k with OpenFile false => False | _ => True end.
