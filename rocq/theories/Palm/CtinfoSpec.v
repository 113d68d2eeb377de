(** Vocabulary for C10 and C11. *)

From Coq Require Import List ZArith Ascii Bool.
From Verif Require Import Palm.CtinfoModel.
Import ListNotations.

Definition is_blank (c : ascii) : bool :=
  Ascii.eqb c space || Ascii.eqb c tab || Ascii.eqb c newline.

Definition visible (l : list ascii) : list ascii := filter (fun c => negb (is_blank c)) l.

(** The lines a terminal shows: what is between two line ends, and whether
    the last line is ended. *)
Fixpoint shown_lines (l : list ascii) : list (list ascii) * list ascii :=
  match l with
  | [] => ([], [])
  | c :: l =>
      let (full, rest) := shown_lines l in
      if Ascii.eqb c (ascii_of_nat 10) then ([] :: full, rest)
      else match full with
           | [] => ([], c :: rest)
           | f :: full => ((c :: f) :: full, rest)
           end
  end.

(** [out] is [msg] with some blanks replaced by spaces or line breaks ('@'). *)
Definition keeps_byte (m o : ascii) : Prop :=
  o = m \/ (is_blank m = true /\ (o = space \/ o = at_sign)).
Definition rebroken (msg out : list ascii) : Prop := Forall2 keeps_byte msg out.

(** Every word of the message is shorter than [n]. *)
Definition words_short (n : nat) (msg : list ascii) : Prop :=
  forall a w b, msg = a ++ w ++ b -> Forall (fun c => is_blank c = false) w -> length w < n.

(** The non-empty pieces between '@' signs. *)
Inductive pieces : list ascii -> list (list ascii) -> Prop :=
| pieces_nil : pieces [] []
| pieces_last : forall w, w <> [] -> ~ In at_sign w -> pieces w [w]
| pieces_at : forall s ls, pieces s ls -> pieces (at_sign :: s) ls
| pieces_word : forall w s ls, w <> [] -> ~ In at_sign w -> pieces s ls ->
    pieces (w ++ at_sign :: s) (w :: ls).

(** Number of reports of a type in a sequence of calls. *)
Definition reports (ty : cti_type) (x : call) : bool :=
  match x, ty with
  | CTI CTI_ERROR, CTI_ERROR | CTIobj CTI_ERROR, CTI_ERROR => true
  | CTI CTI_WARN, CTI_WARN | CTIobj CTI_WARN, CTI_WARN => true
  | CTI CTI_NOTE, CTI_NOTE | CTIobj CTI_NOTE, CTI_NOTE => true
  | CTI CTI_STATE, CTI_STATE | CTIobj CTI_STATE, CTI_STATE => true
  | _, _ => false
  end.
Definition count_reports (ty : cti_type) (xs : list call) : Z :=
  Z.of_nat (length (filter (reports ty) xs)).

(** The answer to call [x] after the calls [before] (all of which returned). *)
Definition answer_after (before : list call) (x : call) : answer :=
  let e := count_reports CTI_ERROR before in
  let w := count_reports CTI_WARN before in
  match x with
  | CTI _ | CTIobj _ => Nothing
  | CTIgetErrors => Number e
  | CTIgetWarnings => Number w
  | CTIabortOnError => if (e =? 0)%Z then Nothing else Exit 1 e w
  | CTIabortCompilation => Exit 1 e w
  | CTIabortOutOfMemory => Exit 1 (e + 1) w
  end.
