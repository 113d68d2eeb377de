(** Model of palm/src/ctinfo.c: diagnostics.

    Message texts are the texts after printf formatting.  Buffer positions and
    columns are [nat]s (int overflow for messages of 2^31 bytes is not
    modelled). *)

From Coq Require Import List ZArith Ascii Bool.
From Verif Require Import Base.Outcome Palm.StrModel.
Import ListNotations.
Local Open Scope list_scope.
Local Open Scope outcome_scope.

Definition tab : ascii := ascii_of_nat 9.
Definition newline : ascii := ascii_of_nat 10.
Definition space : ascii := " "%char.
Definition at_sign : ascii := "@"%char.

Fixpoint set_byte (i : nat) (c : ascii) (l : list ascii) : list ascii :=
  match l, i with
  | [], _ => []
  | _ :: l', 0 => c :: l'
  | y :: l', S i' => y :: set_byte i' c l'
  end.

(** ctinfo.c:43-76 [ProcessMessage]: [n] bytes before the terminator remain.
    [nth i buf nul] is [buffer[i]]; all accesses are within the buffer. *)
Fixpoint process (line_length : nat) (n index column last_space : nat) (buf : list ascii)
  : list ascii :=
  match n with
  | 0 => buf
  | S n' =>
      (* 51-53 *)
      let buf := if Ascii.eqb (nth index buf nul) tab then set_byte index space buf else buf in
      (* 55-57 *)
      let last_space := if Ascii.eqb (nth index buf nul) space then index else last_space in
      if Ascii.eqb (nth index buf nul) newline then
        (* 59-61 *)
        process line_length n' (S index) 1 last_space (set_byte index at_sign buf)
      else if Nat.eqb column line_length then
        (* 63-70 *)
        if Ascii.eqb (nth last_space buf nul) space then
          process line_length n' (S index) (S (index - last_space)) last_space
                  (set_byte last_space at_sign buf)
        else buf
      else process line_length n' (S index) (S column) last_space buf
  end.

Definition ProcessMessage (buffer : list ascii) (line_length : nat) : list ascii :=
  process line_length (length buffer) 0 0 0 buffer.

(** libc [strtok(s, "@")] called until NULL: the maximal non-empty parts
    without '@'.  [cur] is the part being read. *)
Fixpoint strtok_at (cur : list ascii) (s : list ascii) : list (list ascii) :=
  match s with
  | [] => match cur with [] => [] | _ => [cur] end
  | c :: s' =>
      if Ascii.eqb c at_sign
      then match cur with [] => strtok_at [] s' | _ => cur :: strtok_at [] s' end
      else strtok_at (cur ++ [c]) s'
  end.

(** ctinfo.c:242-257 [PrintMessage]: the lines of the message without the
    header, and the bytes written to stderr. *)
Definition message_lines (line_length : nat) (msg : list ascii) : list (list ascii) :=
  strtok_at [] (ProcessMessage msg line_length).

Definition print_lines (header : list ascii) (lines : list (list ascii)) : list ascii :=
  match lines with
  | [] => []
  | l :: ls => header ++ l ++ newline :: concat (map (fun l => l ++ [newline]) ls)
  end.

(** ctinfo.c:16 *)
Definition message_line_length : nat := 116.

(** ctinfo.c:90-129 [Format2Buffer]: the buffer (its size, and the string in
    it) before and after; [vsnprintf] writes at most size - 1 bytes of the text
    and returns the length of the whole text. *)
Record buffer : Type := mk_buffer { buf_size : nat; buf_text : option (list ascii) }.
Definition no_buffer : buffer := mk_buffer 0 None.

Definition vsnprintf (b : buffer) (text : list ascii) : buffer * nat :=
  (match buf_size b with
   | 0 => b
   | S n => mk_buffer (buf_size b) (Some (firstn n text))
   end, length text).

Definition Format2Buffer (b : buffer) (text : list ascii) : buffer :=
  let (b1, len) := vsnprintf b text in
  if Nat.leb (buf_size b1) len
  then fst (vsnprintf (mk_buffer (len + 2) None) text)
  else b1.

(** ** Counters (ctinfo.c:24-25, 298-301, 393-406, 430-433, 468-475, 500-528) *)

Inductive cti_type : Type := CTI_STATE | CTI_NOTE | CTI_WARN | CTI_ERROR.

Record counters : Type := mk_counters { errors : Z; warnings : Z }.
Definition counters_init : counters := mk_counters 0 0.

Definition HandleCtiCall (ty : cti_type) (c : counters) : outcome counters :=
  match ty with
  | CTI_ERROR => let! e := int_add (errors c) 1 in Val (mk_counters e (warnings c))
  | CTI_WARN => let! w := int_add (warnings c) 1 in Val (mk_counters (errors c) w)
  | _ => Val c
  end.

(** Calls a program makes; CTI and CTIobj have the same effect on the counters. *)
Inductive call : Type :=
| CTI (ty : cti_type)
| CTIobj (ty : cti_type)
| CTIgetErrors
| CTIgetWarnings
| CTIabortOnError
| CTIabortCompilation
| CTIabortOutOfMemory.

(** What the caller sees: nothing, a number, or that the process ended with an
    exit status after printing the totals. *)
Inductive answer : Type :=
| Nothing
| Number (n : Z)
| Exit (status : Z) (shown_errors shown_warnings : Z).

Definition AbortCompilation (c : counters) : answer := Exit 1 (errors c) (warnings c).

Definition cti_step (c : counters) (x : call) : outcome (counters * answer) :=
  match x with
  | CTI ty | CTIobj ty => let! c' := HandleCtiCall ty c in Val (c', Nothing)
  | CTIgetErrors => Val (c, Number (errors c))
  | CTIgetWarnings => Val (c, Number (warnings c))
  | CTIabortOnError => Val (c, if (0 <? errors c)%Z then AbortCompilation c else Nothing)
  | CTIabortCompilation => Val (c, AbortCompilation c)
  | CTIabortOutOfMemory =>
      let! e := int_add (errors c) 1 in
      let c' := mk_counters e (warnings c) in Val (c', AbortCompilation c')
  end.

(** Run calls until the process ends. *)
Fixpoint cti_run (c : counters) (xs : list call) : outcome (list answer) :=
  match xs with
  | [] => Val []
  | x :: xs' =>
      let! (c', a) := cti_step c x in
      match a with
      | Exit _ _ _ => Val [a]
      | _ => let! r := cti_run c' xs' in Val (a :: r)
      end
  end.

(** ** Locations (ctinfo.c:164-222) *)

Record ctinfo : Type := mk_ctinfo {
  first_line : Z; first_column : Z; last_line : Z; last_column : Z;
  source_line : option (list ascii)
}.

(** The second line printed by [PrintLocation] (164-186). *)
Definition marker (i : ctinfo) : list ascii :=
  repeat space 4 ++
  repeat space (Z.to_nat (first_column i - 1)) ++ ["^"%char] ++
  repeat "~"%char (Z.to_nat (last_column i - Z.max 1 (first_column i))).

(** The first line (168). *)
Definition quoted (l : list ascii) : list ascii :=
  [" "; "|"; ">"; " "]%char ++ l.

(** Which form [PrintInfo] (209-222) uses. *)
Inductive where_form : Type := WLine | WLineCol | WRange | WNothing.
Definition PrintInfo_form (i : ctinfo) : where_form :=
  if ((0 <? first_line i) && (first_column i <=? 0))%Z%bool then WLine
  else if ((last_column i <=? 0)
           || (((last_line i <=? 0) || (first_line i =? last_line i))
               && (first_column i =? last_column i)))%Z%bool then WLineCol
  else if (0 <? last_column i)%Z then WRange
  else WNothing.
