(** What a command line of cocogen says. *)

From Coq Require Import String.
From Coq Require Import List Ascii NArith.
From Verif Require Import Palm.StrModel Gen.RunSpec.
Import ListNotations.
Local Open Scope string_scope.
Local Open Scope list_scope.

(** The names of the options without and with a value *)
Definition switches : list string :=
  ["verbose"; "help"; "version"; "profiling"; "breakpoints"; "consistency-checks"; "serialise"; "inspectpoints"; "show-ast";
   "show-structure"; "debug"].
Definition valued : list string := ["dot"; "backend"; "gen-dir"; "breakpoint"; "ag-scheduler-max-iter"].

Definition prefix_of (s t : cstring) : Prop := exists r, t = s ++ r.

(** An option is written with its name, or with the beginning of its name if
    no other name begins like that. *)
Definition spells (s : cstring) (name : string) : Prop :=
  In name (switches ++ valued) /\
  (s = str name \/ prefix_of s (str name) /\ forall other, In other (switches ++ valued) -> prefix_of s (str other) -> other = name).

(** The parts of a command line: an operand, an option, an option with a
    value, and the letter v one or more times *)
Inductive item :=
| Operand (w : cstring)
| Switch (name : string)
| Valued (name : string) (v : cstring)
| Vs (more : nat).

(** An operand is a single dash or does not begin with one. *)
Definition operand_like (w : cstring) : Prop := w = str "-" \/ forall r, w <> "-"%char :: r.

Inductive writes : item -> list cstring -> Prop :=
| writes_operand : forall w, operand_like w -> writes (Operand w) [w]
| writes_switch : forall s name, In name switches -> spells s name -> writes (Switch name) [str "--" ++ s]
| writes_joined : forall s name v, In name valued -> spells s name -> writes (Valued name v) [str "--" ++ s ++ str "=" ++ v]
| writes_apart : forall s name v, In name valued -> spells s name -> writes (Valued name v) [str "--" ++ s; v]
| writes_vs : forall n, writes (Vs n) ["-"%char :: repeat "v"%char (S n)].

(** After "--" there are only operands. *)
Inductive writes_line : list item -> list cstring -> Prop :=
| writes_end : writes_line [] []
| writes_dashes : forall ws, writes_line (map Operand ws) (str "--" :: ws)
| writes_item : forall i l its args, writes i l -> writes_line its args -> writes_line (i :: its) (l ++ args).

Definition operands (l : list item) : list cstring :=
  flat_map (fun i => match i with Operand w => [w] | _ => [] end) l.
Definition given (name : string) (l : list item) : Prop := In (Switch name) l.
Definition values (name : string) (l : list item) : list cstring :=
  flat_map (fun i => match i with Valued n v => if String.eqb n name then [v] else [] | _ => [] end) l.
(** The last value counts. *)
Definition value (name : string) (default : cstring) (l : list item) : cstring := last (values name l) default.

(** Numbers: space, a sign and digits at the beginning of a text *)
Definition space (c : ascii) : Prop := In (N_of_ascii c) [32; 9; 10; 11; 12; 13]%N.
Definition is_digit (c : ascii) (d : N) : Prop := (d < 10)%N /\ N_of_ascii c = (48 + d)%N.
(** [ds] are the digits of [n]. *)
Inductive decimal : list ascii -> N -> Prop :=
| decimal_one : forall c d, is_digit c d -> decimal [c] d
| decimal_more : forall l n c d, decimal l n -> is_digit c d -> decimal (l ++ [c]) (10 * n + d)%N.
Definition reads_number (v : cstring) (n : N) : Prop :=
  exists spaces sign ds rest m, v = spaces ++ sign ++ ds ++ rest /\ Forall space spaces /\ In sign [[]; str "+"; str "-"] /\
    decimal ds m /\ (forall c r d, rest = c :: r -> ~ is_digit c d) /\
    n = (if N.ltb (2 ^ 64 - 1) m then 2 ^ 64 - 1 else if list_eq_dec ascii_dec sign (str "-") then (2 ^ 64 - m) mod 2 ^ 64 else m)%N.

(** A name with a slash at the end *)
Definition with_slash (d : cstring) : cstring :=
  if ascii_dec (last d "/"%char) "/" then d else d ++ str "/".

(** A line that is neither a question nor wrong. *)
Definition proper (l : list item) : Prop :=
  ~ given "help" l /\ ~ given "version" l /\ ~ given "show-structure" l /\
  (forall v, In v (values "ag-scheduler-max-iter" l) -> exists n, reads_number v n).

(** The directories of a compiler *)
Definition wanted_directories (dir : cstring) : list cstring :=
  [dir; dir ++ str "ccngen/"; dir ++ str "ccngen/equations/"; dir ++ str "user/"; dir ++ str "ag_dot/"; dir ++ str "log/"].
(** [path] names something directly in the directory [d]. *)
Definition lies_in (d path : cstring) : Prop :=
  exists base, path = d ++ base /\ base <> [] /\ ~ In "/"%char base.
