(** Vocabulary for the string properties. *)

From Coq Require Import List Ascii NArith ZArith Bool.
From Verif Require Import Palm.StrModel.
Import ListNotations.

(** The bytes of a C string: no terminator inside. *)
Definition no_nul (s : cstring) : Prop := ~ In nul s.

(** Short enough that the length plus one fits the [int]s the code uses. *)
Definition int_len (s : cstring) : Prop := (Z.of_nat (length s) < 2 ^ 31 - 1)%Z.

(** A block holds exactly the string [s]: it is terminated, its string is [s],
    and the allocation has exactly the size of [s] plus the terminator. *)
Definition holds (b : option block) (s : cstring) : Prop :=
  exists bl, b = Some bl /\ data bl = s ++ [nul] /\ content b = Some s /\
             cap bl = Z.of_nat (length s + 1).

Definition prefix_of (p s : cstring) : Prop := exists r, s = p ++ r.
Definition suffix_of (p s : cstring) : Prop := exists r, s = r ++ p.
Definition substring_of (p s : cstring) : Prop := exists a b, s = a ++ p ++ b.

(** [Replaced t u s r]: [r] is [s] with the occurrences of [t] that a
    left-to-right scan finds replaced by [u]. *)
Inductive Replaced (t u : cstring) : cstring -> cstring -> Prop :=
| Rep_end : Replaced t u [] []
| Rep_token : forall s r, Replaced t u s r -> Replaced t u (t ++ s) (u ++ r)
| Rep_char : forall c s r, ~ prefix_of t (c :: s) -> Replaced t u s r ->
                           Replaced t u (c :: s) (c :: r).

(** Bytes that [tolower]/[toupper] accept when [char] is signed. *)
Definition ctype_ok (c : ascii) : Prop :=
  (N_of_ascii c < 128)%N \/ N_of_ascii c = 255%N.

(** The English upper/lower case letters. *)
Definition is_upper_letter (c : ascii) : Prop := (65 <= N_of_ascii c <= 90)%N.
Definition is_lower_letter (c : ascii) : Prop := (97 <= N_of_ascii c <= 122)%N.

(** [d] is the lower-case form of [c]. *)
Definition lower_of (c d : ascii) : Prop :=
  (is_upper_letter c /\ N_of_ascii d = N_of_ascii c + 32)%N \/
  (~ is_upper_letter c /\ d = c).
Definition upper_of (c d : ascii) : Prop :=
  (is_lower_letter c /\ N_of_ascii d + 32 = N_of_ascii c)%N \/
  (~ is_lower_letter c /\ d = c).

(** Pieces of a string between separators. *)
Definition is_sep (sep : option cstring) (c : ascii) : Prop :=
  exists l, sep = Some l /\ In c l.

(** [Split sep s ts]: the separators in [s] cut it into the pieces [ts]. *)
Inductive Split (sep : option cstring) : cstring -> list cstring -> Prop :=
| Split_last : forall s, (forall c, In c s -> ~ is_sep sep c) -> Split sep s [s]
| Split_cut : forall a c s ts, (forall d, In d a -> ~ is_sep sep d) -> is_sep sep c ->
                               Split sep s ts -> Split sep (a ++ c :: s) (a :: ts).
