(** Model of cocogen/generator/generator.c: the writer of generated files.

    The formatted text of a call is an argument of the model (printf's
    formatting is not modelled).  [fp] is the number of files opened so far
    and [files] their contents, the file being written first; a file name is
    only looked at by the C library, so it is left out.  [asserts] tells
    whether assertions are compiled in: the default build of the Makefile
    (/repo/Makefile:3,17) is a release build, where CMake defines NDEBUG. *)

From Coq Require Import List NArith Ascii Bool.
From Verif Require Import Base.Outcome.
Import ListNotations.
Local Open Scope N_scope.
Local Open Scope outcome_scope.

(** cocogen/generator/generator.h:8-13: the style flags, one bit each *)
Record style := mk_style {
  GN_INCREASE_WS_AFTER : bool;
  GN_INCREASE_WS_BEFORE : bool;
  GN_NO_WS : bool;
  GN_DECREASE_WS_AFTER : bool;
  GN_DECREASE_WS_BEFORE : bool }.
Definition GN_DEFAULT := mk_style false false false false false.

(** generator.c:14-18 [struct GeneratorContext]; unsigned short has 16 bits *)
Record context := mk_context {
  files : list (list ascii);
  indent_level : N;
  indent_size : N }.
Definition ushort (n : N) : N := n mod 65536.

(** generator.c:21-28 [GNnew] *)
Definition GNnew : context := mk_context [] 0 4.

Section Generator.
  Variable asserts : bool.

  (** generator.c:30-33 [GNindentIncrease] *)
  Definition GNindentIncrease (c : context) : outcome context :=
    Val (mk_context (files c) (ushort (indent_level c + 1)) (indent_size c)).

  (** generator.c:35-39 [GNindentDecrease] *)
  Definition GNindentDecrease (c : context) : outcome context :=
    if asserts && (indent_level c =? 0) then Aborted
    else Val (mk_context (files c) (ushort (indent_level c + 65535)) (indent_size c)).

  (** generator.c:41-52 [GNopenFile]; [ok] is whether fopen succeeds *)
  Definition GNopenFile (ok : bool) (c : context) : outcome context :=
    if ok then Val (mk_context ([] :: files c) (indent_level c) (indent_size c)) else Exited.

  (** fprintf to [ctx->fp], which is NULL before the first file *)
  Definition write (text : list ascii) (c : context) : outcome context :=
    match files c with
    | [] => Undef
    | f :: fs => Val (mk_context ((f ++ text) :: fs) (indent_level c) (indent_size c))
    end.

  (** printf's "%*c" with a blank: at least one character *)
  Definition padded_blank (width : N) : list ascii := repeat " "%char (N.to_nat (N.max 1 width)).

  Definition when (b : bool) (f : context -> outcome context) (c : context) : outcome context :=
    if b then f c else Val c.

  (** generator.c:94-121 [GNprint] *)
  Definition GNprint (s : style) (text : list ascii) (c : context) : outcome context :=
    let! c := when (GN_INCREASE_WS_BEFORE s) GNindentIncrease c in
    let! c := when (GN_DECREASE_WS_BEFORE s) GNindentDecrease c in
    let! c := when (negb (GN_NO_WS s) && (0 <? indent_level c))
                (write (padded_blank (indent_level c * indent_size c))) c in
    let! c := write text c in
    let! c := when (GN_INCREASE_WS_AFTER s) GNindentIncrease c in
    when (GN_DECREASE_WS_AFTER s) GNindentDecrease c.

  (** The calls a generator pass can make. *)
  Inductive call :=
  | Print (s : style) (text : list ascii)
  | Increase
  | Decrease
  | OpenFile (ok : bool).

  Definition step (c : context) (k : call) : outcome context :=
    match k with
    | Print s text => GNprint s text c
    | Increase => GNindentIncrease c
    | Decrease => GNindentDecrease c
    | OpenFile ok => GNopenFile ok c
    end.

  Fixpoint run (ks : list call) (c : context) : outcome context :=
    match ks with
    | [] => Val c
    | k :: ks => let! c := step c k in run ks c
    end.
End Generator.
