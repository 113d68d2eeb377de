(** Which tokens a specification consists of, from the structure of the text:
    enum declarations and everything else. *)

From Coq Require Import String.
From Coq Require Import List Ascii Bool NArith.
From Verif Require Import Front.LexerModel.
Import ListNotations.
Local Open Scope string_scope.
Local Open Scope list_scope.

(** The words that mean something in the language (docs/source, and the
    %token declarations of dsl-parser.y). *)
Definition upper (c : ascii) : ascii :=
  let n := N_of_ascii c in
  if (N.leb 97 n && N.leb n 122)%bool then ascii_of_N (n - 32) else c.
Fixpoint upper_string (s : string) : string :=
  match s with EmptyString => "" | String c s => String (upper c) (upper_string s) end.
Definition language_words : list string :=
  ["actions"; "allowed"; "args"; "attributes"; "bool"; "children"; "constructor"; "cycle"; "disallowed";
   "double"; "enum"; "equations"; "false"; "float"; "func"; "gate"; "info"; "inherited"; "int"; "int16";
   "int32"; "int64"; "int8"; "lifetime"; "mandatory"; "node"; "nodes"; "nodeset"; "optional"; "pass";
   "passes"; "phase"; "phases"; "prefix"; "root"; "start"; "string"; "subphases"; "synthesized"; "this";
   "to"; "travdata"; "traversal"; "true"; "uid"; "uint"; "uint16"; "uint32"; "uint64"; "uint8"; "user";
   "values"].
(** The keywords of C99 (6.4.1) that begin with a letter. *)
Definition c99_words : list string :=
  ["auto"; "break"; "case"; "char"; "const"; "continue"; "default"; "do"; "double"; "else"; "enum";
   "extern"; "float"; "for"; "goto"; "if"; "inline"; "int"; "long"; "register"; "restrict"; "return";
   "short"; "signed"; "sizeof"; "static"; "struct"; "switch"; "typedef"; "union"; "unsigned"; "void";
   "volatile"; "while"].
Definition is_keyword (w : string) : Prop := In w language_words.
Definition is_c_keyword (w : string) : Prop := In w c99_words.

(** The name of a keyword's token. *)
Definition token_name (w : string) : string :=
  if String.eqb w "user" then "T_UNSAFE" else "T_" ++ upper_string w.

(** Outside of the values of an enum. *)
Inductive plain : lexeme -> token -> Prop :=
| plain_keyword : forall w, is_keyword w -> plain (Word w) (T_keyword (token_name w))
| plain_null : plain (Word "NULL") T_NULL
| plain_id : forall w, ~ is_keyword w -> ~ is_c_keyword w -> w <> "NULL" -> plain (Word w) (T_ID w)
| plain_symbol : forall c, plain (Symbol c) (T_char c)
| plain_arrow : plain Arrow (T_keyword "T_ARROW")
| plain_float : forall t, plain (Float_number t) (T_FLOATVAL t)
| plain_int : forall t, plain (Negative_number t) (T_INTVAL t)
| plain_uint : forall t, plain (Number t) (T_UINTVAL t)
| plain_string : forall t, plain (Quoted t) (T_STRINGVAL t).

(** Inside: every word is a name. *)
Inductive value : lexeme -> token -> Prop :=
| value_word : forall w, value (Word w) (T_ID w)
| value_symbol : forall c, value (Symbol c) (T_char c).

Definition brace (l : lexeme) : Prop := l = Symbol "{" \/ l = Symbol "}".
Definition other (l : lexeme) : Prop := l <> Word "enum" /\ l <> Word "values".

(** One part of a specification: an enum declaration
    (dsl-parser.y:1141-1152), with the values between braces, or any other
    token. *)
Inductive part :=
| Enum (name_and_more : list lexeme) (prefix_and_more : list lexeme) (vals : list lexeme)
| Other (l : lexeme).

Definition well_formed (p : part) : Prop :=
  match p with
  | Enum m1 m2 vals =>
      Forall (fun l => other l /\ ~ brace l) m1 /\ Forall (fun l => other l /\ ~ brace l) m2 /\
      Forall (fun l => (exists w, l = Word w) \/ (exists c, l = Symbol c /\ ~ brace l)) vals
  | Other l => other l
  end.

Definition lexemes (p : part) : list lexeme :=
  match p with
  | Enum m1 m2 vals =>
      Word "enum" :: m1 ++ Symbol "{" :: m2 ++ Word "values" :: Symbol "{" :: vals ++ [Symbol "}"; Symbol "}"]
  | Other l => [l]
  end.

Inductive part_tokens : part -> list token -> Prop :=
| tokens_enum : forall m1 m2 vals ts1 ts2 tsv,
    Forall2 plain m1 ts1 -> Forall2 plain m2 ts2 -> Forall2 value vals tsv ->
    part_tokens (Enum m1 m2 vals)
      (T_keyword "T_ENUM" :: ts1 ++ T_char "{" :: ts2 ++ T_keyword "T_VALUES" :: T_char "{" ::
       tsv ++ [T_char "}"; T_char "}"])
| tokens_other : forall l t, plain l t -> part_tokens (Other l) [t].

(** What the lexer cannot cope with in the values of an enum: NULL, and the
    word enum followed by the word values. *)
Definition manageable (p : part) : Prop :=
  match p with
  | Enum _ _ vals => ~ In (Word "NULL") vals /\
      (forall a b, vals = a ++ b -> In (Word "enum") a -> ~ In (Word "values") b)
  | Other _ => True
  end.

(** A C keyword that is not a word of the language, where a name is expected. *)
Definition bad_name (l : lexeme) : Prop := exists w, l = Word w /\ is_c_keyword w /\ ~ is_keyword w.
Definition has_bad_name (p : part) : Prop :=
  match p with
  | Enum m1 m2 _ => Exists bad_name (m1 ++ m2)
  | Other l => bad_name l
  end.
