(** Model of the part of cocogen/frontend/scanAndParse/dsl-lexer.l that turns
    matched text into tokens, with the mode flags it keeps between tokens.
    How the input is cut into pieces of text is not modelled here. *)

From Coq Require Import String.
From Coq Require Import List Ascii Bool.
From Verif Require Import Base.Outcome.
Import ListNotations.
Local Open Scope outcome_scope.
Local Open Scope string_scope.
Local Open Scope list_scope.

(** A matched piece of text that yields a token: a word
    ([A-Za-z][A-Za-z0-9_]*, lines 111-170), a single character (87-109),
    "->" (157), a number or a string (171-184). *)
Inductive lexeme :=
| Word (w : string)
| Symbol (c : ascii)
| Arrow
| Float_number (text : string)
| Negative_number (text : string)
| Number (text : string)
| Quoted (text : string).

(** Tokens given to the parser.  A keyword token is written with the name of
    its constant in dsl-parser.y. *)
Inductive token :=
| T_keyword (name : string)
| T_NULL
| T_ID (w : string)
| T_char (c : ascii)
| T_FLOATVAL (text : string)
| T_INTVAL (text : string)
| T_UINTVAL (text : string)
| T_STRINGVAL (text : string).

(** dsl-lexer.l:111-162, in the order of the file *)
Definition keywords : list (string * string) :=
  [("args", "T_ARGS"); ("attributes", "T_ATTRIBUTES"); ("children", "T_CHILDREN");
   ("constructor", "T_CONSTRUCTOR"); ("cycle", "T_CYCLE"); ("enum", "T_ENUM");
   ("equations", "T_EQUATIONS"); ("inherited", "T_INHERITED"); ("mandatory", "T_MANDATORY");
   ("node", "T_NODE"); ("nodeset", "T_NODESET"); ("nodes", "T_NODES"); ("pass", "T_PASS");
   ("passes", "T_PASSES"); ("phase", "T_PHASE"); ("phases", "T_PHASES"); ("actions", "T_ACTIONS");
   ("prefix", "T_PREFIX"); ("subphases", "T_SUBPHASES"); ("synthesized", "T_SYNTHESIZED");
   ("this", "T_THIS"); ("to", "T_TO"); ("traversal", "T_TRAVERSAL"); ("travdata", "T_TRAVDATA");
   ("values", "T_VALUES"); ("info", "T_INFO"); ("func", "T_FUNC"); ("root", "T_ROOT");
   ("start", "T_START"); ("double", "T_DOUBLE"); ("float", "T_FLOAT"); ("int", "T_INT");
   ("uint", "T_UINT"); ("int8", "T_INT8"); ("int16", "T_INT16"); ("int32", "T_INT32");
   ("int64", "T_INT64"); ("uint8", "T_UINT8"); ("uint16", "T_UINT16"); ("uint32", "T_UINT32");
   ("uint64", "T_UINT64"); ("string", "T_STRING"); ("bool", "T_BOOL"); ("lifetime", "T_LIFETIME");
   ("disallowed", "T_DISALLOWED"); ("optional", "T_OPTIONAL"); ("allowed", "T_ALLOWED");
   ("false", "T_FALSE"); ("true", "T_TRUE"); ("gate", "T_GATE"); ("user", "T_UNSAFE"); ("uid", "T_UID")].

(** dsl-lexer.l:204-208: the words the regular expression accepts *)
Definition c_keywords : list string :=
  ["auto"; "break"; "case"; "char"; "const"; "continue"; "default"; "do"; "double"; "else"; "enum";
   "extern"; "float"; "for"; "goto"; "if"; "inline"; "int"; "long"; "register"; "restrict"; "return";
   "short"; "signed"; "sizeof"; "static"; "struct"; "switch"; "typedef"; "union"; "unsigned"; "void";
   "volatile"; "while"].

Fixpoint assoc (k : string) (l : list (string * string)) : option string :=
  match l with
  | [] => None
  | (x, v) :: l => if String.eqb x k then Some v else assoc k l
  end.

(** dsl-lexer.l:23-25 *)
Record flags := mk_flags { yy_lex_keywords : bool; in_enum : bool; in_enum_values : bool }.
Definition init_flags := mk_flags true false false.

(** dsl-lexer.l:16-21 [LEX_KEYWORD] *)
Definition LEX_KEYWORD (f : flags) (t : token) (yytext : string) : token :=
  if yy_lex_keywords f then t else T_ID yytext.

(** dsl-lexer.l:215-228 [check_c_keyword]; CTIabortOnError ends the program *)
Definition check_c_keyword (f : flags) (w : string) : outcome unit :=
  if negb (yy_lex_keywords f) then Val tt
  else if existsb (String.eqb w) c_keywords then Exited else Val tt.

(** dsl-lexer.l:111-170: the rules for words *)
Definition lex_word (f : flags) (w : string) : outcome (flags * token) :=
  let f := if String.eqb w "enum" then mk_flags (yy_lex_keywords f) true (in_enum_values f)
           else if String.eqb w "values" then
             (if in_enum f then mk_flags (yy_lex_keywords f) (in_enum f) true else f)
           else f in
  match assoc w keywords with
  | Some t => Val (f, LEX_KEYWORD f (T_keyword t) w)
  | None =>
      if String.eqb w "NULL" then Val (f, T_NULL)
      else let! _ := check_c_keyword f w in Val (f, T_ID w)
  end.

(** dsl-lexer.l:87-184 *)
Definition lex_one (f : flags) (l : lexeme) : outcome (flags * token) :=
  match l with
  | Word w => lex_word f w
  | Symbol c =>
      if Ascii.eqb c "{" then
        Val (if in_enum_values f then mk_flags false false false else f, T_char c)
      else if Ascii.eqb c "}" then
        Val (mk_flags true (in_enum f) (in_enum_values f), T_char c)
      else Val (f, T_char c)
  | Arrow => Val (f, LEX_KEYWORD f (T_keyword "T_ARROW") "->")
  | Float_number t => Val (f, T_FLOATVAL t)
  | Negative_number t => Val (f, T_INTVAL t)
  | Number t => Val (f, T_UINTVAL t)
  | Quoted t => Val (f, T_STRINGVAL t)
  end.

(** The tokens of a file. *)
Fixpoint lex (f : flags) (ls : list lexeme) : outcome (flags * list token) :=
  match ls with
  | [] => Val (f, [])
  | l :: ls =>
      let! r := lex_one f l in
      let! rs := lex (fst r) ls in
      Val (fst rs, snd r :: snd rs)
  end.
