(** The scanner and the parser together: from the characters of a file to its
    tree (cocogen/frontend/scanAndParse/scan_parse.c:9-17, which opens the file,
    and dsl-parser.y:1265-1275, which calls yyparse; yyparse gets its tokens
    from yylex).

    The kind of a token does not depend on what the parser has read, so all
    tokens can be read before the parser starts; a file that the scanner
    rejects has no tree. *)

From Coq Require Import String.
From Coq Require Import List Ascii Bool.
From Verif Require Import Base.Outcome Front.LexerModel Front.ScannerModel.
From Verif Require Front.ParserModel.
Import ListNotations.
Local Open Scope string_scope.
Local Open Scope list_scope.

(** The tokens of C42 and C46 by their names, as the numbers in dsl-parser.h
    that bison makes from dsl-parser.y:124-189. *)
Definition token_numbers : list (string * ParserModel.tok) :=
  [("T_ARGS", ParserModel.T_ARGS); ("T_ATTRIBUTES", ParserModel.T_ATTRIBUTES); ("T_CHILDREN", ParserModel.T_CHILDREN);
   ("T_CONSTRUCTOR", ParserModel.T_CONSTRUCTOR); ("T_CYCLE", ParserModel.T_CYCLE); ("T_ENUM", ParserModel.T_ENUM);
   ("T_EQUATIONS", ParserModel.T_EQUATIONS); ("T_INHERITED", ParserModel.T_INHERITED);
   ("T_MANDATORY", ParserModel.T_MANDATORY); ("T_NODE", ParserModel.T_NODE); ("T_NODES", ParserModel.T_NODES);
   ("T_NODESET", ParserModel.T_NODESET); ("T_PASS", ParserModel.T_PASS); ("T_PASSES", ParserModel.T_PASSES);
   ("T_PHASE", ParserModel.T_PHASE); ("T_PHASES", ParserModel.T_PHASES); ("T_ACTIONS", ParserModel.T_ACTIONS);
   ("T_PREFIX", ParserModel.T_PREFIX); ("T_INFO", ParserModel.T_INFO); ("T_FUNC", ParserModel.T_FUNC);
   ("T_ROOT", ParserModel.T_ROOT); ("T_START", ParserModel.T_START); ("T_SUBPHASES", ParserModel.T_SUBPHASES);
   ("T_SYNTHESIZED", ParserModel.T_SYNTHESIZED); ("T_THIS", ParserModel.T_THIS); ("T_TO", ParserModel.T_TO);
   ("T_TRAVERSAL", ParserModel.T_TRAVERSAL); ("T_TRAVDATA", ParserModel.T_TRAVDATA); ("T_FLOAT", ParserModel.T_FLOAT);
   ("T_DOUBLE", ParserModel.T_DOUBLE); ("T_STRING", ParserModel.T_STRING); ("T_VALUES", ParserModel.T_VALUES);
   ("T_LIFETIME", ParserModel.T_LIFETIME); ("T_DISALLOWED", ParserModel.T_DISALLOWED);
   ("T_OPTIONAL", ParserModel.T_OPTIONAL); ("T_ALLOWED", ParserModel.T_ALLOWED); ("T_GATE", ParserModel.T_GATE);
   ("T_ARROW", ParserModel.T_ARROW); ("T_UNSAFE", ParserModel.T_UNSAFE); ("T_UID", ParserModel.T_UID);
   ("T_INT", ParserModel.T_INT); ("T_UINT", ParserModel.T_UINT); ("T_INT8", ParserModel.T_INT8);
   ("T_INT16", ParserModel.T_INT16); ("T_INT32", ParserModel.T_INT32); ("T_INT64", ParserModel.T_INT64);
   ("T_UINT8", ParserModel.T_UINT8); ("T_UINT16", ParserModel.T_UINT16); ("T_UINT32", ParserModel.T_UINT32);
   ("T_UINT64", ParserModel.T_UINT64); ("T_BOOL", ParserModel.T_BOOL); ("T_TRUE", ParserModel.T_TRUE);
   ("T_FALSE", ParserModel.T_FALSE)].
Definition character_tokens : list (ascii * ParserModel.tok) :=
  [("("%char, ParserModel.LPAR); (")"%char, ParserModel.RPAR); ("["%char, ParserModel.LBRACKET);
   ("]"%char, ParserModel.RBRACKET); ("{"%char, ParserModel.LBRACE); ("}"%char, ParserModel.RBRACE);
   (","%char, ParserModel.COMMA); ("="%char, ParserModel.EQUALS); (";"%char, ParserModel.SEMICOLON);
   ("!"%char, ParserModel.BANG); ("|"%char, ParserModel.BAR); ("&"%char, ParserModel.AMPERSAND);
   ("-"%char, ParserModel.MINUS); ("."%char, ParserModel.DOT)].

Fixpoint numbered_as {K} (eqb : K -> K -> bool) (k : K) (l : list (K * ParserModel.tok)) : option ParserModel.tok :=
  match l with
  | [] => None
  | (x, t) :: l => if eqb x k then Some t else numbered_as eqb k l
  end.

(** [None]: no such token; the scanner produces none of these. *)
Definition tok_of (t : token) : option ParserModel.tok :=
  match t with
  | T_keyword name => numbered_as String.eqb name token_numbers
  | T_NULL => Some ParserModel.T_NULL
  | T_ID w => Some (ParserModel.T_ID (txt w))
  | T_char c => numbered_as Ascii.eqb c character_tokens
  | T_FLOATVAL _ => Some ParserModel.T_FLOATVAL
  | T_INTVAL _ => Some ParserModel.T_INTVAL
  | T_UINTVAL _ => Some ParserModel.T_UINTVAL
  | T_STRINGVAL t => Some (ParserModel.T_STRINGVAL (txt t))
  end.
Fixpoint toks_of (l : list token) : option ParserModel.tokens :=
  match l with
  | [] => Some []
  | t :: l => match tok_of t, toks_of l with Some k, Some ks => Some (k :: ks) | _, _ => None end
  end.

(** The file with the characters [t] is accepted with the tree [p]. *)
Definition reads_file (t : text) (p : ParserModel.parser) : Prop :=
  exists ts s ks, scan t = Val (ts, s) /\ toks_of (map the_token ts) = Some ks /\ ParserModel.SPparseDSL ks p.
