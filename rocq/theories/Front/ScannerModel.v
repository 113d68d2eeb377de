(** Model of the scanner that flex generates from
    cocogen/frontend/scanAndParse/dsl-lexer.l: from the characters of a file
    to tokens with their locations.

    The rules of the file are data ([rules]); the engine below is what the
    manual of flex says the generated scanner does ("How the Input Is
    Matched"): of the rules that are active in the current start condition the
    one that matches the longest text is taken, of several such rules the one
    that stands first in the file.  That flex's tables implement this is
    trusted.

    Simplifications: numbers of lines and columns do not overflow; the values
    of numbers stay text (they are not used by the parser); the buffer is the
    whole file. *)

From Coq Require Import String.
From Coq Require Import List Ascii Bool Arith.
From Verif Require Import Base.Outcome Front.LexerModel.
Import ListNotations.
Local Open Scope outcome_scope.
Local Open Scope string_scope.
Local Open Scope list_scope.

Definition text := list ascii.
Definition str (t : text) : string := string_of_list_ascii t.
Definition txt (s : string) : text := list_ascii_of_string s.

Definition newline : ascii := "010".
Definition tab : ascii := "009".
Definition return_ : ascii := "013".
Definition quote : ascii := "034".
Definition backslash : ascii := "092".

(** * Regular expressions *)

Inductive regex :=
| Nothing
| Empty
| Chr (p : ascii -> bool)
| Cat (r s : regex)
| Alt (r s : regex)
| Star (r : regex).

Fixpoint nullable (r : regex) : bool :=
  match r with
  | Nothing => false
  | Empty => true
  | Chr _ => false
  | Cat r s => nullable r && nullable s
  | Alt r s => nullable r || nullable s
  | Star _ => true
  end.

Definition cat (r s : regex) : regex :=
  match r with
  | Nothing => Nothing
  | Empty => s
  | _ => match s with Nothing => Nothing | _ => Cat r s end
  end.
Definition alt (r s : regex) : regex :=
  match r with
  | Nothing => s
  | _ => match s with Nothing => r | _ => Alt r s end
  end.

(** What is left to match after a character. *)
Fixpoint deriv (c : ascii) (r : regex) : regex :=
  match r with
  | Nothing => Nothing
  | Empty => Nothing
  | Chr p => if p c then Empty else Nothing
  | Cat r s => if nullable r then alt (cat (deriv c r) s) (deriv c s) else cat (deriv c r) s
  | Alt r s => alt (deriv c r) (deriv c s)
  | Star r => cat (deriv c r) (Star r)
  end.

(** The length of the longest prefix that matches. *)
Fixpoint longest (r : regex) (s : text) : option nat :=
  let here := if nullable r then Some 0 else None in
  match s with
  | [] => here
  | c :: s => match longest (deriv c r) s with Some n => Some (S n) | None => here end
  end.

(** * The rules *)

(** dsl-lexer.l:48-49 *)
Inductive condition := INITIAL | COMMENT | SAVELINE.

(** The actions of the rules (lines 52-195). *)
Inductive action :=
| save_line                        (* 54-71 *)
| save_newline                     (* 72-78 *)
| skip                             (* 81, 86, 185 *)
| push (c : condition)             (* 82, 84, 85, 187-190: yy_push_state *)
| character (c : ascii)            (* 88-91, 101-108 *)
| open_brace                       (* 92-99 *)
| close_brace                      (* 100 *)
| keyword (name : string)          (* 110-162: LEX_KEYWORD *)
| keyword_enum                     (* 115 *)
| keyword_values                   (* 134 *)
| null                             (* 163 *)
| identifier                       (* 166-170 *)
| floatval                         (* 171-173 *)
| intval                           (* 174-176 *)
| uintval                          (* 177-179 *)
| stringval                        (* 181-183 *)
| unexpected.                      (* 191-195 *)

Record rule := mk_rule { pattern : regex; act : action }.

Fixpoint literal (t : text) : regex :=
  match t with
  | [] => Empty
  | c :: t => Cat (Chr (Ascii.eqb c)) (literal t)
  end.
Definition word (s : string) (a : action) : rule := mk_rule (literal (txt s)) a.

Definition between (a b c : ascii) : bool :=
  (nat_of_ascii a <=? nat_of_ascii c)%nat && (nat_of_ascii c <=? nat_of_ascii b)%nat.
Definition letter (c : ascii) : bool := between "A" "Z" c || between "a" "z" c.
Definition digit (c : ascii) : bool := between "0" "9" c.
Definition word_char (c : ascii) : bool := letter c || digit c || Ascii.eqb "_" c.
Definition dot (c : ascii) : bool := negb (Ascii.eqb newline c).
Definition one (c : ascii) : regex := Chr (Ascii.eqb c).
Definition plus (r : regex) : regex := Cat r (Star r).
Definition opt (r : regex) : regex := Alt r Empty.

(** lines 52-79 *)
Definition SAVELINE_rules : list rule :=
  [mk_rule (Star (Chr dot)) save_line;
   mk_rule (one newline) save_newline].

(** lines 83-87 *)
Definition COMMENT_rules : list rule :=
  [word "*/" (push INITIAL);
   mk_rule (one newline) (push SAVELINE);
   mk_rule (Chr dot) skip].

(** lines 110-162.  The action of "enum" and "values" sets a flag first. *)
Definition keyword_rule (k : string * string) : rule :=
  let (w, t) := k in
  word w (if String.eqb w "enum" then keyword_enum
          else if String.eqb w "values" then keyword_values
          else keyword t).

(** lines 82-163 without 83-87: the rules that match one text.  "->"
    (line 157) is put after the other keywords; no two of the texts are
    equal, so their order does not matter. *)
Definition literal_rules : list rule :=
  word "/*" (push COMMENT) ::
  [word "(" (character "("); word ")" (character ")"); word "[" (character "["); word "]" (character "]");
   word "{" open_brace; word "}" close_brace; word "," (character ","); word "=" (character "=");
   word ";" (character ";"); word "!" (character "!"); word "|" (character "|"); word "&" (character "&");
   word "-" (character "-"); word "." (character ".")] ++
  map keyword_rule keywords ++
  [word "->" (keyword "T_ARROW"); word "NULL" null].

(** lines 166-195 *)
Definition identifier_re : regex := Cat (Chr letter) (Star (Chr word_char)).
Definition float_re : regex := Cat (opt (one "-")) (Cat (plus (Chr digit)) (Cat (one ".") (plus (Chr digit)))).
Definition int_re : regex := Cat (one "-") (plus (Chr digit)).
Definition uint_re : regex := plus (Chr digit).
Definition string_char (c : ascii) : bool := negb (Ascii.eqb backslash c) && negb (Ascii.eqb quote c).
Definition string_re : regex :=
  Cat (one quote) (Cat (Star (Alt (Cat (one backslash) (Chr dot)) (Chr string_char))) (one quote)).
Definition white (c : ascii) : bool := Ascii.eqb " " c || Ascii.eqb tab c || Ascii.eqb return_ c.
Definition pattern_rules : list rule :=
  [mk_rule identifier_re identifier;
   mk_rule float_re floatval;
   mk_rule int_re intval;
   mk_rule uint_re uintval;
   mk_rule string_re stringval;
   mk_rule (Chr white) skip;
   mk_rule (one newline) (push SAVELINE);
   mk_rule (Chr dot) unexpected].

(** line 81 *)
Definition line_comment_rule : rule := mk_rule (Cat (one "/") (Cat (one "/") (Star (Chr dot)))) skip.

(** The conditions COMMENT and SAVELINE are exclusive (%x): rules without
    condition are active in INITIAL only. *)
Definition rules (c : condition) : list rule :=
  match c with
  | INITIAL => line_comment_rule :: literal_rules ++ pattern_rules
  | COMMENT => COMMENT_rules
  | SAVELINE => SAVELINE_rules
  end.

(** The longest match, the first rule among equals. *)
Fixpoint best (rs : list rule) (s : text) : option (action * nat) :=
  match rs with
  | [] => None
  | r :: rs =>
      match longest (pattern r) s, best rs s with
      | Some n, Some (a, m) => if (m <=? n)%nat then Some (act r, n) else Some (a, m)
      | Some n, None => Some (act r, n)
      | None, b => b
      end
  end.

(** * The scanner *)

(** A token and yylloc (lines 230-237): line, first and last column *)
Record located := mk_located { the_token : token; the_line : nat; first_column : nat; last_column : nat }.

Record scanner := mk_scanner {
  mode : flags;                    (* lines 23-25 *)
  YY_START : condition;
  yy_stack : list condition;
  yylineno : nat;
  yycolumn : nat;
  line_map : list (nat * text);    (* globals.line_map, the last entry first *)
  input : text }.

(** lines 29, 36, 198-200: YY_USER_INIT pushes SAVELINE.  flex starts with
    yylineno = 1. *)
Definition init_scanner (t : text) : scanner := mk_scanner init_flags SAVELINE [INITIAL] 1 1 [] t.

Definition set_mode (f : flags) (s : scanner) : scanner :=
  mk_scanner f (YY_START s) (yy_stack s) (yylineno s) (yycolumn s) (line_map s) (input s).
Definition yy_push_state (c : condition) (s : scanner) : scanner :=
  mk_scanner (mode s) c (YY_START s :: yy_stack s) (yylineno s) (yycolumn s) (line_map s) (input s).
(** flex ends the program if the stack is empty *)
Definition yy_pop_state (s : scanner) : outcome scanner :=
  match yy_stack s with
  | [] => Exited
  | c :: l => Val (mk_scanner (mode s) c l (yylineno s) (yycolumn s) (line_map s) (input s))
  end.
Definition set_column (n : nat) (s : scanner) : scanner :=
  mk_scanner (mode s) (YY_START s) (yy_stack s) (yylineno s) n (line_map s) (input s).

Definition newlines (t : text) : nat := count_occ ascii_dec t newline.

(** flex takes the match from the input and counts its newlines before it
    runs an action; then lines 230-237 [token_action]. *)
Definition take (n : nat) (s : scanner) : scanner :=
  let yytext := firstn n (input s) in
  mk_scanner (mode s) (YY_START s) (yy_stack s) (yylineno s + newlines yytext)
    (match YY_START s with SAVELINE => yycolumn s | _ => yycolumn s + length yytext end)
    (line_map s) (skipn n (input s)).

(** The token that is returned, if any, and the new state. *)
Definition run_action (a : action) (yytext : text) (s : scanner) : outcome (option token * scanner) :=
  match a with
  | save_line =>
      (* HTinsert, yycolumn = 1, yyless(0), yy_pop_state *)
      let! s := yy_pop_state
        (mk_scanner (mode s) (YY_START s) (yy_stack s) (yylineno s) 1 ((yylineno s, yytext) :: line_map s)
           (yytext ++ input s)) in
      Val (None, s)
  | save_newline => Val (None, set_column 0 s)
  | skip => Val (None, s)
  | push c => Val (None, yy_push_state c s)
  | character c => Val (Some (T_char c), s)
  | open_brace =>
      Val (Some (T_char "{"), if in_enum_values (mode s) then set_mode (mk_flags false false false) s else s)
  | close_brace =>
      Val (Some (T_char "}"), set_mode (mk_flags true (in_enum (mode s)) (in_enum_values (mode s))) s)
  | keyword t => Val (Some (LEX_KEYWORD (mode s) (T_keyword t) (str yytext)), s)
  | keyword_enum =>
      let s := set_mode (mk_flags (yy_lex_keywords (mode s)) true (in_enum_values (mode s))) s in
      Val (Some (LEX_KEYWORD (mode s) (T_keyword "T_ENUM") (str yytext)), s)
  | keyword_values =>
      let s := if in_enum (mode s) then set_mode (mk_flags (yy_lex_keywords (mode s)) (in_enum (mode s)) true) s
               else s in
      Val (Some (LEX_KEYWORD (mode s) (T_keyword "T_VALUES") (str yytext)), s)
  | null => Val (Some T_NULL, s)
  | identifier => let! _ := check_c_keyword (mode s) (str yytext) in Val (Some (T_ID (str yytext)), s)
  | floatval => Val (Some (T_FLOATVAL (str yytext)), s)
  | intval => Val (Some (T_INTVAL (str yytext)), s)
  | uintval => Val (Some (T_UINTVAL (str yytext)), s)
  | stringval =>
      (* STRncpy(yytext + 1, yyleng - 2) *)
      Val (Some (T_STRINGVAL (str (firstn (length yytext - 2) (skipn 1 yytext)))), s)
  | unexpected => Exited
  end.

(** One match.  If no rule matches, flex copies a character to the standard
    output; this does not happen with these rules. *)
Definition step (s : scanner) : outcome (option located * scanner) :=
  match best (rules (YY_START s)) (input s) with
  | None => Val (None, take 1 s)
  | Some (a, n) =>
      let yytext := firstn n (input s) in
      let! r := run_action a yytext (take n s) in
      Val (match fst r with
           | None => None
           | Some t =>
               Some (mk_located t (yylineno s + newlines yytext) (yycolumn s)
                                (yycolumn s + length yytext - 1))
           end, snd r)
  end.

(** Calls of yylex until the end of the file.  At the end of the input flex
    returns without trying the rules, also where one matches the empty text. *)
Fixpoint yylex_all (fuel : nat) (s : scanner) : outcome (list located * scanner) :=
  match input s with
  | [] => Val ([], s)
  | _ =>
      match fuel with
      | 0 => NoFuel
      | S fuel =>
          let! r := step s in
          let! rs := yylex_all fuel (snd r) in
          Val (match fst r with None => fst rs | Some t => t :: fst rs end, snd rs)
      end
  end.

Definition scan (t : text) : outcome (list located * scanner) := yylex_all (2 * length t + 2) (init_scanner t).
