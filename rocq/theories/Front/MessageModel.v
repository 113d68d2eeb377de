(** Model of the places that error messages about a specification show: the
    structs that cocogen/frontend/ctihelp.c and dsl-lexer.l fill in, and what
    palm/src/ctinfo.c prints for them.

    Simplifications: numbers do not overflow; [globals.line_map] is the list of
    [ScannerModel], searched from its last entry (that a hash table finds what
    was inserted is C01; its keys are [uint64_t]s that are compared as [int]s,
    which finds the same line on machines that store the low bytes first); the
    names of the file in [globals.filename] and
    [global_command_line.input_file] are the same. *)

From Coq Require Import String.
From Coq Require Import List Ascii Bool Arith ZArith DecimalString.
From Verif Require Import Base.Outcome Front.LexerModel Front.ScannerModel.
From Verif Require Palm.CtinfoModel.
Import ListNotations.
Local Open Scope string_scope.
Local Open Scope list_scope.

Notation ctinfo := Palm.CtinfoModel.ctinfo.
Notation mk_ctinfo := Palm.CtinfoModel.mk_ctinfo.

(** * What is printed *)

Definition digits_of (n : nat) : text := txt (NilEmpty.string_of_uint (Nat.to_uint n)).
(** "%d" *)
Definition percent_d (z : Z) : text :=
  match z with
  | Z0 => digits_of 0
  | Zpos p => digits_of (Pos.to_nat p)
  | Zneg p => "-"%char :: digits_of (Pos.to_nat p)
  end.

Section Print.
  Variable filename : text.
  Implicit Type i : ctinfo.
  Let line i := Palm.CtinfoModel.first_line i.
  Let column i := Palm.CtinfoModel.first_column i.

  (** palm/src/ctinfo.c:164-186 *)
  Definition PrintLocation i : text :=
    match Palm.CtinfoModel.source_line i with
    | None => []
    | Some l => Palm.CtinfoModel.quoted l ++ [newline] ++ Palm.CtinfoModel.marker i ++ [newline]
    end.
  (** 188-191 *)
  Definition PrintLine i : text := txt " --> " ++ filename ++ txt ":" ++ percent_d (line i) ++ [newline].
  (** 193-197 *)
  Definition PrintLineCol i : text :=
    txt " --> " ++ filename ++ txt ":" ++ percent_d (line i) ++ txt ":" ++ percent_d (column i) ++ [newline] ++ PrintLocation i.
  (** 199-207 *)
  Definition PrintRange i : text :=
    (if ((Palm.CtinfoModel.last_line i =? 0) || (line i =? Palm.CtinfoModel.last_line i))%Z%bool
     then txt " --> " ++ filename ++ txt ":" ++ percent_d (line i) ++ txt "." ++ percent_d (column i) ++ txt "-" ++
          percent_d (Palm.CtinfoModel.last_column i) ++ [newline]
     else txt " --> " ++ filename ++ txt ":" ++ percent_d (line i) ++ txt "." ++ percent_d (column i) ++ txt "-" ++
          percent_d (Palm.CtinfoModel.last_line i) ++ txt "." ++ percent_d (Palm.CtinfoModel.last_column i) ++ [newline]) ++
    PrintLocation i.
  (** 209-222 *)
  Definition PrintInfo i : text :=
    match Palm.CtinfoModel.PrintInfo_form i with
    | Palm.CtinfoModel.WLine => PrintLine i
    | Palm.CtinfoModel.WLineCol => PrintLineCol i
    | Palm.CtinfoModel.WRange => PrintRange i
    | Palm.CtinfoModel.WNothing => []
    end.
End Print.

(** * Names *)

(** HTlookup(globals.line_map, ...) *)
Definition lookup_line (m : list (nat * text)) (n : nat) : option text :=
  match find (fun e => Nat.eqb (fst e) n) m with Some e => Some (snd e) | None => None end.

(** dsl-parser.y:1242-1249: an id in the tree, from its token *)
Record id := mk_id { ID_ORIG : text; ID_ROW : nat; ID_COL_BEGIN : nat; ID_COL_END : nat }.
Definition make_id (t : located) : option id :=
  match the_token t with
  | T_ID w => Some (mk_id (txt w) (the_line t) (first_column t) (last_column t))
  | _ => None
  end.

(** ctihelp.c:4-9; fields that are not named are 0 *)
Definition id_to_info (m : list (nat * text)) (n : id) : ctinfo :=
  mk_ctinfo (Z.of_nat (ID_ROW n)) (Z.of_nat (ID_COL_BEGIN n)) 0 (Z.of_nat (ID_COL_END n)) (lookup_line m (ID_ROW n)).

(** * Messages of the scanner and the parser *)

(** dsl-lexer.l:192.  yy_linebuf (line 26) is static and never written: the
    empty string. *)
Definition unexpected_info (s : scanner) : ctinfo :=
  mk_ctinfo (Z.of_nat (yylineno s)) (Z.of_nat (yycolumn s) - 1) 0 0 (Some []).
(** dsl-lexer.l:223; [len] is strlen(str) *)
Definition keyword_info (len : nat) (s : scanner) : ctinfo :=
  mk_ctinfo (Z.of_nat (yylineno s)) (Z.of_nat (yycolumn s) - Z.of_nat len) 0 (Z.of_nat (yycolumn s) - 1)
    (lookup_line (line_map s) (yylineno s)).
(** dsl-lexer.l:244 (yyerror) *)
Definition yyerror_info (yyleng : nat) (s : scanner) : ctinfo :=
  mk_ctinfo (Z.of_nat (yylineno s)) (Z.of_nat (yycolumn s) - Z.of_nat yyleng) 0 (Z.of_nat (yycolumn s) - 1)
    (lookup_line (line_map s) (yylineno s)).

(** The place of the message with which an action ends the program
    (dsl-lexer.l:166-170 with 215-228, and 191-195). *)
Definition last_words (s : scanner) : option ctinfo :=
  match best (rules (YY_START s)) (input s) with
  | Some (unexpected, n) => Some (unexpected_info (take n s))
  | Some (identifier, n) =>
      match check_c_keyword (mode s) (str (firstn n (input s))) with
      | Val _ => None
      | _ => Some (keyword_info n (take n s))
      end
  | _ => None
  end.

(** Calls of yylex until an action ends the program: the place it shows. *)
Fixpoint scan_message (fuel : nat) (s : scanner) : option ctinfo :=
  match input s, fuel with
  | [], _ | _, 0 => None
  | _, S fuel =>
      match step s with
      | Val (_, s') => scan_message fuel s'
      | Exited => last_words s
      | _ => None
      end
  end.
Definition message_of_scanner (t : text) : option ctinfo := scan_message (2 * length t + 2) (init_scanner t).

(** The parser finds an error when it has read [k] tokens and is given another
    one: the place yyerror shows.  Bison calls yyerror when it has read a token
    that cannot follow, before it reads another one. *)
Fixpoint syntax_message (fuel k : nat) (s : scanner) : option ctinfo :=
  match input s, fuel with
  | [], _ | _, 0 => None
  | _, S fuel =>
      match step s with
      | Val (None, s') => syntax_message fuel k s'
      | Val (Some _, s') =>
          match k with
          | 0 => Some (yyerror_info (length (input s) - length (input s')) s')
          | S k => syntax_message fuel k s'
          end
      | _ => None
      end
  end.
Definition message_of_parser (k : nat) (t : text) : option ctinfo := syntax_message (2 * length t + 2) k (init_scanner t).
