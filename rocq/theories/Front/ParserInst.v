(** A specification with its tokens, and texts the parser does not read as
    documented. *)

From Coq Require Import String.
From Coq Require Import List Ascii Bool.
From Verif Require Import Palm.StrModel Front.Syntax Front.SetsModel Front.ParserModel Front.ParserSpec.
From Verif Require Import Front.SetsInst Front.ParserRun Front.ParserSound.
Import ListNotations.
Local Open Scope string_scope.
Local Open Scope list_scope.

Definition T (s : string) : tok := T_ID (nm s).
Definition Q (s : string) : tok := T_STRINGVAL (nm s).

(** root node Program {
      children { Expr e { constructor, mandatory [A.B -> C) }, Expr f },
      attributes { int8 x { synthesized, constructor }, user t y },
      equations { this.x = { args = { e.v, this.y } } },
      lifetime { disallowed }
    }; *)
Definition program_tokens : tokens :=
  [T_ROOT; T_NODE; T "Program"; LBRACE;
   T_CHILDREN; LBRACE;
     T "Expr"; T "e"; LBRACE; T_CONSTRUCTOR; COMMA;
       T_MANDATORY; LBRACKET; T "A"; DOT; T "B"; T_ARROW; T "C"; RPAR; RBRACE; COMMA;
     T "Expr"; T "f"; RBRACE; COMMA;
   T_ATTRIBUTES; LBRACE;
     T_INT8; T "x"; LBRACE; T_SYNTHESIZED; COMMA; T_CONSTRUCTOR; RBRACE; COMMA;
     T_UNSAFE; T "t"; T "y"; RBRACE; COMMA;
   T_EQUATIONS; LBRACE;
     T_THIS; DOT; T "x"; EQUALS; LBRACE; T_ARGS; EQUALS; LBRACE; T "e"; DOT; T "v"; COMMA; T_THIS; DOT; T "y";
     RBRACE; RBRACE; RBRACE; COMMA;
   T_LIFETIME; LBRACE; T_DISALLOWED; RBRACE;
   RBRACE].
Definition program : inode :=
  mk_node (nm "Program") true
    [mk_child (nm "e") (nm "Expr") true
       [mk_lifetime LT_mandatory (Some (mk_range [nm "A"; nm "B"] true)) (Some (mk_range [nm "C"] false))];
     mk_child (nm "f") (nm "Expr") false []]
    [mk_attribute (nm "x") AT_int8 None true false true false [];
     mk_attribute (nm "y") AT_user (Some (nm "t")) false false false false []]
    [mk_equation (mk_aref None (nm "x")) [mk_aref (Some (nm "e")) (nm "v"); mk_aref None (nm "y")]]
    [mk_lifetime LT_disallowed None None].

(** nodeset Expr { info = "expressions", nodes = {A, B} - (C | {D}) }; *)
Definition expr_tokens : tokens :=
  [T_NODESET; T "Expr"; LBRACE; T_INFO; EQUALS; Q "expressions"; COMMA;
   T_NODES; EQUALS; LBRACE; T "A"; COMMA; T "B"; RBRACE; MINUS; LPAR; T "C"; BAR; LBRACE; T "D"; RBRACE; RPAR; RBRACE].
Definition expr_set : set_syntax :=
  Operation SO_difference (Names [nm "A"; nm "B"]) (Operation SO_iunion (Nodeset (nm "C")) (Names [nm "D"])).

(** enum Op { prefix = OP, values { add, sub } }; *)
Definition op_tokens : tokens :=
  [T_ENUM; T "Op"; LBRACE; T_PREFIX; EQUALS; T "OP"; COMMA; T_VALUES; LBRACE; T "add"; COMMA; T "sub"; RBRACE; RBRACE].

(** start phase Main { gate = ready,
      actions {
        pass Parse { info = "parse", func = doParse };
        cycle Opt { uid = O, actions { fold; } };
        traversal Print { uid = PRT, nodes = Expr, travdata { int depth, string out } };
      } } *)
Definition main_tokens : tokens :=
  [T_START; T_PHASE; T "Main"; LBRACE; T_GATE; EQUALS; T "ready"; COMMA; T_ACTIONS; LBRACE;
     T_PASS; T "Parse"; LBRACE; T_INFO; EQUALS; Q "parse"; COMMA; T_FUNC; EQUALS; T "doParse"; RBRACE; SEMICOLON;
     T_CYCLE; T "Opt"; LBRACE; T_UID; EQUALS; T "O"; COMMA; T_ACTIONS; LBRACE; T "fold"; SEMICOLON; RBRACE; RBRACE;
       SEMICOLON;
     T_TRAVERSAL; T "Print"; LBRACE; T_UID; EQUALS; T "PRT"; COMMA; T_NODES; EQUALS; T "Expr"; COMMA;
       T_TRAVDATA; LBRACE; T_INT; T "depth"; COMMA; T_STRING; T "out"; RBRACE; RBRACE; SEMICOLON;
     RBRACE; RBRACE].
Definition main_phase : action :=
  Phase (mk_heading true false (nm "Main") None None (Some (nm "ready")))
    [Pass (mk_ps (nm "Parse") (Some (nm "parse")) None (Some (nm "doParse")));
     Phase (mk_heading false true (nm "Opt") None (Some (nm "O")) None) [Named (nm "fold")];
     Traversal (mk_ts (nm "Print") None (nm "PRT") (Some (Nodeset (nm "Expr")))
                  [mk_travdata (nm "depth") AT_int None; mk_travdata (nm "out") AT_string None])].

Definition sample : list declaration :=
  [Node program; Nodeset_of (nm "Expr") (Some (nm "expressions")) expr_set [];
   Enum (mk_enum (nm "Op") (nm "OP") [nm "add"; nm "sub"]) None; Action main_phase].
Definition sample_tokens : tokens :=
  program_tokens ++ SEMICOLON :: expr_tokens ++ SEMICOLON :: op_tokens ++ SEMICOLON :: main_tokens.

Lemma lifetime_e : lifetime_written
  (mk_lifetime LT_mandatory (Some (mk_range [nm "A"; nm "B"] true)) (Some (mk_range [nm "C"] false)))
  [T_MANDATORY; LBRACKET; T "A"; DOT; T "B"; T_ARROW; T "C"; RPAR].
Proof.
  apply (lifetime_range_written LT_mandatory _ _ [LBRACKET; T "A"; DOT; T "B"] [T "C"; RPAR]).
  - apply (begin_at [nm "A"; nm "B"] true).
  - apply (end_at [nm "C"] false).
Qed.

Lemma program_written : declaration_written (Node program) program_tokens.
Proof.
  apply (node_declaration (nm "Program") true (nd_children program) (nd_attributes program)
    (nd_equations program) (nd_lifetimes program)
    [[T "Expr"; T "e"; LBRACE; T_CONSTRUCTOR; COMMA; T_MANDATORY; LBRACKET; T "A"; DOT; T "B"; T_ARROW; T "C"; RPAR; RBRACE];
     [T "Expr"; T "f"]]
    [[T_INT8; T "x"; LBRACE; T_SYNTHESIZED; COMMA; T_CONSTRUCTOR; RBRACE]; [T_UNSAFE; T "t"; T "y"]]
    [[T_THIS; DOT; T "x"; EQUALS; LBRACE; T_ARGS; EQUALS; LBRACE; T "e"; DOT; T "v"; COMMA; T_THIS; DOT; T "y"; RBRACE; RBRACE]]
    [[T_DISALLOWED]]).
  - constructor; [|constructor; [constructor | constructor]].
    apply (child_options (nm "e") (nm "Expr") true _ [[T_MANDATORY; LBRACKET; T "A"; DOT; T "B"; T_ARROW; T "C"; RPAR]]).
    constructor; [exact lifetime_e | constructor].
  - constructor; [|constructor; [|constructor]].
    + apply (attribute_options (nm "x") AT_int8 None true false true [] [T_INT8] [Synthesized; Constructor]
               [[T_SYNTHESIZED]; [T_CONSTRUCTOR]]).
      * constructor. cbn. tauto.
      * split; cbn; auto.
      * split; cbn; [discriminate | intros [E|[E|[]]]; discriminate].
      * split; cbn; auto.
      * reflexivity.
      * repeat constructor.
    + apply (attribute_bare (nm "y") AT_user (Some (nm "t")) [T_UNSAFE; T "t"]). constructor.
  - constructor; [|constructor].
    apply (equation_args (mk_aref None (nm "x")) [mk_aref (Some (nm "e")) (nm "v"); mk_aref None (nm "y")]).
  - constructor; [|constructor]. apply (lifetime_always_written LT_disallowed). auto.
Qed.

Lemma main_written : action_written main_phase main_tokens.
Proof.
  apply (phase_action (mk_heading true false (nm "Main") None None (Some (nm "ready"))) _
    ([T_PASS; T "Parse"; LBRACE; T_INFO; EQUALS; Q "parse"; COMMA; T_FUNC; EQUALS; T "doParse"; RBRACE] ++ SEMICOLON ::
     [T_CYCLE; T "Opt"; LBRACE; T_UID; EQUALS; T "O"; COMMA; T_ACTIONS; LBRACE; T "fold"; SEMICOLON; RBRACE; RBRACE] ++
       SEMICOLON ::
     [T_TRAVERSAL; T "Print"; LBRACE; T_UID; EQUALS; T "PRT"; COMMA; T_NODES; EQUALS; T "Expr"; COMMA;
       T_TRAVDATA; LBRACE; T_INT; T "depth"; COMMA; T_STRING; T "out"; RBRACE; RBRACE] ++ [SEMICOLON])).
  constructor; [|constructor; [|constructor; [|constructor]]].
  - apply pass_action, pass_long. left. discriminate.
  - apply (phase_action (mk_heading false true (nm "Opt") None (Some (nm "O")) None) _ ([T "fold"] ++ [SEMICOLON])).
    repeat constructor.
  - apply traversal_action.
    apply (a_traversal (nm "Print") None (nm "PRT") (Some (Nodeset (nm "Expr")))
      [mk_travdata (nm "depth") AT_int None; mk_travdata (nm "out") AT_string None]
      [[T_NODES; EQUALS; T "Expr"]] [[T_INT; T "depth"]; [T_STRING; T "out"]]).
    + cbn. exists [T_NODES; EQUALS; T "Expr"]. split; [|reflexivity]. exists [T "Expr"].
      split; [repeat constructor | reflexivity].
    + constructor; [|constructor; [|constructor]].
      * exists [T_INT]. split; [constructor; cbn; tauto | reflexivity].
      * exists [T_STRING]. split; [constructor; cbn; tauto | reflexivity].
Qed.

Lemma sample_written : written sample sample_tokens.
Proof.
  constructor; [exact program_written|]. constructor; [|constructor; [|apply last_written]].
  - apply (nodeset_declaration (nm "Expr") (Some (nm "expressions")) expr_set []
      [LBRACE; T "A"; COMMA; T "B"; RBRACE; MINUS; LPAR; T "C"; BAR; LBRACE; T "D"; RBRACE; RPAR] []); [|constructor].
    apply (set_operation SO_difference _ _ [LBRACE; T "A"; COMMA; T "B"; RBRACE]).
    + apply set_operand, (names_written [nm "A"; nm "B"]).
    + apply (parentheses SO_iunion _ _ [T "C"] [LBRACE; T "D"; RBRACE]); [repeat constructor|].
      apply (names_written [nm "D"]).
  - apply (enum_declaration (nm "Op") (nm "OP") [nm "add"; nm "sub"] None).
  - apply action_declaration; [discriminate | exact main_written].
Qed.

Lemma sample_ok : Forall declaration_ok sample.
Proof.
  repeat (apply Forall_cons || apply Forall_nil).
  - unfold declaration_ok, node_ok. cbn [nd_children nd_attributes nd_lifetimes program].
    repeat (apply conj || apply Forall_cons || apply Forall_nil); cbn; try exact I; try discriminate;
      try (intros _; left; discriminate); repeat constructor; cbn; discriminate.
  - cbn. repeat split; try discriminate. constructor.
  - cbn. discriminate.
  - cbn. unfold main_phase. constructor; [intros E; discriminate | discriminate|].
    repeat (apply Forall_cons || apply Forall_nil).
    + constructor. intros _. cbn. right. discriminate.
    + constructor; [intros _; cbn; auto | discriminate | repeat constructor].
    + constructor. split; cbn; [intros e [= <-]; exact I | intros _ _; discriminate].
Qed.

(** * Texts that are not read as documented *)

(** node N { lifetime { disallowed } } *)
Definition only_lifetimes : declaration := Node (mk_node (nm "N") false [] [] [] [mk_lifetime LT_disallowed None None]).
Definition only_lifetimes_tokens : tokens :=
  [T_NODE; T "N"; LBRACE; T_LIFETIME; LBRACE; T_DISALLOWED; RBRACE; RBRACE].
Lemma only_lifetimes_written : written [only_lifetimes] only_lifetimes_tokens.
Proof.
  apply last_written.
  apply (node_declaration (nm "N") false [] [] [] [mk_lifetime LT_disallowed None None] [] [] [] [[T_DISALLOWED]]);
    try constructor; [|constructor]. apply (lifetime_always_written LT_disallowed). auto.
Qed.

(** cycle C { info = "i", uid = U, gate = g, actions { a; } } *)
Definition full_cycle : declaration :=
  Action (Phase (mk_heading false true (nm "C") (Some (nm "i")) (Some (nm "U")) (Some (nm "g"))) [Named (nm "a")]).
Definition full_cycle_tokens : tokens :=
  [T_CYCLE; T "C"; LBRACE; T_INFO; EQUALS; Q "i"; COMMA; T_UID; EQUALS; T "U"; COMMA; T_GATE; EQUALS; T "g"; COMMA;
   T_ACTIONS; LBRACE; T "a"; SEMICOLON; RBRACE; RBRACE].
Lemma full_cycle_written : written [full_cycle] full_cycle_tokens.
Proof.
  apply last_written, action_declaration; [discriminate|].
  apply (phase_action (mk_heading false true (nm "C") (Some (nm "i")) (Some (nm "U")) (Some (nm "g"))) _
           ([T "a"] ++ [SEMICOLON])).
  repeat constructor.
Qed.
(** the same without commas *)
Definition full_cycle_accepted : tokens :=
  [T_CYCLE; T "C"; LBRACE; T_INFO; EQUALS; Q "i"; T_UID; EQUALS; T "U"; T_GATE; EQUALS; T "g";
   T_ACTIONS; LBRACE; T "a"; SEMICOLON; RBRACE; RBRACE].

(** traversal R { info = "i", uid = U, travdata { int x } } *)
Definition silent : declaration :=
  Action (Traversal (mk_ts (nm "R") (Some (nm "i")) (nm "U") None [mk_travdata (nm "x") AT_int None])).
Definition silent_tokens : tokens :=
  [T_TRAVERSAL; T "R"; LBRACE; T_INFO; EQUALS; Q "i"; COMMA; T_UID; EQUALS; T "U"; COMMA;
   T_TRAVDATA; LBRACE; T_INT; T "x"; RBRACE; RBRACE].
Lemma silent_written : written [silent] silent_tokens.
Proof.
  apply last_written, action_declaration; [discriminate|]. apply traversal_action.
  apply (a_traversal (nm "R") (Some (nm "i")) (nm "U") None [mk_travdata (nm "x") AT_int None] [] [[T_INT; T "x"]]); [reflexivity|].
  constructor; [|constructor]. exists [T_INT]. split; [constructor; cbn; tauto | reflexivity].
Qed.

(** pass P { info = "i" } *)
Definition info_pass : declaration := Action (Pass (mk_ps (nm "P") (Some (nm "i")) None None)).
Definition info_pass_tokens : tokens := [T_PASS; T "P"; LBRACE; T_INFO; EQUALS; Q "i"; RBRACE].
Lemma info_pass_written : written [info_pass] info_pass_tokens.
Proof.
  apply last_written, action_declaration; [discriminate|]. apply pass_action, pass_long. left. discriminate.
Qed.

(** phase P { gate, actions { a; } } *)
Definition bare_gate_tokens : tokens :=
  [T_PHASE; T "P"; LBRACE; T_GATE; COMMA; T_ACTIONS; LBRACE; T "a"; SEMICOLON; RBRACE; RBRACE].
(** node N { children { E e }, lifetime { disallowed [ -> a] } } *)
Definition square_tokens : tokens :=
  [T_NODE; T "N"; LBRACE; T_CHILDREN; LBRACE; T "E"; T "e"; RBRACE; COMMA; T_LIFETIME; LBRACE; T_DISALLOWED; LBRACKET;
   T_ARROW; T "a"; RBRACKET; RBRACE; RBRACE].
(** node N { attributes { int v { synthesized } }, equations { this.v = } } *)
Definition bare_equation_tokens : tokens :=
  [T_NODE; T "N"; LBRACE; T_ATTRIBUTES; LBRACE; T_INT; T "v"; LBRACE; T_SYNTHESIZED; RBRACE; RBRACE; COMMA;
   T_EQUATIONS; LBRACE; T_THIS; DOT; T "v"; EQUALS; RBRACE; RBRACE].

Lemma rejected : forall ts, parse ts = None -> forall p, ~ SPparseDSL ts p.
Proof. intros ts H p Hp. apply parse_iff in Hp. congruence. Qed.
