(** A parser for the grammar of ParserModel.v that looks one token ahead.
    ParserProof.v proves that it finds exactly the derivations of the
    grammar. *)

From Coq Require Import List Ascii NArith Bool.
From Verif Require Import Palm.StrModel Front.Syntax Front.SetsModel Front.ParserModel.
Import ListNotations.

Definition code (t : tok) : N :=
  match t with
  | T_INTVAL => 0 | T_UINTVAL => 1 | T_FLOATVAL => 2 | T_CHARVAL => 3 | T_STRINGVAL _ => 4 | T_ID _ => 5
  | T_INT => 6 | T_UINT => 7 | T_INT8 => 8 | T_INT16 => 9 | T_INT32 => 10 | T_INT64 => 11
  | T_UINT8 => 12 | T_UINT16 => 13 | T_UINT32 => 14 | T_UINT64 => 15
  | T_BOOL => 16 | T_TRUE => 17 | T_FALSE => 18
  | T_ARGS => 19 | T_ATTRIBUTES => 20 | T_CHILDREN => 21 | T_CONSTRUCTOR => 22 | T_CYCLE => 23
  | T_ENUM => 24 | T_EQUATIONS => 25 | T_INHERITED => 26 | T_MANDATORY => 27 | T_NODE => 28
  | T_NODES => 29 | T_NODESET => 30 | T_PASS => 31 | T_PASSES => 32 | T_PHASE => 33 | T_PHASES => 34
  | T_ACTIONS => 35 | T_PREFIX => 36 | T_INFO => 37 | T_FUNC => 38 | T_ROOT => 39 | T_START => 40
  | T_SUBPHASES => 41 | T_SYNTHESIZED => 42 | T_THIS => 43 | T_TO => 44 | T_TRAVERSAL => 45
  | T_TRAVDATA => 46 | T_FLOAT => 47 | T_DOUBLE => 48 | T_STRING => 49 | T_VALUES => 50 | T_NULL => 51
  | T_LIFETIME => 52 | T_DISALLOWED => 53 | T_OPTIONAL => 54 | T_ALLOWED => 55 | T_GATE => 56
  | T_ARROW => 57 | T_UNSAFE => 58 | T_UID => 59
  | LPAR => 60 | RPAR => 61 | LBRACKET => 62 | RBRACKET => 63 | LBRACE => 64 | RBRACE => 65
  | COMMA => 66 | EQUALS => 67 | SEMICOLON => 68 | BANG => 69 | BAR => 70 | AMPERSAND => 71
  | MINUS => 72 | DOT => 73
  end%N.
Definition is (t x : tok) : bool := N.eqb (code x) (code t).
(** the next token is [t] *)
Definition at_ (t : tok) (ts : tokens) : bool := match ts with x :: _ => is t x | [] => false end.
Definition at_id (ts : tokens) : bool := match ts with T_ID _ :: _ => true | _ => false end.

Definition bind {A B} (m : option A) (f : A -> option B) : option B :=
  match m with Some a => f a | None => None end.
Local Notation "'do' x <- m ; k" := (bind m (fun x => k))
  (at level 200, x pattern, m at level 100, k at level 200).

Definition eat (t : tok) (ts : tokens) : option tokens :=
  match ts with x :: r => if is t x then Some r else None | [] => None end.
Definition p_id (ts : tokens) : option (ident * tokens) :=
  match ts with T_ID i :: r => Some (i, r) | _ => None end.
Definition p_string (ts : tokens) : option (cstring * tokens) :=
  match ts with T_STRINGVAL s :: r => Some (s, r) | _ => None end.
Fixpoint eats (l : list tok) (ts : tokens) : option tokens :=
  match l with
  | [] => Some ts
  | t :: l => do ts <- eat t ts; eats l ts
  end.
(** [k = value] *)
Definition p_field (k : tok) (ts : tokens) : option (ident * tokens) := do ts <- eats [k; EQUALS] ts; p_id ts.
Definition p_info (ts : tokens) : option (cstring * tokens) := do ts <- eats [T_INFO; EQUALS] ts; p_string ts.

Section Lists.
  Context {A : Type} (item : tokens -> option (A * tokens)).
  Fixpoint p_right (n : nat) (sep : tok) (ts : tokens) : option (list A * tokens) :=
    match n with
    | O => None
    | S n =>
        do (v, r) <- item ts;
        if at_ sep r then do r <- eat sep r; do (vs, r) <- p_right n sep r; Some (v :: vs, r)
        else Some ([v], r)
    end.
End Lists.

Definition p_range_spec (ts : tokens) : option (list ident * tokens) := p_right p_id (S (length ts)) DOT ts.

Definition p_range (ts : tokens) : option (option lifetime_range * tokens) :=
  if at_ LPAR ts then
    do ts <- eat LPAR ts;
    if at_id ts then do (p, ts) <- p_range_spec ts; Some (Some (mk_range p false), ts) else Some (None, ts)
  else if at_ RPAR ts then do ts <- eat RPAR ts; Some (None, ts)
  else if at_ LBRACKET ts then
    do ts <- eat LBRACKET ts; do (p, ts) <- p_range_spec ts; Some (Some (mk_range p true), ts)
  else if at_id ts then
    do (p, ts) <- p_range_spec ts;
    if at_ RPAR ts then do ts <- eat RPAR ts; Some (Some (mk_range p false), ts)
    else do ts <- eat RBRACKET ts; Some (Some (mk_range p true), ts)
  else Some (None, ts).

(** [bare]: the range may be left out *)
Definition p_ranges (bare : bool) (ts : tokens)
  : option (option lifetime_range * option lifetime_range * tokens) :=
  if bare && (at_ COMMA ts || at_ RBRACE ts || match ts with [] => true | _ => false end) then Some (None, None, ts)
  else do (b, ts) <- p_range ts; do ts <- eat T_ARROW ts; do (e, ts) <- p_range ts; Some (b, e, ts).

Definition p_lifetime (ts : tokens) : option (ilifetime * tokens) :=
  let go t bare w := do ts <- eat w ts; do (b, e, ts) <- p_ranges bare ts; Some (mk_lifetime t b e, ts) in
  if at_ T_DISALLOWED ts then go LT_disallowed true T_DISALLOWED
  else if at_ T_ALLOWED ts then go LT_allowed false T_ALLOWED
  else if at_ T_MANDATORY ts then go LT_mandatory true T_MANDATORY
  else go LT_optional false T_OPTIONAL.

Definition commas {A} (item : tokens -> option (A * tokens)) (ts : tokens) : option (list A * tokens) :=
  p_right item (S (length ts)) COMMA ts.

(** [word { ... }] *)
Definition p_block {A} (w : tok) (item : tokens -> option (A * tokens)) (ts : tokens)
  : option (list A * tokens) :=
  do ts <- eats [w; LBRACE] ts; do (l, ts) <- commas item ts; do ts <- eat RBRACE ts; Some (l, ts).

Definition p_nodelifetimes (ts : tokens) : option (list ilifetime * tokens) :=
  if at_ T_LIFETIME ts then p_block T_LIFETIME p_lifetime ts else Some ([], ts).

Definition p_child (ts : tokens) : option (child * tokens) :=
  do (t, ts) <- p_id ts; do (n, ts) <- p_id ts;
  if at_ LBRACE ts then
    do ts <- eat LBRACE ts;
    if at_ RBRACE ts then do ts <- eat RBRACE ts; Some (mk_child n t false [], ts)
    else if at_ T_CONSTRUCTOR ts then
      do ts <- eat T_CONSTRUCTOR ts;
      if at_ RBRACE ts then do ts <- eat RBRACE ts; Some (mk_child n t true [], ts)
      else do ts <- eat COMMA ts; do (l, ts) <- commas p_lifetime ts; do ts <- eat RBRACE ts;
           Some (mk_child n t true l, ts)
    else do (l, ts) <- commas p_lifetime ts; do ts <- eat RBRACE ts; Some (mk_child n t false l, ts)
  else Some (mk_child n t false [], ts).

Definition p_keyword (ts : tokens) : option (keyword * tokens) :=
  if at_ T_CONSTRUCTOR ts then do ts <- eat T_CONSTRUCTOR ts; Some (BAO_constructor, ts)
  else if at_ T_INHERITED ts then do ts <- eat T_INHERITED ts; Some (BAO_inherited, ts)
  else if at_ T_SYNTHESIZED ts then do ts <- eat T_SYNTHESIZED ts; Some (BAO_synthesized, ts)
  else do (l, ts) <- p_lifetime ts; Some (BAO_lifetime l, ts).

(** up to, and without, the closing brace *)
Fixpoint p_keywords (n : nat) (ts : tokens) : option (list keyword * tokens) :=
  match n with
  | O => None
  | S n =>
      if at_ RBRACE ts then Some ([], ts)
      else do (k, ts) <- p_keyword ts;
           if at_ COMMA ts then do ts <- eat COMMA ts; do (ks, ts) <- p_keywords n ts; Some (k :: ks, ts)
           else Some ([k], ts)
  end.

Definition primitive (t : tok) : option attribute_type :=
  match t with
  | T_BOOL => Some AT_bool | T_STRING => Some AT_string | T_INT => Some AT_int
  | T_FLOAT => Some AT_float | T_DOUBLE => Some AT_double
  | T_UINT8 => Some AT_uint8 | T_UINT16 => Some AT_uint16 | T_UINT32 => Some AT_uint32 | T_UINT64 => Some AT_uint64
  | T_INT8 => Some AT_int8 | T_INT16 => Some AT_int16 | T_INT32 => Some AT_int32 | T_INT64 => Some AT_int64
  | _ => None
  end.

Definition p_type (ts : tokens) : option (attribute_type * option ident * tokens) :=
  if at_id ts then do (r, ts) <- p_id ts; Some (AT_link_or_enum, Some r, ts)
  else if at_ T_UNSAFE ts then do ts <- eat T_UNSAFE ts; do (r, ts) <- p_id ts; Some (AT_user, Some r, ts)
  else match ts with
       | p :: ts => do t <- primitive p; Some (t, None, ts)
       | [] => None
       end.

Definition p_attribute (ts : tokens) : option (attribute * tokens) :=
  do (t, r, ts) <- p_type ts; do (n, ts) <- p_id ts;
  if at_ LBRACE ts then
    do ts <- eat LBRACE ts; do (ks, ts) <- p_keywords (S (length ts)) ts; do ts <- eat RBRACE ts;
    Some (new_attribute n t r (parse_attribute_options ks), ts)
  else Some (new_attribute n t r no_options, ts).

Definition p_reference (ts : tokens) : option (attribute_reference * tokens) :=
  if at_id ts then
    do (c, ts) <- p_id ts; do ts <- eat DOT ts; do (a, ts) <- p_id ts; Some (mk_aref (Some c) a, ts)
  else do ts <- eats [T_THIS; DOT] ts; do (a, ts) <- p_id ts; Some (mk_aref None a, ts).

Definition p_equation (ts : tokens) : option (equation * tokens) :=
  do (r, ts) <- p_reference ts; do ts <- eats [EQUALS; LBRACE] ts;
  if at_ RBRACE ts then do ts <- eat RBRACE ts; Some (mk_equation r [], ts)
  else
    do ts <- eats [T_ARGS; EQUALS; LBRACE] ts;
    if at_ RBRACE ts then do ts <- eats [RBRACE; RBRACE] ts; Some (mk_equation r [], ts)
    else do (l, ts) <- commas p_reference ts; do ts <- eats [RBRACE; RBRACE] ts; Some (mk_equation r l, ts).

(** Set expressions: an operand, and the operators that follow.  The boolean
    tells whether there was one. *)
Definition p_op (ts : tokens) : option (setop * tokens) :=
  match ts with
  | BAR :: ts => Some (SO_iunion, ts)
  | AMPERSAND :: ts => Some (SO_intersect, ts)
  | MINUS :: ts => Some (SO_difference, ts)
  | _ => None
  end.

Fixpoint p_set (n : nat) (ts : tokens) : option (bool * setexpr * tokens) :=
  match n with
  | O => None
  | S n => do (e, ts) <- p_primary n ts; p_ops n false e ts
  end
with p_ops (n : nat) (b : bool) (e : setexpr) (ts : tokens) : option (bool * setexpr * tokens) :=
  match n with
  | O => None
  | S n =>
      match p_op ts with
      | Some (o, ts) => do (r, ts) <- p_primary n ts; p_ops n true (EOperation o e r) ts
      | None => Some (b, e, ts)
      end
  end
with p_primary (n : nat) (ts : tokens) : option (setexpr * tokens) :=
  match n with
  | O => None
  | S n =>
      if at_ LPAR ts then
        do ts <- eat LPAR ts; do (b, e, ts) <- p_set n ts; do ts <- eat RPAR ts;
        if (b : bool) then Some (e, ts) else None
      else if at_ LBRACE ts then
        do ts <- eat LBRACE ts; do (l, ts) <- commas p_id ts; do ts <- eat RBRACE ts;
        Some (ELiteral (parse_literal l), ts)
      else do (i, ts) <- p_id ts; Some (EReference i, ts)
  end.

Definition p_setexpr (ts : tokens) : option (setexpr * tokens) :=
  do (_, e, ts) <- p_set (2 * length ts + 3) ts; Some (e, ts).

Definition p_travdataitem (ts : tokens) : option (itravdata * tokens) :=
  do (t, r, ts) <- p_type ts; do (n, ts) <- p_id ts; Some (mk_travdata n t r, ts).

Definition optional {A} (b : bool) (p : option (A * tokens)) (ts : tokens) : option (option A * tokens) :=
  if b then do (a, ts) <- p; Some (Some a, ts) else Some (None, ts).

(** a field and the comma behind it, if it is there *)
Definition before_comma {A} (b : bool) (p : option (A * tokens)) (ts : tokens) : option (option A * tokens) :=
  if b then do (a, ts) <- p; do ts <- eat COMMA ts; Some (Some a, ts) else Some (None, ts).

Definition p_pass (ts : tokens) : option (p_pass * tokens) :=
  do ts <- eat T_PASS ts; do (n, ts) <- p_id ts;
  if at_ EQUALS ts then
    do ts <- eat EQUALS ts; do (f, ts) <- p_id ts; Some (mk_ppass (mk_pass n None (Some f)) None, ts)
  else if at_ LBRACE ts then
    do ts <- eat LBRACE ts;
    do (i, ts) <- before_comma (at_ T_INFO ts) (p_info ts) ts;
    if at_ T_UID ts then
      do (u, ts) <- p_field T_UID ts;
      if at_ COMMA ts then
        do ts <- eat COMMA ts; do (f, ts) <- p_field T_FUNC ts; do ts <- eat RBRACE ts;
        Some (mk_ppass (mk_pass n (Some u) (Some f)) i, ts)
      else do ts <- eat RBRACE ts; Some (mk_ppass (mk_pass n (Some u) None) i, ts)
    else do (f, ts) <- p_field T_FUNC ts; do ts <- eat RBRACE ts;
         Some (mk_ppass (mk_pass n None (Some f)) i, ts)
  else Some (mk_ppass (mk_pass n None None) None, ts).

Definition p_traversal (x : nat) (ts : tokens) : option (p_traversal * tokens) :=
  do ts <- eat T_TRAVERSAL ts; do (n, ts) <- p_id ts; do ts <- eat LBRACE ts;
  do (i, ts) <- before_comma (at_ T_INFO ts) (p_info ts) ts;
  do (u, ts) <- p_field T_UID ts;
  if at_ COMMA ts then
    do ts <- eat COMMA ts;
    if at_ T_NODES ts then
      do ts <- eats [T_NODES; EQUALS] ts; do (e, ts) <- p_setexpr ts;
      if at_ COMMA ts then
        do ts <- eat COMMA ts; do (d, ts) <- p_block T_TRAVDATA p_travdataitem ts; do ts <- eat RBRACE ts;
        Some (mk_ptraversal (mk_traversal n (Some u) (Some e) (rev d)) x i, ts)
      else do ts <- eat RBRACE ts; Some (mk_ptraversal (mk_traversal n (Some u) (Some e) []) x i, ts)
    else do (d, ts) <- p_block T_TRAVDATA p_travdataitem ts; do ts <- eat RBRACE ts;
         Some (mk_ptraversal (mk_traversal n (Some u) None (rev d)) x None, ts)
  else do ts <- eat RBRACE ts; Some (mk_ptraversal (mk_traversal n (Some u) None []) x i, ts).

(** [start] and [phase] or [cycle], the name, the opening brace *)
Definition p_header (ts : tokens) : option (bool * bool * ident * tokens) :=
  do (b, ts) <- (if at_ T_START ts then do ts <- eat T_START ts; Some (true, ts) else Some (false, ts));
  do (c, ts) <- (if at_ T_CYCLE ts then do ts <- eat T_CYCLE ts; Some (true, ts)
                 else do ts <- eat T_PHASE ts; Some (false, ts));
  do (n, ts) <- p_id ts; do ts <- eat LBRACE ts; Some (b, c, n, ts).

(** the fields before the actions *)
Definition p_gate (ts : tokens) : option (option ident * tokens) :=
  if at_ COMMA ts then do ts <- eat COMMA ts; Some (None, ts)
  else before_comma (at_ T_GATE ts) (p_field T_GATE ts) ts.

Definition p_heading (c : bool) (ts : tokens)
  : option (option cstring * option ident * option ident * tokens) :=
  do (i, ts) <- optional (at_ T_INFO ts) (p_info ts) ts;
  match i with
  | Some i =>
      if at_ COMMA ts then
        do ts <- eat COMMA ts;
        do (u, ts) <- before_comma (at_ T_UID ts) (p_field T_UID ts) ts;
        match u, c with
        | Some u, true => Some (Some i, Some u, None, ts)
        | _, _ => do (g, ts) <- p_gate ts; Some (Some i, u, g, ts)
        end
      else if c then
        do (u, ts) <- p_field T_UID ts; do (g, ts) <- optional (at_ T_GATE ts) (p_field T_GATE ts) ts;
        Some (Some i, Some u, g, ts)
      else None
  | None =>
      do (u, ts) <- before_comma (at_ T_UID ts) (p_field T_UID ts) ts;
      do (g, ts) <- p_gate ts; Some (None, u, g, ts)
  end.

Fixpoint p_phase (n : nat) (s : parser) (ts : tokens) : option (p_phase * parser * tokens) :=
  match n with
  | O => None
  | S n =>
      do (b, c, nm, ts) <- p_header ts; do (i, u, g, ts) <- p_heading c ts;
      do ts <- eats [T_ACTIONS; LBRACE] ts; do (a, s, ts) <- p_actions n s ts;
      do ts <- eats [RBRACE; RBRACE] ts; Some (new_phase (nm, b) c i u g a, s, ts)
  end
with p_actions (n : nat) (s : parser) (ts : tokens) : option (list ident * parser * tokens) :=
  match n with
  | O => None
  | S n =>
      do (a, s, ts) <- p_action n s ts; do ts <- eat SEMICOLON ts;
      if at_ RBRACE ts then Some ([a], s, ts)
      else do (l, s, ts) <- p_actions n s ts; Some (a :: l, s, ts)
  end
with p_action (n : nat) (s : parser) (ts : tokens) : option (ident * parser * tokens) :=
  match n with
  | O => None
  | S n =>
      if at_id ts then do (i, ts) <- p_id ts; Some (i, s, ts)
      else if at_ T_TRAVERSAL ts then
        do (t, ts) <- p_traversal (trav_index s) ts;
        Some (tv_name (pt_traversal t), add_traversal (next_traversal s) t, ts)
      else if at_ T_PASS ts then do (p, ts) <- p_pass ts; Some (ps_name (pa_pass p), add_pass s p, ts)
      else do (p, s, ts) <- p_phase n s ts; Some (ph_name (pp_phase p), add_phase s p, ts)
  end.

Definition p_node (ts : tokens) : option (inode * tokens) :=
  do (r, ts) <- (if at_ T_ROOT ts then do ts <- eat T_ROOT ts; Some (true, ts) else Some (false, ts));
  do ts <- eat T_NODE ts; do (n, ts) <- p_id ts; do ts <- eat LBRACE ts;
  if at_ RBRACE ts then do ts <- eat RBRACE ts; Some (mk_node n r [] [] [] [], ts)
  else if at_ T_EQUATIONS ts then
    do (e, ts) <- p_block T_EQUATIONS p_equation ts; do ts <- eat RBRACE ts; Some (mk_node n r [] [] e [], ts)
  else
    do (c, a, ts) <- (if at_ T_CHILDREN ts then
                        do (c, ts) <- p_block T_CHILDREN p_child ts;
                        do (a, ts) <- (if at_ COMMA ts then
                                         do us <- eat COMMA ts;
                                         if at_ T_ATTRIBUTES us then p_block T_ATTRIBUTES p_attribute us
                                         else Some ([], ts)
                                       else Some ([], ts));
                        Some (c, a, ts)
                      else do (a, ts) <- p_block T_ATTRIBUTES p_attribute ts; Some ([], a, ts));
    if at_ COMMA ts then
      do ts <- eat COMMA ts;
      if at_ T_EQUATIONS ts then
        do (e, ts) <- p_block T_EQUATIONS p_equation ts;
        if at_ COMMA ts then
          do ts <- eat COMMA ts; do (l, ts) <- p_nodelifetimes ts; do ts <- eat RBRACE ts;
          Some (mk_node n r c a e l, ts)
        else do ts <- eat RBRACE ts; Some (mk_node n r c a e [], ts)
      else do (l, ts) <- p_nodelifetimes ts; do ts <- eat RBRACE ts; Some (mk_node n r c a [] l, ts)
    else do ts <- eat RBRACE ts; Some (mk_node n r c a [] [], ts).

Definition p_nodeset (ts : tokens) : option (p_nodeset * tokens) :=
  do ts <- eat T_NODESET ts; do (n, ts) <- p_id ts;
  if at_ EQUALS ts then
    do ts <- eat EQUALS ts; do (e, ts) <- p_setexpr ts; Some (mk_pnodeset (mk_nodeset n e []) None, ts)
  else
    do ts <- eat LBRACE ts;
    do (i, ts) <- before_comma (at_ T_INFO ts) (p_info ts) ts;
    do ts <- eats [T_NODES; EQUALS] ts; do (e, ts) <- p_setexpr ts;
    if at_ COMMA ts then
      do ts <- eat COMMA ts; do (a, ts) <- p_block T_ATTRIBUTES p_attribute ts; do ts <- eat RBRACE ts;
      Some (mk_pnodeset (mk_nodeset n e a) i, ts)
    else do ts <- eat RBRACE ts; Some (mk_pnodeset (mk_nodeset n e []) i, ts).

Definition p_enum (ts : tokens) : option (p_enum * tokens) :=
  do ts <- eat T_ENUM ts; do (n, ts) <- p_id ts; do ts <- eat LBRACE ts;
  do (i, ts) <- before_comma (at_ T_INFO ts) (p_info ts) ts;
  do (p, ts) <- p_field T_PREFIX ts; do ts <- eat COMMA ts;
  do (l, ts) <- p_block T_VALUES p_id ts; do ts <- eat RBRACE ts;
  Some (mk_penum (mk_enum n p l) i, ts).

Definition p_entry (s : parser) (ts : tokens) : option (parser * tokens) :=
  if at_ T_PASS ts then do (p, ts) <- p_pass ts; Some (add_pass s p, ts)
  else if at_ T_TRAVERSAL ts then
    do (t, ts) <- p_traversal (trav_index s) ts; Some (add_traversal (next_traversal s) t, ts)
  else if at_ T_ROOT ts || at_ T_NODE ts then do (n, ts) <- p_node ts; Some (add_node s n, ts)
  else if at_ T_NODESET ts then do (n, ts) <- p_nodeset ts; Some (add_nodeset s n, ts)
  else if at_ T_ENUM ts then do (e, ts) <- p_enum ts; Some (add_enum s e, ts)
  else do (p, s, ts) <- p_phase (2 * length ts + 2) s ts; Some (add_phase s p, ts).

Fixpoint p_entries (n : nat) (s : parser) (ts : tokens) : option parser :=
  match n with
  | O => None
  | S n =>
      match ts with
      | [] => Some s
      | _ => do (s, ts) <- p_entry s ts;
             match ts with
             | [] => Some s
             | _ => do ts <- eat SEMICOLON ts; p_entries n s ts
             end
      end
  end.

Definition parse (ts : tokens) : option parser := p_entries (S (length ts)) init_parser ts.
