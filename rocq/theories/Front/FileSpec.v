(** How the tokens of a specification are spelled, and which names it can
    use. *)

From Coq Require Import String.
From Coq Require Import List Ascii Bool.
From Verif Require Import Palm.StrModel Front.LexerModel Front.LexerSpec Front.ScannerModel Front.ScannerSpec.
From Verif Require Import Front.Syntax Front.ParserModel Front.ParserSpec.
Import ListNotations.
Local Open Scope string_scope.
Local Open Scope list_scope.

Definition spell (t : tok) : lexeme :=
  match t with
  | T_INTVAL => Negative_number "-1" | T_UINTVAL => Number "1" | T_FLOATVAL => Float_number "1.0" | T_CHARVAL => Symbol "!"
  | T_STRINGVAL s => Quoted (str s)
  | T_ID i => Word (str i)
  | T_INT => Word "int" | T_UINT => Word "uint" | T_INT8 => Word "int8" | T_INT16 => Word "int16"
  | T_INT32 => Word "int32" | T_INT64 => Word "int64" | T_UINT8 => Word "uint8" | T_UINT16 => Word "uint16"
  | T_UINT32 => Word "uint32" | T_UINT64 => Word "uint64" | T_BOOL => Word "bool" | T_TRUE => Word "true"
  | T_FALSE => Word "false" | T_ARGS => Word "args" | T_ATTRIBUTES => Word "attributes"
  | T_CHILDREN => Word "children" | T_CONSTRUCTOR => Word "constructor" | T_CYCLE => Word "cycle"
  | T_ENUM => Word "enum" | T_EQUATIONS => Word "equations" | T_INHERITED => Word "inherited"
  | T_MANDATORY => Word "mandatory" | T_NODE => Word "node" | T_NODES => Word "nodes"
  | T_NODESET => Word "nodeset" | T_PASS => Word "pass" | T_PASSES => Word "passes" | T_PHASE => Word "phase"
  | T_PHASES => Word "phases" | T_ACTIONS => Word "actions" | T_PREFIX => Word "prefix" | T_INFO => Word "info"
  | T_FUNC => Word "func" | T_ROOT => Word "root" | T_START => Word "start" | T_SUBPHASES => Word "subphases"
  | T_SYNTHESIZED => Word "synthesized" | T_THIS => Word "this" | T_TO => Word "to"
  | T_TRAVERSAL => Word "traversal" | T_TRAVDATA => Word "travdata" | T_FLOAT => Word "float"
  | T_DOUBLE => Word "double" | T_STRING => Word "string" | T_VALUES => Word "values" | T_NULL => Word "NULL"
  | T_LIFETIME => Word "lifetime" | T_DISALLOWED => Word "disallowed" | T_OPTIONAL => Word "optional"
  | T_ALLOWED => Word "allowed" | T_GATE => Word "gate" | T_ARROW => Arrow | T_UNSAFE => Word "user"
  | T_UID => Word "uid"
  | LPAR => Symbol "(" | RPAR => Symbol ")" | LBRACKET => Symbol "[" | RBRACKET => Symbol "]"
  | LBRACE => Symbol "{" | RBRACE => Symbol "}" | COMMA => Symbol "," | EQUALS => Symbol "="
  | SEMICOLON => Symbol ";" | BANG => Symbol "!" | BAR => Symbol "|" | AMPERSAND => Symbol "&"
  | MINUS => Symbol "-" | DOT => Symbol "."
  end.

(** * Names *)

Definition identifier_ok (i : ident) : Prop := exists c t, i = c :: t /\ is_letter c /\ Forall in_word t.
Definition name_ok (i : ident) : Prop :=
  identifier_ok i /\ ~ is_keyword (str i) /\ ~ is_c_keyword (str i) /\ str i <> "NULL".

(** All names a declaration consists of, apart from the values of enums. *)
Definition opt {A} (o : option A) : list A := match o with None => [] | Some a => [a] end.
Definition range_names (o : option lifetime_range) : list ident :=
  match o with None => [] | Some r => lr_target r end.
Definition lifetime_names (l : ilifetime) : list ident := range_names (lt_begin l) ++ range_names (lt_end l).
Definition child_names (c : child) : list ident :=
  ch_type c :: ch_name c :: flat_map lifetime_names (ch_lifetimes c).
Definition attribute_names (a : attribute) : list ident :=
  opt (at_type_reference a) ++ at_name a :: flat_map lifetime_names (at_lifetimes a).
Definition reference_names (r : attribute_reference) : list ident := opt (ar_inode r) ++ [ar_attribute r].
Definition equation_names (e : equation) : list ident :=
  reference_names (eq_rule e) ++ flat_map reference_names (eq_args e).
Fixpoint set_names (e : set_syntax) : list ident :=
  match e with
  | Names l => l
  | Nodeset i => [i]
  | Operation _ l r => set_names l ++ set_names r
  end.
Definition data_names (d : itravdata) : list ident := opt (td_type_reference d) ++ [td_name d].
Definition traversal_names (t : traversal_syntax) : list ident :=
  ts_name t :: ts_uid t :: flat_map set_names (opt (ts_nodes t)) ++ flat_map data_names (ts_data t).
Definition pass_names (p : pass_syntax) : list ident := pas_name p :: opt (pas_uid p) ++ opt (pas_func p).
Fixpoint action_names (a : action) : list ident :=
  match a with
  | Named i => [i]
  | Traversal t => traversal_names t
  | Pass p => pass_names p
  | Phase h l => hd_name h :: opt (hd_uid h) ++ opt (hd_gate h) ++ flat_map action_names l
  end.
Definition declaration_names (d : declaration) : list ident :=
  match d with
  | Action a => action_names a
  | Node n => nd_name n :: flat_map child_names (nd_children n) ++ flat_map attribute_names (nd_attributes n) ++
              flat_map equation_names (nd_equations n) ++ flat_map lifetime_names (nd_lifetimes n)
  | Nodeset_of n _ e a => n :: set_names e ++ flat_map attribute_names a
  | ParserSpec.Enum e _ => [en_name e; en_prefix e]
  end.

(** Its info strings. *)
Fixpoint action_infos (a : action) : list cstring :=
  match a with
  | Named _ => []
  | Traversal t => opt (ts_info t)
  | Pass p => opt (pas_info p)
  | Phase h l => opt (hd_info h) ++ flat_map action_infos l
  end.
Definition declaration_infos (d : declaration) : list cstring :=
  match d with
  | Action a => action_infos a
  | Node _ => []
  | Nodeset_of _ i _ _ => opt i
  | ParserSpec.Enum _ i => opt i
  end.

(** The values of an enum may be keywords, but not NULL, and not enum and
    later values. *)
Definition values_ok (l : list ident) : Prop :=
  Forall identifier_ok l /\ ~ In (txt "NULL") l /\
  forall a b, l = a ++ b -> In (txt "enum") a -> ~ In (txt "values") b.

Definition names_ok (d : declaration) : Prop :=
  Forall name_ok (declaration_names d) /\ Forall string_body (declaration_infos d) /\
  match d with ParserSpec.Enum e _ => values_ok (en_values e) | _ => True end.

(** * What can be expressed *)

(** A type with a name, or one of the language. *)
Definition type_expressible (t : attribute_type) (r : option ident) : Prop :=
  match t, r with
  | (AT_link_or_enum | AT_user), Some _ => True
  | (AT_int | AT_int8 | AT_int16 | AT_int32 | AT_int64 | AT_uint8 | AT_uint16 | AT_uint32 | AT_uint64
    | AT_bool | AT_float | AT_double | AT_string), None => True
  | _, _ => False
  end.
Definition attribute_expressible (a : attribute) : Prop :=
  type_expressible (at_type a) (at_type_reference a) /\ at_is_propagated a = false.
Definition data_expressible (d : itravdata) : Prop := type_expressible (td_type d) (td_type_reference d).
Fixpoint action_expressible (a : action) : Prop :=
  match a with
  | Named _ | Pass _ => True
  | Traversal t => Forall data_expressible (ts_data t)
  | Phase _ l => fold_right (fun a P => action_expressible a /\ P) True l
  end.
Definition expressible (d : declaration) : Prop :=
  match d with
  | Action a => (forall i, a <> Named i) /\ action_expressible a
  | Node n => Forall attribute_expressible (nd_attributes n)
  | Nodeset_of _ _ _ a => Forall attribute_expressible a
  | ParserSpec.Enum _ _ => True
  end.
