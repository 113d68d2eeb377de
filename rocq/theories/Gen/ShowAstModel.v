(** Model of cocogen/print/print.c: what the option --show-ast prints at the
    end of a run (the last action of main.ccn:5-17).

    The printed tree is the one cocogen has at that moment.  Its types below
    have the members that the functions of print.c look at, and those that a
    user can write in a specification and that print.c does not look at
    (is_cycle, gate_func, type_reference of a child, travdata, passes, enums).
    Simplifications: set expressions are literals then (unwrapSetExpr replaced
    all others, C26; the lifetimes of main.ccn:802-830 say so), so PRTsetreference
    and PRTsetoperation are not modelled; the type_reference of an attribute is
    present if its type is user, link or link_or_enum; the static variable
    [indent] is a parameter [k], since every function adds to it what it takes
    away; what was printed before an abort is not modelled.  [doOpts] belongs
    to no action that is run. *)

From Coq Require Import String.
From Coq Require Import List Ascii Bool Arith ZArith.
From Verif Require Import Base.Outcome Front.LexerModel Front.ScannerModel Front.Syntax Front.MessageModel.
Import ListNotations.
Local Open Scope string_scope.
Local Open Scope list_scope.

(** * The tree at the end of a run *)

(** main.ccn:628-651 *)
Record final_phase := mk_final_phase {
  fp_name : ident;
  fp_gate : option ident;
  fp_cycle : bool;
  fp_actions : list (ident * Z) }.
(** main.ccn:653-665, 833-844; [ft_nodes] is NULL for all nodes *)
Record final_traversal := mk_final_traversal {
  ft_name : ident;
  ft_index : Z;
  ft_nodes : literal;
  ft_data : list ident }.
(** main.ccn:667-677 *)
Record final_pass := mk_final_pass { fs_name : ident; fs_func : option ident }.
(** main.ccn:723-752: the numbers are the action_id of begin and end *)
Record final_lifetime := mk_final_lifetime {
  fl_type : lifetime_type;
  fl_begin : option Z;
  fl_end : option Z }.
(** main.ccn:846-860 *)
Record final_attribute := mk_final_attribute {
  fa_name : ident;
  fa_type : attribute_type;
  fa_reference : ident;
  fa_constructor : bool;
  fa_synthesized : bool;
  fa_inherited : bool;
  fa_lifetimes : list final_lifetime }.
(** main.ccn:878-889 *)
Record final_reference := mk_final_reference {
  fr_inode : option ident;
  fr_type : option ident;
  fr_attribute : ident }.
(** main.ccn:863-876 *)
Record final_equation := mk_final_equation {
  fe_rule : final_reference;
  fe_args : list final_reference }.
(** main.ccn:924-942: an alternative, the visit of a child or nothing *)
Inductive final_alternative :=
| Visit (child node : ident) (index : nat)
| Dummy (node : ident).
(** main.ccn:913-933: the first alternative of a visit is a visit *)
Inductive final_step :=
| Eval (r : final_reference)
| Step (child node : ident) (index : nat) (alternatives : list final_alternative).
(** main.ccn:900-911 *)
Record final_visit := mk_final_visit {
  fv_node : ident;
  fv_index : nat;
  fv_inputs : list final_reference;
  fv_outputs : list final_reference;
  fv_sequence : list final_step }.
(** main.ccn:761-774 *)
Record final_child := mk_final_child {
  fc_name : ident;
  fc_type : ident;
  fc_mandatory : bool }.
(** main.ccn:679-695 *)
Record final_node := mk_final_node {
  fn_name : ident;
  fn_index : Z;
  fn_children : list final_child;
  fn_attributes : list final_attribute;
  fn_equations : list final_equation;
  fn_visits : list final_visit }.
(** main.ccn:697-721 *)
Record final_nodeset := mk_final_nodeset {
  fz_name : ident;
  fz_illegal : bool;
  fz_expr : literal;
  fz_table : list ident;
  fz_attributes : list final_attribute }.
(** main.ccn:944-955 *)
Record final_enum := mk_final_enum { fx_name : ident; fx_values : list ident }.
(** main.ccn:606-623 and the global variable [reachability_matrix] *)
Record final_ast := mk_final_ast {
  z_phases : list final_phase;
  z_traversals : list final_traversal;
  z_passes : list final_pass;
  z_nodes : list final_node;
  z_nodesets : list final_nodeset;
  z_enums : list final_enum;
  z_table : list (ident * Z);      (* the key, and the number of the type of the value *)
  z_reach : option (list (list Z)) }.

(** * Printing *)

Definition nl : text := [newline].
(** print.c:18-23 [PrintIndent] *)
Definition PrintIndent (k : nat) : text := repeat " "%char k.
(** Printing one element after the other ([TRAVnext]) *)
Definition each {A} (p : A -> text) (l : list A) : text := flat_map p l.

(** print.c:105-111 *)
Definition PRTiactions (k : nat) (x : ident * Z) : text := PrintIndent k ++ fst x ++ txt ": " ++ percent_d (snd x) ++ nl.
(** print.c:55-70 *)
Definition PRTiphase (p : final_phase) : text :=
  txt "Phase " ++ fp_name p ++ txt " {" ++ nl ++
  PrintIndent 4 ++ txt "Actions {" ++ nl ++ each (PRTiactions 8) (fp_actions p) ++ PrintIndent 4 ++ txt "}" ++ nl ++
  txt "}" ++ nl.
(** print.c:313-322 *)
Fixpoint PRTsetliteral (k : nat) (l : literal) : text :=
  match l with
  | LNull => []
  | SetLiteral r x y => PrintIndent k ++ r ++ nl ++ PRTsetliteral k x ++ PRTsetliteral k y
  end.
(** print.c:72-89 *)
Definition PRTitraversal (t : final_traversal) : text :=
  txt "Trav " ++ ft_name t ++ txt " {" ++ nl ++
  PrintIndent 4 ++ txt "Traversal index: " ++ percent_d (ft_index t) ++ nl ++
  PrintIndent 4 ++ txt "nodes {" ++ nl ++ PRTsetliteral 8 (ft_nodes t) ++ PrintIndent 4 ++ txt "}" ++ nl ++
  txt "}" ++ nl.
(** print.c:98-102: the next pass is not printed *)
Definition PRTipass (l : list final_pass) : text :=
  match l with [] => [] | p :: _ => txt "Pass: " ++ fs_name p ++ nl end.
(** print.c:396-401 *)
Definition PRTid (k : nat) (i : ident) : text := PrintIndent k ++ i ++ nl.
(** print.c:153-158 *)
Definition PRTchild (k : nat) (c : final_child) : text := PRTid k (fc_name c).
(** print.c:160-214 *)
Definition print_attribute_type (t : attribute_type) (reference : ident) : text :=
  match t with
  | AT_user | AT_link | AT_link_or_enum => reference
  | AT_int => txt "int" | AT_string => txt "string" | AT_bool => txt "bool" | AT_int8 => txt "int8" | AT_int16 => txt "int16"
  | AT_int32 => txt "int32" | AT_int64 => txt "int64" | AT_float => txt "float" | AT_double => txt "double"
  | AT_uint => txt "uint" | AT_uint8 => txt "uint8" | AT_uint16 => txt "uint16" | AT_uint32 => txt "uint32"
  | AT_uint64 => txt "uint64"
  end.
(** print.c:433-437 *)
Definition PRTlifetime_range (o : option Z) : text := match o with None => [] | Some z => percent_d z end.
(** print.c:415-431 *)
Definition PRTilifetime (k : nat) (l : final_lifetime) : text :=
  PrintIndent k ++ (match fl_type l with LT_mandatory => txt "mandatory" | _ => txt "disallowed" end) ++ txt "(" ++
  PRTlifetime_range (fl_begin l) ++ txt " -> " ++ PRTlifetime_range (fl_end l) ++ txt ")" ++ nl.
(** print.c:216-254 *)
Definition PRTattribute (k : nat) (a : final_attribute) : text :=
  let comma (prev : bool) := if prev then txt ", " else [] in
  let prev1 := fa_constructor a in
  let prev2 := prev1 || fa_synthesized a in
  let prev3 := prev2 || fa_inherited a in
  PrintIndent k ++ print_attribute_type (fa_type a) (fa_reference a) ++ txt " " ++ fa_name a ++ txt " {" ++
  (if fa_constructor a then txt "constructor" else []) ++
  (if fa_synthesized a then comma prev1 ++ txt "synthesized" else []) ++
  (if fa_inherited a then comma prev2 ++ txt "inherited" else []) ++
  (match fa_lifetimes a with
   | [] => []
   | ls => comma prev3 ++ txt "lifetimes {" ++ nl ++ each (PRTilifetime (k + 4)) ls ++ PrintIndent k ++ txt "}"
   end) ++ txt "}" ++ nl.
(** print.c:292-304 *)
Definition PRTattribute_reference (r : final_reference) : text :=
  (match fr_inode r with
   | None => txt "<this>"
   | Some i => i ++ match fr_type r with None => [] | Some t => txt "<" ++ t ++ txt ">" end
   end) ++ txt "." ++ fr_attribute r.
(** print.c:279-287 [PRTequation_dependency], 442-452 [PRTvisit_arg_list] *)
Fixpoint PRTreferences (l : list final_reference) : text :=
  match l with
  | [] => []
  | [r] => PRTattribute_reference r
  | r :: l' => PRTattribute_reference r ++ txt ", " ++ PRTreferences l'
  end.
(** print.c:259-274 *)
Definition PRTequation (k : nat) (e : final_equation) : text :=
  PrintIndent k ++ PRTattribute_reference (fe_rule e) ++ txt " = {" ++ nl ++
  PrintIndent (k + 4) ++ txt "args = {" ++ PRTreferences (fe_args e) ++ txt "}" ++ nl ++
  PrintIndent k ++ txt "}" ++ nl.

(** The name and number of a visit, print.c:460 and 513: "%s_%lu" *)
Definition visit_label (node : ident) (index : nat) : text := ID_LWR node ++ txt "_" ++ digits_of index.
(** print.c:490-503 [PRTvisit_sequence_dummy], 508-528 [PRTvisit_sequence_visit]: the
    part before the alternatives *)
Definition alternative (x : final_alternative) : text :=
  match x with
  | Visit c n i => txt "visit " ++ ID_LWR c ++ txt " " ++ visit_label n i
  | Dummy n => txt "<dummy visit for " ++ n ++ txt ">"
  end.
(** The alternatives of one that is printed already *)
Fixpoint PRTalternatives (k : nat) (l : list final_alternative) : text :=
  match l with
  | [] => nl
  | x :: l' => txt " or" ++ nl ++ PrintIndent k ++ alternative x ++ PRTalternatives (k + 4) l'
  end.

Section Build.
  (** Whether cocogen is built without NDEBUG (palm/include/palm/dbug.h:13) *)
  Variable debug : bool.

  (** Elements that are printed one after the other, one of which may abort *)
  Fixpoint each_or_abort {A} (p : A -> outcome text) (l : list A) : outcome text :=
    match l with
    | [] => Val []
    | x :: l' => bind (p x) (fun s => bind (each_or_abort p l') (fun t => Val (s ++ t)))
    end.

  (** ccngen/trav.c:299-311 [TRAVattribute] of a visit_sequence_eval: its
      attribute is no child (main.ccn:913-920), so nothing is printed, and
      DBUG_ASSERT aborts (palm/src/dbug.c:10-25) unless it is compiled out. *)
  Definition TRAVattribute_of_eval (r : final_reference) : outcome text := if debug then Aborted else Val [].

  (** print.c:477-485 [PRTvisit_sequence_eval], 508-528 *)
  Definition PRTvisit_sequence (k : nat) (s : final_step) : outcome text :=
    match s with
    | Eval r => bind (TRAVattribute_of_eval r) (fun t => Val (PrintIndent k ++ txt "eval " ++ t ++ nl))
    | Step c n i l => Val (PrintIndent k ++ alternative (Visit c n i) ++ PRTalternatives (k + 4) l)
    end.
  (** print.c:457-472: the closing brace is not indented *)
  Definition PRTvisit (k : nat) (v : final_visit) : outcome text :=
    bind (each_or_abort (PRTvisit_sequence (k + 4)) (fv_sequence v)) (fun s =>
    Val (PrintIndent k ++ visit_label (fv_node v) (fv_index v) ++ txt " (in: {" ++ PRTreferences (fv_inputs v) ++
         txt "} out: {" ++ PRTreferences (fv_outputs v) ++ txt "}) {" ++ nl ++ s ++ txt "}" ++ nl)).
  (** print.c:114-151 *)
  Definition PRTinode (n : final_node) : outcome text :=
    bind (each_or_abort (PRTvisit 4) (fn_visits n)) (fun v =>
    Val (txt "NODE: " ++ fn_name n ++ txt "(" ++ percent_d (fn_index n) ++ txt ") {" ++ nl ++
         PrintIndent 4 ++ txt "Children {" ++ nl ++ each (PRTchild 8) (fn_children n) ++ PrintIndent 4 ++ txt "}" ++ nl ++
         PrintIndent 4 ++ txt "Attributes {" ++ nl ++ each (PRTattribute 8) (fn_attributes n) ++ PrintIndent 4 ++ txt "}" ++ nl ++
         PrintIndent 4 ++ txt "Equations {" ++ nl ++ each (PRTequation 8) (fn_equations n) ++ PrintIndent 4 ++ txt "}" ++ nl ++
         txt "}" ++ nl ++ txt "Visits {" ++ nl ++ v ++ txt "}" ++ nl)).
  (** print.c:355-387, 389-394 with [PRTnodeset_child_entry] *)
  Definition PRTinodeset (s : final_nodeset) : text :=
    txt "nodeset " ++ fz_name s ++ txt " " ++ (if fz_illegal s then txt "(illegal attr setexpr) " else []) ++ txt "{" ++ nl ++
    PRTsetliteral 4 (fz_expr s) ++
    PrintIndent 4 ++ txt "Child nodesets {" ++ nl ++ each (PRTid 8) (fz_table s) ++ PrintIndent 4 ++ txt "}" ++ nl ++
    PrintIndent 4 ++ txt "Attributes {" ++ nl ++ each (PRTattribute 8) (fz_attributes s) ++ PrintIndent 4 ++ txt "}" ++ nl ++
    txt "}" ++ nl.
  (** print.c:403-406: enums are not printed *)
  Definition PRTienum (l : list final_enum) : text := [].
  (** print.c:408-413 *)
  Definition PRTste (x : ident * Z) : text := txt "STE: " ++ fst x ++ txt ", " ++ percent_d (snd x) ++ nl.
  (** print.c:42-51 *)
  Definition print_row (i : nat) (row : list Z) : text :=
    percent_d (Z.of_nat i) ++ txt ": " ++ each (fun z => percent_d z ++ txt ", ") row ++ nl.
  Fixpoint print_rows (i : nat) (rows : list (list Z)) : text :=
    match rows with [] => [] | row :: rows' => print_row i row ++ print_rows (S i) rows' end.
  (** print.c:35-53; [TRAVchildren] goes through the children in the order of
      main.ccn:607-615 *)
  Definition PRTast (show_ast : bool) (a : final_ast) : outcome text :=
    if show_ast then
      bind (each_or_abort PRTinode (z_nodes a)) (fun nodes =>
      Val (each PRTiphase (z_phases a) ++ each PRTitraversal (z_traversals a) ++ PRTipass (z_passes a) ++ nodes ++
           each PRTinodeset (z_nodesets a) ++ PRTienum (z_enums a) ++ each PRTste (z_table a) ++
           match z_reach a with None => [] | Some rows => txt "Reachability table:" ++ nl ++ print_rows 0 rows end))
    else Val [].
End Build.
