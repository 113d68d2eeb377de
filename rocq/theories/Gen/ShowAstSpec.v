(** What a reader of the output of --show-ast is to learn from it (C68). *)

From Coq Require Import String.
From Coq Require Import List Ascii Bool ZArith.
From Verif Require Import Front.ScannerModel Front.ScannerSpec Front.Syntax Gen.ShowAstModel.
Import ListNotations.
Local Open Scope list_scope.

(** * The names of a specification are words *)

Definition word (i : ident) : Prop := i <> [] /\ Forall in_word i.
Definition optional_word (o : option ident) : Prop := match o with None => True | Some i => word i end.
Fixpoint members (l : literal) : list ident :=
  match l with LNull => [] | SetLiteral r x y => r :: members x ++ members y end.

Definition phase_words (p : final_phase) : Prop := word (fp_name p) /\ Forall (fun x => word (fst x)) (fp_actions p).
Definition traversal_words (t : final_traversal) : Prop := word (ft_name t) /\ Forall word (members (ft_nodes t)).
(** The words for types, which no type of the user can be called *)
Definition type_words : list ident :=
  map txt ["int"; "string"; "bool"; "int8"; "int16"; "int32"; "int64"; "float"; "double"; "uint"; "uint8"; "uint16"; "uint32"; "uint64"]%string.
Definition attribute_words (a : final_attribute) : Prop :=
  word (fa_name a) /\ word (fa_reference a) /\ ~ In (fa_reference a) type_words.
Definition reference_words (r : final_reference) : Prop :=
  optional_word (fr_inode r) /\ optional_word (fr_type r) /\ word (fr_attribute r).
Definition equation_words (e : final_equation) : Prop := reference_words (fe_rule e) /\ Forall reference_words (fe_args e).
Definition alternative_words (x : final_alternative) : Prop :=
  match x with Visit c n _ => word c /\ word n | Dummy n => word n end.
Definition step_words (s : final_step) : Prop :=
  match s with Eval _ => True | Step c n _ l => word c /\ word n /\ Forall alternative_words l end.
Definition visit_words (v : final_visit) : Prop :=
  word (fv_node v) /\ Forall reference_words (fv_inputs v) /\ Forall reference_words (fv_outputs v) /\
  Forall step_words (fv_sequence v).
Definition node_words (n : final_node) : Prop :=
  word (fn_name n) /\ Forall (fun c => word (fc_name c)) (fn_children n) /\ Forall attribute_words (fn_attributes n) /\
  Forall equation_words (fn_equations n) /\ Forall visit_words (fn_visits n).
Definition nodeset_words (s : final_nodeset) : Prop :=
  word (fz_name s) /\ Forall word (members (fz_expr s)) /\ Forall word (fz_table s) /\ Forall attribute_words (fz_attributes s).
Definition ast_words (a : final_ast) : Prop :=
  Forall phase_words (z_phases a) /\ Forall traversal_words (z_traversals a) /\ Forall (fun p => word (fs_name p)) (z_passes a) /\
  Forall node_words (z_nodes a) /\ Forall nodeset_words (z_nodesets a) /\ Forall (fun x => word (fst x)) (z_table a).

(** * What is shown of a tree *)

Definition shown_phase (p : final_phase) := (fp_name p, fp_actions p).
Definition shown_traversal (t : final_traversal) := (ft_name t, ft_index t, members (ft_nodes t)).
(** Of a lifetime: whether it is mandatory, and its range of actions. *)
Definition shown_lifetime (l : final_lifetime) :=
  (match fl_type l with LT_mandatory => true | _ => false end, fl_begin l, fl_end l).
(** Of the type of an attribute: the name of a type of the user, be it a
    node, an enum or a type of C, or else which of the other types it is. *)
Definition shown_type (t : attribute_type) (reference : ident) : ident + attribute_type :=
  match t with AT_user | AT_link | AT_link_or_enum => inl reference | _ => inr t end.
Definition shown_attribute (a : final_attribute) :=
  (shown_type (fa_type a) (fa_reference a), fa_name a,
   (fa_constructor a, fa_synthesized a, fa_inherited a), map shown_lifetime (fa_lifetimes a)).
(** The type matters only if the attribute is one of a child. *)
Definition shown_reference (r : final_reference) :=
  (match fr_inode r with None => None | Some i => Some (i, fr_type r) end, fr_attribute r).
Definition shown_equation (e : final_equation) := (shown_reference (fe_rule e), map shown_reference (fe_args e)).
Definition shown_alternative (x : final_alternative) :=
  match x with Visit c n i => inl (ID_LWR c, ID_LWR n, i) | Dummy n => inr n end.
(** Of an evaluation: that there is one. *)
Definition shown_step (s : final_step) :=
  match s with Eval _ => None | Step c n i l => Some (ID_LWR c, ID_LWR n, i, map shown_alternative l) end.
Definition shown_visit (v : final_visit) :=
  (ID_LWR (fv_node v), fv_index v, map shown_reference (fv_inputs v), map shown_reference (fv_outputs v),
   map shown_step (fv_sequence v)).
Definition shown_node (n : final_node) :=
  (fn_name n, fn_index n, map fc_name (fn_children n), map shown_attribute (fn_attributes n),
   map shown_equation (fn_equations n), map shown_visit (fn_visits n)).
Definition shown_nodeset (s : final_nodeset) :=
  (fz_name s, fz_illegal s, members (fz_expr s), fz_table s, map shown_attribute (fz_attributes s)).

(** Two trees in which a reader of the output can see no difference *)
Record alike (a b : final_ast) : Prop := {
  alike_phases : map shown_phase (z_phases a) = map shown_phase (z_phases b);
  alike_traversals : map shown_traversal (z_traversals a) = map shown_traversal (z_traversals b);
  alike_first_pass : option_map fs_name (hd_error (z_passes a)) = option_map fs_name (hd_error (z_passes b));
  alike_nodes : map shown_node (z_nodes a) = map shown_node (z_nodes b);
  alike_nodesets : map shown_nodeset (z_nodesets a) = map shown_nodeset (z_nodesets b);
  alike_names : z_table a = z_table b;
  alike_reach : z_reach a = z_reach b
}.

(** An attribute is computed in some visit. *)
Definition evaluates (a : final_ast) : Prop :=
  exists n v r, In n (z_nodes a) /\ In v (fn_visits n) /\ In (Eval r) (fv_sequence v).
