(** Trees for the theorems about --show-ast (C68). *)

From Coq Require Import String.
From Coq Require Import List Ascii Bool Arith ZArith.
From Verif Require Import Base.Outcome Front.LexerModel Front.ScannerModel Front.ScannerSpec Front.Syntax Front.MessageModel
  Gen.ShowAstModel Gen.ShowAstSpec Gen.ShowAstProof.
Import ListNotations.
Local Open Scope string_scope.
Local Open Scope list_scope.

Definition this (a : string) := mk_final_reference None (Some (txt "Expr")) (txt a).
Definition of_child (c t a : string) := mk_final_reference (Some (txt c)) (Some (txt t)) (txt a).

(** A compiler with everything that is printed, [steps] being its one visit *)
Definition example (cycle : bool) (gate : option ident) (data : list ident) (passes : list string) (child_type : string)
    (lifetime : lifetime_type) (steps : list final_step) (enums : list final_enum) : final_ast :=
  mk_final_ast
    [mk_final_phase (txt "Start") gate cycle [(txt "Parse", 2%Z); (txt "Count", 3%Z)]]
    [mk_final_traversal (txt "Count") 0 (SetLiteral (txt "Expr") LNull (SetLiteral (txt "Num") LNull LNull)) data]
    (map (fun p => mk_final_pass (txt p) None) passes)
    [mk_final_node (txt "Expr") 0 [mk_final_child (txt "left") (txt child_type) false]
       [mk_final_attribute (txt "size") AT_int [ "x"%char ] true true false [mk_final_lifetime lifetime (Some 2%Z) None];
        mk_final_attribute (txt "name") AT_user (txt "symbol") false false true []]
       [mk_final_equation (this "size") [of_child "left" "Num" "size"; this "name"]]
       [mk_final_visit (txt "Expr") 1 [this "name"] [this "size"] steps]]
    [mk_final_nodeset (txt "Any") false (SetLiteral (txt "Expr") (SetLiteral (txt "Child") LNull LNull) LNull) [txt "Any"] []]
    enums
    [(txt "Expr", 4%Z)]
    (Some [[1%Z; 0%Z]]).
Definition visit_left : list final_step := [Step (txt "left") (txt "Num") 1 [Visit (txt "left") (txt "Expr") 1; Dummy (txt "Child")]].
Definition printed : final_ast := example false None [] ["Parse"] "Num" LT_disallowed visit_left [].
Definition shown_lines : list string :=
  ["Phase Start {"; "    Actions {"; "        Parse: 2"; "        Count: 3"; "    }"; "}";
   "Trav Count {"; "    Traversal index: 0"; "    nodes {"; "        Expr"; "        Num"; "    }"; "}";
   "Pass: Parse";
   "NODE: Expr(0) {"; "    Children {"; "        left"; "    }"; "    Attributes {";
   "        int size {constructor, synthesized, lifetimes {"; "            disallowed(2 -> )"; "        }}";
   "        symbol name {inherited}"; "    }"; "    Equations {"; "        <this>.size = {";
   "            args = {left<Num>.size, <this>.name}"; "        }"; "    }"; "}";
   "Visits {"; "    expr_1 (in: {<this>.name} out: {<this>.size}) {"; "        visit left num_1 or"; "            visit left expr_1 or";
   "                <dummy visit for Child>"; "}"; "}";
   "nodeset Any {"; "    Expr"; "    Child"; "    Child nodesets {"; "        Any"; "    }"; "    Attributes {"; "    }"; "}";
   "STE: Expr, 4"; "Reachability table:"; "0: 1, 0, "].
Lemma printed_lines : PRTast true true printed = Val (flat_map (fun l => txt l ++ [newline]) shown_lines).
Proof. vm_compute. reflexivity. Qed.

Lemma word_string : forall s, forallb wordb (txt s) = true -> txt s <> [] -> word (txt s).
Proof. intros s H N. split; [exact N|now apply b_word]. Qed.
Lemma printed_words : ast_words printed.
Proof.
  assert (X : word [ "x"%char ]) by (apply (word_string "x"); [reflexivity|discriminate]).
  unfold ast_words, phase_words, traversal_words, node_words, nodeset_words, attribute_words, equation_words, visit_words, reference_words.
  cbn [printed example z_phases z_traversals z_passes z_nodes z_nodesets z_table map members visit_left this of_child
       fp_name fp_actions ft_name ft_nodes fs_name fn_name fn_children fn_attributes fn_equations fn_visits fc_name fa_name fa_reference
       fe_rule fe_args fv_node fv_inputs fv_outputs fv_sequence fr_inode fr_type fr_attribute fz_name fz_expr fz_table fz_attributes].
  repeat match goal with
  | |- _ /\ _ => split
  | |- Forall _ (_ ++ _) => cbn [app]
  | |- Forall _ visit_left => unfold visit_left
  | |- Forall _ [] => constructor
  | |- Forall _ (_ :: _) => constructor
  | |- word [ "x"%char ] => exact X
  | |- ~ In _ type_words => intros Y; vm_compute in Y; repeat (destruct Y as [Y|Y]; [discriminate Y|]); exact Y
  | |- word (txt ?s) => apply word_string; [reflexivity|discriminate]
  | |- True => exact I
  | |- _ => progress cbn [fst fs_name fc_name fa_name fa_reference optional_word step_words alternative_words fr_inode fr_type fr_attribute
                          fe_rule fe_args fv_node fv_inputs fv_outputs fv_sequence fp_name fp_actions ft_name ft_nodes members app
                          fn_name fn_children fn_attributes fn_equations fn_visits fz_name fz_expr fz_table fz_attributes
                          this of_child visit_left]
  end.
Qed.

(** Pairs of different trees *)
Definition hidden : list (final_ast * final_ast) :=
  [ (printed, example false None [] ["Parse"; "Check"] "Num" LT_disallowed visit_left []);
    (printed, example true None [] ["Parse"] "Num" LT_disallowed visit_left []);
    (printed, example false (Some (txt "enabled")) [] ["Parse"] "Num" LT_disallowed visit_left []);
    (printed, example false None [txt "count"] ["Parse"] "Num" LT_disallowed visit_left []);
    (printed, example false None [] ["Parse"] "Expr" LT_disallowed visit_left []);
    (printed, example false None [] ["Parse"] "Num" LT_allowed visit_left []);
    (printed, example false None [] ["Parse"] "Num" LT_disallowed visit_left [mk_final_enum (txt "Color") [txt "red"]]) ].
Definition computes (a : string) : final_ast := example false None [] ["Parse"] "Num" LT_disallowed (Eval (this a) :: visit_left) [].
