(** A program, and files with functions that are not correct C, for C60. *)

From Coq Require Import String.
From Coq Require Import List Ascii NArith ZArith Bool.
From Verif Require Import Base.Outcome Base.Heap Palm.StrModel Front.Syntax Front.ScannerModel Front.ScannerInst Front.SetsInst
  Sched.FrontendModel Gen.NodesModel Gen.NodesSpec Gen.NodesProof Gen.CompileInst Gen.CompileSpec Gen.AccessInst Gen.LifecycleModel Gen.LifecycleSpec.
Import ListNotations.
Local Open Scope string_scope.
Local Open Scope list_scope.

(** ** A program for the file [access_text] *)
Definition mem (x y : string) : macro_name := (nm x, nm y).
Definition building : program :=
  [ New (nm "num") [] [Number 7];
    New (nm "var") [] [Text (Some (nm "x"))];
    New (nm "add") [Some 0; Some 1] [];
    New (nm "prog") [Some 2] [] ].
(** The copy 4 of the tree 3 is changed, then the variable is taken out of the
    tree 3 and renamed. *)
Definition changing : program :=
  [ Copy 3;
    Assign (4, [mem "Prog" "Body"; mem "add" "left"]) (mem "num" "value") (Number 8);
    Assign (4, [mem "prog" "body"; mem "add" "right"]) (mem "var" "name") (Text (Some (nm "yy")));
    Assign (4, [mem "prog" "body"]) (mem "add" "line") (Number 3);
    Read (3, [mem "prog" "body"; mem "add" "left"]) (mem "num" "value");
    Read (4, [mem "prog" "body"; mem "add" "left"]) (mem "num" "value");
    Read (3, [mem "prog" "body"; mem "add" "right"]) (mem "var" "name");
    Exchange (3, [mem "prog" "body"]) (mem "add" "right") 0;
    Assign (0, []) (mem "var" "name") (Text None);
    Read (0, []) (mem "var" "name");
    Read (4, [mem "prog" "body"; mem "add" "right"]) (mem "var" "name") ].
Definition freeing : program := [Free 3; Free 0; Free 4; Free 1].

(** A node that becomes its own child, and is lost. *)
Definition losing : program :=
  [ New (nm "add") [None; None] []; Exchange (0, []) (mem "add" "left") 0 ].

(** ** Files *)
Definition node_text : ScannerModel.text := txt "
start phase main { actions { pass parse; } };
root node a { children { a Node { constructor } } };".
Definition user_text : ScannerModel.text := txt "
start phase main { actions { pass parse; } };
root node a { attributes { user t Type { constructor } } };".
Definition second_text : ScannerModel.text := txt "
start phase main { actions { pass parse; } };
root node a { attributes { int x, int y { synthesized, constructor } }, equations { this.y = { } } };".
Definition string_text : ScannerModel.text := txt "
start phase main { actions { pass parse; } };
root node a { attributes { string y { synthesized } }, equations { this.y = { } } };".

Definition node_ast : ast := Eval vm_compute in tree_of node_text.
Definition user_ast : ast := Eval vm_compute in tree_of user_text.
Definition second_ast : ast := Eval vm_compute in tree_of second_text.
Definition string_ast : ast := Eval vm_compute in tree_of string_text.
Definition node_passes := Eval vm_compute in passes_of node_ast.
Definition user_passes := Eval vm_compute in passes_of user_ast.
Definition second_passes := Eval vm_compute in passes_of second_ast.
Definition string_passes := Eval vm_compute in passes_of string_ast.
Lemma node_read : tree node_text = Some node_ast.
Proof. vm_compute. reflexivity. Qed.
Lemma user_read : tree user_text = Some user_ast.
Proof. vm_compute. reflexivity. Qed.
Lemma second_read : tree second_text = Some second_ast.
Proof. vm_compute. reflexivity. Qed.
Lemma string_read : tree string_text = Some string_ast.
Proof. vm_compute. reflexivity. Qed.
Lemma node_accepted : before_scheduling node_ast = Val node_passes.
Proof. vm_compute. reflexivity. Qed.
Lemma user_accepted : before_scheduling user_ast = Val user_passes.
Proof. vm_compute. reflexivity. Qed.
Lemma second_accepted : before_scheduling second_ast = Val second_passes.
Proof. vm_compute. reflexivity. Qed.
Lemma string_accepted : before_scheduling string_ast = Val string_passes.
Proof. vm_compute. reflexivity. Qed.

(** ** Conditions that can be computed *)
Definition attributes_in (a : ast) : list attribute := flat_map nd_attributes (a_nodes a) ++ flat_map ns_attributes (a_nodesets a).
Lemma attribute_in : forall a n x, In n (a_nodes a) -> node_attribute a n x -> In x (attributes_in a).
Proof.
  intros a n x I [J|(k & (m & S & Hm & J & _) & _)]; apply in_or_app; [left|right]; apply in_flat_map; [eauto|].
  exists m. split; [eapply nth_error_In, Hm|exact J].
Qed.
Definition usable (a : ast) : bool :=
  forallb (fun n => forallb (fun c => negb (ch_in_constructor c) || negb (name_eqb (ID_LWR (ch_name c)) (nm "node"))) (nd_children n)) (a_nodes a) &&
  forallb (fun x => negb (at_in_constructor x) ||
    (negb (in_grammar x) && match at_type x with AT_user => name_eqb (at_name x) (ID_LWR (at_name x)) | _ => true end)) (attributes_in a).
Definition strings_plain (a : ast) : bool :=
  forallb (fun x => match at_type x with AT_string => negb (in_grammar x) | _ => true end) (attributes_in a).
Lemma usable_right : forall a, usable a = true -> usable_names a.
Proof.
  intros a E. apply andb_true_iff in E. destruct E as [E1 E2]. rewrite forallb_forall in E1, E2. intros n I. split.
  - intros c Ic Cc X. specialize (E1 n I). rewrite forallb_forall in E1. specialize (E1 c Ic). rewrite Cc in E1.
    change (list_ascii_of_string "node") with (nm "node") in X. rewrite X in E1. vm_compute in E1. discriminate.
  - intros x A Cx. specialize (E2 x (attribute_in a n x I A)). rewrite Cx in E2. cbn [negb orb] in E2. apply andb_true_iff in E2.
    destruct E2 as [G T]. split; [destruct (in_grammar x); [discriminate|reflexivity]|]. intros U. rewrite U in T. apply name_eqb_true, T.
Qed.
Lemma strings_right : forall a, strings_plain a = true -> no_computed_strings a.
Proof.
  intros a E n x I A T. unfold strings_plain in E. rewrite forallb_forall in E. specialize (E x (attribute_in a n x I A)). rewrite T in E.
  destruct (in_grammar x); [discriminate|reflexivity].
Qed.
