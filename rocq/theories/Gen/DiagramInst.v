(** Files for C63. *)

From Coq Require Import String.
From Coq Require Import List Ascii NArith Bool.
From Verif Require Import Base.Outcome Palm.StrModel Palm.StrProof Front.Syntax Front.ScannerModel Front.ScannerInst Front.SetsInst
  Front.PropagateModel Sched.FrontendModel Gen.CompileInst Gen.AccessModel Gen.AccessInst Front.PropagateSpec Gen.NodesModel Gen.NodesProof Gen.DiagramModel Gen.DiagramSpec.
Import Front.ScannerInst.
Import ListNotations.
Local Open Scope string_scope.
Local Open Scope list_scope.

(** The attribute decl of the nodeset is a link of both members. *)
Definition diagram_text : ScannerModel.text := txt "
start phase main { actions { pass p; } };
node num { attributes { int value } };
node var { attributes { string name, prog scope } };
node add { children { expr left, expr right } };
root node prog { children { expr body, prog next } };
nodeset leaf { nodes = { num, var }, attributes { expr decl } };
nodeset expr { nodes = leaf | { add } };".
(** A node is called like a keyword of DOT. *)
Definition keyword_text : ScannerModel.text := txt "
start phase main { actions { pass p; } };
root node net { children { Edge first } };
node Edge { children { Edge next } };".
(** Its name is written in two ways. *)
Definition spelling_text : ScannerModel.text := txt "
start phase main { actions { pass p; } };
root node top { children { Leaf first } };
node leaf { };".

Definition diagram_ast : ast := Eval vm_compute in tree_of diagram_text.
Definition keyword_ast : ast := Eval vm_compute in tree_of keyword_text.
Definition spelling_ast : ast := Eval vm_compute in tree_of spelling_text.
Definition diagram_passes := Eval vm_compute in passes_of diagram_ast.
Definition keyword_passes := Eval vm_compute in passes_of keyword_ast.
Definition spelling_passes := Eval vm_compute in passes_of spelling_ast.
Lemma diagram_read : tree diagram_text = Some diagram_ast.
Proof. vm_compute. reflexivity. Qed.
Lemma keyword_read : tree keyword_text = Some keyword_ast.
Proof. vm_compute. reflexivity. Qed.
Lemma spelling_read : tree spelling_text = Some spelling_ast.
Proof. vm_compute. reflexivity. Qed.
Lemma diagram_accepted : before_scheduling diagram_ast = Val diagram_passes.
Proof. vm_compute. reflexivity. Qed.
Lemma keyword_accepted : before_scheduling keyword_ast = Val keyword_passes.
Proof. vm_compute. reflexivity. Qed.
Lemma spelling_accepted : before_scheduling spelling_ast = Val spelling_passes.
Proof. vm_compute. reflexivity. Qed.
Definition diagram_of (a : ast) (r : pra * list Syntax.literal) : cstring :=
  match GDast (final_of a r) with Val t => t | _ => [] end.
Definition keyword_tokens : list token := Eval vm_compute in
  match tokens Between (diagram_of keyword_ast keyword_passes) with Some l => l | None => [] end.

(** Names written as they are declared, decided. *)
Definition references_of (a : ast) : list ident :=
  flat_map (fun n => map ch_type (nd_children n) ++ flat_map (fun x => match at_type_reference x with Some r => [r] | None => [] end) (nd_attributes n)) (a_nodes a) ++
  flat_map (fun m => flat_map (fun x => match at_type_reference x with Some r => [r] | None => [] end) (ns_attributes m) ++ written_in (ns_expr m)) (a_nodesets a).
Definition spelled (a : ast) : bool :=
  forallb (fun x => forallb (fun y => implb (strcmp_eq (ID_LWR x) (ID_LWR y)) (strcmp_eq y x)) (references_of a))
    (map nd_name (a_nodes a) ++ map ns_name (a_nodesets a)).
Lemma spelled_right : forall a, spelled a = true -> spelled_alike a.
Proof.
  intros a H x y Ix E Q. unfold spelled in H. rewrite forallb_forall in H. specialize (H x Ix). rewrite forallb_forall in H.
  assert (Iy : In y (references_of a)).
  { unfold references_of. rewrite in_app_iff, !in_flat_map. destruct Q as [(n & c & I & Ic & ->)|[(n & x' & I & I' & R)|[(m & x' & I & I' & R)|(m & I & I')]]].
    - left. exists n. split; [exact I|]. apply in_app_iff. left. apply in_map, Ic.
    - left. exists n. split; [exact I|]. apply in_app_iff. right. apply in_flat_map. exists x'. split; [exact I'|]. rewrite R. left. reflexivity.
    - right. exists m. split; [exact I|]. apply in_app_iff. left. apply in_flat_map. exists x'. split; [exact I'|]. rewrite R. left. reflexivity.
    - right. exists m. split; [exact I|]. apply in_app_iff. right. exact I'. }
  specialize (H y Iy). unfold PropagateSpec.same_id in E. rewrite E in H. rewrite (proj2 (StrProof.strcmp_eq_iff _ _) eq_refl) in H. cbn [implb] in H.
  apply StrProof.strcmp_eq_iff in H. exact H.
Qed.
