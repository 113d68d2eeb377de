(** Files for C59. *)

From Coq Require Import String.
From Coq Require Import List Ascii NArith Arith Bool Lia.
From Verif Require Import Base.Outcome Palm.StrModel Front.Syntax Front.ScannerModel Front.ScannerInst Front.SetsInst Front.SymbolTableModel
  Front.CheckExistanceModel Front.LifetimesModel Front.LifetimesSpec Front.LifetimesProof
  Gen.CheckModel Gen.CheckSpec Gen.CheckProof Gen.CheckWhole Gen.CheckTrees Gen.CheckInst
  Gen.CompileInst Gen.CompileModel Gen.AccessModel Gen.AccessInst Gen.RunModel Gen.PhasesInst Gen.TablesSpec Gen.TablesModel
  Copra.TravModel Copra.PhaseDriverModel Copra.PhaseDriverSpec Gen.GuardModel Gen.GuardSpec.
Import ListNotations.
Local Open Scope string_scope.
Local Open Scope list_scope.

(** Phases that are written after the start phase, and lifetimes on a node,
    children and attributes.  The actions have the numbers main 1, parse 2, opt
    3, fold 4, inner 5, count 6, print 7, write 8; the nodes num 1 and prog
    2. *)
Definition apart_text : ScannerModel.text := txt "
start phase main { actions { pass parse; opt; pass write; } };
phase opt { uid = OP, actions { pass fold; inner; pass print; } };
phase inner { actions { traversal count { uid = CNT }; } };
root node prog {
    children { expr body { constructor, mandatory [opt -> print] }, expr spare { disallowed (opt.inner -> write] } },
    attributes { string label { disallowed [OP.CNT -> write) }, prog other { mandatory (print -> ) } }
};
node num { attributes { int value { constructor } }, lifetime { disallowed [write -> ) } };
nodeset expr { nodes = { num, prog }, attributes { string origin { mandatory [opt.fold -> print] } } };".

(** The phase opt is written inside the start phase. *)
Definition inside_text : ScannerModel.text := txt "
start phase main { actions { pass parse; phase opt { actions { pass fold; pass print; } }; pass write; } };
root node prog { attributes { string label { disallowed [opt.fold -> write) } } };".

(** Two lifetimes. *)
Definition double_text : ScannerModel.text := txt "
start phase main { actions { pass parse; pass write; } };
root node prog { attributes { string label { mandatory [parse -> parse], disallowed [write -> ) } } };".

(** One action. *)
Definition single_text : ScannerModel.text := txt "
start phase main { actions { pass parse; } };
root node prog { children { num body } };
node num { attributes { int value } };".

Definition apart_ast : ast := Eval vm_compute in tree_of apart_text.
Definition inside_ast : ast := Eval vm_compute in tree_of inside_text.
Definition double_ast : ast := Eval vm_compute in tree_of double_text.
Definition single_ast : ast := Eval vm_compute in tree_of single_text.
Lemma apart_read : CompileInst.tree apart_text = Some apart_ast.
Proof. vm_compute. reflexivity. Qed.
Lemma inside_read : CompileInst.tree inside_text = Some inside_ast.
Proof. vm_compute. reflexivity. Qed.
Lemma double_read : CompileInst.tree double_text = Some double_ast.
Proof. vm_compute. reflexivity. Qed.
Lemma single_read : CompileInst.tree single_text = Some single_ast.
Proof. vm_compute. reflexivity. Qed.

Definition no_analysis : analysis := mk_analysis (PropagateModel.mk_pra [] [] []) [] [] [].
Definition analysis_of (a : ast) : analysis := match analysed a with Val x => x | _ => no_analysis end.
Definition bodies_of (a : ast) : list (list stmt) := match check_code a (analysis_of a) with Val b => b | _ => [] end.
Definition apart_analysis : analysis := Eval vm_compute in analysis_of apart_ast.
Definition inside_analysis : analysis := Eval vm_compute in analysis_of inside_ast.
Definition double_analysis : analysis := Eval vm_compute in analysis_of double_ast.
Definition single_analysis : analysis := Eval vm_compute in analysis_of single_ast.
Lemma apart_analysed : analysed apart_ast = Val apart_analysis.
Proof. vm_compute. reflexivity. Qed.
Lemma inside_analysed : analysed inside_ast = Val inside_analysis.
Proof. vm_compute. reflexivity. Qed.
Lemma double_analysed : analysed double_ast = Val double_analysis.
Proof. vm_compute. reflexivity. Qed.
Lemma single_analysed : analysed single_ast = Val single_analysis.
Proof. vm_compute. reflexivity. Qed.

Definition code_of (a : ast) (x : analysis) : list (list stmt) := match check_code a x with Val b => b | _ => [] end.
Definition apart_code := Eval vm_compute in code_of apart_ast apart_analysis.
Definition inside_code := Eval vm_compute in code_of inside_ast inside_analysis.
Definition double_code := Eval vm_compute in code_of double_ast double_analysis.
Definition single_code := Eval vm_compute in code_of single_ast single_analysis.
Lemma apart_checked : check_code apart_ast apart_analysis = Val apart_code.
Proof. vm_compute. reflexivity. Qed.
Lemma inside_checked : check_code inside_ast inside_analysis = Val inside_code.
Proof. vm_compute. reflexivity. Qed.
Lemma double_checked : check_code double_ast double_analysis = Val double_code.
Proof. vm_compute. reflexivity. Qed.
Lemma single_checked : check_code single_ast single_analysis = Val single_code.
Proof. vm_compute. reflexivity. Qed.

(** The trees of actions. *)
Definition apart_whole : plan := Eval vm_compute in whole_of apart_ast.
Definition inside_whole : plan := Eval vm_compute in whole_of inside_ast.
Definition double_whole : plan := Eval vm_compute in whole_of double_ast.
Definition single_whole : plan := Eval vm_compute in whole_of single_ast.
Lemma apart_compiler : compiler apart_ast apart_whole.
Proof. change (compiler apart_ast (whole_of apart_ast)). compiler_tac. Qed.
Lemma inside_compiler : compiler inside_ast inside_whole.
Proof. change (compiler inside_ast (whole_of inside_ast)). compiler_tac. Qed.
Lemma double_compiler : compiler double_ast double_whole.
Proof. change (compiler double_ast (whole_of double_ast)). compiler_tac. Qed.
Lemma single_compiler : compiler single_ast single_whole.
Proof. change (compiler single_ast (whole_of single_ast)). compiler_tac. Qed.

(** Names. *)
Definition reads_b (id : ident) (s : string) : bool := if list_eq_dec ascii_dec (ID_LWR id) (list_ascii_of_string s) then true else false.
Definition usable_b (a : ast) : bool :=
  forallb (fun id => negb (reads_b id "null"))
    (map nd_name (a_nodes a) ++ map uid_of (a_traversals a) ++ action_names a ++ map ns_name (a_nodesets a)) &&
  forallb (fun t => forallb (fun s => negb (reads_b (tv_name t) s))
    ["ccn_copy"; "ccn_check"; "ccn_free"; "ccn_error"; "ccn_trav"; "ccn_pass"; "trav_data_init"; "trav_data_free"]) (a_traversals a) &&
  forallb (fun p => negb (reads_b (ph_name p) "cleanup")) (a_phases a).
Definition by_name_b (a : ast) : bool :=
  forallb (fun p => forallb (fun id => existsb (fun k => if list_eq_dec ascii_dec (ID_LWR k) (ID_LWR id) then true else false) (action_names a))
    (ph_actions p)) (a_phases a).
Lemma reads_no : forall id s, negb (reads_b id s) = true -> ~ reads id s.
Proof. intros id s H. unfold reads_b, reads in *. destruct (list_eq_dec _ _ _); [discriminate|assumption]. Qed.
Lemma usable_right : forall a, usable_b a = true -> usable_names a.
Proof.
  intros a H. unfold usable_b in H. apply andb_prop in H. destruct H as [H H3]. apply andb_prop in H. destruct H as [H1 H2].
  rewrite forallb_forall in H1, H2, H3. constructor.
  - intros id I. apply reads_no, H1, I.
  - intros t s It Is. specialize (H2 t It). rewrite forallb_forall in H2. apply reads_no, H2, Is.
  - intros p I. apply reads_no, H3, I.
Qed.
Lemma by_name_right : forall a, by_name_b a = true -> actions_by_name a.
Proof.
  intros a H p id Ip Iid. unfold by_name_b in H. rewrite forallb_forall in H. specialize (H p Ip). rewrite forallb_forall in H.
  specialize (H id Iid). apply existsb_exists in H. destruct H as (k & Ik & E). exists k. split; [exact Ik|].
  destruct (list_eq_dec _ _ _); [assumption|discriminate].
Qed.

(** Trees have the slots of their declarations. *)
Fixpoint shaped_b (s : ast) (t : ctree) : bool :=
  match t with
  | Node ty attrs kids =>
      match ty with
      | O => false
      | S i => match nth_error (a_nodes s) i with
               | None => false
               | Some n => Nat.eqb (List.length kids) (List.length (nd_children n)) && Nat.eqb (List.length attrs) (List.length (nd_attributes n))
               end
      end && forallb (fun k => match k with Some k => shaped_b s k | None => true end) kids
  end.
Lemma shaped_right : forall s t, shaped_b s t = true -> shaped s t.
Proof.
  intros s t H ty attrs kids W. revert H. induction W as [|ty' x' kids' k I W IH]; intros H.
  - cbn [shaped_b] in H. apply andb_prop in H. destruct H as [H _]. destruct ty as [|i]; [discriminate|].
    destruct (nth_error (a_nodes s) i) as [n|] eqn:E; [|discriminate]. apply andb_prop in H. destruct H as [H1 H2].
    apply Nat.eqb_eq in H1. apply Nat.eqb_eq in H2. exists n. split; [exists i; split; [reflexivity|exact E]|]. split; assumption.
  - apply IH. cbn [shaped_b] in H. apply andb_prop in H. destruct H as [_ H]. rewrite forallb_forall in H. exact (H _ I).
Qed.

(** User code that replaces the tree in some passes. *)
Definition makes (new : nat -> option ctree) (l : leaf) (i : N) (w : unit) (t : option ctree) : option (unit * option ctree * list signal) :=
  Some (tt, match l with LPass v => match new v with Some t' => Some t' | None => t end | LTraversal _ => t end, []).
Definition no_gate (g : cstring) (i : N) (w : unit) : option (bool * unit * list signal) := Some (true, tt, []).
Lemma makes_right : forall s new, (forall v t, new v = Some t -> shaped s t) -> keeps_shape (fun t => t) s (makes new).
Proof.
  intros s new H. constructor; unfold makes.
  - intros l i w v w' v' xs Sh E. injection E as <- <- <-. intros t Et. destruct l as [n|n]; [exact (Sh t Et)|].
    destruct (new n) as [t'|] eqn:En; [injection Et as <-; exact (H n t' En)|exact (Sh t Et)].
  - intros l i w v w' v' xs E. injection E as _ _ <-. intros C. exact C.
Qed.
Lemma no_gate_check : forall g i w b w' xs, no_gate g i w = Some (b, w', xs) -> ~ In (SSetCheck false) xs.
Proof. intros g i w b w' xs E. injection E as _ _ <-. intros C. exact C. Qed.

Definition run_of (code : list (list stmt)) (act : action leaf cstring) (new : nat -> option ctree) (t : option ctree) :=
  CCNrun (makes new) no_gate (fun i v => check_errors code 9 i v) 9 act (start driver0 tt t).
Definition ran {W T} (r : result leaf cstring W T) : list N :=
  rev (flat_map (fun e => match e with EvRun i _ _ _ => [i] | EvGate _ _ _ => [] end) (run_log r)).

Definition act_of (a : ast) : action leaf cstring :=
  match AST_START_PHASE a with
  | Some st => match load_root (mk_node [] true [] [] [] []) a (S (List.length (a_phases a))) st with Val act => act | _ => ALeaf [] (LPass 0) end
  | None => ALeaf [] (LPass 0)
  end.
