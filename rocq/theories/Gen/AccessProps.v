(** C51: the accessors <NODE>_<MEMBER> and <NODESET>_<ATTRIBUTE>. *)

From Coq Require Import String.
From Coq Require Import List Ascii NArith ZArith Bool Lia.
From Verif Require Import Base.Outcome Base.Heap Palm.StrModel Front.Syntax Front.SetsModel Front.SetsSpec Front.SetsInst Front.ExampleInst
  Front.SymbolTableSpec Front.PropagateModel Front.PropagateSpec Front.ParserModel Front.FileModel Sched.FrontendModel
  Gen.NodesModel Gen.NodesSpec Gen.NodesProof Gen.TravChildSpec Gen.CompileModel Gen.CompileSpec Gen.CompileParsed Gen.CompileInst Gen.CompileProps
  Gen.AccessModel Gen.AccessSpec Gen.AccessMembers Gen.AccessProof Gen.AccessWhole Gen.AccessTree Gen.AccessInst.
Import Gen.TravChildSpec Front.SetsSpec.
Import ListNotations.
Local Open Scope string_scope.
Local Open Scope list_scope.

(** The full property has no condition on names: for every file that the
    passes accept the accessors are correct C and do what they should.  That
    is false, see [C51_names_refuted] and [C51_macros_refuted].  The theorems
    assume that no two accessors, and no two functions behind them, have the
    same name. *)

(** The accessor of a child gives the child of the node, and assigning to it
    changes the child and nothing else. *)
Theorem C51_child_partial : forall t p s lits debug debug_ast n c h q d v, reads_file t p ->
  before_scheduling (ast_of p) = Val (s, lits) ->
  distinct_accessors (finished (ast_of p) s lits) -> distinct_functions (finished (ast_of p) s lits) ->
  In n (a_nodes (ast_of p)) -> In c (nd_children n) -> child_is h n q d (ch_name c) v ->
  (v <> Raw -> get (finished (ast_of p) s lits) debug debug_ast (accessor (nd_name n) (ch_name c)) q h = Val v) /\
  forall w, exists h', set (finished (ast_of p) s lits) debug debug_ast (accessor (nd_name n) (ch_name c)) q w h = Val h' /\
    only_slot h h' d (ID_LWR (ch_name c)) w.
Proof.
  intros t p s lits debug debug_ast n c h q d v F B DA DF. destruct (tree_in_range t p F) as (P & U & _).
  exact (child_access _ P U s lits B DA DF debug debug_ast n c h q d v).
Qed.
Print Assumptions C51_child_partial.

(** The accessor of an attribute that is not inherited or synthesized: for a
    node type, and for the members of a nodeset. *)
Theorem C51_attribute_partial : forall t p s lits debug debug_ast id x n h q d v, reads_file t p ->
  before_scheduling (ast_of p) = Val (s, lits) ->
  distinct_accessors (finished (ast_of p) s lits) -> distinct_functions (finished (ast_of p) s lits) ->
  meant_for (ast_of p) id x n -> classic x -> attribute_is h n q d (at_name x) (Classic v) ->
  (v <> Raw -> get (finished (ast_of p) s lits) debug debug_ast (accessor id (at_name x)) q h = Val v) /\
  forall w, exists h', set (finished (ast_of p) s lits) debug debug_ast (accessor id (at_name x)) q w h = Val h' /\
    only_attribute h h' d (ID_LWR (at_name x)) (Classic w).
Proof.
  intros t p s lits debug debug_ast id x n h q d v F B DA DF. destruct (tree_in_range t p F) as (P & U & _).
  exact (classic_access _ P U s lits B DA DF debug debug_ast id x n h q d v).
Qed.
Print Assumptions C51_attribute_partial.

(** The accessor of an inherited or synthesized attribute can only be read;
    before the attribute has its value, a program with assertions ends. *)
Theorem C51_computed_partial : forall t p s lits debug debug_ast id x n h q d b v, reads_file t p ->
  before_scheduling (ast_of p) = Val (s, lits) ->
  distinct_accessors (finished (ast_of p) s lits) -> distinct_functions (finished (ast_of p) s lits) ->
  meant_for (ast_of p) id x n -> ~ classic x -> attribute_is h n q d (at_name x) (Evaluated (Some b) v) ->
  (b = true -> v <> Raw -> get (finished (ast_of p) s lits) debug debug_ast (accessor id (at_name x)) q h = Val v) /\
  (b = false -> get (finished (ast_of p) s lits) true true (accessor id (at_name x)) q h = Aborted) /\
  forall w h', set (finished (ast_of p) s lits) debug debug_ast (accessor id (at_name x)) q w h <> Val h'.
Proof.
  intros t p s lits debug debug_ast id x n h q d b v F B DA DF M K A. destruct (tree_in_range t p F) as (P & U & _).
  destruct (computed_access _ P U s lits B DA DF debug debug_ast id x n h q d b v M K A) as [G S].
  destruct (computed_access _ P U s lits B DA DF true true id x n h q d b v M K A) as [G' _].
  split; [|split].
  - intros -> V. rewrite G. rewrite andb_false_r. destruct v; congruence.
  - intros ->. rewrite G'. reflexivity.
  - exact S.
Qed.
Print Assumptions C51_computed_partial.

(** With assertions, an accessor that is used on a node of another type ends
    the program, whatever the memory holds. *)
Theorem C51_wrong_node_partial : forall t p s lits h q e, reads_file t p ->
  before_scheduling (ast_of p) = Val (s, lits) ->
  distinct_accessors (finished (ast_of p) s lits) -> distinct_functions (finished (ast_of p) s lits) ->
  lookup h q = Some (BNode e) ->
  (forall n c, In n (a_nodes (ast_of p)) -> nodetype e <> Some (ID_LWR (nd_name n)) -> In c (nd_children n) ->
     use (finished (ast_of p) s lits) true true (accessor (nd_name n) (ch_name c)) q h = Aborted) /\
  (forall n x, In n (a_nodes (ast_of p)) -> nodetype e <> Some (ID_LWR (nd_name n)) -> node_attribute (ast_of p) n x ->
     use (finished (ast_of p) s lits) true true (accessor (nd_name n) (at_name x)) q h = Aborted) /\
  (forall k m i x S, nth_error (a_nodesets (ast_of p)) k = Some m -> set_given_by (ast_of p) k i x ->
     denotes (a_nodesets (ast_of p)) (ns_expr m) S -> (forall ty, nodetype e = Some ty -> ~ S ty) ->
     use (finished (ast_of p) s lits) true true (accessor (ns_name m) (at_name x)) q h = Aborted).
Proof.
  intros t p s lits h q e F B DA DF L. destruct (tree_in_range t p F) as (P & U & _). split; [|split].
  - intros n c In_ T Ic. exact (child_other _ P U s lits B DA DF true true n c h q e In_ Ic L T).
  - intros n x In_ T A. exact (attribute_other _ P U s lits B DA DF true true n x h q e In_ A L T).
  - intros k m i x S Hm G D T. exact (set_other _ P U s lits B DA DF true true k m i x h q e S Hm G D L T).
Qed.
Print Assumptions C51_wrong_node_partial.

(** The nodes of a tree have what the accessors need, so that on a node of the
    right type an accessor always works. *)
Theorem C51_trees_partial : forall t p s lits h q r fp n, reads_file t p ->
  before_scheduling (ast_of p) = Val (s, lits) ->
  distinct_accessors (finished (ast_of p) s lits) -> distinct_functions (finished (ast_of p) s lits) ->
  rep (a_nodes (finished (ast_of p) s lits)) h q r fp -> In n (a_nodes (ast_of p)) -> has_type h q n ->
  (forall c, In c (nd_children n) -> exists d z, child_is h n q d (ch_name c) (Ptr z) /\
     forall debug debug_ast, get (finished (ast_of p) s lits) debug debug_ast (accessor (nd_name n) (ch_name c)) q h = Val (Ptr z)) /\
  (forall id x, meant_for (ast_of p) id x n -> classic x -> exists d v, attribute_is h n q d (at_name x) (Classic v) /\
     forall debug debug_ast, get (finished (ast_of p) s lits) debug debug_ast (accessor id (at_name x)) q h = Val v) /\
  (forall id x, meant_for (ast_of p) id x n -> ~ classic x -> exists d b v, attribute_is h n q d (at_name x) (Evaluated (Some b) v)).
Proof.
  intros t p s lits h q r fp n F B DA DF R In_ T. destruct (tree_in_range t p F) as (P & U & _).
  destruct (tree_members _ P U s lits B DA DF h q r fp n R In_ T) as [K A]. split; [|split].
  - intros c Ic. destruct (K c Ic) as (d & z & C). exists d, z. split; [exact C|]. intros debug debug_ast.
    apply (child_access _ P U s lits B DA DF debug debug_ast n c h q d _ In_ Ic C). discriminate.
  - intros id x M C. destruct (A id x M) as (d & f & Fa & [(_ & v & -> & V)|(N & _)]); [|contradiction]. exists d, v. split; [exact Fa|].
    intros debug debug_ast. apply (classic_access _ P U s lits B DA DF debug debug_ast id x n h q d v M C Fa), V.
  - intros id x M C. destruct (A id x M) as (d & f & Fa & [(N & _)|(_ & b & v & ->)]); [contradiction|]. eauto.
Qed.
Print Assumptions C51_trees_partial.

(** Every name is defined once, and the functions of nodesets are correct C:
    the macros in their cases exist, and have the type that is returned. *)
Theorem C51_correct_C_partial : forall t p s lits, reads_file t p ->
  before_scheduling (ast_of p) = Val (s, lits) ->
  distinct_accessors (finished (ast_of p) s lits) -> distinct_functions (finished (ast_of p) s lits) ->
  compiles (finished (ast_of p) s lits).
Proof.
  intros t p s lits F B DA DF. destruct (tree_in_range t p F) as (P & U & _). exact (accessors_compile _ P U s lits B DA DF).
Qed.
Print Assumptions C51_correct_C_partial.

(** Names are distinct if no node or nodeset has an underscore in its name or
    is called "readonly". *)
Theorem C51_names : forall t p s lits, reads_file t p -> before_scheduling (ast_of p) = Val (s, lits) -> plainly_named (ast_of p) ->
  distinct_accessors (finished (ast_of p) s lits) /\ distinct_functions (finished (ast_of p) s lits).
Proof.
  intros t p s lits F B (Nn & Ns). destruct (tree_in_range t p F) as (P & U & _). exact (plain_names _ s lits P U B Nn Ns).
Qed.
Print Assumptions C51_names.

(** ** What is false *)

Lemma accepted_read : forall t a r, tree t = Some a -> before_scheduling a = Val r ->
  exists p, reads_file t p /\ before_scheduling (ast_of p) = Val (fst r, snd r) /\ ast_of p = a.
Proof.
  intros t a [s lits] T B. destruct (tree_read _ _ T) as (p & F & Ea). exists p. rewrite Ea. auto.
Qed.

Fixpoint once (l : list cstring) : bool :=
  match l with x :: l => negb (existsb (name_eqb x) l) && once l | [] => true end.
Lemma twice : forall l, once l = false -> ~ NoDup l.
Proof.
  induction l as [|x l IH]; cbn; [discriminate|]. intros E N. inversion N as [|? ? Nx N']; subst.
  apply andb_false_iff in E. destruct E as [E|E]; [|apply (IH E N')]. apply negb_false_iff, existsb_exists in E.
  destruct E as (y & Iy & E). apply name_eqb_true in E. subst y. contradiction.
Qed.

(** The names of the functions behind two accessors with different names can be
    equal. *)
Theorem C51_names_refuted : ~ forall t p s lits, reads_file t p -> before_scheduling (ast_of p) = Val (s, lits) ->
  distinct_accessors (finished (ast_of p) s lits) -> compiles (finished (ast_of p) s lits).
Proof.
  intros H. destruct (accepted_read _ _ _ readonly_read readonly_accepted) as (p & F & B & Ea).
  specialize (H _ p _ _ F B). rewrite Ea in H. destruct H as (N & _).
  - vm_compute. repeat constructor; cbn; intuition discriminate.
  - revert N. apply twice. vm_compute. reflexivity.
Qed.
Print Assumptions C51_names_refuted.

(** So can the names of two accessors. *)
Theorem C51_macros_refuted : ~ forall t p s lits, reads_file t p -> before_scheduling (ast_of p) = Val (s, lits) ->
  compiles (finished (ast_of p) s lits).
Proof.
  intros H. destruct (accepted_read _ _ _ underscore_read underscore_accepted) as (p & F & B & Ea).
  specialize (H _ p _ _ F B). rewrite Ea in H. destruct H as (_ & N & _).
  revert N. apply twice. vm_compute. reflexivity.
Qed.
Print Assumptions C51_macros_refuted.

(** Without assertions in ast.c, or in the file that uses the accessor, a wrong
    type is not noticed: the accessor of a nodeset gives 0 for an attribute
    of the attribute grammar, and the null pointer is read for another. *)
Theorem C51_release : forall t p s lits debug debug_ast k m i x S h q e, reads_file t p ->
  before_scheduling (ast_of p) = Val (s, lits) ->
  distinct_accessors (finished (ast_of p) s lits) -> distinct_functions (finished (ast_of p) s lits) ->
  nth_error (a_nodesets (ast_of p)) k = Some m -> set_given_by (ast_of p) k i x ->
  denotes (a_nodesets (ast_of p)) (ns_expr m) S -> lookup h q = Some (BNode e) -> (forall ty, nodetype e = Some ty -> ~ S ty) ->
  debug && debug_ast = false ->
  get (finished (ast_of p) s lits) debug debug_ast (accessor (ns_name m) (at_name x)) q h =
    if is_classic x then Undef else Val (zero (print_type (resolve (ast_of p) x))).
Proof.
  intros t p s lits debug debug_ast k m i x S h q e F B DA DF Hm G D L T N. destruct (tree_in_range t p F) as (P & U & _).
  unfold get. rewrite (set_other _ P U s lits B DA DF debug debug_ast k m i x h q e S Hm G D L T), N. destruct (is_classic x); reflexivity.
Qed.
Print Assumptions C51_release.

(** ** A file *)

Definition acc (x y : string) : cstring := accessor (nm x) (nm y).
Definition value_of (debug : bool) (x y : string) (q : addr) : outcome value := get access_final debug debug (acc x y) q memory.

Example C51_read : exists p s lits, reads_file access_text p /\ before_scheduling (ast_of p) = Val (s, lits) /\
  access_final = finished (ast_of p) s lits /\ plainly_named (ast_of p).
Proof.
  destruct (accepted_read _ _ _ access_read access_accepted) as (p & F & B & Ea). exists p, (fst access_passes), (snd access_passes).
  split; [exact F|]. split; [exact B|]. rewrite Ea. split; [reflexivity|].
  split; intros n I; cbn [access_ast a_nodes a_nodesets] in I;
    repeat (destruct I as [<-|I]; [split; [vm_compute; intuition discriminate|vm_compute; discriminate]|]); destruct I.
Qed.

Example C51_gives :
  value_of true "add" "left" 1%N = Val (Ptr (Some 3%N)) /\ value_of true "num" "value" 3%N = Val (Prim 7) /\
  value_of true "expr" "line" 1%N = Val (Prim 4) /\ value_of true "leaf" "line" 3%N = Val (Prim 5) /\
  value_of true "expr" "size" 3%N = Val (Prim 1) /\ value_of true "expr" "size" 1%N = Aborted /\
  value_of true "leaf" "line" 1%N = Aborted /\ value_of true "num" "value" 1%N = Aborted /\
  value_of false "leaf" "size" 1%N = Val (Prim 0) /\ value_of false "leaf" "line" 1%N = Undef.
Proof. vm_compute. repeat split. Qed.

(** The memory holds a tree. *)
Lemma node_in : forall k n, nth_error (a_nodes access_final) k = Some n -> In n (a_nodes access_final).
Proof. intros k n E. exact (nth_error_In _ _ E). Qed.
Ltac is_attribute :=
  match goal with
  | |- rep_attribute _ _ (Classic (Prim _)) _ _ => apply rep_number_attribute; [reflexivity|discriminate|discriminate]
  | |- rep_attribute _ _ (Evaluated (Some false) _) _ _ => apply rep_unset; reflexivity
  | |- rep_attribute _ _ (Evaluated (Some true) _) _ _ => apply rep_set; reflexivity
  end.
Ltac is_node k is_kids :=
  let o := eval vm_compute in (nth_error (a_nodes access_final) k) in
  match o with
  | Some ?n =>
      eapply (rep_node _ _ _ n);
      [ apply (node_in k); vm_compute; reflexivity | reflexivity | reflexivity | | reflexivity | exact (no_text _)
      | eapply some_data; [(left; discriminate) || (right; discriminate) | reflexivity | reflexivity | reflexivity]
      | cbn [nd_children]; is_kids | cbn [nd_attributes]; repeat (eapply rep_more_attributes; [is_attribute|]); apply rep_no_attributes ];
      reflexivity
  end.
Example C51_tree : exists r fp, rep (a_nodes access_final) memory 5%N r fp.
Proof.
  assert (N : exists r fp, rep (a_nodes access_final) memory 3%N r fp).
  { do 2 eexists. is_node 3 ltac:(apply rep_no_kids). }
  destruct N as (r & fp & N).
  assert (A : exists r fp, rep (a_nodes access_final) memory 1%N r fp).
  { do 2 eexists. is_node 1 ltac:(eapply rep_present; [exact N|]; apply rep_absent; apply rep_no_kids). }
  destruct A as (r1 & fp1 & A). do 2 eexists. is_node 0 ltac:(eapply rep_present; [exact A|]; apply rep_no_kids).
Qed.

(** The accessor LEAF_LINE is meant for numbers: leaf has the attribute line
    of expr. *)
Example C51_meant : exists p s lits n x, reads_file access_text p /\ before_scheduling (ast_of p) = Val (s, lits) /\
  nd_name n = nm "num" /\ at_name x = nm "line" /\ classic x /\ meant_for (ast_of p) (nm "leaf") x n.
Proof.
  destruct (accepted_read _ _ _ access_read access_accepted) as (p & F & B & Ea). exists p, (fst access_passes), (snd access_passes).
  enough (M : exists n x, nd_name n = nm "num" /\ at_name x = nm "line" /\ classic x /\ meant_for access_ast (nm "leaf") x n).
  { destruct M as (n & x & M). exists n, x. split; [exact F|]. split; [exact B|]. rewrite Ea. exact M. }
  exists (nth 3 (a_nodes access_ast) (mk_node [] false [] [] [] [])), (nth 0 (ns_attributes (nth 0 (a_nodesets access_ast) (mk_nodeset [] (ELiteral LNull) []))) (plain_attr "" AT_int None)).
  split; [reflexivity|]. split; [reflexivity|]. split; [split; reflexivity|].
  eapply (for_members _ _ _ _ 1 _ 0 (fun z => In z [nm "num"; nm "var"])).
  - reflexivity.
  - reflexivity.
  - split; [eexists; split; [reflexivity|left; reflexivity]|]. right. constructor. do 3 eexists. split; [reflexivity|]. split; [reflexivity|].
    split; [left; reflexivity|reflexivity].
  - exact (den_literal _ [nm "num"; nm "var"] _ (fun z => conj (fun H => H) (fun H => H))).
  - vm_compute. tauto.
  - left. reflexivity.
Qed.
