(** C23 copying, C24 freeing, C25 constructing nodes. *)

From Coq Require Import String.
From Coq Require Import List Ascii NArith ZArith Bool Lia.
From Verif Require Import Base.Outcome Base.Heap Palm.StrModel Front.Syntax Front.SetsInst
  Gen.NodesModel Gen.NodesSpec Gen.NodesProof Gen.NodesCopy Gen.NodesFree Gen.NodesBuild Gen.NodesInst.
Import ListNotations.
Local Open Scope string_scope.
Local Open Scope list_scope.
Local Open Scope outcome_scope.

(** The specification: names are distinct (C27) and the generated
    constructors and free functions are correct C (C25_correct_C, C24_correct_C). *)
Definition good_nodes (nodes : list inode) : Prop :=
  NoDup (map (fun nd => ID_LWR (nd_name nd)) nodes) /\ Forall distinct_members nodes /\ Forall usable_constructor nodes.

Lemma good_compiles : forall nodes, good_nodes nodes -> Forall constructor_compiles nodes.
Proof.
  intros nodes (_ & M & U). rewrite Forall_forall in *. intros nd I. apply compiles_iff; auto.
Qed.

(** ** C25 *)

(** The constructor of a node type returns a new node of that type: the
    children and attributes in the constructor get the arguments in order
    (children first), other children are NULL, other attributes zero, and
    attributes of the attribute grammar are not evaluated.  Nothing else in
    memory changes. *)
Theorem C25_constructor : forall malloc nd args h, standard malloc ->
  distinct_members nd -> usable_constructor nd -> List.length args = number_of_arguments nd ->
  returns malloc (construct malloc nd args h) (fun r => exists c dfp,
    let a := fst r in let h' := snd r in
    grown h h' (a :: dfp) /\ lookup h' a = Some (BNode c) /\
    nodetype c = Some (ID_LWR (nd_name nd)) /\ num_children c = List.length (nd_children nd) /\
    filename c = Ptr None /\ loc c = mk_loc 0 0 0 0 /\
    rep_data h' nd c (new_children nd args) (new_attributes nd args) dfp).
Proof.
  intros malloc nd args h S D U L. apply returns_ok.
  destruct (new_members nd args D U L) as [Ek Ea].
  eapply ok_impl.
  - apply (construct_right malloc S nd args h); [now apply compiles_iff|exact D|]. now rewrite param_count.
  - intros [a h'] (dp & dfp & G & _ & Lk & R). cbn [fst snd] in *. rewrite Ek, Ea in R.
    exists (built_cell nd dp), dfp. repeat (split; [first [exact G|exact Lk|reflexivity]|]). exact R.
Qed.
Print Assumptions C25_constructor.

(** If the arguments are trees (and strings) that do not share memory, the
    new node is the root of a tree made of them. *)
Theorem C25_tree : forall malloc nodes nd args h kids attrs kfp afp, standard malloc -> good_nodes nodes -> In nd nodes ->
  List.length args = number_of_arguments nd ->
  rep_kids nodes h (nd_children nd) (new_children nd args) kids kfp ->
  rep_attributes h (nd_attributes nd) (new_attributes nd args) attrs afp ->
  returns malloc (construct malloc nd args h) (fun r => exists dfp,
    grown h (snd r) (fst r :: dfp) /\
    rep nodes (snd r) (fst r) (RNode (ID_LWR (nd_name nd)) None (mk_loc 0 0 0 0) kids attrs) (fst r :: dfp ++ kfp ++ afp)).
Proof.
  intros malloc nodes nd args h kids attrs kfp afp S (Dn & Dm & U) I L K A.
  rewrite Forall_forall in Dm, U.
  destruct (C25_constructor malloc nd args h S (Dm nd I) (U nd I) L) as [([a h'] & E & c & dfp & G & Lk & T & Nc & Fn & Lo & R)|X];
    [|right; exact X].
  left. exists (a, h'). split; [exact E|]. cbn [fst snd] in *. exists dfp. split; [exact G|].
  assert (Out : forall x, lookup h x <> None -> lookup h' x = lookup h x).
  { intros x N. apply (proj1 G). intros J. destruct (proj2 G x J). contradiction. }
  assert (Ok : same_on kfp h h' /\ same_on afp h h').
  { split; intros x J; apply Out.
    - destruct (owned_both nodes h) as [_ O]. eapply O; eassumption.
    - eapply owned_attributes; eassumption. }
  change (a :: dfp ++ kfp ++ afp) with (a :: dfp ++ [] ++ kfp ++ afp).
  eapply (rep_node nodes h' a nd c None (mk_loc 0 0 0 0) kids attrs [] kfp afp dfp); eauto.
  - rewrite Nc. symmetry. eapply kids_length. exact K.
  - rewrite Fn. constructor.
  - eapply rep_kids_frame; [exact K|apply Ok].
  - eapply rep_attributes_frame; [exact A|apply Ok].
Qed.
Print Assumptions C25_tree.

Example C25_tree_example : good_nodes nodes3 /\
  rep_kids nodes3 heap1 (nd_children n_add) (new_children n_add [Ptr (Some 8%N); Ptr (Some 4%N)])
    [Some (RNode (nm "num") None l1 [] [Number 7; Number 1; Evaluated_to (Prim 2)]); None] [8; 9]%N /\
  rep_attributes heap1 (nd_attributes n_add) (new_attributes n_add [Ptr (Some 8%N); Ptr (Some 4%N)])
    [Text (Some (nm "+")); Link None; Not_evaluated] [4%N].
Proof.
  split; [split; [apply nodes3_distinct|split; [apply nodes3_members|apply nodes3_usable]]|]. split.
  - change [8%N; 9%N] with ([8%N; 9%N] ++ []). apply (rep_present _ _ (mk_child (nm "Left") (nm "expr") true [])); [apply rep1_num|].
    apply (rep_absent _ _ (mk_child (nm "right") (nm "expr") false [])). constructor.
  - apply rep_op_decl_depth; [|reflexivity]. now apply rep_unset.
Qed.

Example C25_example :
  map_outcome (fun r => (fst r, lookup (snd r) 101%N)) (construct plenty n_add [Ptr (Some 8%N); Ptr (Some 4%N)] heap1) =
    Val (100%N, Some (BData [(nm "left", Ptr (Some 8%N)); (nm "right", NULL)]
                        [(nm "op", Classic (Ptr (Some 4%N))); (nm "decl", Classic NULL); (nm "depth", Evaluated (Some false) Raw)])) /\
  construct nothing_left n_add [Ptr (Some 8%N); Ptr (Some 4%N)] heap1 = Exited.
Proof. vm_compute. auto. Qed.

(** The generated constructor is correct C exactly if no parameter is called
    "node", attributes of a user type in the constructor have lower-case
    names and no attribute of the attribute grammar is in the constructor. *)
Theorem C25_correct_C : forall nd, distinct_members nd -> (constructor_compiles nd <-> usable_constructor nd).
Proof. exact compiles_iff. Qed.
Print Assumptions C25_correct_C.

(** So it is not for every specification: [node n { children { e node {constructor} } }],
    [node n { attributes { user Type {constructor} } }] and
    [node n { attributes { inherited int a {constructor} } }] give incorrect C. *)
Theorem C25_correct_C_refuted : ~ forall nd, distinct_members nd -> constructor_compiles nd.
Proof.
  intros H.
  pose (nd := mk_node (nm "n") false [] [mk_attribute (nm "Type") AT_user (Some (nm "t")) true false false false []] [] []).
  assert (D : distinct_members nd) by (vm_compute; nodup).
  apply compiles_iff in D as X. apply X in H; [|exact D]. destruct H as [_ H].
  destruct (H _ (or_introl eq_refl) eq_refl) as (_ & _ & E). specialize (E eq_refl). vm_compute in E. discriminate.
Qed.
Print Assumptions C25_correct_C_refuted.
Example C25_node_clash :
  ~ usable_constructor (mk_node (nm "n") false [mk_child (nm "Node") (nm "e") true []] [] [] []) /\
  ~ usable_constructor (mk_node (nm "n") false [] [attr "a" AT_int true true false] [] []).
Proof.
  split; intros [A B].
  - apply (A _ (or_introl eq_refl) eq_refl). reflexivity.
  - destruct (B _ (or_introl eq_refl) eq_refl) as [E _]. discriminate.
Qed.

(** ** C23 *)

(** CCNcopy of a tree returns a tree with the same node types, children,
    positions, file names and attributes (those of the attribute grammar are
    not evaluated), made of new blocks only; nothing else in memory changes,
    in particular not the original. *)
Theorem C23_copy : forall malloc nodes h a t fp, standard malloc -> good_nodes nodes -> rep nodes h a t fp ->
  forall fuel, height t <= fuel ->
  returns malloc (CCNcopy malloc nodes fuel (Ptr (Some a)) h) (fun r => exists a' fp',
    fst r = Ptr (Some a') /\ rep nodes (snd r) a' (copied t) fp' /\ NoDup fp' /\
    grown h (snd r) fp' /\ rep nodes (snd r) a t fp /\ (forall x, In x fp -> ~ In x fp')).
Proof.
  intros malloc nodes h a t fp S G R fuel F. apply returns_ok.
  assert (Cc := good_compiles nodes G). destruct G as (Dn & Dm & U).
  eapply ok_impl; [eapply copy_right; eassumption|].
  intros [v h'] (a' & fp' & E & Gr & N & R'). cbn [fst snd] in *.
  assert (Dj : forall x, In x fp -> ~ In x fp').
  { intros x J J'. destruct (proj2 Gr x J') as [X _]. destruct (owned_both nodes h) as [O _]. exact (O a t fp R x J X). }
  exists a', fp'. repeat (split; [assumption|]). split; [|exact Dj].
  eapply rep_frame; [exact R|]. intros x J. apply (proj1 Gr). auto.
Qed.
Print Assumptions C23_copy.

Theorem C23_copy_null : forall malloc nodes fuel h, standard malloc ->
  returns malloc (CCNcopy malloc nodes fuel NULL h) (fun r => fst r = NULL /\ forall x, lookup (snd r) x = lookup h x).
Proof.
  intros malloc nodes fuel h S. apply returns_ok. unfold CCNcopy. apply start_null, S.
Qed.
Print Assumptions C23_copy_null.

Example C23_example : good_nodes nodes3 /\ rep nodes3 heap1 1%N tree1 blocks1 /\ height tree1 = 3 /\
  map_outcome (fun r => (fst r, List.length (snd r))) (CCNcopy plenty nodes3 3 (Ptr (Some 1%N)) heap1) =
    Val (Ptr (Some 101%N), 11 + 10).
Proof.
  split; [split; [apply nodes3_distinct|split; [apply nodes3_members|apply nodes3_usable]]|].
  split; [apply rep1|]. split; vm_compute; reflexivity.
Qed.

(** ** C24 *)

(** CCNfree of a tree without sharing frees exactly the blocks of the tree,
    each once (a second free would be undefined), and returns NULL. *)
Theorem C24_free_partial : forall malloc nodes h a t fp, standard malloc -> good_nodes nodes -> Forall free_compiles nodes ->
  rep nodes h a t fp -> NoDup fp -> forall fuel, height t <= fuel ->
  returns malloc (CCNfree malloc nodes fuel (Ptr (Some a)) h) (fun r => fst r = NULL /\ shrunk h (snd r) fp).
Proof.
  intros malloc nodes h a t fp S (Dn & Dm & _) C R N fuel F. apply returns_ok. eapply free_right; eassumption.
Qed.
Print Assumptions C24_free_partial.

Theorem C24_free_null : forall malloc nodes fuel h, standard malloc ->
  returns malloc (CCNfree malloc nodes fuel NULL h) (fun r => fst r = NULL /\ forall x, lookup (snd r) x = lookup h x).
Proof. intros malloc nodes fuel h S. apply returns_ok. unfold CCNfree. apply start_null, S. Qed.
Print Assumptions C24_free_null.

(** Freeing a copy gives back the memory as it was. *)
Theorem C24_free_undoes_copy_partial : forall malloc nodes h a t fp, standard malloc -> good_nodes nodes -> Forall free_compiles nodes ->
  rep nodes h a t fp -> forall fuel, height t <= fuel ->
  returns malloc (let! r := CCNcopy malloc nodes fuel (Ptr (Some a)) h in CCNfree malloc nodes fuel (fst r) (snd r))
    (fun r => fst r = NULL /\ forall x, lookup (snd r) x = lookup h x).
Proof.
  intros malloc nodes h a t fp S G C R fuel F. apply returns_ok.
  assert (Cc := good_compiles nodes G). destruct G as (Dn & Dm & U).
  eapply ok_bind; [eapply copy_right; eassumption|].
  intros [v h'] (a' & fp' & E & Gr & N & R'). cbn [fst snd] in *. subst v.
  eapply ok_impl.
  - eapply free_right; try eassumption. rewrite height_copied. exact F.
  - intros [v h2] [E2 [A B]]. cbn [fst snd] in *. split; [exact E2|]. intros x.
    destruct (in_dec N.eq_dec x fp') as [J|J].
    + rewrite (B x J). symmetry. apply (proj2 Gr x J).
    + rewrite (A x J). apply (proj1 Gr x J).
Qed.
Print Assumptions C24_free_undoes_copy_partial.

Example C24_example : Forall free_compiles nodes3 /\ NoDup blocks1 /\
  CCNfree plenty nodes3 3 (Ptr (Some 1%N)) heap1 = Val (NULL, [(99%N, BString (nm "not ours"))]).
Proof. split; [apply nodes3_free|]. split; [apply blocks1_distinct|]. vm_compute. reflexivity. Qed.

(** Missing: specifications with a string attribute in the attribute grammar,
    whose generated free function is not correct C. *)
Theorem C24_correct_C_refuted : ~ forall nd, distinct_members nd -> usable_constructor nd -> free_compiles nd.
Proof.
  intros H.
  pose (nd := mk_node (nm "n") false [] [attr "s" AT_string false false true] [] []).
  assert (X : free_compiles nd).
  { apply H; [vm_compute; nodup|]. split; [intros c []|]. intros a [<-|[]] E. discriminate. }
  specialize (X _ (or_introl eq_refl) eq_refl). discriminate.
Qed.
Print Assumptions C24_correct_C_refuted.
