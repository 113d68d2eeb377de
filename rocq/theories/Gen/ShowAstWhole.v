(** Different trees are printed differently: the whole output (C68). *)

From Coq Require Import String.
From Coq Require Import List Ascii Bool Arith Lia ZArith.
From Verif Require Import Base.Outcome Front.LexerModel Front.ScannerModel Front.ScannerSpec Front.Syntax Front.MessageModel
  Gen.ShowAstModel Gen.ShowAstSpec Gen.ShowAstProof.
Import ListNotations.
Local Open Scope list_scope.

(** * When nothing aborts *)

Lemma each_value : forall {A} (p : A -> outcome text) (q : A -> text) l t, (forall x u, p x = Val u -> u = q x) ->
  each_or_abort p l = Val t -> t = each q l.
Proof.
  intros A p q l t E. revert t. induction l as [|x l IH]; intros t H; cbn [each_or_abort each flat_map bind] in *.
  - congruence.
  - destruct (p x) as [u| | | |] eqn:P; try discriminate H. cbn [bind] in H.
    destruct (each_or_abort p l) as [w| | | |] eqn:Q; try discriminate H. cbn [bind] in H. injection H as <-.
    rewrite (E x u P), (IH w eq_refl). reflexivity.
Qed.
Definition node_text (n : final_node) : text :=
  txt "NODE: " ++ fn_name n ++ txt "(" ++ percent_d (fn_index n) ++ txt ") {" ++ nl ++
  PrintIndent 4 ++ txt "Children {" ++ nl ++ each (PRTchild 8) (fn_children n) ++ PrintIndent 4 ++ txt "}" ++ nl ++
  PrintIndent 4 ++ txt "Attributes {" ++ nl ++ each (PRTattribute 8) (fn_attributes n) ++ PrintIndent 4 ++ txt "}" ++ nl ++
  PrintIndent 4 ++ txt "Equations {" ++ nl ++ each (PRTequation 8) (fn_equations n) ++ PrintIndent 4 ++ txt "}" ++ nl ++
  txt "}" ++ nl ++ txt "Visits {" ++ nl ++ each (visit_text 4) (fn_visits n) ++ txt "}" ++ nl.
Definition reach_text (a : final_ast) : text :=
  match z_reach a with None => [] | Some rows => txt "Reachability table:" ++ nl ++ print_rows 0 rows end.
Definition ast_text (a : final_ast) : text :=
  each PRTiphase (z_phases a) ++ each PRTitraversal (z_traversals a) ++ PRTipass (z_passes a) ++ each node_text (z_nodes a) ++
  each PRTinodeset (z_nodesets a) ++ each PRTste (z_table a) ++ reach_text a.
Lemma step_value : forall debug k s t, PRTvisit_sequence debug k s = Val t -> t = step_text k s.
Proof.
  intros debug k [r|c n i l] t H; cbn [PRTvisit_sequence step_text] in *; [|congruence].
  unfold TRAVattribute_of_eval in H. destruct debug; cbn [bind] in H; [discriminate H|]. cbn [app] in H. congruence.
Qed.
Lemma visit_value : forall debug k v t, PRTvisit debug k v = Val t -> t = visit_text k v.
Proof.
  intros debug k v t H. unfold PRTvisit in H.
  destruct (each_or_abort (PRTvisit_sequence debug (k + 4)) (fv_sequence v)) as [u| | | |] eqn:E; try discriminate H.
  cbn [bind] in H. apply (each_value _ (step_text (k + 4))) in E; [|apply step_value]. subst u. unfold visit_text. congruence.
Qed.
Lemma node_value : forall debug n t, PRTinode debug n = Val t -> t = node_text n.
Proof.
  intros debug n t H. unfold PRTinode in H.
  destruct (each_or_abort (PRTvisit debug 4) (fn_visits n)) as [u| | | |] eqn:E; try discriminate H.
  cbn [bind] in H. apply (each_value _ (visit_text 4)) in E; [|apply visit_value]. subst u. unfold node_text. congruence.
Qed.
Lemma ast_value : forall debug a t, PRTast debug true a = Val t -> t = ast_text a.
Proof.
  intros debug a t H. unfold PRTast in H.
  destruct (each_or_abort (PRTinode debug) (z_nodes a)) as [u| | | |] eqn:E; try discriminate H.
  cbn [bind] in H. apply (each_value _ node_text) in E; [|apply node_value]. subst u. injection H as <-. reflexivity.
Qed.

(** * When something aborts *)

Lemma each_ends : forall {A} (p : A -> outcome text) l, (forall x, In x l -> exists t, p x = Val t) -> exists t, each_or_abort p l = Val t.
Proof.
  intros A p. induction l as [|x l IH]; intros H; cbn [each_or_abort]; [eauto|].
  destruct (H x) as [t ->]; [now left|]. cbn [bind]. destruct IH as [u ->]; [intros y I; apply H; now right|]. cbn [bind]. eauto.
Qed.
Lemma each_either : forall {A} (p : A -> outcome text) l, (forall y, p y = Aborted \/ exists t, p y = Val t) ->
  each_or_abort p l = Aborted \/ exists t, each_or_abort p l = Val t.
Proof.
  intros A p l T. induction l as [|y l IH]; cbn [each_or_abort]; [eauto|].
  destruct (T y) as [->|[t ->] ]; [auto|]. cbn [bind]. destruct IH as [->|[u ->] ]; cbn [bind]; eauto.
Qed.
Lemma each_aborts : forall {A} (p : A -> outcome text) l x, (forall y, p y = Aborted \/ exists t, p y = Val t) -> In x l -> p x = Aborted ->
  each_or_abort p l = Aborted.
Proof.
  intros A p l x T I P. induction l as [|y l IH]; [destruct I|]. cbn [each_or_abort]. destruct I as [-> | I].
  - rewrite P. reflexivity.
  - destruct (T y) as [->|[t ->] ]; [reflexivity|]. cbn [bind]. rewrite (IH I). reflexivity.
Qed.
Lemma step_either : forall debug k s, PRTvisit_sequence debug k s = Aborted \/ exists t, PRTvisit_sequence debug k s = Val t.
Proof. intros [|] k [r|c n i l]; cbn; eauto. Qed.
Lemma visit_either : forall debug k v, PRTvisit debug k v = Aborted \/ exists t, PRTvisit debug k v = Val t.
Proof.
  intros debug k v. unfold PRTvisit. destruct (each_either (PRTvisit_sequence debug (k + 4)) (fv_sequence v) (step_either debug (k + 4))) as [->|[t ->] ];
    cbn [bind]; eauto.
Qed.
Lemma node_either : forall debug n, PRTinode debug n = Aborted \/ exists t, PRTinode debug n = Val t.
Proof.
  intros debug n. unfold PRTinode. destruct (each_either (PRTvisit debug 4) (fn_visits n) (visit_either debug 4)) as [->|[t ->] ]; cbn [bind]; eauto.
Qed.
(** A build with assertions aborts if an attribute is computed, and only then. *)
Lemma evaluation_aborts : forall a, evaluates a -> PRTast true true a = Aborted.
Proof.
  intros a (n & v & r & In1 & In2 & In3). unfold PRTast.
  rewrite (each_aborts (PRTinode true) _ n (node_either true) In1); [reflexivity|]. unfold PRTinode.
  rewrite (each_aborts (PRTvisit true 4) _ v (visit_either true 4) In2); [reflexivity|]. unfold PRTvisit.
  rewrite (each_aborts (PRTvisit_sequence true (4 + 4)) _ (Eval r) (step_either true (4 + 4)) In3); reflexivity.
Qed.
Lemma otherwise_printed : forall debug a, debug = false \/ ~ evaluates a -> exists t, PRTast debug true a = Val t.
Proof.
  intros debug a H. unfold PRTast.
  destruct (each_ends (PRTinode debug) (z_nodes a)) as [t ->]; [|cbn [bind]; eauto]. intros n In1. unfold PRTinode.
  destruct (each_ends (PRTvisit debug 4) (fn_visits n)) as [t ->]; [|cbn [bind]; eauto]. intros v In2. unfold PRTvisit.
  destruct (each_ends (PRTvisit_sequence debug (4 + 4)) (fv_sequence v)) as [t ->]; [|cbn [bind]; eauto]. intros [r|c m i l] In3; cbn; eauto.
  unfold TRAVattribute_of_eval. destruct H as [-> | H]; [cbn; eauto|]. exfalso. apply H. exists n, v, r. auto.
Qed.

(** * The parts *)

Ltac read_list X H := apply X in H; [destruct H as [? H]|side|side|discriminate|discriminate].
Lemma list_exact : forall {A B} (good : A -> Prop) (p : A -> text) (v : A -> B), exact good any p v ->
  (forall x, exists t, p x = PrintIndent 8 ++ t) ->
  exact (Forall good) (fun r => ~ at_place 4 " "%char r) (each p) (map v).
Proof. intros A B good p v E S. apply each_exact; trivial. intros x r _. destruct (S x) as [t ->]. rewrite <- app_assoc. apply at_indent. lia. Qed.
Lemma actions_list : exact (Forall (fun x : ident * Z => word (fst x))) (fun r => ~ at_place 4 " "%char r) (each (PRTiactions 8)) (map (fun x => x)).
Proof. apply list_exact; [apply actions_exact|]. intros x. eexists. reflexivity. Qed.
Lemma ids_list : exact (Forall word) (fun r => ~ at_place 4 " "%char r) (each (PRTid 8)) (map (fun x => x)).
Proof.
  apply list_exact; [|intros x; eexists; reflexivity]. intros n m r s A B _ _ H. unfold PRTid in H. rewrite <- !app_assoc in H. const H. read_word H. const H. auto.
Qed.
Lemma children_list : exact (Forall (fun c => word (fc_name c))) (fun r => ~ at_place 4 " "%char r) (each (PRTchild 8)) (map fc_name).
Proof.
  apply list_exact; [|intros x; eexists; reflexivity]. intros n m r s A B _ _ H. unfold PRTchild, PRTid in H. rewrite <- !app_assoc in H. const H. read_word H. const H. auto.
Qed.
Lemma attributes_list : exact (Forall attribute_words) (fun r => ~ at_place 4 " "%char r) (each (PRTattribute 8)) (map shown_attribute).
Proof. apply list_exact; [apply attribute_exact|]. intros x. eexists. reflexivity. Qed.
Lemma equations_list : exact (Forall equation_words) (fun r => ~ at_place 4 " "%char r) (each (PRTequation 8)) (map shown_equation).
Proof. apply list_exact; [apply equation_exact|]. intros x. eexists. reflexivity. Qed.
Lemma visits_list : exact (Forall visit_words) (fun r => ~ at_place 0 " "%char r) (each (visit_text 4)) (map shown_visit).
Proof. apply each_exact; [apply visit_exact|]. intros x r _. unfold visit_text. rewrite <- app_assoc. apply at_indent. lia. Qed.

Lemma phase_exact : exact phase_words any PRTiphase shown_phase.
Proof.
  intros [nx gx cx ax] [ny gy cy ay] r s [Nx Ax] [Ny Ay] _ _ H. unfold PRTiphase, shown_phase in *. cbn [fp_name fp_actions] in *.
  rewrite <- !app_assoc in H. const H. read_word H. const H. const H. const H. const H. const H. read_list actions_list H.
  rewrite !map_id in *. do 5 const H. subst. auto.
Qed.
Lemma traversal_exact : exact traversal_words any PRTitraversal shown_traversal.
Proof.
  intros [nx ix lx dx] [ny iy ly dy] r s [Nx Lx] [Ny Ly] _ _ H. unfold PRTitraversal, shown_traversal in *. cbn [ft_name ft_index ft_nodes] in *.
  rewrite <- !app_assoc in H. const H. read_word H. const H. const H. const H. const H. read_number H. const H. const H. const H. const H.
  apply members_exact in H; trivial.
  - destruct H as [-> H]. do 5 const H. subst. auto.
  - intros (n & t & _ & E). discriminate E.
  - intros (n & t & _ & E). discriminate E.
Qed.
Lemma node_exact : exact node_words any node_text shown_node.
Proof.
  intros [nx ix cx ax ex vx] [ny iy cy ay ey vy] r s (Nx & Cx & Ax & Ex & Vx) (Ny & Cy & Ay & Ey & Vy) _ _ H. unfold node_text, shown_node in *.
  cbn [fn_name fn_index fn_children fn_attributes fn_equations fn_visits] in *.
  rewrite <- !app_assoc in H. const H. read_word H. const H. read_number H. const H. const H. const H. const H. const H.
  read_list children_list H. do 6 const H. read_list attributes_list H. do 6 const H. read_list equations_list H. do 7 const H.
  read_list visits_list H. const H. const H. split; [congruence|exact H].
Qed.
Lemma nodeset_exact : exact nodeset_words any PRTinodeset shown_nodeset.
Proof.
  intros [nx ix lx tx ax] [ny iy ly ty ay] r s (Nx & Lx & Tx & Ax) (Ny & Ly & Ty & Ay) _ _ H. unfold PRTinodeset, shown_nodeset in *.
  cbn [fz_name fz_illegal fz_expr fz_table fz_attributes] in *.
  rewrite <- !app_assoc in H. const H. read_word H. const H.
  assert (I : ix = iy) by (destruct ix, iy; trivial; discriminate H). subst iy. const H. const H. const H.
  assert (R : forall r, ~ (exists n t, word n /\ PrintIndent 4 ++ txt "Child nodesets {" ++ r = PrintIndent 4 ++ n ++ nl ++ t)).
  { intros u (n & t & W & E). const E.
    change (txt "Child nodesets {" ++ u) with (txt "Child" ++ txt " nodesets {" ++ u) in E.
    apply word_inj in E; [destruct E as [_ E]; discriminate E| |assumption|exact eq_refl|exact eq_refl].
    split; [discriminate|]. apply b_word. vm_compute. reflexivity. }
  apply members_exact in H; [|assumption|assumption|apply R|apply R]. destruct H as [-> H]. const H. const H. const H.
  read_list ids_list H. rewrite !map_id in *. do 6 const H. read_list attributes_list H. do 5 const H. split; [congruence|exact H].
Qed.
Lemma entry_exact : exact (fun x : ident * Z => word (fst x)) any PRTste (fun x => x).
Proof.
  intros [n z] [m y] r s A B _ _ H. unfold PRTste in H. cbn [fst snd] in *. rewrite <- !app_assoc in H. const H. read_word H. const H.
  read_number H. const H. subst. auto.
Qed.
Lemma row_exact : exact (fun _ => True) (fun r => ~ exists c t, r = c :: t /\ numb c = true) (each (fun z => percent_d z ++ txt ", ")) (map (fun z : Z => z)).
Proof.
  assert (X := each_exact (fun _ : Z => True) (fun r => exists c t, r = c :: t /\ numb c = true) (fun z => percent_d z ++ txt ", ") (fun z => z)).
  intros xs ys r s _ _ Hr Hs H. apply X in H; trivial; try (now apply Forall_forall).
  - intros x y u w _ _ _ _ E. rewrite <- !app_assoc in E. read_number E. const E. auto.
  - intros x u _. destruct (percent_some x) as (c & t & E & C). rewrite E. cbn [app]. eauto.
Qed.
Lemma rows_exact : forall xs ys i, print_rows i xs = print_rows i ys -> xs = ys.
Proof.
  induction xs as [|x xs IH]; intros [|y ys] i H; cbn [print_rows] in H; trivial.
  - exfalso. unfold print_row in H. destruct (percent_some (Z.of_nat i)) as (c & t & E & _). rewrite E in H. discriminate H.
  - exfalso. unfold print_row in H. destruct (percent_some (Z.of_nat i)) as (c & t & E & _). rewrite E in H. discriminate H.
  - unfold print_row in H. rewrite <- !app_assoc in H. const H. const H. apply row_exact in H; trivial.
    + destruct H as [E H]. rewrite !map_id in E. const H. apply IH in H. congruence.
    + intros (c & t & E & C). injection E as <- _. discriminate C.
    + intros (c & t & E & C). injection E as <- _. discriminate C.
Qed.

(** * The whole output *)

(** The kinds of lines a part of the output can begin with *)
Definition begins (t : text) : text := firstn 2 t.
Lemma begins_each : forall {A} (p : A -> text) h (bad : text -> Prop) l r, (forall x s, begins (p x ++ s) = h) -> ~ bad h -> ~ bad (begins r) ->
  ~ bad (begins (each p l ++ r)).
Proof.
  intros A p h bad [|x l] r E Hh Hr; [exact Hr|]. cbn [each flat_map]. rewrite <- app_assoc, E. exact Hh.
Qed.
Lemma part_exact : forall {A B} (good : A -> Prop) (p : A -> text) (v : A -> B) h, exact good any p v -> (forall x s, begins (p x ++ s) = h) ->
  exact (Forall good) (fun r => ~ begins r = h) (each p) (map v).
Proof. intros A B good p v h E S. apply (each_exact good (fun r => begins r = h)); [exact E|]. intros x r _. apply S. Qed.

Lemma pass_begins : forall (bad : text -> Prop) l r, ~ bad (txt "Pa") -> ~ bad (begins r) -> ~ bad (begins (PRTipass l ++ r)).
Proof. intros bad [|p l] r H Hr; [exact Hr|exact H]. Qed.
Lemma reach_begins : forall (bad : text -> Prop) a, ~ bad (txt "Re") -> ~ bad [] -> ~ bad (begins (reach_text a)).
Proof. intros bad a H H0. unfold reach_text. destruct (z_reach a); [exact H|exact H0]. Qed.

Ltac differs := cbv beta; discriminate.
Ltac tail_begins w :=
  repeat first [ apply (begins_each PRTitraversal (txt "Tr") (fun t => t = txt w)); [reflexivity|differs|]
               | apply (pass_begins (fun t => t = txt w)); [differs|]
               | apply (begins_each node_text (txt "NO") (fun t => t = txt w)); [reflexivity|differs|]
               | apply (begins_each PRTinodeset (txt "no") (fun t => t = txt w)); [reflexivity|differs|]
               | apply (begins_each PRTste (txt "ST") (fun t => t = txt w)); [reflexivity|differs|]
               | apply (reach_begins (fun t => t = txt w)); differs ].

Theorem text_alike : forall a b, ast_words a -> ast_words b -> ast_text a = ast_text b -> alike a b.
Proof.
  intros a b (A1 & A2 & A3 & A4 & A5 & A6) (B1 & B2 & B3 & B4 & B5 & B6) H. unfold ast_text in H.
  apply (part_exact _ _ _ (txt "Ph") phase_exact) in H; [|reflexivity|assumption|assumption| |].
  2: { tail_begins "Ph"%string. }
  2: { tail_begins "Ph"%string. }
  destruct H as [E1 H].
  apply (part_exact _ _ _ (txt "Tr") traversal_exact) in H; [|reflexivity|assumption|assumption| |].
  2: { tail_begins "Tr"%string. }
  2: { tail_begins "Tr"%string. }
  destruct H as [E2 H].
  assert (T : forall c, begins (each node_text (z_nodes c) ++ each PRTinodeset (z_nodesets c) ++ each PRTste (z_table c) ++ reach_text c) <> txt "Pa").
  { intros c. tail_begins "Pa"%string. }
  assert (P : option_map fs_name (hd_error (z_passes a)) = option_map fs_name (hd_error (z_passes b)) /\
    each node_text (z_nodes a) ++ each PRTinodeset (z_nodesets a) ++ each PRTste (z_table a) ++ reach_text a =
    each node_text (z_nodes b) ++ each PRTinodeset (z_nodesets b) ++ each PRTste (z_table b) ++ reach_text b).
  { destruct (z_passes a) as [|p ps], (z_passes b) as [|q qs]; cbn [PRTipass hd_error option_map] in *.
    - auto.
    - exfalso. apply (T a). cbn [app] in H. rewrite H. reflexivity.
    - exfalso. apply (T b). cbn [app] in H. rewrite <- H. reflexivity.
    - inversion A3; inversion B3; subst. rewrite <- !app_assoc in H. const H. read_word H. const H. split; [congruence|exact H]. }
  clear H T. destruct P as [E3 H].
  apply (part_exact _ _ _ (txt "NO") node_exact) in H; [|reflexivity|assumption|assumption| |].
  2: { tail_begins "NO"%string. }
  2: { tail_begins "NO"%string. }
  destruct H as [E4 H].
  apply (part_exact _ _ _ (txt "no") nodeset_exact) in H; [|reflexivity|assumption|assumption| |].
  2: { tail_begins "no"%string. }
  2: { tail_begins "no"%string. }
  destruct H as [E5 H].
  apply (part_exact _ _ _ (txt "ST") entry_exact) in H; [|reflexivity|assumption|assumption| |].
  2: { tail_begins "ST"%string. }
  2: { tail_begins "ST"%string. }
  destruct H as [E6 H]. rewrite !map_id in E6.
  assert (E7 : z_reach a = z_reach b).
  { unfold reach_text in H. destruct (z_reach a) as [x|], (z_reach b) as [y|]; trivial; try discriminate H.
    const H. const H. apply rows_exact in H. congruence. }
  constructor; assumption.
Qed.
