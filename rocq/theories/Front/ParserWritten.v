(** A specification that is written as the syntax says is accepted by the
    grammar, with the tree the specification stands for. *)

From Coq Require Import List Ascii NArith Bool Lia PeanoNat.
From Verif Require Import Palm.StrModel Front.Syntax Front.SetsModel Front.ParserModel Front.ParserSpec.
Import ListNotations.

Lemma as_written : forall A (g : tokens -> A -> Prop) w v ts, g w v -> w = ts -> g ts v.
Proof. intros A g w v ts H <-. exact H. Qed.
Ltac flatten := unfold fields, braces, field in *; repeat (rewrite <- ?app_assoc; cbn [app separated]).
Ltac by_rule c := eapply as_written; [eapply c; eassumption | flatten; reflexivity].

Lemma separated_right : forall A (W : A -> tokens -> Prop) (ok : A -> Prop) (g : tokens -> A -> Prop) sep,
  (forall a ts, W a ts -> ok a -> g ts a) ->
  forall l ls, Forall2 W l ls -> Forall ok l -> l <> [] -> right_list sep g (separated sep ls) l.
Proof.
  intros A W ok g sep H l ls F. induction F as [|a ts l ls Ha F IH]; intros O N; [destruct N; reflexivity|].
  inversion O; subst. destruct F as [|b us l ls Hb F].
  - apply right_one. apply H; assumption.
  - cbn [separated]. constructor; [apply H; assumption|]. apply IH; [assumption | discriminate].
Qed.

Lemma separated_left : forall A (W : A -> tokens -> Prop) (g : tokens -> A -> Prop),
  (forall a ts, W a ts -> g ts a) ->
  forall l ls, Forall2 W l ls -> l <> [] -> left_list g (separated COMMA ls) (rev l).
Proof.
  intros A W g H.
  assert (front : forall ts l, left_list g ts l -> forall us v, g us v -> left_list g (us ++ COMMA :: ts) (l ++ [v])).
  { intros ts l L. induction L as [ts vs us v L IH Hv | ts v Hv]; intros us' v' Hv'.
    - replace (us' ++ COMMA :: ts ++ COMMA :: us) with ((us' ++ COMMA :: ts) ++ COMMA :: us)
        by (rewrite <- app_assoc; reflexivity).
      cbn [app]. constructor; auto.
    - cbn [app]. constructor; [apply left_one, Hv' | exact Hv]. }
  intros l ls F. induction F as [|a ts l ls Ha F IH]; intros N; [destruct N; reflexivity|].
  destruct F as [|b us l ls Hb F].
  - apply left_one, H, Ha.
  - cbn [rev separated]. apply (front _ (rev (b :: l))); [apply IH; discriminate | apply H, Ha].
Qed.

Lemma names_right : forall sep l, l <> [] -> right_list sep id (separated sep (map (fun i => [T_ID i]) l)) l.
Proof.
  intros sep l N. apply (separated_right _ (fun i ts => ts = [T_ID i]) (fun _ => True)).
  - intros a ts -> _. constructor.
  - clear N. induction l; constructor; auto.
  - apply Forall_forall. auto.
  - exact N.
Qed.

Lemma lifetime_reads : forall l ts, lifetime_written l ts -> lifetime_ok l -> g_lifetime ts l.
Proof.
  intros l ts H O. destruct H as [t b e ts us Hb He | t Ht].
  - destruct O as [Ob Oe]. cbn in Ob, Oe.
    assert (Gb : g_range ts b).
    { inversion Hb as [ts' [-> | ->] | p i]; subst; [constructor | constructor|].
      destruct i; constructor; apply names_right, Ob. }
    assert (Ge : g_range us e).
    { inversion He as [ts' [-> | ->] | p i]; subst; [constructor | constructor|].
      destruct i; constructor; apply names_right, Oe. }
    destruct t; constructor; assumption.
  - destruct Ht as [-> | ->]; constructor.
Qed.

Lemma lifetimes_read : forall l ls, Forall2 lifetime_written l ls -> Forall lifetime_ok l -> l <> [] ->
  g_lifetimes (separated COMMA ls) l.
Proof. exact (separated_right _ _ _ _ COMMA lifetime_reads). Qed.

Lemma child_reads : forall c ts, child_written c ts -> Forall lifetime_ok (ch_lifetimes c) -> g_child ts c.
Proof.
  intros c ts H O. destruct H as [n t | n t c l ls F]; [constructor|]. cbn in O.
  destruct l as [|x l].
  - inversion F; subst. destruct c; constructor.
  - assert (G : g_lifetimes (separated COMMA ls) (x :: l)) by (apply lifetimes_read; [assumption.. | discriminate]).
    destruct c; [|by_rule child_4].
    inversion F; subst. by_rule child_5.
Qed.

Definition keyword_of (o : option_syntax) : keyword :=
  match o with
  | Constructor => BAO_constructor
  | Inherited => BAO_inherited
  | Synthesized => BAO_synthesized
  | Lifetime l => BAO_lifetime l
  end.

Lemma keyword_reads : forall o ts, option_written o ts -> (forall l, o = Lifetime l -> lifetime_ok l) ->
  g_keyword ts (keyword_of o).
Proof.
  intros o ts H O. destruct H; constructor. apply lifetime_reads; [assumption | apply O; reflexivity].
Qed.

Lemma lifetimes_of_in : forall os l, In l (lifetimes_of os) <-> In (Lifetime l) os.
Proof.
  induction os as [|o os IH]; intros l; [reflexivity|].
  destruct o; cbn [lifetimes_of In]; rewrite IH; intuition congruence.
Qed.

Lemma keywords_read : forall os us, Forall2 option_written os us -> Forall lifetime_ok (lifetimes_of os) ->
  g_keywords (separated COMMA us) (map keyword_of os).
Proof.
  intros os us F O.
  assert (O' : Forall (fun o => forall l, o = Lifetime l -> lifetime_ok l) os).
  { rewrite Forall_forall in *. intros o Ho l ->. apply O, lifetimes_of_in, Ho. }
  clear O. induction F as [|o ts os us Ho F IH]; [constructor|]. inversion O'; subst.
  assert (G := keyword_reads _ _ Ho H1). destruct F as [|o2 us2 os us Ho2 F].
  - apply keywords_2, G.
  - cbn [separated]. apply keywords_3; [exact G | apply IH; assumption].
Qed.

Lemma options_parsed : forall os l c i s,
  fold_left parse_option (map keyword_of os) (mk_options l c i s)
  = mk_options (l ++ lifetimes_of os)
      (c || existsb (fun o => match o with Constructor => true | _ => false end) os)
      (i || existsb (fun o => match o with Inherited => true | _ => false end) os)
      (s || existsb (fun o => match o with Synthesized => true | _ => false end) os).
Proof.
  induction os as [|o os IH]; intros l c i s; cbn [map fold_left lifetimes_of existsb].
  - rewrite app_nil_r, !orb_false_r. reflexivity.
  - destruct o; cbn [keyword_of parse_option]; rewrite IH; cbn [orb]; rewrite ?orb_true_r; try reflexivity.
    rewrite <- app_assoc. reflexivity.
Qed.

Lemma flag_existsb : forall o os b (f : option_syntax -> bool),
  (forall x, f x = true <-> x = o) -> flag_of o os b -> existsb f os = b.
Proof.
  intros o os b f Hf [H1 H2]. destruct (existsb f os) eqn:E.
  - apply existsb_exists in E. destruct E as (x & Hx & Ex). apply Hf in Ex. subst. symmetry. auto.
  - destruct b; [|reflexivity]. rewrite <- E. apply existsb_exists. exists o. split; [auto | apply Hf, eq_refl].
Qed.

Lemma attribute_reads : forall a ts, attribute_written a ts -> attribute_ok a -> g_attribute ts a.
Proof.
  intros a ts H O. destruct H as [n t r ts Ht | n t r c i s l ts os us Ht Hc Hi Hs Hl F].
  - change (mk_attribute n t r false false false false []) with (new_attribute n t r no_options).
    destruct Ht as [r | r | t k Hk]; cbn [app]; [constructor | constructor|].
    apply attribute_2. cbn in Hk.
    repeat (destruct Hk as [[= <- <-] | Hk]; [constructor|]). contradiction.
  - unfold attribute_ok in O. cbn [at_lifetimes] in O. subst l.
    replace (mk_attribute n t r c i s false (lifetimes_of os))
      with (new_attribute n t r (parse_attribute_options (map keyword_of os))).
    2:{ unfold parse_attribute_options. rewrite options_parsed. unfold new_attribute. cbn.
        f_equal; (eapply flag_existsb; [|eassumption]); intros x; destruct x; split; congruence. }
    assert (K := keywords_read _ _ F O).
    destruct Ht as [r | r | t k Hk]; cbn [app]; [apply attribute_3, K | apply attribute_5, K|].
    apply attribute_1; [|exact K]. cbn in Hk.
    repeat (destruct Hk as [[= <- <-] | Hk]; [constructor|]). contradiction.
Qed.

Lemma reference_reads : forall r, g_reference (reference_syntax r) r.
Proof. intros [[c|] a]; constructor. Qed.

Lemma equation_reads : forall e ts, equation_written e ts -> g_equation ts e.
Proof.
  intros e ts H. destruct H as [r l | r]; constructor; try apply reference_reads.
  - apply (prodblock_1 (T_ARGS :: EQUALS :: fields (map reference_syntax l))).
    destruct l as [|x l]; [apply dependencybody_2|]. apply dependencybody_1.
    apply (separated_right _ (fun r ts => ts = reference_syntax r) (fun _ => True)).
    + intros a ts -> _. apply reference_reads.
    + generalize (x :: l). intros m. induction m; constructor; auto.
    + apply Forall_forall. auto.
    + discriminate.
  - apply prodblock_2.
Qed.

(** sets *)
Lemma setliterals_grow : forall l us acc, g_setliterals us acc ->
  g_setliterals (us ++ concat (map (fun i => [COMMA; T_ID i]) l)) (fold_left SETIDinsert l acc).
Proof.
  induction l as [|i l IH]; intros us acc H; cbn [map concat fold_left]; [rewrite app_nil_r; exact H|].
  rewrite app_assoc. apply IH. constructor. exact H.
Qed.
Lemma names_separated : forall i l,
  separated COMMA (map (fun i => [T_ID i]) (i :: l)) = T_ID i :: concat (map (fun i => [COMMA; T_ID i]) l).
Proof.
  intros i l. revert i. induction l as [|j l IH]; intros i; [reflexivity|].
  specialize (IH j). cbn [map separated concat app] in *. rewrite IH. reflexivity.
Qed.
Lemma literals_read : forall l, l <> [] ->
  g_setliterals (separated COMMA (map (fun i => [T_ID i]) l)) (parse_literal l).
Proof.
  intros [|i l] N; [destruct N; reflexivity|]. rewrite names_separated.
  apply (setliterals_grow l [T_ID i] (SETIDinsert LNull i)). constructor.
Qed.

Scheme set_written_min := Minimality for set_written Sort Prop
  with operand_written_min := Minimality for operand_written Sort Prop.
Combined Scheme set_operand_min from set_written_min, operand_written_min.

Lemma op_reads : forall o, g_setop (op_word o) o.
Proof. destruct o; constructor. Qed.

Lemma sets_read :
  (forall e ts, set_written e ts -> set_ok e -> g_setexpr ts (set_of e)) /\
  (forall e ts, operand_written e ts -> set_ok e -> g_setprimary ts (set_of e)).
Proof.
  apply set_operand_min.
  - intros e ts _ IH O. apply setexpr_2, IH, O.
  - intros o l r ts us _ IHl _ IHr [Ol Or]. apply setexpr_1. constructor; auto using op_reads.
  - intros l O. apply setprimary_2, literals_read, O.
  - intros i _. constructor.
  - intros o l r ts us _ IHl _ IHr [Ol Or]. apply setprimary_1. constructor; auto using op_reads.
Qed.

Lemma data_reads : forall d ts, data_written d ts -> g_travdataitem ts d.
Proof.
  intros [n t r] ts (us & H & ->). cbn in *. destruct H as [r | r | t k Hk]; [constructor | constructor|].
  constructor. cbn in Hk. repeat (destruct Hk as [[= <- <-] | Hk]; [constructor|]). contradiction.
Qed.

Lemma travdata_reads : forall d ds, Forall2 data_written d ds -> d <> [] ->
  g_travdata (T_TRAVDATA :: fields ds) (rev d).
Proof. intros d ds F N. constructor. apply (separated_left _ _ _ data_reads _ _ F N). Qed.

Lemma traversal_reads : forall x t ts, traversal_written t ts -> traversal_ok t ->
  g_traversal x ts (traversal_tree t x).
Proof.
  intros x t ts H [O1 O2]. destruct H as [n i u e d nodes data He Hd]. cbn in O1, O2.
  unfold traversal_tree; cbn [ts_name ts_uid ts_nodes ts_data ts_info option_map].
  assert (He' : match e with
                | None => nodes = []
                | Some e => exists ns, nodes = [ns] /\ g_traversalnodes ns (set_of e)
                end).
  { destruct e as [e|]; [|exact He]. destruct He as (ns & (us & Hs & ->) & ->).
    eexists. split; [reflexivity|]. constructor. apply sets_read; [exact Hs | apply O1; reflexivity]. }
  clear He.
  assert (Hd' : d <> [] -> g_travdata (T_TRAVDATA :: fields data) (rev d)) by (apply travdata_reads, Hd).
  destruct e as [e|]; [destruct He' as (ns & -> & He) | subst nodes];
    (destruct d as [|d0 d]; [clear Hd' | specialize (Hd' ltac:(discriminate)); revert Hd'; generalize (rev (d0 :: d)); intros rd Hd']);
    (destruct i as [i|]); cbn [filled rev info_field present].
  - by_rule traversal_4.
  - by_rule traversal_7.
  - by_rule traversal_1.
  - by_rule traversal_2.
  - by_rule traversal_5.
  - by_rule traversal_8.
  - destruct O2; [discriminate | discriminate | reflexivity].
  - by_rule traversal_6.
Qed.

Definition pass_tree (p : pass_syntax) : p_pass :=
  mk_ppass (mk_pass (pas_name p) (pas_uid p) (pas_func p)) (pas_info p).
Lemma pass_reads : forall p ts, pass_written p ts -> pass_ok p -> g_pass ts (pass_tree p).
Proof.
  intros p ts H O. destruct H as [n | n f | n i u f N].
  - constructor.
  - constructor.
  - unfold pass_ok in O. cbn in O. destruct i as [i|], u as [u|], f as [f|]; try (exfalso; intuition congruence).
    + apply (pass_1 n i u f).
    + apply (pass_6 n i u).
    + apply (pass_5 n i f).
    + apply (pass_2 n u f).
    + apply (pass_3 n u).
    + apply (pass_4 n f).
Qed.

(** * The tree *)
Definition phase_tree (h : heading) (l : list action) : p_phase :=
  mk_pphase (mk_phase (hd_name h) (hd_uid h) (hd_gate h) (map action_name l) (hd_start h) (hd_cycle h)) (hd_info h).
Definition add_item (s : parser) (x : item) : parser :=
  match x with
  | A_phase h l => add_phase s (phase_tree h l)
  | A_traversal t => add_traversal (next_traversal s) (traversal_tree t (trav_index s))
  | A_pass p => add_pass s (pass_tree p)
  | A_node n => add_node s n
  | A_nodeset n i e a => add_nodeset s (mk_pnodeset (mk_nodeset n (set_of e) a) i)
  | An_enum e i => add_enum s (mk_penum e i)
  end.
Definition add_items (s : parser) (l : list item) : parser := fold_left add_item l s.

Lemma add_items_all : forall l s,
  add_items s l =
  mk_parser
    (rev (pick the_phase l) ++ AST_IPHASES s)
    (rev (numbered_from traversal_tree (trav_index s) (pick the_traversal l)) ++ AST_ITRAVERSALS s)
    (rev (pick the_pass l) ++ AST_IPASSES s)
    (rev (numbered_from mk_pnode (node_index s) (pick the_node l)) ++ AST_INODES s)
    (rev (pick the_nodeset l) ++ AST_INODESETS s)
    (rev (pick the_enum l) ++ AST_ENUMS s)
    (trav_index s + length (pick the_traversal l))
    (node_index s + length (pick the_node l)).
Proof.
  induction l as [|x l IH]; intros s.
  - destruct s; cbn. rewrite !Nat.add_0_r. reflexivity.
  - unfold add_items in *. cbn [fold_left]. rewrite IH. clear IH. destruct x; destruct s as [fa tr pa no se en ti ni];
      cbn [pick the_phase the_traversal the_pass the_node the_nodeset the_enum numbered_from rev
           add_item add_phase add_traversal add_pass add_node add_nodeset add_enum next_traversal length
           AST_IPHASES AST_ITRAVERSALS AST_IPASSES AST_INODES AST_INODESETS AST_ENUMS trav_index node_index];
      rewrite <- ?app_assoc; cbn [app]; f_equal; lia.
Qed.

Lemma tree_of_items : forall d, tree_of d = add_items init_parser (flat_map items_of d).
Proof. intros d. rewrite add_items_all. cbn. rewrite !app_nil_r. reflexivity. Qed.

(** * Phases *)
Lemma phase_reads : forall h l s ts s', heading_ok h -> g_actions s ts (map action_name l) s' ->
  g_phase s
    (flag (hd_start h) T_START ++ (if hd_cycle h then T_CYCLE else T_PHASE) :: T_ID (hd_name h) ::
     fields (info_field (hd_info h) ++ name_field T_UID (hd_uid h) ++ name_field T_GATE (hd_gate h)
             ++ [T_ACTIONS :: braces ts]))
    (phase_tree h l) s'.
Proof.
  intros [st cy n i u g] l s ts s' O Ha. unfold heading_ok in O. unfold phase_tree.
  cbn [hd_start hd_cycle hd_name hd_info hd_uid hd_gate] in *. apply actionsbody_1 in Ha.
  assert (Hs : g_is_start (flag st T_START) st) by (destruct st; constructor).
  assert (H1 := phaseheader_1 _ _ n Hs). assert (H2 := cycleheader_1 _ _ n Hs).
  revert Ha H1 H2. generalize (flag st T_START). generalize (map action_name l). clear Hs. intros as_ hs Ha H1 H2.
  assert (G : forall g, g_gate [T_GATE; EQUALS; T_ID g] (Some g)) by (intros; constructor).
  change (mk_pphase (mk_phase n u g as_ st cy) i) with (new_phase (n, st) cy i u g as_).
  destruct cy, i as [i|], u as [u|], g as [g|]; cbn [info_field name_field present].
  all: first [exfalso; destruct (O eq_refl) as [E|[E|E]]; discriminate | idtac].
  all: match goal with |- g_phase ?s _ _ ?s' =>
    let go r := (eapply (as_written _ (fun ts p => g_phase s ts p s')); [eapply r; eauto using gate_1 | flatten; reflexivity]) in
    first [go cycle_2 | go cycle_3 | go cycle_4 | go cycle_6 | go cycle_7 | go cycle_8 | go cycle_5
          | go phase_1 | go phase_2 | go phase_3 | go phase_4 | go phase_6 | go phase_7 | go phase_8 | go phase_5]
  end.
Qed.

Scheme action_written_min := Minimality for action_written Sort Prop
  with actions_written_min := Minimality for actions_written Sort Prop.
Combined Scheme actions_min from action_written_min, actions_written_min.

Lemma add_items_app : forall l m s, add_items s (l ++ m) = add_items (add_items s l) m.
Proof. intros. apply fold_left_app. Qed.

Lemma actions_read :
  (forall a ts, action_written a ts -> action_ok a ->
     forall s, g_action s ts (action_name a) (add_items s (items_of_action a))) /\
  (forall l ts, actions_written l ts -> Forall action_ok l -> l <> [] ->
     forall s, g_actions s ts (map action_name l) (add_items s (flat_map items_of_action l))).
Proof.
  apply actions_min.
  - intros i _ s. constructor.
  - intros t ts H O s. inversion O; subst.
    apply (action_1 s ts (traversal_tree t (trav_index s))), traversal_reads; assumption.
  - intros p ts H O s. inversion O; subst. apply (action_2 s ts (pass_tree p)), pass_reads; assumption.
  - intros h l ts _ IH O s. inversion O as [ | | | h' l' Oh N Ol]; subst. cbn [items_of_action action_name].
    rewrite add_items_app. cbn [add_items fold_left add_item].
    apply (action_3 s _ (phase_tree h l)), phase_reads; [exact Oh|]. apply IH; assumption.
  - intros _ N. destruct N. reflexivity.
  - intros a l ts us _ IHa Hl IHl O N s. inversion O; subst. cbn [map flat_map]. rewrite add_items_app.
    destruct Hl as [|b l us vs Hb Hl].
    + cbn [map flat_map add_items fold_left]. apply actions_2, IHa. assumption.
    + eapply actions_1; [apply IHa; assumption | apply IHl; [assumption | discriminate]].
Qed.

Lemma children_read : forall c cs, Forall2 child_written c cs ->
  Forall (fun c => Forall lifetime_ok (ch_lifetimes c)) c -> c <> [] -> g_childrenbody (T_CHILDREN :: fields cs) c.
Proof. intros. constructor. eapply separated_right; [exact child_reads | eassumption..]. Qed.
Lemma attributes_read : forall c cs, Forall2 attribute_written c cs ->
  Forall attribute_ok c -> c <> [] -> g_attributebody (T_ATTRIBUTES :: fields cs) c.
Proof. intros. constructor. eapply separated_right; [exact attribute_reads | eassumption..]. Qed.
Lemma equations_read : forall c cs, Forall2 equation_written c cs ->
  c <> [] -> g_equationbody (T_EQUATIONS :: fields cs) c.
Proof.
  intros c cs H N. constructor. apply (separated_right _ equation_written (fun _ => True)).
  - intros a ts Ha _. apply equation_reads, Ha.
  - exact H.
  - apply Forall_forall. auto.
  - exact N.
Qed.
Lemma nodelifetimes_read : forall c cs, Forall2 lifetime_written c cs ->
  Forall lifetime_ok c -> c <> [] -> g_nodelifetimes (T_LIFETIME :: fields cs) c.
Proof. intros. constructor. apply lifetimes_read; assumption. Qed.

Lemma node_reads : forall n ts, declaration_written (Node n) ts -> node_ok n -> g_node ts n.
Proof.
  intros n ts H (Oc & Oa & Ol & On).
  inversion H as [| n' r c a e l cs as_ es ls Hc Ha He Hl | | |]; subst. clear H. cbn in Oc, Oa, Ol, On.
  assert (Hr : g_is_root (flag r T_ROOT) r) by (destruct r; constructor).
  revert Hr. generalize (flag r T_ROOT). intros rs Hr.
  assert (Gc := children_read _ _ Hc Oc). assert (Ga := attributes_read _ _ Ha Oa).
  assert (Ge := equations_read _ _ He). assert (Gl := nodelifetimes_read _ _ Hl Ol).
  destruct c as [|c0 c]; [|specialize (Gc ltac:(discriminate))];
  (destruct a as [|a0 a]; [|specialize (Ga ltac:(discriminate))]);
  (destruct e as [|e0 e]; [|specialize (Ge ltac:(discriminate))]);
  (destruct l as [|l0 l]; [|specialize (Gl ltac:(discriminate))]);
  cbn [filled];
  try (exfalso; destruct On as [N | N]; [discriminate | apply N; reflexivity..]);
  first [by_rule node_1 | by_rule node_2 | by_rule node_3 | by_rule node_4 | by_rule node_5 | by_rule node_6
             | by_rule node_7 | by_rule node_8 | by_rule node_9 | by_rule node_10 | by_rule node_11 | by_rule node_12
             | by_rule node_13 | by_rule node_14].
Qed.

Lemma declaration_reads : forall d ts, declaration_written d ts -> declaration_ok d ->
  forall s, g_entry s ts (add_items s (items_of d)).
Proof.
  intros d ts H O s. destruct H as [a ts Na H | | n i e a ts as_ He Ha | n e ts He | n p l i].
  - cbn [items_of declaration_ok] in *. destruct H as [i | t ts H | p ts H | h l ts H].
    + destruct (Na i). reflexivity.
    + inversion O; subst. apply (entry_3 s ts (traversal_tree t (trav_index s))), traversal_reads; assumption.
    + inversion O; subst. apply (entry_2 s ts (pass_tree p)), pass_reads; assumption.
    + inversion O as [ | | | h' l' Oh N Ol]; subst. cbn [items_of_action].
      rewrite add_items_app. cbn [add_items fold_left add_item].
      apply (entry_1 s _ (phase_tree h l)), phase_reads; [exact Oh|]. apply actions_read; assumption.
  - cbn [items_of add_items fold_left add_item]. apply entry_4, node_reads; [|exact O]. constructor; assumption.
  - destruct O as [Oe Oa]. cbn [items_of add_items fold_left add_item]. apply entry_5.
    assert (Ge := proj1 sets_read _ _ He Oe). assert (Ga := attributes_read _ _ Ha Oa).
    destruct i as [i|], a as [|a0 a]; try specialize (Ga ltac:(discriminate)); cbn [filled info_field present].
    + by_rule nodeset_2.
    + by_rule nodeset_1.
    + by_rule nodeset_4.
    + by_rule nodeset_3.
  - destruct O as [Oe Oa]. apply entry_5, nodeset_5. apply sets_read; assumption.
  - cbn in O. apply entry_6. assert (G := enumvalues_1 _ _ (names_right COMMA l O)).
    destruct i as [i|]; cbn [info_field present].
    + by_rule enum_1.
    + by_rule enum_2.
Qed.

Lemma specification_reads : forall d ts, written d ts -> Forall declaration_ok d ->
  forall s, g_entries s ts (add_items s (flat_map items_of d)).
Proof.
  intros d ts H. induction H as [| d ts H | d l ts us Hd Hl IH]; intros O s.
  - apply entries_3.
  - inversion O; subst. cbn [flat_map]. rewrite app_nil_r. apply entries_2, declaration_reads; assumption.
  - inversion O; subst. cbn [flat_map]. rewrite add_items_app.
    eapply entries_1; [apply declaration_reads | apply IH]; assumption.
Qed.

Theorem written_reads : forall d ts, written d ts -> Forall declaration_ok d -> SPparseDSL ts (tree_of d).
Proof. intros d ts H O. rewrite tree_of_items. apply specification_reads; assumption. Qed.
