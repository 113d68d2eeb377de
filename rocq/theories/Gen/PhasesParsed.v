(** What the parser delivers: phases with actions, and ranges with names. *)

From Coq Require Import List Ascii Bool.
From Verif Require Import Palm.StrModel Front.Syntax Front.FileModel Front.ParserModel Front.ParserSpec Front.ParserDecls
  Front.ParserElse Gen.CompileParsed.
Import ListNotations.

Lemma range_named : forall ts r, g_range ts r -> range_ok r.
Proof.
  intros ts r H. inversion H; subst; cbn; auto;
    match goal with K : range_spec _ _ |- _ => destruct (right_nonempty _ _ _ _ _ K) as (v & vs & ->); discriminate end.
Qed.
Lemma lifetime_named : forall ts l, g_lifetime ts l -> lifetime_ok l.
Proof.
  intros ts l H. inversion H; subst; split; cbn [lt_begin lt_end]; try exact I; eapply range_named; eassumption.
Qed.
Lemma lifetimes_named : forall ts l, g_lifetimes ts l -> forall x, In x l -> lifetime_ok x.
Proof. intros ts l H. eapply right_list_all; [exact lifetime_named|exact H]. Qed.
Lemma nodelifetimes_named : forall ts l, g_nodelifetimes ts l -> forall x, In x l -> lifetime_ok x.
Proof. intros ts l H. inversion H; subst; [intros x []|]. eapply lifetimes_named; eassumption. Qed.

Lemma child_named : forall ts c, g_child ts c -> forall x, In x (ch_lifetimes c) -> lifetime_ok x.
Proof. intros ts c H. inversion H; subst; cbn [ch_lifetimes]; try (intros x []); eapply lifetimes_named; eassumption. Qed.
Lemma children_named : forall ts l, g_childrenbody ts l -> forall c x, In c l -> In x (ch_lifetimes c) -> lifetime_ok x.
Proof.
  intros ts l H. inversion H; subst. intros c x I. revert x.
  exact (right_list_all _ _ g_child (fun c => forall x, In x (ch_lifetimes c) -> lifetime_ok x) child_named _ _ H0 c I).
Qed.

Lemma keywords_named : forall ts ks, g_keywords ts ks -> forall l, In (BAO_lifetime l) ks -> lifetime_ok l.
Proof.
  intros ts ks H. induction H as [|ts k K|ts k us ks K H IH]; intros l I.
  - destruct I.
  - destruct I as [->|[]]. inversion K; subst. eapply lifetime_named; eassumption.
  - destruct I as [->|I]; [|auto]. inversion K; subst. eapply lifetime_named; eassumption.
Qed.
Lemma options_named : forall ks o, (forall l, In (BAO_lifetime l) ks -> lifetime_ok l) ->
  (forall l, In l (opt_lifetime o) -> lifetime_ok l) -> forall l, In l (opt_lifetime (fold_left parse_option ks o)) -> lifetime_ok l.
Proof.
  induction ks as [|k ks IH]; intros o Hk Ho l I; cbn [fold_left] in I; [auto|].
  apply (IH (parse_option o k)); auto.
  - intros m J. apply Hk. now right.
  - intros m J. destruct o as [ls c i s]. destruct k; cbn [parse_option opt_lifetime] in *; auto.
    apply in_app_or in J. destruct J as [J|[<-|[]]]; auto. apply Hk. now left.
Qed.
Lemma attribute_named : forall ts x, g_attribute ts x -> forall l, In l (at_lifetimes x) -> lifetime_ok l.
Proof.
  intros ts x H. inversion H; subst; cbn [new_attribute at_lifetimes]; try (intros l []);
    (eapply options_named; [eapply keywords_named; eassumption|intros ? []]).
Qed.
Lemma attributes_named : forall ts l, g_attributebody ts l -> forall x y, In x l -> In y (at_lifetimes x) -> lifetime_ok y.
Proof.
  intros ts l H. inversion H; subst. intros x y I. revert y.
  exact (right_list_all _ _ g_attribute (fun x => forall y, In y (at_lifetimes x) -> lifetime_ok y) attribute_named _ _ H0 x I).
Qed.

(** The lifetimes of a node or nodeset, and the actions of a phase *)
Record node_named (n : inode) : Prop := {
  nn_node : forall l, In l (nd_lifetimes n) -> lifetime_ok l;
  nn_children : forall c l, In c (nd_children n) -> In l (ch_lifetimes c) -> lifetime_ok l;
  nn_attributes : forall x l, In x (nd_attributes n) -> In l (at_lifetimes x) -> lifetime_ok l }.

Lemma node_is_named : forall ts n, g_node ts n -> node_named n.
Proof.
  intros ts n H. inversion H; subst; constructor; cbn [nd_lifetimes nd_children nd_attributes];
    first [eapply nodelifetimes_named; eassumption|eapply children_named; eassumption|eapply attributes_named; eassumption|
           solve [intros ? []]|solve [intros ? ? []]].
Qed.
Lemma nodeset_is_named : forall ts n, g_nodeset ts n ->
  forall x l, In x (ns_attributes (pset_nodeset n)) -> In l (at_lifetimes x) -> lifetime_ok l.
Proof.
  intros ts n H. inversion H; subst; cbn [pset_nodeset ns_attributes];
    first [eapply attributes_named; eassumption|intros ? ? []].
Qed.

Record named (p : parser) : Prop := {
  nm_phases : forall q, In q (AST_IPHASES p) -> ph_actions (pp_phase q) <> [];
  nm_nodes : forall n, In n (AST_INODES p) -> node_named (pn_node n);
  nm_sets : forall m x l, In m (AST_INODESETS p) -> In x (ns_attributes (pset_nodeset m)) -> In l (at_lifetimes x) -> lifetime_ok l }.

Lemma phases_named :
  (forall s ts p s', g_phase s ts p s' -> (named s -> named s') /\ ph_actions (pp_phase p) <> []) /\
  (forall s ts l s', g_actionsbody s ts l s' -> (named s -> named s') /\ l <> []) /\
  (forall s ts l s', g_actions s ts l s' -> (named s -> named s') /\ l <> []) /\
  (forall s ts l s', g_action s ts l s' -> named s -> named s').
Proof.
  apply phase_mutind; intros; auto; try (match goal with K : _ /\ _ |- _ => exact K end).
  - destruct H2 as [H2 _]. split; [tauto|discriminate].
  - split; [tauto|discriminate].
  - destruct H0 as [A B C]. constructor; cbn; auto.
  - destruct H0 as [A B C]. constructor; cbn; auto.
  - destruct H0 as [H0 N]. destruct (H0 H1) as [A B C]. constructor; cbn; auto. intros q [<-|I]; auto.
Qed.

Lemma entry_named : forall s ts s', g_entry s ts s' -> named s -> named s'.
Proof.
  intros s ts s' H R. inversion H as [s0 t0 p s1 G|s0 t0 p G|s0 t0 t G|s0 t0 n G|s0 t0 n G|s0 t0 e G]; subst.
  - destruct (proj1 phases_named _ _ _ _ G) as [F N]. destruct (F R) as [A B C]. constructor; cbn; auto. intros q [<-|I]; auto.
  - destruct R as [A B C]. constructor; cbn; auto.
  - destruct R as [A B C]. constructor; cbn; auto.
  - destruct R as [A B C]. constructor; cbn [add_node AST_IPHASES AST_INODES AST_INODESETS]; auto.
    intros m [<-|I]; auto. exact (node_is_named _ _ G).
  - destruct R as [A B C]. constructor; cbn [add_nodeset AST_IPHASES AST_INODES AST_INODESETS]; auto.
    intros m x l [<-|I]; [apply (nodeset_is_named _ _ G)|apply C, I].
  - destruct R as [A B C]. constructor; cbn; auto.
Qed.

Theorem tree_named : forall t p, reads_file t p ->
  (forall q, In q (a_phases (ast_of p)) -> ph_actions q <> []) /\
  (forall n, In n (a_nodes (ast_of p)) -> node_named n) /\
  (forall m x l, In m (a_nodesets (ast_of p)) -> In x (ns_attributes m) -> In l (at_lifetimes x) -> lifetime_ok l).
Proof.
  intros t p H.
  assert (R : named p).
  { destruct H as (ts & s & ks & _ & _ & H).
    assert (E : forall s ts s', g_entries s ts s' -> named s -> named s').
    { intros s0 ts0 s0' K. induction K; intros R; eauto using entry_named. }
    apply (E _ _ _ H). constructor; cbn; contradiction. }
  destruct R as [A B C]. unfold ast_of. cbn [a_phases a_nodes a_nodesets]. split; [|split].
  - intros q I. apply in_map_iff in I. destruct I as (m & <- & I). exact (A m I).
  - intros q I. apply in_map_iff in I. destruct I as (m & <- & I). exact (B m I).
  - intros q x l I. apply in_map_iff in I. destruct I as (m & <- & I). exact (C m x l I).
Qed.
