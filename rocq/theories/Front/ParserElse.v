(** Nothing else is accepted: what the grammar derives is, commas and the
    brackets of ranges apart, the text of a specification. *)

From Coq Require Import List Ascii NArith Bool Lia PeanoNat.
From Verif Require Import Palm.StrModel Front.Syntax Front.SetsModel Front.ParserModel Front.ParserSpec.
From Verif Require Import Front.ParserWritten.
Import ListNotations.

Definition same (us ts : tokens) : Prop := forall b rest, words_from b (us ++ rest) = words_from b (ts ++ rest).

Lemma same_refl : forall ts, same ts ts.
Proof. intros ts b rest. reflexivity. Qed.
Lemma words_prefix : forall us X Y, (forall b, words_from b X = words_from b Y) ->
  forall b, words_from b (us ++ X) = words_from b (us ++ Y).
Proof.
  induction us as [|t us IH]; intros X Y H b; [apply H|]. specialize (IH X Y H).
  cbn [app]. destruct t; cbn [words_from bracket]; try (rewrite IH; reflexivity);
    destruct b; cbn [andb]; rewrite IH; reflexivity.
Qed.
Lemma same_app : forall us ts us' ts', same us ts -> same us' ts' -> same (us ++ us') (ts ++ ts').
Proof.
  intros us ts us' ts' H H' b rest. rewrite <- !app_assoc, H. apply words_prefix. intros b'. apply H'.
Qed.
Lemma same_cons : forall t us ts, same us ts -> same (t :: us) (t :: ts).
Proof. intros t us ts H. apply (same_app [t] [t]); [apply same_refl | exact H]. Qed.
Ltac same_step := first [assumption | apply same_refl | apply same_cons | apply same_app].
Ltac same_all := flatten; repeat same_step.

Lemma same_fields : forall ls ms, Forall2 same ls ms -> same (fields ls) (fields ms).
Proof.
  intros ls ms F. unfold fields, braces. apply same_cons, same_app; [|apply same_refl].
  induction F as [|l m ls ms H F IH]; [apply same_refl|]. destruct F; [exact H|].
  cbn [separated] in *. apply same_app; [exact H | apply same_cons, IH].
Qed.
Lemma same_list : forall ls, Forall2 same ls ls.
Proof. induction ls; constructor; auto using same_refl. Qed.

(** a form of a phrase and the tokens of the phrase *)
Definition some_form {A} (W : A -> tokens -> Prop) (a : A) (ts : tokens) : Prop := exists us, W a us /\ same us ts.

Lemma right_forms : forall A (W : A -> tokens -> Prop) (g : tokens -> A -> Prop),
  (forall ts a, g ts a -> some_form W a ts) ->
  forall ts l, right_list COMMA g ts l -> exists ls, Forall2 W l ls /\ same (separated COMMA ls) ts.
Proof.
  intros A W g H ts l L. induction L as [ts v us vs Hv L IH | ts v Hv].
  - destruct (H _ _ Hv) as (u & Wu & Su). destruct IH as (ls & F & S). exists (u :: ls). split; [constructor; assumption|].
    inversion F; subst; [inversion L|]. cbn [separated]. same_all.
  - destruct (H _ _ Hv) as (u & Wu & Su). exists [u]. split; [constructor; [assumption | constructor] | exact Su].
Qed.

Lemma right_not_nil : forall A sep (g : tokens -> A -> Prop) ts l, right_list sep g ts l -> l <> [].
Proof. intros A sep g ts l H. inversion H; discriminate. Qed.

Lemma left_right : forall A (g : tokens -> A -> Prop) ts l, left_list g ts l -> right_list COMMA g ts (rev l).
Proof.
  intros A g.
  assert (back : forall ts l, right_list COMMA g ts l -> forall us v, g us v -> right_list COMMA g (ts ++ COMMA :: us) (l ++ [v])).
  { intros ts l L. induction L as [ts v us vs Hv L IH | ts v Hv]; intros us' v' Hv'.
    - rewrite <- app_assoc. cbn [app]. constructor; auto.
    - cbn [app]. constructor; [exact Hv | apply right_one, Hv']. }
  intros ts l L. induction L as [ts vs us v L IH Hv | ts v Hv]; cbn [rev app].
  - apply back; assumption.
  - apply right_one, Hv.
Qed.

Lemma names_exact : forall sep ts l, right_list sep id ts l -> ts = separated sep (map (fun i => [T_ID i]) l).
Proof.
  intros sep ts l L. induction L as [ts v us vs Hv L IH | ts v Hv]; inversion Hv; subst.
  - destruct vs; [inversion L | reflexivity].
  - reflexivity.
Qed.

(** ranges *)
Lemma path_words : forall p rest, words_from true (path p ++ rest) = path p ++ words_from true rest.
Proof.
  intros p rest. unfold path. induction p as [|i p IH]; [reflexivity|]. destruct p as [|j p]; [reflexivity|].
  cbn [map separated app] in *. cbn [words_from bracket andb lifetime_start range_part orb].
  rewrite IH. reflexivity.
Qed.

Definition range_words (r : option lifetime_range) : tokens :=
  match r with None => [] | Some r => path (lr_target r) end.
Lemma range_form : forall ts r, g_range ts r -> forall rest,
  words_from true (ts ++ rest) = range_words r ++ words_from true rest.
Proof.
  intros ts r H rest. destruct H as [ | | | ts p H | ts p H | ts p H | ts p H]; try reflexivity;
    apply names_exact in H; subst ts; fold (path p); cbn [range_words lr_target];
    rewrite <- ?app_assoc; cbn [app words_from bracket andb]; rewrite path_words; reflexivity.
Qed.
Lemma begin_form : forall r, exists us, begin_written r us /\ forall rest,
  words_from true (us ++ rest) = range_words r ++ words_from true rest.
Proof.
  intros [[p i]|].
  - eexists. split; [constructor|]. intros rest. cbn [range_words lr_target app].
    rewrite <- path_words. destruct i; reflexivity.
  - exists []. split; [constructor; auto | reflexivity].
Qed.
Lemma end_form : forall r, exists us, end_written r us /\ forall rest,
  words_from true (us ++ rest) = range_words r ++ words_from true rest.
Proof.
  intros [[p i]|].
  - eexists. split; [constructor|]. intros rest. cbn [range_words lr_target].
    rewrite <- app_assoc, path_words. destruct i; reflexivity.
  - exists []. split; [constructor; auto | reflexivity].
Qed.

Lemma lifetime_form : forall ts l, g_lifetime ts l -> some_form lifetime_written l ts.
Proof.
  assert (R : forall t ts b us e, g_range ts b -> g_range us e ->
            some_form lifetime_written (mk_lifetime t b e) (lifetime_word t :: ts ++ T_ARROW :: us)).
  { intros t ts b us e Hb He. destruct (begin_form b) as (bs & Wb & Sb). destruct (end_form e) as (es & We & Se).
    eexists. split; [constructor; eassumption|]. intros r rest. cbn [app]. rewrite <- !app_assoc. cbn [app].
    assert (E : words_from true (bs ++ T_ARROW :: es ++ rest) = words_from true (ts ++ T_ARROW :: us ++ rest)).
    { rewrite Sb, (range_form _ _ Hb). cbn [words_from bracket andb lifetime_start range_part orb].
      rewrite Se, (range_form _ _ He). reflexivity. }
    destruct t; cbn [lifetime_word words_from bracket andb lifetime_start range_part orb]; rewrite E; reflexivity. }
  intros ts l H. destruct H; try (apply (R LT_disallowed) || apply (R LT_allowed) || apply (R LT_mandatory) || apply (R LT_optional)); try assumption.
  - exists [T_DISALLOWED]. split; [apply (lifetime_always_written LT_disallowed); auto | apply same_refl].
  - exists [T_MANDATORY]. split; [apply (lifetime_always_written LT_mandatory); auto | apply same_refl].
Qed.

Lemma lifetimes_form : forall ts l, g_lifetimes ts l ->
  exists ls, Forall2 lifetime_written l ls /\ same (separated COMMA ls) ts.
Proof. exact (right_forms _ _ _ lifetime_form). Qed.

Ltac form c := eexists; split; [eapply c; eassumption | same_all].

Lemma child_form : forall ts c, g_child ts c -> some_form child_written c ts.
Proof.
  intros ts c H. destruct H as [t n | t n | t n | t n ts l H | t n ts l H].
  - form child_bare.
  - exists (T_ID t :: T_ID n :: fields []). split; [apply (child_options n t false [] []); constructor | apply same_refl].
  - exists (T_ID t :: T_ID n :: fields [[T_CONSTRUCTOR]]).
    split; [apply (child_options n t true [] []); constructor | apply same_refl].
  - destruct (lifetimes_form _ _ H) as (ls & F & S).
    exists (T_ID t :: T_ID n :: fields ls). split; [apply (child_options n t false l ls F) | same_all].
  - destruct (lifetimes_form _ _ H) as (ls & F & S).
    exists (T_ID t :: T_ID n :: fields ([T_CONSTRUCTOR] :: ls)). split; [apply (child_options n t true l ls F)|].
    inversion F; subst; [destruct (right_not_nil _ _ _ _ _ H); reflexivity|]. same_all.
Qed.

Lemma keyword_form : forall ts k, g_keyword ts k -> exists o, keyword_of o = k /\ some_form option_written o ts.
Proof.
  intros ts k H. destruct H as [ | | | ts l H].
  - exists Constructor. split; [reflexivity|]. form constructor_written.
  - exists Inherited. split; [reflexivity|]. form inherited_written.
  - exists Synthesized. split; [reflexivity|]. form synthesized_written.
  - exists (Lifetime l). split; [reflexivity|]. destruct (lifetime_form _ _ H) as (us & Hw & S). form lifetime_option.
Qed.

Lemma comma_brace : same [RBRACE] [COMMA; RBRACE].
Proof. intros [] rest; reflexivity. Qed.

Lemma keywords_form : forall ts ks, g_keywords ts ks ->
  exists os us, Forall2 option_written os us /\ map keyword_of os = ks /\
    same (separated COMMA us ++ [RBRACE]) (ts ++ [RBRACE]).
Proof.
  intros ts ks H. induction H as [ | ts k Hk | ts k us ks Hk H IH].
  - exists [], []. split; [constructor | split; [reflexivity | apply same_refl]].
  - destruct (keyword_form _ _ Hk) as (o & Eo & u & Hu & S). exists [o], [u].
    split; [constructor; [assumption | constructor] | split; [cbn; rewrite Eo; reflexivity | same_all]].
  - destruct (keyword_form _ _ Hk) as (o & Eo & u & Hu & S). destruct IH as (os & us' & F & E & S').
    exists (o :: os), (u :: us'). split; [constructor; assumption | split; [cbn; rewrite Eo, E; reflexivity|]].
    inversion F as [|o2 u2 os' us2 Ho2 F']; subst.
    + cbn [map] in H. inversion H; subst. flatten. apply same_app; [exact S | apply comma_brace].
    + rewrite <- app_assoc. cbn [separated app]. rewrite <- app_assoc.
      apply same_app; [exact S|]. cbn [app]. apply same_cons. exact S'.
Qed.

Lemma existsb_flag : forall o os (f : option_syntax -> bool), (forall x, f x = true <-> x = o) ->
  flag_of o os (existsb f os).
Proof.
  intros o os f Hf. unfold flag_of. rewrite existsb_exists. split.
  - intros (x & Hx & Ex). apply Hf in Ex. subst. exact Hx.
  - intros H. exists o. split; [exact H | apply Hf, eq_refl].
Qed.

Lemma primitive_form : forall p t, g_primitive p t -> type_written t None [p].
Proof. intros p t H. constructor. destruct H; cbn; tauto. Qed.

Lemma attribute_form : forall ts a, g_attribute ts a -> some_form attribute_written a ts.
Proof.
  assert (L : forall tt t r n ts ks, type_written t r tt -> g_keywords ts ks ->
     some_form attribute_written (new_attribute n t r (parse_attribute_options ks)) (tt ++ T_ID n :: LBRACE :: ts ++ [RBRACE])).
  { intros tt t r n ts ks Ht H. destruct (keywords_form _ _ H) as (os & us & F & E & S). subst ks.
    unfold parse_attribute_options. rewrite options_parsed.
    eexists. split.
    - eapply attribute_options; [exact Ht | | | | reflexivity | exact F];
        cbn [opt_constructor opt_inherited opt_synthesized orb]; apply existsb_flag;
        intros x; destruct x; split; congruence.
    - unfold fields, braces. apply same_app; [apply same_refl|]. do 2 apply same_cons. exact S. }
  assert (B : forall tt t r n, type_written t r tt ->
     some_form attribute_written (new_attribute n t r no_options) (tt ++ [T_ID n])).
  { intros tt t r n Ht. eexists. split; [apply attribute_bare, Ht | apply same_refl]. }
  intros ts a H. destruct H.
  - apply (L [p]); [apply primitive_form|]; assumption.
  - apply (B [p]), primitive_form. assumption.
  - apply (L [T_ID r]); [constructor | assumption].
  - apply (B [T_ID r]). constructor.
  - apply (L [T_UNSAFE; T_ID r]); [constructor | assumption].
  - apply (B [T_UNSAFE; T_ID r]). constructor.
Qed.

Lemma reference_exact : forall ts r, g_reference ts r -> ts = reference_syntax r.
Proof. intros ts r H. destruct H; reflexivity. Qed.
Lemma references_exact : forall ts l, right_list COMMA g_reference ts l -> ts = separated COMMA (map reference_syntax l).
Proof.
  intros ts l L. induction L as [ts v us vs Hv L IH | ts v Hv]; apply reference_exact in Hv; subst.
  - destruct vs; [inversion L | reflexivity].
  - reflexivity.
Qed.
Lemma equation_form : forall ts e, g_equation ts e -> some_form equation_written e ts.
Proof.
  intros ts e H. destruct H as [ts r us l Hr Hp]. apply reference_exact in Hr. subst.
  destruct Hp as [us l Hd|].
  - destruct Hd as [us l Hl|].
    + apply references_exact in Hl. subst. eexists. split; [apply equation_args | same_all].
    + eexists. split; [apply equation_args | same_all].
  - eexists. split; [apply equation_bare | same_all].
Qed.

(** sets *)
Scheme g_setexpr_min := Minimality for g_setexpr Sort Prop
  with g_setprimary_min := Minimality for g_setprimary Sort Prop
  with g_setoperation_min := Minimality for g_setoperation Sort Prop.
Combined Scheme g_sets_min from g_setexpr_min, g_setprimary_min, g_setoperation_min.

Lemma literals_form : forall ts l, g_setliterals ts l ->
  exists n, n <> [] /\ ts = separated COMMA (map (fun i => [T_ID i]) n) /\ l = parse_literal n.
Proof.
  intros ts l H. induction H as [ts l i H IH | i].
  - destruct IH as (n & N & -> & ->). exists (n ++ [i]). repeat split.
    + destruct n; discriminate.
    + destruct n as [|a n]; [destruct N; reflexivity|]. cbn [app]. rewrite !names_separated. cbn [app]. f_equal.
      rewrite map_app, concat_app. reflexivity.
    + unfold parse_literal. rewrite fold_left_app. reflexivity.
  - exists [i]. repeat split. discriminate.
Qed.

Lemma setop_word : forall t o, g_setop t o -> t = op_word o.
Proof. intros t o H. destruct H; reflexivity. Qed.

Lemma set_forms :
  (forall ts e, g_setexpr ts e -> exists x, set_of x = e /\ set_written x ts) /\
  (forall ts e, g_setprimary ts e -> exists x, set_of x = e /\ operand_written x ts) /\
  (forall ts e, g_setoperation ts e -> exists o l r us vs, set_of (Operation o l r) = e /\
     set_written l us /\ operand_written r vs /\ ts = us ++ op_word o :: vs).
Proof.
  apply g_sets_min.
  - intros ts e _ (o & l & r & us & vs & E & Hl & Hr & ->). exists (Operation o l r). split; [exact E|].
    constructor; assumption.
  - intros ts e _ (x & E & H). exists x. split; [exact E | constructor; exact H].
  - intros ts e _ (o & l & r & us & vs & E & Hl & Hr & ->). exists (Operation o l r). split; [exact E|].
    constructor; assumption.
  - intros ts l H. destruct (literals_form _ _ H) as (n & N & -> & ->). exists (Names n). split; [reflexivity|].
    apply names_written.
  - intros i. exists (Nodeset i). split; [reflexivity | constructor].
  - intros ts l o op us r _ (x & <- & Hx) Ho _ (y & <- & Hy). apply setop_word in Ho. subst.
    exists op, x, y, ts, us. repeat split; assumption.
Qed.
Definition set_form := proj1 set_forms.

Lemma travdata_form : forall ts l, g_travdata ts l ->
  exists ls, Forall2 data_written (rev l) ls /\ rev l <> [] /\ same (T_TRAVDATA :: fields ls) ts.
Proof.
  intros ts l H. destruct H as [ts l H]. apply left_right in H.
  assert (D : forall ts d, g_travdataitem ts d -> some_form data_written d ts).
  { intros us d Hd. destruct Hd as [p t n Hp | r n | r n].
    - exists ([p] ++ [T_ID n]). split; [exists [p]; split; [apply primitive_form, Hp | reflexivity] | apply same_refl].
    - exists ([T_ID r] ++ [T_ID n]). split; [exists [T_ID r]; split; [constructor | reflexivity] | apply same_refl].
    - exists ([T_UNSAFE; T_ID r] ++ [T_ID n]).
      split; [exists [T_UNSAFE; T_ID r]; split; [constructor | reflexivity] | apply same_refl]. }
  destruct (right_forms _ _ _ D _ _ H) as (ls & F & S). exists ls. split; [exact F | split; [eapply right_not_nil, H|]].
  same_all.
Qed.

Definition hush (t : p_traversal) : p_traversal := mk_ptraversal (pt_traversal t) (pt_index t) None.

Lemma traversal_form : forall x ts t, g_traversal x ts t ->
  exists y us, traversal_written y us /\ same us ts /\ hush t = hush (traversal_tree y x).
Proof.
  intros x ts t H.
  assert (W : forall n i u (e : option setexpr) ns d ds,
    match e with None => ns = [] | Some e => exists us, ns = [us] /\ g_traversalnodes us e end ->
    (ds = [] /\ d = [] \/ exists us, ds = [us] /\ g_travdata us d) ->
    exists y us, traversal_written y us /\
      same us (T_TRAVERSAL :: T_ID n :: fields (info_field i ++ [uid u] ++ ns ++ ds)) /\
      ts_name y = n /\ ts_uid y = u /\ option_map set_of (ts_nodes y) = e /\ rev (ts_data y) = d).
  { intros n i u e ns d ds Hn Hd.
    assert (exists ex, option_map set_of ex = e /\
      option_all (fun e ts => exists us, set_written e us /\ ts = T_NODES :: EQUALS :: us) ex ns) as (ex & Ex & Hns).
    { destruct e as [e|].
      - destruct Hn as (us & -> & Hn). destruct Hn as [us e Hn]. destruct (set_form _ _ Hn) as (s & <- & Hs).
        exists (Some s). split; [reflexivity|]. cbn. eauto.
      - exists None. split; [reflexivity | exact Hn]. }
    destruct Hd as [[-> ->] | (us & -> & Hd)].
    - exists (mk_ts n i u ex []). eexists. split; [eapply a_traversal; [exact Hns | constructor]|].
      split; [apply same_refl | repeat split; exact Ex].
    - destruct (travdata_form _ _ Hd) as (ls & F & N & S).
      exists (mk_ts n i u ex (rev d)). eexists. split; [eapply a_traversal; [exact Hns | exact F]|].
      split; [|repeat split; [exact Ex | apply rev_involutive]].
      destruct (rev d) eqn:E; [destruct N; reflexivity|]. cbn [filled].
      do 2 apply same_cons. apply same_fields. repeat (apply Forall2_app; [apply same_list|]).
      constructor; [exact S | constructor]. }
  destruct H as [n i u ts e us d He Hd | n u ts e us d He Hd | n i u us d Hd | n i u ts e He | n i u
                | n u us d Hd | n u ts e He | n u].
  - destruct (W n (Some i) u (Some e) [ts] d [us]) as (y & vs & Hw & S & <- & <- & E & <-); eauto.
    exists y, vs. split; [exact Hw | split; [| unfold traversal_tree; rewrite E; reflexivity]].
    intros b rest. rewrite S. apply (f_equal (words_from b)). unfold info_field, present, info, uid. flatten. reflexivity.
  - destruct (W n None u (Some e) [ts] d [us]) as (y & vs & Hw & S & <- & <- & E & <-); eauto.
    exists y, vs. split; [exact Hw | split; [| unfold traversal_tree; rewrite E; reflexivity]].
    intros b rest. rewrite S. apply (f_equal (words_from b)). unfold info_field, present, info, uid. flatten. reflexivity.
  - destruct (W n (Some i) u None [] d [us]) as (y & vs & Hw & S & <- & <- & E & <-); eauto.
    exists y, vs. split; [exact Hw | split; [| unfold traversal_tree; rewrite E; reflexivity]].
    intros b rest. rewrite S. apply (f_equal (words_from b)). unfold info_field, present, info, uid. flatten. reflexivity.
  - destruct (W n (Some i) u (Some e) [ts] [] []) as (y & vs & Hw & S & <- & <- & E & E2); eauto.
    exists y, vs. split; [exact Hw | split; [| unfold traversal_tree; rewrite E, E2; reflexivity]].
    intros b rest. rewrite S. apply (f_equal (words_from b)). unfold info_field, present, info, uid. flatten. reflexivity.
  - destruct (W n (Some i) u None [] [] []) as (y & vs & Hw & S & <- & <- & E & E2); eauto.
    exists y, vs. split; [exact Hw | split; [| unfold traversal_tree; rewrite E, E2; reflexivity]].
    intros b rest. rewrite S. apply (f_equal (words_from b)). unfold info_field, present, info, uid. flatten. reflexivity.
  - destruct (W n None u None [] d [us]) as (y & vs & Hw & S & <- & <- & E & <-); eauto.
    exists y, vs. split; [exact Hw | split; [| unfold traversal_tree; rewrite E; reflexivity]].
    intros b rest. rewrite S. apply (f_equal (words_from b)). unfold info_field, present, info, uid. flatten. reflexivity.
  - destruct (W n None u (Some e) [ts] [] []) as (y & vs & Hw & S & <- & <- & E & E2); eauto.
    exists y, vs. split; [exact Hw | split; [| unfold traversal_tree; rewrite E, E2; reflexivity]].
    intros b rest. rewrite S. apply (f_equal (words_from b)). unfold info_field, present, info, uid. flatten. reflexivity.
  - destruct (W n None u None [] [] []) as (y & vs & Hw & S & <- & <- & E & E2); eauto.
    exists y, vs. split; [exact Hw | split; [| unfold traversal_tree; rewrite E, E2; reflexivity]].
    intros b rest. rewrite S. apply (f_equal (words_from b)). unfold info_field, present, info, uid. flatten. reflexivity.
Qed.

Lemma pass_form : forall ts p, g_pass ts p -> exists y us, pass_written y us /\ same us ts /\ p = pass_tree y.
Proof.
  intros ts p H. destruct H as [n i u f | n u f | n u | n f | n i f | n i u | n | n f].
  - exists (mk_ps n (Some i) (Some u) (Some f)). eexists. split; [apply pass_long; left; discriminate | split; [apply same_refl | reflexivity]].
  - exists (mk_ps n None (Some u) (Some f)). eexists. split; [apply pass_long; right; left; discriminate | split; [apply same_refl | reflexivity]].
  - exists (mk_ps n None (Some u) None). eexists. split; [apply pass_long; right; left; discriminate | split; [apply same_refl | reflexivity]].
  - exists (mk_ps n None None (Some f)). eexists. split; [apply pass_long; right; right; discriminate | split; [apply same_refl | reflexivity]].
  - exists (mk_ps n (Some i) None (Some f)). eexists. split; [apply pass_long; left; discriminate | split; [apply same_refl | reflexivity]].
  - exists (mk_ps n (Some i) (Some u) None). eexists. split; [apply pass_long; left; discriminate | split; [apply same_refl | reflexivity]].
  - exists (mk_ps n None None None). eexists. split; [apply pass_short | split; [apply same_refl | reflexivity]].
  - exists (mk_ps n None None (Some f)). eexists. split; [apply pass_function | split; [apply same_refl | reflexivity]].
Qed.

(** * Trees up to the info strings of traversals *)

Lemma quiet_fields : forall s s', quiet s = quiet s' ->
  AST_IPHASES s = AST_IPHASES s' /\ map hush (AST_ITRAVERSALS s) = map hush (AST_ITRAVERSALS s') /\
  AST_IPASSES s = AST_IPASSES s' /\ AST_INODES s = AST_INODES s' /\ AST_INODESETS s = AST_INODESETS s' /\
  AST_ENUMS s = AST_ENUMS s' /\ trav_index s = trav_index s' /\ node_index s = node_index s'.
Proof. intros s s' [=]. repeat split; assumption. Qed.

Lemma quiet_eq : forall s s',
  AST_IPHASES s = AST_IPHASES s' -> map hush (AST_ITRAVERSALS s) = map hush (AST_ITRAVERSALS s') ->
  AST_IPASSES s = AST_IPASSES s' -> AST_INODES s = AST_INODES s' -> AST_INODESETS s = AST_INODESETS s' ->
  AST_ENUMS s = AST_ENUMS s' -> trav_index s = trav_index s' -> node_index s = node_index s' -> quiet s = quiet s'.
Proof. intros s s' H1 H2 H3 H4 H5 H6 H7 H8. unfold quiet. unfold hush in H2. congruence. Qed.

Lemma quiet_item : forall x s s', quiet s = quiet s' -> quiet (add_item s x) = quiet (add_item s' x).
Proof.
  intros x s s' H. destruct (quiet_fields _ _ H) as (H1 & H2 & H3 & H4 & H5 & H6 & H7 & H8).
  destruct x; apply quiet_eq; cbn; rewrite ?H2; congruence.
Qed.
Lemma quiet_items : forall l s s', quiet s = quiet s' -> quiet (add_items s l) = quiet (add_items s' l).
Proof.
  induction l as [|x l IH]; intros s s' H; [exact H|]. apply IH, quiet_item, H.
Qed.
Lemma quiet_phase : forall s s' p, quiet s = quiet s' -> quiet (add_phase s p) = quiet (add_phase s' p).
Proof.
  intros s s' p H. destruct (quiet_fields _ _ H) as (H1 & H2 & H3 & H4 & H5 & H6 & H7 & H8).
  apply quiet_eq; cbn; congruence.
Qed.
Lemma quiet_traversal : forall s t y, hush t = hush (traversal_tree y (trav_index s)) ->
  quiet (add_traversal (next_traversal s) t) = quiet (add_item s (A_traversal y)).
Proof. intros s t y H. apply quiet_eq; cbn; try reflexivity. rewrite H. reflexivity. Qed.

(** * Phases *)
Scheme g_phase_min := Minimality for g_phase Sort Prop
  with g_actionsbody_min := Minimality for g_actionsbody Sort Prop
  with g_actions_min := Minimality for g_actions Sort Prop
  with g_action_min := Minimality for g_action Sort Prop.
Combined Scheme g_phases_min from g_phase_min, g_actionsbody_min, g_actions_min, g_action_min.

Definition phase_forms (s : parser) (ts : tokens) (p : p_phase) (s' : parser) : Prop :=
  exists h l us, action_written (Phase h l) us /\ same us ts /\ p = phase_tree h l /\
    quiet s' = quiet (add_items s (flat_map items_of_action l)).
Definition body_forms (s : parser) (ts : tokens) (a : list ident) (s' : parser) : Prop :=
  exists l us vs, actions_written l us /\ ts = T_ACTIONS :: LBRACE :: vs ++ [RBRACE] /\ same us vs /\
    a = map action_name l /\ quiet s' = quiet (add_items s (flat_map items_of_action l)).
Definition actions_forms (s : parser) (ts : tokens) (a : list ident) (s' : parser) : Prop :=
  exists l us, actions_written l us /\ same us ts /\ a = map action_name l /\
    quiet s' = quiet (add_items s (flat_map items_of_action l)).
Definition action_forms (s : parser) (ts : tokens) (a : ident) (s' : parser) : Prop :=
  exists x us, action_written x us /\ same us ts /\ a = action_name x /\
    quiet s' = quiet (add_items s (items_of_action x)).

Lemma phase_form : forall (cy : bool) hs n st i u g s bs a s' ts,
  (if cy then g_cycleheader else g_phaseheader) hs (n, st) -> body_forms s bs a s' ->
  (forall X,
     words_from false (separated COMMA (info_field i ++ name_field T_UID u ++ name_field T_GATE g ++ [T_ACTIONS :: X]))
     = words_from false (ts ++ T_ACTIONS :: X)) ->
  phase_forms s (hs ++ LBRACE :: ts ++ bs ++ [RBRACE]) (new_phase (n, st) cy i u g a) s'.
Proof.
  intros cy hs n st i u g s bs a s' ts Hh (l & us & vs & Hl & -> & S & -> & Q) E.
  exists (mk_heading st cy n i u g), l. eexists. split; [apply phase_action, Hl|].
  split; [|split; [reflexivity | exact Q]]. cbn [hd_start hd_cycle hd_name hd_info hd_uid hd_gate].
  assert (hs = flag st T_START ++ [if cy then T_CYCLE else T_PHASE; T_ID n]) as ->.
  { destruct cy; inversion Hh as [? ? ? Hs]; inversion Hs; reflexivity. }
  rewrite <- app_assoc. apply same_app; [apply same_refl|]. cbn [app]. do 2 apply same_cons.
  intros b rest. unfold fields, braces.
  cbn [app words_from bracket andb lifetime_start range_part orb]. rewrite andb_false_r. f_equal.
  rewrite <- !app_assoc.
  assert (M : forall X Y : tokens,
    separated COMMA (info_field i ++ name_field T_UID u ++ name_field T_GATE g ++ [T_ACTIONS :: X]) ++ Y
    = separated COMMA (info_field i ++ name_field T_UID u ++ name_field T_GATE g ++ [T_ACTIONS :: X ++ Y])).
  { intros X Y. destruct i, u, g; cbn; reflexivity. }
  rewrite M. rewrite E. apply words_prefix. intros b'. cbn [app]. rewrite <- !app_assoc.
  cbn [app words_from bracket andb lifetime_start range_part orb]. rewrite andb_false_r. cbn [words_from].
  rewrite S. reflexivity.
Qed.

(** the tokens of [l] before [r] *)
Ltac read_up_to l r :=
  match l with
  | r => constr:(@nil tok)
  | ?x :: ?l => let w := read_up_to l r in constr:(x :: w)
  end.

Lemma phases_forms :
  (forall s ts p s', g_phase s ts p s' -> phase_forms s ts p s') /\
  (forall s ts a s', g_actionsbody s ts a s' -> body_forms s ts a s') /\
  (forall s ts a s', g_actions s ts a s' -> actions_forms s ts a s') /\
  (forall s ts a s', g_action s ts a s' -> action_forms s ts a s').
Proof.
  apply g_phases_min.
  1-16: intros s hs [n st]; intros;
    repeat match goal with Hg : g_gate _ _ |- _ => destruct Hg as [|g0] end; cbn [app info uid];
    match goal with |- phase_forms _ (hs ++ LBRACE :: ?l) (new_phase _ ?cy _ _ _ _) _ =>
      match goal with Hb : body_forms _ ?bs _ _ |- _ =>
        let w := read_up_to l (bs ++ [RBRACE]) in
        apply (phase_form cy hs n st) with (ts := w) (bs := bs); [assumption | assumption | intros X; reflexivity]
      end
    end.
  - intros s ts a s' _ (l & us & Hl & S & -> & Q). exists l, us, ts. auto.
  - intros s ts a s1 us l s2 _ (x & ws & Hx & Sx & -> & Q1) _ (l' & vs & Hl & Sl & -> & Q2).
    exists (x :: l'), (ws ++ SEMICOLON :: vs). split; [constructor; assumption|]. split; [same_all|].
    split; [reflexivity|]. cbn [flat_map]. rewrite add_items_app. rewrite Q2. apply quiet_items, Q1.
  - intros s ts a s1 _ (x & ws & Hx & Sx & -> & Q1). exists [x], (ws ++ [SEMICOLON]).
    split; [apply (more_actions x [] ws []); [exact Hx | constructor]|]. split; [same_all|].
    split; [reflexivity|]. cbn [flat_map]. rewrite app_nil_r. exact Q1.
  - intros s ts t Ht. destruct (traversal_form _ _ _ Ht) as (y & us & Hy & S & E).
    exists (Traversal y), us. split; [constructor; exact Hy|]. split; [exact S|]. split.
    + cbn. apply (f_equal (fun t => tv_name (pt_traversal t))) in E. exact E.
    + apply quiet_traversal, E.
  - intros s ts p Hp. destruct (pass_form _ _ Hp) as (y & us & Hy & S & ->).
    exists (Pass y), us. split; [constructor; exact Hy|]. split; [exact S|]. split; reflexivity.
  - intros s ts p s' _ (h & l & us & Hl & S & -> & Q). exists (Phase h l), us.
    split; [exact Hl|]. split; [exact S|]. split; [reflexivity|]. cbn [items_of_action]. rewrite add_items_app.
    apply quiet_phase, Q.
  - intros s i. exists (Named i), [T_ID i]. split; [constructor|]. split; [apply same_refl|]. split; reflexivity.
Qed.

(** * Declarations *)
Lemma children_form : forall ts l, g_childrenbody ts l ->
  exists ls, Forall2 child_written l ls /\ l <> [] /\ same (T_CHILDREN :: fields ls) ts.
Proof.
  intros ts l H. destruct H as [ts l H]. destruct (right_forms _ _ _ child_form _ _ H) as (ls & F & S).
  exists ls. split; [exact F | split; [eapply right_not_nil, H | same_all]].
Qed.
Lemma attributes_form : forall ts l, g_attributebody ts l ->
  exists ls, Forall2 attribute_written l ls /\ l <> [] /\ same (T_ATTRIBUTES :: fields ls) ts.
Proof.
  intros ts l H. destruct H as [ts l H]. destruct (right_forms _ _ _ attribute_form _ _ H) as (ls & F & S).
  exists ls. split; [exact F | split; [eapply right_not_nil, H | same_all]].
Qed.
Lemma equations_form : forall ts l, g_equationbody ts l ->
  exists ls, Forall2 equation_written l ls /\ l <> [] /\ same (T_EQUATIONS :: fields ls) ts.
Proof.
  intros ts l H. destruct H as [ts l H]. destruct (right_forms _ _ _ equation_form _ _ H) as (ls & F & S).
  exists ls. split; [exact F | split; [eapply right_not_nil, H | same_all]].
Qed.
Lemma nodelifetimes_form : forall ts l, g_nodelifetimes ts l ->
  (ts = [] /\ l = []) \/
  exists ls, Forall2 lifetime_written l ls /\ l <> [] /\ same (T_LIFETIME :: fields ls) ts.
Proof.
  intros ts l H. destruct H as [|ts l H]; [auto|]. right. destruct (lifetimes_form _ _ H) as (ls & F & S).
  exists ls. split; [exact F | split; [eapply right_not_nil, H | same_all]].
Qed.

Ltac blocks :=
  repeat match goal with S : same (?k :: fields ?l) _ |- _ => revert S; generalize (k :: fields l); intros ? S end.

Lemma node_form : forall ts n, g_node ts n -> some_form declaration_written (Node n) ts.
Proof.
  assert (N : forall rs r n c a e l cs as_ es ls X,
    g_is_root rs r -> Forall2 child_written c cs -> Forall2 attribute_written a as_ ->
    Forall2 equation_written e es -> Forall2 lifetime_written l ls ->
    same (fields (filled c (T_CHILDREN :: fields cs) ++ filled a (T_ATTRIBUTES :: fields as_) ++
               filled e (T_EQUATIONS :: fields es) ++ filled l (T_LIFETIME :: fields ls))) (LBRACE :: X) ->
    some_form declaration_written (Node (mk_node n r c a e l)) (rs ++ T_NODE :: T_ID n :: LBRACE :: X)).
  { intros rs r n c a e l cs as_ es ls X Hr Hc Ha He Hl S. eexists. split; [constructor; eassumption|].
    assert (rs = flag r T_ROOT) as -> by (inversion Hr; reflexivity).
    apply same_app; [apply same_refl|]. do 2 apply same_cons. exact S. }
  intros ts n H. destruct H;
    repeat match goal with
    | H : g_childrenbody _ ?c |- _ =>
        let x := fresh "cs" in let F := fresh "F" in let M := fresh "M" in let S := fresh "S" in
        destruct (children_form _ _ H) as (x & F & M & S); clear H; destruct c; [destruct M; reflexivity|]
    | H : g_attributebody _ ?c |- _ =>
        let x := fresh "as_" in let F := fresh "F" in let M := fresh "M" in let S := fresh "S" in
        destruct (attributes_form _ _ H) as (x & F & M & S); clear H; destruct c; [destruct M; reflexivity|]
    | H : g_equationbody _ ?c |- _ =>
        let x := fresh "es" in let F := fresh "F" in let M := fresh "M" in let S := fresh "S" in
        destruct (equations_form _ _ H) as (x & F & M & S); clear H; destruct c; [destruct M; reflexivity|]
    | H : g_nodelifetimes _ ?c |- _ =>
        let x := fresh "ls" in let F := fresh "F" in let M := fresh "M" in let S := fresh "S" in
        destruct (nodelifetimes_form _ _ H) as [(-> & ->) | (x & F & M & S)]; clear H;
        [|destruct c; [destruct M; reflexivity|]]
    end;
    (eapply N; [eassumption | first [eassumption | constructor] | first [eassumption | constructor]
               | first [eassumption | constructor] | first [eassumption | constructor] |]);
    cbn [filled];
    blocks; flatten; apply same_cons; repeat first [assumption | apply comma_brace | apply same_refl | apply same_cons | apply same_app].
Qed.

Lemma nodeset_form : forall ts n, g_nodeset ts n ->
  exists x i e a us, declaration_written (Nodeset_of x i e a) us /\ same us ts /\
    n = mk_pnodeset (mk_nodeset x (set_of e) a) i.
Proof.
  intros ts n H.
  destruct H as [n i ts e us a He Ha | n i ts e He | n ts e us a He Ha | n ts e He | n ts e He];
    destruct (set_form _ _ He) as (x & <- & Hx);
    try (destruct (attributes_form _ _ Ha) as (as_ & F & M & S); destruct a; [destruct M; reflexivity|]).
  - exists n, (Some i), x, (a :: a0). eexists. split; [eapply nodeset_declaration; [exact Hx | exact F]|].
    split; [cbn [filled info_field present]; blocks; same_all | reflexivity].
  - exists n, (Some i), x, []. eexists. split; [eapply nodeset_declaration; [exact Hx | constructor]|].
    split; [cbn [filled info_field present]; blocks; same_all | reflexivity].
  - exists n, None, x, (a :: a0). eexists. split; [eapply nodeset_declaration; [exact Hx | exact F]|].
    split; [cbn [filled info_field present]; blocks; same_all | reflexivity].
  - exists n, None, x, []. eexists. split; [eapply nodeset_declaration; [exact Hx | constructor]|].
    split; [cbn [filled info_field present]; blocks; same_all | reflexivity].
  - exists n, None, x, []. eexists. split; [apply nodeset_short, Hx|]. split; [apply same_refl | reflexivity].
Qed.

Lemma enum_form : forall ts e, g_enum ts e ->
  exists x i us, declaration_written (Enum x i) us /\ same us ts /\ e = mk_penum x i.
Proof.
  intros ts e H. destruct H as [n i p ts l Hl | n p ts l Hl]; destruct Hl as [ts l Hl]; apply names_exact in Hl; subst.
  - exists (mk_enum n p l), (Some i). eexists. split; [apply enum_declaration|]. split; [|reflexivity].
    cbn [info_field present]. same_all.
  - exists (mk_enum n p l), None. eexists. split; [apply enum_declaration|]. split; [|reflexivity].
    cbn [info_field present]. same_all.
Qed.

Lemma entry_form : forall s ts s', g_entry s ts s' ->
  exists d us, declaration_written d us /\ same us ts /\ quiet s' = quiet (add_items s (items_of d)).
Proof.
  intros s ts s' H. destruct H as [s ts p s' H | s ts p H | s ts t H | s ts n H | s ts n H | s ts e H].
  - destruct (proj1 phases_forms _ _ _ _ H) as (h & l & us & Hl & S & -> & Q).
    exists (Action (Phase h l)), us. split; [constructor; [discriminate | exact Hl]|]. split; [exact S|].
    cbn [items_of items_of_action]. rewrite add_items_app. apply quiet_phase, Q.
  - destruct (pass_form _ _ H) as (y & us & Hy & S & ->).
    exists (Action (Pass y)), us. split; [constructor; [discriminate | constructor; exact Hy]|].
    split; [exact S | reflexivity].
  - destruct (traversal_form _ _ _ H) as (y & us & Hy & S & E).
    exists (Action (Traversal y)), us. split; [constructor; [discriminate | constructor; exact Hy]|].
    split; [exact S | apply quiet_traversal, E].
  - destruct (node_form _ _ H) as (us & Hn & S). exists (Node n), us. split; [exact Hn|]. split; [exact S | reflexivity].
  - destruct (nodeset_form _ _ H) as (x & i & e & a & us & Hd & S & ->). exists (Nodeset_of x i e a), us.
    split; [exact Hd|]. split; [exact S | reflexivity].
  - destruct (enum_form _ _ H) as (x & i & us & Hd & S & ->). exists (Enum x i), us.
    split; [exact Hd|]. split; [exact S | reflexivity].
Qed.

Lemma entries_form : forall s ts s', g_entries s ts s' ->
  exists d us, written d us /\ same us ts /\ quiet s' = quiet (add_items s (flat_map items_of d)).
Proof.
  intros s ts s' H. induction H as [s ts s1 us s2 He H IH | s ts s1 He | s].
  - destruct (entry_form _ _ _ He) as (d & ws & Hd & S & Q). destruct IH as (l & vs & Hl & Sl & Ql).
    exists (d :: l), (ws ++ SEMICOLON :: vs). split; [constructor; assumption|]. split; [same_all|].
    cbn [flat_map]. rewrite add_items_app, Ql. apply quiet_items, Q.
  - destruct (entry_form _ _ _ He) as (d & ws & Hd & S & Q). exists [d], ws. split; [constructor; assumption|].
    split; [exact S|]. cbn [flat_map]. rewrite app_nil_r. exact Q.
  - exists [], []. split; [constructor|]. split; [apply same_refl | reflexivity].
Qed.

Theorem nothing_else : forall ts p, SPparseDSL ts p ->
  exists d us, written d us /\ words us = words ts /\ quiet p = quiet (tree_of d).
Proof.
  intros ts p H. destruct (entries_form _ _ _ H) as (d & us & Hd & S & Q). exists d, us.
  split; [exact Hd|]. split; [|rewrite tree_of_items; exact Q].
  specialize (S false []). rewrite !app_nil_r in S. exact S.
Qed.
