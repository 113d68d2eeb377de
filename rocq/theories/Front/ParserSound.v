(** The parser of ParserRun.v finds nothing but derivations of the grammar. *)

From Coq Require Import List Ascii NArith Bool Lia PeanoNat Wf_nat.
From Verif Require Import Palm.StrModel Front.Syntax Front.SetsModel Front.ParserModel Front.ParserRun.
From Verif Require Import Front.ParserProof Front.ParserDecls.
Import ListNotations.

Definition sound {A} (g : tokens -> A -> Prop) (p : tokens -> option (A * tokens)) :=
  forall ts v rest, p ts = Some (v, rest) -> exists w, ts = w ++ rest /\ g w v.

Definition no_value (t : tok) : bool := match t with T_ID _ | T_STRINGVAL _ => false | _ => true end.

Lemma is_inv : forall t x, no_value t = true -> is t x = true -> x = t.
Proof.
  intros t x N H. unfold is in H. apply N.eqb_eq in H.
  destruct t; try discriminate N; destruct x; try discriminate H; reflexivity.
Qed.

Lemma eat_inv : forall t ts r, no_value t = true -> eat t ts = Some r -> ts = t :: r.
Proof.
  intros t [|x ts] r N H; [discriminate|]. cbn [eat] in H. destruct (is t x) eqn:E; [|discriminate].
  injection H as <-. rewrite (is_inv _ _ N E). reflexivity.
Qed.

Lemma bind_inv : forall A B (m : option A) (f : A -> option B) b,
  bind m f = Some b -> exists a, m = Some a /\ f a = Some b.
Proof. intros A B [a|] f b H; [eauto | discriminate]. Qed.

Lemma p_id_inv : forall ts i r, p_id ts = Some (i, r) -> ts = T_ID i :: r.
Proof. intros [|[]] j r H; try discriminate. injection H as -> ->. reflexivity. Qed.
Lemma p_string_inv : forall ts i r, p_string ts = Some (i, r) -> ts = T_STRINGVAL i :: r.
Proof. intros [|[]] j r H; try discriminate. injection H as -> ->. reflexivity. Qed.

(** Take a successful run apart. *)
Ltac inv1 :=
  match goal with
  | H : bind _ _ = Some _ |- _ => apply bind_inv in H; destruct H as (?x & ?E & H)
  | x : (_ * _)%type |- _ => destruct x
  | H : Some _ = Some _ |- _ => injection H; clear H; intros; subst
  | H : None = Some _ |- _ => discriminate H
  | H : eat _ _ = Some _ |- _ => apply eat_inv in H; [|reflexivity]; subst
  | H : p_id _ = Some _ |- _ => apply p_id_inv in H; subst
  | H : p_string _ = Some _ |- _ => apply p_string_inv in H; subst
  | H : eats _ _ = Some _ |- _ => cbn [eats] in H
  | H : (if ?b then _ else _) = Some _ |- _ => destruct b eqn:?
  end.
Ltac inv := repeat inv1.
(** Show the derivation [c]. *)
Ltac by_rule c := eexists; split; cycle 1; [eapply c; eassumption | flat; reflexivity].

Lemma id_sound : sound id p_id.
Proof. intros ts v rest H. inv. exists [T_ID v]. split; [reflexivity | constructor]. Qed.

Lemma field_inv : forall k ts i r, no_value k = true -> p_field k ts = Some (i, r) ->
  ts = k :: EQUALS :: T_ID i :: r.
Proof.
  intros k ts i r N H. unfold p_field in H. inv.
  match goal with E : eat k _ = Some _ |- _ => apply eat_inv in E; [|exact N] end. subst. reflexivity.
Qed.
Lemma info_inv : forall ts i r, p_info ts = Some (i, r) -> ts = T_INFO :: EQUALS :: T_STRINGVAL i :: r.
Proof. intros ts i r H. unfold p_info in H. inv. reflexivity. Qed.

Lemma right_sound : forall A (g : tokens -> A -> Prop) p sep, no_value sep = true -> sound g p ->
  forall n, sound (right_list sep g) (p_right p n sep).
Proof.
  intros A g p sep N S n. induction n as [|n IH]; intros ts v rest H; [discriminate|]. cbn [p_right] in H.
  apply bind_inv in H. destruct H as ([a r] & Ea & H). destruct (S _ _ _ Ea) as (w & -> & Hw).
  destruct (at_ sep r).
  - apply bind_inv in H. destruct H as (r' & Er & H). apply eat_inv in Er; [|exact N]. subst r.
    apply bind_inv in H. destruct H as ([vs r2] & Er2 & H). injection H as <- <-.
    destruct (IH _ _ _ Er2) as (w2 & -> & Hw2).
    exists (w ++ sep :: w2). split; [flat; reflexivity | constructor; assumption].
  - injection H as <- <-. exists w. split; [reflexivity | apply right_one, Hw].
Qed.

Lemma commas_sound : forall A (g : tokens -> A -> Prop) p, sound g p -> sound (right_list COMMA g) (commas p).
Proof. intros A g p S ts v rest H. eapply right_sound; [reflexivity | exact S | exact H]. Qed.
Lemma range_spec_sound : sound range_spec p_range_spec.
Proof. intros ts v rest H. eapply right_sound; [reflexivity | exact id_sound | exact H]. Qed.

Ltac used S := match goal with E : _ = Some _ |- _ =>
    let w := fresh "w" in let F := fresh "F" in let G := fresh "G" in
    destruct (S _ _ _ E) as (w & F & G); clear E; subst end.
Ltac use S H := let w := fresh "w" in let E := fresh "E" in let G := fresh "G" in
  destruct (S _ _ _ H) as (w & E & G); subst.

Lemma range_sound : sound g_range p_range.
Proof.
  intros ts v rest H. unfold p_range in H. inv;
    try match goal with E : p_range_spec _ = Some _ |- _ => use range_spec_sound E end.
  - by_rule range_4.
  - by_rule range_2.
  - by_rule range_3.
  - by_rule range_7.
  - by_rule range_5.
  - by_rule range_6.
  - by_rule range_1.
Qed.

Lemma lifetime_sound : sound g_lifetime p_lifetime.
Proof.
  intros ts v rest H. unfold p_lifetime in H.
  assert (R : forall bare ts b e rest, p_ranges bare ts = Some (b, e, rest) ->
     (bare = true /\ b = None /\ e = None /\ ts = rest) \/
     exists us vs, ts = us ++ T_ARROW :: vs ++ rest /\ g_range us b /\ g_range vs e).
  { clear. intros bare ts b e rest Hp. unfold p_ranges in Hp. inv.
    - left. match goal with E : _ && _ = true |- _ => apply andb_prop in E; tauto end.
    - right. used range_sound. used range_sound. eauto. }
  inv; match goal with E : p_ranges _ _ = Some _ |- _ => destruct (R _ _ _ _ _ E) as [(B & -> & -> & ->) | (us & vs & -> & Hb & He)] end;
    try discriminate.
  - by_rule lifetime_1.
  - by_rule lifetime_2.
  - by_rule lifetime_3.
  - by_rule lifetime_4.
  - by_rule lifetime_5.
  - by_rule lifetime_6.
Qed.

Lemma block_sound : forall A (g : tokens -> A -> Prop) p k, no_value k = true -> sound g p ->
  forall ts l rest, p_block k p ts = Some (l, rest) ->
  exists us, ts = (k :: LBRACE :: us ++ [RBRACE]) ++ rest /\ right_list COMMA g us l.
Proof.
  intros A g p k N S ts l rest H. unfold p_block in H. inv.
  match goal with E : eat k _ = Some _ |- _ => apply eat_inv in E; [|exact N] end. subst.
  match goal with E : commas _ _ = Some _ |- _ => use (commas_sound A g p S) E end. exists w. split; [flat; reflexivity | exact G].
Qed.

Lemma nodelifetimes_sound : sound g_nodelifetimes p_nodelifetimes.
Proof.
  intros ts v rest H. unfold p_nodelifetimes in H. inv.
  - destruct (block_sound _ _ _ T_LIFETIME eq_refl lifetime_sound _ _ _ H) as (us & -> & Hl). by_rule nodelifetimes_2.
  - by_rule nodelifetimes_1.
Qed.

Lemma child_sound : sound g_child p_child.
Proof.
  intros ts v rest H. unfold p_child in H. inv;
    try match goal with E : commas p_lifetime _ = Some _ |- _ => use (commas_sound _ _ _ lifetime_sound) E end.
  - by_rule child_2.
  - by_rule child_3.
  - by_rule child_5.
  - by_rule child_4.
  - by_rule child_1.
Qed.

Lemma keyword_sound : sound g_keyword p_keyword.
Proof.
  intros ts v rest H. unfold p_keyword in H. inv.
  - by_rule keyword_1.
  - by_rule keyword_2.
  - by_rule keyword_3.
  - used lifetime_sound. by_rule keyword_4.
Qed.

Lemma keywords_sound : forall n, sound g_keywords (p_keywords n).
Proof.
  induction n as [|n IH]; intros ts v rest H; [discriminate|]. cbn [p_keywords] in H. inv.
  - by_rule keywords_1.
  - used keyword_sound. used IH. by_rule keywords_3.
  - used keyword_sound. by_rule keywords_2.
Qed.

(** types *)
Lemma type_inv : forall ts t r rest, p_type ts = Some (t, r, rest) ->
  (exists i, t = AT_link_or_enum /\ r = Some i /\ ts = T_ID i :: rest) \/
  (exists i, t = AT_user /\ r = Some i /\ ts = T_UNSAFE :: T_ID i :: rest) \/
  (exists p, g_primitive p t /\ r = None /\ ts = p :: rest).
Proof.
  intros ts t r rest H. unfold p_type in H. inv.
  - left. eauto.
  - right. left. eauto.
  - right. right. destruct ts as [|p ts]; [discriminate|]. inv. exists p. rewrite primitive_iff. auto.
Qed.

Lemma attribute_sound : sound g_attribute p_attribute.
Proof.
  intros ts v rest H. unfold p_attribute in H. inv.
  - match goal with E : p_keywords ?n _ = Some _ |- _ => use (keywords_sound n) E end.
    match goal with E : p_type _ = Some _ |- _ =>
      destruct (type_inv _ _ _ _ E) as [(j & -> & -> & ->) | [(j & -> & -> & ->) | (p & Hp & -> & ->)]] end.
    + by_rule attribute_3.
    + by_rule attribute_5.
    + by_rule attribute_1.
  - match goal with E : p_type _ = Some _ |- _ =>
      destruct (type_inv _ _ _ _ E) as [(j & -> & -> & ->) | [(j & -> & -> & ->) | (p & Hp & -> & ->)]] end.
    + by_rule attribute_4.
    + by_rule attribute_6.
    + by_rule attribute_2.
Qed.

Lemma reference_sound : sound g_reference p_reference.
Proof.
  intros ts v rest H. unfold p_reference in H. inv.
  - by_rule reference_1.
  - by_rule reference_2.
Qed.

Lemma equation_sound : sound g_equation p_equation.
Proof.
  intros ts v rest H. unfold p_equation in H. inv; used reference_sound.
  - eexists. split; cycle 1; [eapply equation_1; [exact G | apply prodblock_2] | flat; reflexivity].
  - eexists. split; cycle 1; [eapply equation_1; [exact G | apply prodblock_1, dependencybody_2] | flat; reflexivity].
  - match goal with E : commas _ _ = Some _ |- _ => use (commas_sound _ _ _ reference_sound) E end.
    eexists. split; cycle 1;
      [eapply equation_1; [exact G | apply prodblock_1, dependencybody_1; eassumption] | flat; reflexivity].
Qed.

(** set expressions *)
Lemma list_setliterals : forall ts l, right_list COMMA id ts l ->
  forall acc us, (us = [] /\ acc = LNull) \/ (exists vs, us = vs ++ [COMMA] /\ g_setliterals vs acc) ->
  g_setliterals (us ++ ts) (fold_left SETIDinsert l acc).
Proof.
  intros ts l H. induction H as [ts v us' vs Hi Hl IH | ts v Hi]; intros acc us Ha; inversion Hi; subst.
  - cbn [fold_left]. change (us ++ [T_ID v] ++ COMMA :: us') with (us ++ T_ID v :: [COMMA] ++ us').
    replace (us ++ T_ID v :: [COMMA] ++ us') with ((us ++ [T_ID v; COMMA]) ++ us') by (rewrite <- app_assoc; reflexivity).
    apply IH. right. exists (us ++ [T_ID v]). split; [rewrite <- app_assoc; reflexivity|].
    destruct Ha as [[-> ->] | (ws & -> & Hw)]; [apply setliterals_2|].
    rewrite <- app_assoc. apply setliterals_1, Hw.
  - cbn [fold_left]. destruct Ha as [[-> ->] | (ws & -> & Hw)]; [apply setliterals_2|].
    rewrite <- app_assoc. apply setliterals_1, Hw.
Qed.

Lemma op_inv : forall ts o rest, p_op ts = Some (o, rest) -> exists t, g_setop t o /\ ts = t :: rest.
Proof. intros [|[]] o rest H; try discriminate; injection H as <- <-; eexists; split; try constructor; reflexivity. Qed.

(** [b]: there was an operator *)
Definition g_set (b : bool) (ts : tokens) (e : setexpr) : Prop :=
  if b then g_setoperation ts e else g_setprimary ts e.
Lemma g_set_expr : forall b ts e, g_set b ts e -> g_setexpr ts e.
Proof. intros [] ts e H; [apply setexpr_1, H | apply setexpr_2, H]. Qed.

Lemma set_sound : forall n,
  (forall ts b e rest, p_set n ts = Some (b, e, rest) -> exists w, ts = w ++ rest /\ g_set b w e) /\
  (forall ts b e b' e' us rest, p_ops n b e ts = Some (b', e', rest) -> g_set b us e ->
     exists w, ts = w ++ rest /\ g_set b' (us ++ w) e') /\
  sound g_setprimary (p_primary n).
Proof.
  induction n as [|n (IHs & IHo & IHp)]; [repeat split; intros; discriminate|]. split; [|split].
  - intros ts b e rest H. cbn [p_set] in H. inv. used IHp.
    destruct (IHo _ _ _ _ _ w _ H) as (w2 & -> & G2); [exact G|].
    exists (w ++ w2). split; [flat; reflexivity | exact G2].
  - intros ts b e b' e' us rest H Hb. cbn [p_ops] in H. destruct (p_op ts) as [[o r]|] eqn:Eo.
    + destruct (op_inv _ _ _ Eo) as (t & Ho & ->). inv. used IHp.
      destruct (IHo _ _ _ _ _ (us ++ t :: w) _ H) as (w2 & -> & G2).
      { cbn [g_set]. apply setoperation_1; [eapply g_set_expr, Hb | exact Ho | exact G]. }
      exists (t :: w ++ w2). split; [flat; reflexivity|]. rewrite <- app_assoc in G2. exact G2.
    + inv. exists []. rewrite app_nil_r. auto.
  - intros ts v rest H. cbn [p_primary] in H. inv.
    + match goal with E : p_set _ _ = Some _ |- _ => destruct (IHs _ _ _ _ E) as (w & -> & G) end.
      by_rule setprimary_1.
    + match goal with E : commas _ _ = Some _ |- _ => use (commas_sound _ _ _ id_sound) E end.
      exists (LBRACE :: w ++ [RBRACE]). split; [flat; reflexivity|].
      apply setprimary_2, (list_setliterals _ _ G LNull []). left. auto.
    + by_rule setprimary_3.
Qed.

Lemma setexpr_sound : sound g_setexpr p_setexpr.
Proof.
  intros ts v rest H. unfold p_setexpr in H. inv.
  destruct (proj1 (set_sound _) _ _ _ _ E) as (w & -> & G). exists w. split; [reflexivity | eapply g_set_expr, G].
Qed.

Lemma travdataitem_sound : sound g_travdataitem p_travdataitem.
Proof.
  intros ts v rest H. unfold p_travdataitem in H. inv.
  match goal with E : p_type _ = Some _ |- _ =>
      destruct (type_inv _ _ _ _ E) as [(j & -> & -> & ->) | [(j & -> & -> & ->) | (p & Hp & -> & ->)]] end.
  - by_rule travdataitem_2.
  - by_rule travdataitem_3.
  - by_rule travdataitem_1.
Qed.

Lemma right_left : forall A (g : tokens -> A -> Prop) ts l, right_list COMMA g ts l -> left_list g ts (rev l).
Proof.
  intros A g ts l H.
  assert (cons : forall ts l, left_list g ts l -> forall us v, g us v -> left_list g (us ++ COMMA :: ts) (l ++ [v])).
  { intros ts' l' H'. induction H' as [ts' vs us v H' IH Hi | ts' v Hi]; intros us' v' Hv.
    - cbn [app]. replace (us' ++ COMMA :: ts' ++ COMMA :: us) with ((us' ++ COMMA :: ts') ++ COMMA :: us)
        by (rewrite <- app_assoc; reflexivity).
      constructor; auto.
    - cbn [app]. constructor; [apply left_one, Hv | exact Hi]. }
  induction H as [ts v us vs Hi Hl IH | ts v Hi].
  - cbn [rev]. apply cons; assumption.
  - apply left_one, Hi.
Qed.

Lemma travdata_sound : forall ts l rest, p_block T_TRAVDATA p_travdataitem ts = Some (l, rest) ->
  exists w, ts = w ++ rest /\ g_travdata w (rev l).
Proof.
  intros ts l rest H. destruct (block_sound _ _ _ T_TRAVDATA eq_refl travdataitem_sound _ _ _ H) as (us & -> & Hl).
  eexists. split; [reflexivity | constructor; apply right_left, Hl].
Qed.
Lemma children_sound : forall ts l rest, p_block T_CHILDREN p_child ts = Some (l, rest) ->
  exists w, ts = w ++ rest /\ g_childrenbody w l.
Proof.
  intros ts l rest H. destruct (block_sound _ _ _ T_CHILDREN eq_refl child_sound _ _ _ H) as (us & -> & Hl).
  eexists. split; [reflexivity | constructor; exact Hl].
Qed.
Lemma attributes_sound : forall ts l rest, p_block T_ATTRIBUTES p_attribute ts = Some (l, rest) ->
  exists w, ts = w ++ rest /\ g_attributebody w l.
Proof.
  intros ts l rest H. destruct (block_sound _ _ _ T_ATTRIBUTES eq_refl attribute_sound _ _ _ H) as (us & -> & Hl).
  eexists. split; [reflexivity | constructor; exact Hl].
Qed.
Lemma equations_sound : forall ts l rest, p_block T_EQUATIONS p_equation ts = Some (l, rest) ->
  exists w, ts = w ++ rest /\ g_equationbody w l.
Proof.
  intros ts l rest H. destruct (block_sound _ _ _ T_EQUATIONS eq_refl equation_sound _ _ _ H) as (us & -> & Hl).
  eexists. split; [reflexivity | constructor; exact Hl].
Qed.
Lemma values_sound : forall ts l rest, p_block T_VALUES p_id ts = Some (l, rest) ->
  exists w, ts = w ++ rest /\ g_enumvalues w l.
Proof.
  intros ts l rest H. destruct (block_sound _ _ _ T_VALUES eq_refl id_sound _ _ _ H) as (us & -> & Hl).
  eexists. split; [reflexivity | constructor; exact Hl].
Qed.

Ltac inv2 :=
  match goal with
  | H : p_field _ _ = Some _ |- _ => apply field_inv in H; [|reflexivity]; subst
  | H : p_info _ = Some _ |- _ => apply info_inv in H; subst
  | H : before_comma _ _ _ = Some _ |- _ => unfold before_comma in H
  | H : optional _ _ _ = Some _ |- _ => unfold optional in H
  | H : p_setexpr _ = Some _ |- _ => use setexpr_sound H; clear H
  | H : p_block T_TRAVDATA _ _ = Some _ |- _ => use travdata_sound H; clear H
  | H : p_block T_CHILDREN _ _ = Some _ |- _ => use children_sound H; clear H
  | H : p_block T_ATTRIBUTES _ _ = Some _ |- _ => use attributes_sound H; clear H
  | H : p_block T_EQUATIONS _ _ = Some _ |- _ => use equations_sound H; clear H
  | H : p_block T_VALUES _ _ = Some _ |- _ => use values_sound H; clear H
  | H : p_nodelifetimes _ = Some _ |- _ => use nodelifetimes_sound H; clear H
  | _ => inv1
  end.
Ltac inv_all := repeat inv2.

Lemma pass_sound : sound g_pass p_pass.
Proof.
  intros ts v rest H. unfold p_pass in H. inv_all.
  all: first [by_rule pass_1 | by_rule pass_2 | by_rule pass_3 | by_rule pass_4 | by_rule pass_5 | by_rule pass_6
             | by_rule pass_8 | by_rule pass_7].
Qed.

Lemma traversal_sound : forall x, sound (g_traversal x) (p_traversal x).
Proof.
  intros x ts v rest H. unfold p_traversal in H. inv_all.
  all: try match goal with G : g_setexpr _ _ |- _ => apply traversalnodes_1 in G end.
  all: first [by_rule traversal_1 | by_rule traversal_2 | by_rule traversal_3 | by_rule traversal_4
             | by_rule traversal_5 | by_rule traversal_6 | by_rule traversal_7 | by_rule traversal_8].
Qed.

Lemma node_sound : sound g_node p_node.
Proof.
  intros ts v rest H. unfold p_node in H.
  apply bind_inv in H. destruct H as ([r us] & Er & H).
  assert (exists rs, ts = rs ++ us /\ g_is_root rs r) as (rs & -> & Hr).
  { clear H. inv; [exists [T_ROOT] | exists []]; (split; [reflexivity | constructor]). }
  clear Er. inv_all.
  all: first [by_rule node_1 | by_rule node_2 | by_rule node_3 | by_rule node_4 | by_rule node_5 | by_rule node_6
             | by_rule node_7 | by_rule node_8 | by_rule node_9 | by_rule node_10 | by_rule node_11 | by_rule node_12
             | by_rule node_13 | by_rule node_14 | discriminate].
Qed.

Lemma nodeset_sound : sound g_nodeset p_nodeset.
Proof.
  intros ts v rest H. unfold p_nodeset in H. inv_all.
  all: first [by_rule nodeset_1 | by_rule nodeset_2 | by_rule nodeset_3 | by_rule nodeset_4 | by_rule nodeset_5].
Qed.

Lemma enum_sound : sound g_enum p_enum.
Proof.
  intros ts v rest H. unfold p_enum in H. inv_all.
  all: first [by_rule enum_1 | by_rule enum_2].
Qed.

(** phases *)
Definition g_header (c : bool) : tokens -> ident * bool -> Prop := if c then g_cycleheader else g_phaseheader.

Lemma header_sound : forall ts b c n rest, p_header ts = Some (b, c, n, rest) ->
  exists hs, ts = hs ++ LBRACE :: rest /\ g_header c hs (n, b).
Proof.
  intros ts b c n rest H. unfold p_header in H. inv.
  - exists ([T_START] ++ [T_CYCLE; T_ID n]). split; [reflexivity | do 2 constructor].
  - exists ([] ++ [T_CYCLE; T_ID n]). split; [reflexivity | do 2 constructor].
  - exists ([T_START] ++ [T_PHASE; T_ID n]). split; [reflexivity | do 2 constructor].
  - exists ([] ++ [T_PHASE; T_ID n]). split; [reflexivity | do 2 constructor].
Qed.

(** the tokens of [l] before [r] *)
Ltac read_up_to l r :=
  match l with
  | r => constr:(@nil tok)
  | ?x :: ?l => let w := read_up_to l r in constr:(x :: w)
  end.

Lemma heading_sound : forall c ts i u g rest, p_heading c ts = Some (i, u, g, rest) ->
  exists w, ts = w ++ rest /\
    forall s hs h bs a s', g_header c hs h -> g_actionsbody s bs a s' ->
      g_phase s (hs ++ LBRACE :: w ++ bs ++ [RBRACE]) (new_phase h c i u g a) s'.
Proof.
  intros c ts i u g rest H. unfold p_heading, p_gate in H.
  destruct c; repeat (inv_all; cbn iota in * ).
  all: match goal with |- exists w, ?l = w ++ ?r /\ _ =>
      let w := read_up_to l r in exists w; split; [reflexivity | intros s hs h bs a s' Hh Hb] end.
  all: first [
      exact (phase_1 s hs h _ _ [] None bs a s' Hh gate_1 Hb)
    | exact (phase_1 s hs h _ _ [T_GATE; EQUALS; T_ID _] (Some _) bs a s' Hh (gate_2 _) Hb)
    | exact (phase_2 s hs h _ [] None bs a s' Hh gate_1 Hb)
    | exact (phase_2 s hs h _ [T_GATE; EQUALS; T_ID _] (Some _) bs a s' Hh (gate_2 _) Hb)
    | exact (phase_3 s hs h _ [] None bs a s' Hh gate_1 Hb)
    | exact (phase_3 s hs h _ [T_GATE; EQUALS; T_ID _] (Some _) bs a s' Hh (gate_2 _) Hb)
    | exact (phase_4 s hs h  [] None bs a s' Hh gate_1 Hb)
    | exact (phase_4 s hs h  [T_GATE; EQUALS; T_ID _] (Some _) bs a s' Hh (gate_2 _) Hb)
    | exact (phase_5 s hs h  bs a s' Hh Hb)
    | exact (phase_6 s hs h _ _ bs a s' Hh Hb)
    | exact (phase_7 s hs h _ bs a s' Hh Hb)
    | exact (phase_8 s hs h _ bs a s' Hh Hb)
    | exact (cycle_1 s hs h _ _ [] None bs a s' Hh gate_1 Hb)
    | exact (cycle_1 s hs h _ _ [T_GATE; EQUALS; T_ID _] (Some _) bs a s' Hh (gate_2 _) Hb)
    | exact (cycle_2 s hs h _ [] None bs a s' Hh gate_1 Hb)
    | exact (cycle_2 s hs h _ [T_GATE; EQUALS; T_ID _] (Some _) bs a s' Hh (gate_2 _) Hb)
    | exact (cycle_3 s hs h _ [] None bs a s' Hh gate_1 Hb)
    | exact (cycle_3 s hs h _ [T_GATE; EQUALS; T_ID _] (Some _) bs a s' Hh (gate_2 _) Hb)
    | exact (cycle_4 s hs h  [] None bs a s' Hh gate_1 Hb)
    | exact (cycle_4 s hs h  [T_GATE; EQUALS; T_ID _] (Some _) bs a s' Hh (gate_2 _) Hb)
    | exact (cycle_5 s hs h  bs a s' Hh Hb)
    | exact (cycle_6 s hs h _ _ bs a s' Hh Hb)
    | exact (cycle_7 s hs h _ bs a s' Hh Hb)
    | exact (cycle_8 s hs h _ bs a s' Hh Hb) | discriminate].
Qed.

(** [phase], [actions], [action] *)
Lemma phases_sound : forall n,
  (forall s ts p s' rest, p_phase n s ts = Some (p, s', rest) -> exists w, ts = w ++ rest /\ g_phase s w p s') /\
  (forall s ts l s' rest, p_actions n s ts = Some (l, s', rest) -> exists w, ts = w ++ rest /\ g_actions s w l s') /\
  (forall s ts a s' rest, p_action n s ts = Some (a, s', rest) -> exists w, ts = w ++ rest /\ g_action s w a s').
Proof.
  induction n as [|n (IHp & IHl & IHa)]; [repeat split; intros; discriminate|]. split; [|split].
  - intros s ts p s' rest H. cbn [p_phase] in H. inv.
    match goal with E : p_header _ = Some _ |- _ => destruct (header_sound _ _ _ _ _ E) as (hs & -> & Hh) end.
    match goal with E : p_heading _ _ = Some _ |- _ => destruct (heading_sound _ _ _ _ _ _ E) as (w & -> & Hw) end.
    match goal with E : p_actions _ _ _ = Some _ |- _ => destruct (IHl _ _ _ _ _ E) as (w2 & -> & Hl) end.
    eexists. split; cycle 1; [apply (Hw _ _ _ _ _ _ Hh (actionsbody_1 _ _ _ _ Hl)) | flat; reflexivity].
  - intros s ts l s' rest H. cbn [p_actions] in H. inv;
    match goal with E : p_action _ _ _ = Some _ |- _ => destruct (IHa _ _ _ _ _ E) as (w & -> & Hw); clear E end.
    + by_rule actions_2.
    + match goal with E : p_actions _ _ _ = Some _ |- _ => destruct (IHl _ _ _ _ _ E) as (w2 & -> & Hl) end.
      by_rule actions_1.
  - intros s ts a s' rest H. cbn [p_action] in H. inv.
    + by_rule action_4.
    + match goal with E : p_traversal _ _ = Some _ |- _ => use (traversal_sound (trav_index s)) E end. by_rule action_1.
    + match goal with E : ParserRun.p_pass _ = Some _ |- _ => use pass_sound E end. by_rule action_2.
    + match goal with E : ParserRun.p_phase _ _ _ = Some _ |- _ => destruct (IHp _ _ _ _ _ E) as (w & -> & Hw) end.
      by_rule action_3.
Qed.

Lemma entry_sound : forall s ts s' rest, p_entry s ts = Some (s', rest) -> exists w, ts = w ++ rest /\ g_entry s w s'.
Proof.
  intros s ts s' rest H. unfold p_entry in H. inv.
  - match goal with E : ParserRun.p_pass _ = Some _ |- _ => use pass_sound E end. by_rule entry_2.
  - match goal with E : p_traversal _ _ = Some _ |- _ => use (traversal_sound (trav_index s)) E end. by_rule entry_3.
  - match goal with E : ParserRun.p_node _ = Some _ |- _ => use node_sound E end. by_rule entry_4.
  - match goal with E : ParserRun.p_nodeset _ = Some _ |- _ => use nodeset_sound E end. by_rule entry_5.
  - match goal with E : ParserRun.p_enum _ = Some _ |- _ => use enum_sound E end. by_rule entry_6.
  - match goal with E : ParserRun.p_phase _ _ _ = Some _ |- _ =>
      destruct (proj1 (phases_sound _) _ _ _ _ _ E) as (w & -> & Hw) end.
    by_rule entry_1.
Qed.

Lemma entries_sound : forall n s ts s', p_entries n s ts = Some s' -> g_entries s ts s'.
Proof.
  induction n as [|n IH]; intros s ts s' H; [discriminate|]. cbn [p_entries] in H.
  destruct ts as [|t ts]; [injection H as <-; apply entries_3|].
  apply bind_inv in H. destruct H as ([s1 r] & E & H). destruct (entry_sound _ _ _ _ E) as (w & -> & Hw).
  destruct r as [|t' r]; [injection H as <-; rewrite app_nil_r; apply entries_2, Hw|].
  apply bind_inv in H. destruct H as (r' & Er & H). apply eat_inv in Er; [|reflexivity].
  rewrite Er. eapply entries_1; [exact Hw | apply IH, H].
Qed.

Theorem parse_sound : forall ts p, parse ts = Some p -> SPparseDSL ts p.
Proof. intros ts p H. eapply entries_sound, H. Qed.

(** The parser finds exactly the derivations. *)
Theorem parse_iff : forall ts p, SPparseDSL ts p <-> parse ts = Some p.
Proof. intros ts p. split; [apply parse_complete | apply parse_sound]. Qed.
