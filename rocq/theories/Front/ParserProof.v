(** The parser of ParserRun.v finds every derivation of the grammar. *)

From Coq Require Import List Ascii NArith Bool Lia PeanoNat Wf_nat.
From Verif Require Import Palm.StrModel Front.Syntax Front.SetsModel Front.ParserModel Front.ParserRun.
Import ListNotations.

Definition complete {A} (g : tokens -> A -> Prop) (p : tokens -> option (A * tokens)) (F : tokens -> Prop) :=
  forall ts v rest, g ts v -> F rest -> p (ts ++ rest) = Some (v, rest).
(** what is next *)
Definition next (l : list tok) (ts : tokens) : Prop := exists t r, ts = t :: r /\ In t l.
Definition not_next (t : tok) (ts : tokens) : Prop := at_ t ts = false.
Definition anything (ts : tokens) : Prop := True.

Ltac flat := repeat (rewrite <- !app_assoc || rewrite <- !app_comm_cons || rewrite !app_nil_l); cbn [app].
Ltac run := cbn [bind eat eats at_ at_id is code N.eqb Pos.eqb p_id p_string p_field p_info orb andb
                 before_comma optional info uid func prefix app primitive p_op fst snd].

Lemma next_cons : forall l t r, In t l -> next l (t :: r).
Proof. intros l t r H. exists t, r. auto. Qed.
Ltac nxt := first [exact I | apply next_cons; cbn [In]; tauto | reflexivity].

Lemma id_complete : complete id p_id anything.
Proof. intros ts v rest H _. inversion H. reflexivity. Qed.

Lemma is_refl : forall t, is t t = true.
Proof. intros t. apply N.eqb_refl. Qed.

Lemma right_complete : forall A (g : tokens -> A -> Prop) p sep (F : tokens -> Prop),
  complete g p F -> (forall r, F (sep :: r)) ->
  forall n, complete (fun ts v => right_list sep g ts v /\ length ts < n) (p_right p n sep)
    (fun r => F r /\ not_next sep r).
Proof.
  intros A g p sep F C Fs n ts v rest [H L] [Fr Nr]. revert n L.
  induction H as [ts v us vs Hi Hl IH | ts v Hi]; intros [|n] L; try (exfalso; lia).
  - flat. cbn [p_right]. rewrite (C ts v (sep :: us ++ rest) Hi (Fs _)). cbn [bind at_ eat].
    rewrite is_refl. cbn [bind]. rewrite app_length in L. cbn [length] in L. rewrite IH by lia.
    reflexivity.
  - cbn [p_right]. rewrite (C ts v rest Hi Fr). cbn [bind]. rewrite Nr. reflexivity.
Qed.

Lemma right_complete' : forall A (g : tokens -> A -> Prop) p sep (F : tokens -> Prop),
  complete g p F -> (forall r, F (sep :: r)) ->
  complete (right_list sep g) (fun ts => p_right p (S (length ts)) sep ts) (fun r => F r /\ not_next sep r).
Proof.
  intros A g p sep F C Fs ts v rest H Fr.
  apply (right_complete A g p sep F C Fs); auto. split; [exact H|]. rewrite app_length. lia.
Qed.

Lemma range_spec_complete : complete range_spec p_range_spec (not_next DOT).
Proof.
  intros ts v rest H Hn. unfold p_range_spec.
  apply (right_complete' _ id p_id DOT anything id_complete); try (intros; exact I); [exact H | split; [exact I | exact Hn]].
Qed.

Lemma range_spec_starts : forall ts p, range_spec ts p -> exists i r, ts = T_ID i :: r.
Proof.
  intros ts p H. inversion H as [? ? ? ? Hi | ? ? Hi]; subst; inversion Hi; subst; cbn; eauto.
Qed.

(** what may stand behind a range *)
Definition after_range := next [T_ARROW; COMMA; RBRACE].
Lemma after_range_plain : forall r, after_range r ->
  at_id r = false /\ at_ DOT r = false /\ at_ LPAR r = false /\ at_ RPAR r = false /\ at_ LBRACKET r = false.
Proof.
  intros r (t & r' & -> & H). cbn [In] in H. destruct H as [<- | [<- | [<- | []]]]; repeat split.
Qed.

Lemma range_complete : complete g_range p_range after_range.
Proof.
  intros ts v rest H Hr. destruct (after_range_plain rest Hr) as (A1 & A2 & A3 & A4 & A5).
  inversion H as [| | | ? ? Hs | ? ? Hs | ? ? Hs | ? ? Hs]; subst; clear H; unfold p_range.
  - cbn [app]. rewrite A3, A4, A5, A1. reflexivity.
  - run. rewrite A1. reflexivity.
  - run. reflexivity.
  - run. destruct (range_spec_starts _ _ Hs) as (i & r & ->). run.
    rewrite (range_spec_complete _ _ rest Hs A2 : p_range_spec (T_ID i :: r ++ rest) = _). reflexivity.
  - destruct (range_spec_starts _ _ Hs) as (i & r & ->). flat. run.
    rewrite (range_spec_complete _ _ (RPAR :: rest) Hs eq_refl : p_range_spec (T_ID i :: r ++ RPAR :: rest) = _).
    run. reflexivity.
  - destruct (range_spec_starts _ _ Hs) as (i & r & ->). flat. run.
    rewrite (range_spec_complete _ _ (RBRACKET :: rest) Hs eq_refl
              : p_range_spec (T_ID i :: r ++ RBRACKET :: rest) = _).
    run. reflexivity.
  - run. rewrite (range_spec_complete _ _ rest Hs A2). reflexivity.
Qed.

(** what may stand behind an item of a list in braces *)
Definition item_end := next [COMMA; RBRACE].
Lemma item_end_range : forall r, item_end r -> after_range r.
Proof. intros r (t & r' & -> & H). exists t, r'. cbn [In] in *. tauto. Qed.
Lemma item_end_comma : forall r, item_end (COMMA :: r).
Proof. intros. nxt. Qed.

Lemma range_not_end : forall ts b r, g_range ts b ->
  at_ COMMA (ts ++ T_ARROW :: r) = false /\ at_ RBRACE (ts ++ T_ARROW :: r) = false /\
  match ts ++ T_ARROW :: r with [] => true | _ => false end = false.
Proof.
  intros ts b r H.
  inversion H as [| | | ? ? Hs | ? ? Hs | ? ? Hs | ? ? Hs]; subst; try (repeat split; fail);
    destruct (range_spec_starts _ _ Hs) as (i & r' & ->); repeat split.
Qed.

Lemma lifetime_complete : complete g_lifetime p_lifetime item_end.
Proof.
  intros ts v rest H Hr.
  assert (R : forall bare ts b us e, g_range ts b -> g_range us e ->
              p_ranges bare (ts ++ T_ARROW :: us ++ rest) = Some (b, e, rest)).
  { intros bare ts' b us e Hb He. unfold p_ranges.
    destruct (range_not_end _ _ (us ++ rest) Hb) as (E1 & E2 & E3). rewrite E1, E2, E3.
    cbn [orb]. rewrite andb_false_r.
    rewrite (range_complete _ _ (T_ARROW :: us ++ rest) Hb) by nxt. run.
    rewrite (range_complete _ _ rest He) by (apply item_end_range, Hr). reflexivity. }
  assert (B : p_ranges true rest = Some (None, None, rest)).
  { destruct Hr as (t & r & -> & Ht). cbn [In] in Ht. unfold p_ranges.
    destruct Ht as [<- | [<- | []]]; reflexivity. }
  inversion H; subst; unfold p_lifetime; flat; run; first [rewrite B | erewrite R by eassumption]; reflexivity.
Qed.

Lemma commas_complete : forall A (g : tokens -> A -> Prop) p (F : tokens -> Prop),
  complete g p F -> (forall r, F (COMMA :: r)) -> (forall r, F (RBRACE :: r)) ->
  complete (right_list COMMA g) (commas p) (next [RBRACE]).
Proof.
  intros A g p F C F1 F2 ts v rest H (t & r & -> & Ht). cbn [In] in Ht. destruct Ht as [<- | []].
  unfold commas. apply (right_complete' _ g p COMMA F C F1); auto. split; [apply F2 | reflexivity].
Qed.

Lemma block_complete : forall A (g : tokens -> A -> Prop) p w (F : tokens -> Prop),
  complete g p F -> (forall r, F (COMMA :: r)) -> (forall r, F (RBRACE :: r)) ->
  forall ts l rest, right_list COMMA g ts l ->
  p_block w p (w :: LBRACE :: ts ++ RBRACE :: rest) = Some (l, rest).
Proof.
  intros A g p w F C F1 F2 ts l rest H. unfold p_block. cbn [eats eat bind]. rewrite is_refl. run.
  rewrite (commas_complete A g p F C F1 F2 ts l (RBRACE :: rest) H) by nxt. run. reflexivity.
Qed.

Lemma lifetimes_complete : complete g_lifetimes (commas p_lifetime) (next [RBRACE]).
Proof. apply (commas_complete _ _ _ item_end lifetime_complete); intros; nxt. Qed.

Lemma nodelifetimes_complete : complete g_nodelifetimes p_nodelifetimes (next [RBRACE]).
Proof.
  intros ts v rest H (t & r & -> & Ht). cbn [In] in Ht. destruct Ht as [<- | []].
  inversion H as [| ? ? Hl]; subst; unfold p_nodelifetimes; run; [reflexivity|].
  flat. apply (block_complete _ _ _ T_LIFETIME item_end lifetime_complete); try (intros; nxt). exact Hl.
Qed.

Lemma lifetime_starts : forall ts l, g_lifetime ts l ->
  exists t r, ts = t :: r /\ In t [T_DISALLOWED; T_ALLOWED; T_MANDATORY; T_OPTIONAL].
Proof. intros ts l H. inversion H; subst; eexists _, _; (split; [reflexivity | cbn [In]; tauto]). Qed.

Lemma right_starts : forall A (g : tokens -> A -> Prop) sep L,
  (forall ts v, g ts v -> exists t r, ts = t :: r /\ In t L) ->
  forall ts l, right_list sep g ts l -> exists t r, ts = t :: r /\ In t L.
Proof.
  intros A g sep L Hs ts l H. inversion H as [? ? ? ? Hi | ? ? Hi]; subst;
    destruct (Hs _ _ Hi) as (t & r & -> & Ht); cbn [app]; eauto.
Qed.

Lemma child_complete : complete g_child p_child item_end.
Proof.
  intros ts v rest H Hr.
  assert (B : at_ LBRACE rest = false).
  { destruct Hr as (t & r & -> & Ht). cbn [In] in Ht. destruct Ht as [<- | [<- | []]]; reflexivity. }
  inversion H as [| | | t n us l Hl | t n us l Hl]; subst; unfold p_child; flat; run; try reflexivity.
  - rewrite B. reflexivity.
  - destruct (right_starts _ _ _ _ lifetime_starts _ _ Hl) as (k & r & E & Hk).
    assert (at_ RBRACE (us ++ RBRACE :: rest) = false /\ at_ T_CONSTRUCTOR (us ++ RBRACE :: rest) = false) as [-> ->].
    { subst us. cbn [In] in Hk. destruct Hk as [<- | [<- | [<- | [<- | []]]]]; split; reflexivity. }
    rewrite (lifetimes_complete _ _ (RBRACE :: rest) Hl) by nxt. run. reflexivity.
  - rewrite (lifetimes_complete _ _ (RBRACE :: rest) Hl) by nxt. run. reflexivity.
Qed.

Lemma keyword_complete : complete g_keyword p_keyword item_end.
Proof.
  intros ts v rest H Hr. inversion H as [| | | us l Hl]; subst; unfold p_keyword; run; try reflexivity.
  assert (at_ T_CONSTRUCTOR (ts ++ rest) = false /\ at_ T_INHERITED (ts ++ rest) = false /\
          at_ T_SYNTHESIZED (ts ++ rest) = false) as (-> & -> & ->).
  { destruct (lifetime_starts _ _ Hl) as (k & r & -> & Hk). cbn [In] in Hk.
    destruct Hk as [<- | [<- | [<- | [<- | []]]]]; repeat split. }
  rewrite (lifetime_complete _ _ rest Hl Hr). reflexivity.
Qed.

Lemma keyword_starts : forall ts k, g_keyword ts k -> exists t r, ts = t :: r /\ is RBRACE t = false.
Proof.
  intros ts k H. inversion H as [| | | us l Hl]; subst; try (eexists _, _; split; reflexivity).
  destruct (lifetime_starts _ _ Hl) as (t & r & -> & Ht). exists t, r. split; [reflexivity|].
  cbn [In] in Ht. destruct Ht as [<- | [<- | [<- | [<- | []]]]]; reflexivity.
Qed.

Lemma keywords_complete : forall ts ks, g_keywords ts ks -> forall n rest, length ts < n ->
  p_keywords n (ts ++ RBRACE :: rest) = Some (ks, RBRACE :: rest).
Proof.
  intros ts ks H. induction H as [| ts k Hk | ts k us ks Hk Hks IH]; intros [|n] rest L; try (exfalso; lia);
    cbn [p_keywords].
  - run. reflexivity.
  - destruct (keyword_starts _ _ Hk) as (t & r & -> & Ht). cbn [app at_]. rewrite Ht.
    change (t :: r ++ RBRACE :: rest) with ((t :: r) ++ RBRACE :: rest).
    rewrite (keyword_complete _ _ (RBRACE :: rest) Hk) by nxt.
    run. reflexivity.
  - destruct (keyword_starts _ _ Hk) as (t & r & -> & Ht). flat. cbn [app at_]. rewrite Ht.
    change (t :: r ++ COMMA :: us ++ RBRACE :: rest) with ((t :: r) ++ COMMA :: us ++ RBRACE :: rest).
    rewrite (keyword_complete _ _ (COMMA :: us ++ RBRACE :: rest) Hk) by nxt.
    run. rewrite app_length in L. cbn [length] in L. rewrite IH by lia. reflexivity.
Qed.

Lemma primitive_iff : forall p t, g_primitive p t <-> primitive p = Some t.
Proof.
  intros p t. split; intros H.
  - inversion H; reflexivity.
  - destruct p; try discriminate; injection H as <-; constructor.
Qed.

Lemma primitive_type : forall p t r, g_primitive p t -> p_type (p :: r) = Some (t, None, r).
Proof. intros p t r H. inversion H; reflexivity. Qed.

Lemma attribute_complete : complete g_attribute p_attribute item_end.
Proof.
  intros ts v rest H Hr.
  assert (B : at_ LBRACE rest = false).
  { destruct Hr as (t & r & -> & Ht). cbn [In] in Ht. destruct Ht as [<- | [<- | []]]; reflexivity. }
  assert (K : forall us ks, g_keywords us ks ->
              p_keywords (S (length (us ++ RBRACE :: rest))) (us ++ RBRACE :: rest) = Some (ks, RBRACE :: rest)).
  { intros us ks Hk. apply keywords_complete; [exact Hk|]. rewrite app_length. lia. }
  inversion H as [p t n us ks Hp Hk | p t n Hp | r n us ks Hk | r n | r n us ks Hk | r n]; subst;
    unfold p_attribute; flat.
  - rewrite (primitive_type _ _ _ Hp). run. rewrite (K _ _ Hk). run. reflexivity.
  - rewrite (primitive_type _ _ _ Hp). run. rewrite B. reflexivity.
  - unfold p_type. run. rewrite (K _ _ Hk). run. reflexivity.
  - unfold p_type. run. rewrite B. reflexivity.
  - unfold p_type. run. rewrite (K _ _ Hk). run. reflexivity.
  - unfold p_type. run. rewrite B. reflexivity.
Qed.

Lemma reference_complete : complete g_reference p_reference anything.
Proof. intros ts v rest H _. inversion H; subst; unfold p_reference; run; reflexivity. Qed.

Lemma reference_starts : forall ts v, g_reference ts v -> exists t r, ts = t :: r /\ is RBRACE t = false.
Proof. intros ts v H. inversion H; subst; eexists _, _; split; reflexivity. Qed.

Lemma equation_complete : complete g_equation p_equation anything.
Proof.
  intros ts v rest H _. inversion H as [us r vs l Hr Hp]; subst. unfold p_equation. flat.
  rewrite (reference_complete _ _ (EQUALS :: vs ++ rest) Hr) by exact I. cbn [bind].
  inversion Hp as [ws l' Hd|]; subst; [|run; reflexivity].
  inversion Hd as [xs l' Hl|]; subst; [|run; reflexivity].
  flat. run.
  assert (at_ RBRACE (xs ++ RBRACE :: RBRACE :: rest) = false) as ->.
  { inversion Hl as [ts' v' us' vs' Hx | ts' v' Hx]; subst; destruct (reference_starts _ _ Hx) as (t & q & -> & Ht);
      cbn [app at_]; exact Ht. }
  rewrite (commas_complete _ _ _ anything reference_complete (fun _ => I) (fun _ => I) _ _ (RBRACE :: RBRACE :: rest) Hl)
    by nxt.
  run. reflexivity.
Qed.

(** * Set expressions *)

Inductive chain : setexpr -> tokens -> setexpr -> Prop :=
| chain_end : forall e, chain e [] e
| chain_op : forall e o op us r ts e', g_setop o op -> g_setprimary us r ->
    chain (EOperation op e r) ts e' -> chain e (o :: us ++ ts) e'.

Lemma chain_app : forall e ts e', chain e ts e' -> forall us e'', chain e' us e'' -> chain e (ts ++ us) e''.
Proof.
  intros e ts e' H. induction H as [e | e o op us r ts e' Ho Hp Hc IH]; intros vs e'' H2; [exact H2|].
  cbn [app]. rewrite <- app_assoc. econstructor; eauto.
Qed.

Scheme setexpr_ind2 := Induction for g_setexpr Sort Prop
  with setprimary_ind2 := Induction for g_setprimary Sort Prop
  with setoperation_ind2 := Induction for g_setoperation Sort Prop.
Combined Scheme set_mutind from setexpr_ind2, setprimary_ind2, setoperation_ind2.

Lemma setexpr_chain : forall ts e, g_setexpr ts e ->
  exists us e0 vs, ts = us ++ vs /\ g_setprimary us e0 /\ chain e0 vs e.
Proof.
  assert (H : (forall ts e, g_setexpr ts e ->
                 exists us e0 vs, ts = us ++ vs /\ g_setprimary us e0 /\ chain e0 vs e) /\
              (forall ts e, g_setprimary ts e -> True) /\
              (forall ts e, g_setoperation ts e ->
                 exists us e0 vs, ts = us ++ vs /\ g_setprimary us e0 /\ chain e0 vs e)).
  { apply set_mutind; auto.
    - intros ts e Hp _. exists ts, e, []. rewrite app_nil_r. split; [reflexivity|]. split; [exact Hp | constructor].
    - intros ts l o op us r _ (as_ & e0 & bs & -> & Hp & Hc) Ho Hr _.
      exists as_, e0, (bs ++ o :: us). rewrite <- app_assoc. split; [reflexivity|]. split; [exact Hp|].
      apply (chain_app _ _ _ Hc). replace us with (us ++ []) by apply app_nil_r.
      econstructor; [exact Ho | exact Hr | constructor]. }
  apply H.
Qed.

Lemma setoperation_chain : forall ts e, g_setoperation ts e ->
  exists us e0 vs, ts = us ++ vs /\ g_setprimary us e0 /\ chain e0 vs e /\ vs <> [].
Proof.
  intros ts e H. inversion H as [us l o op vs r Hl Ho Hr]; subst.
  destruct (setexpr_chain _ _ Hl) as (as_ & e0 & bs & -> & Hp & Hc).
  exists as_, e0, (bs ++ o :: vs). rewrite <- app_assoc. split; [reflexivity|]. split; [exact Hp|]. split.
  - apply (chain_app _ _ _ Hc). replace vs with (vs ++ []) by apply app_nil_r.
    econstructor; [exact Ho | exact Hr | constructor].
  - destruct bs; discriminate.
Qed.

Lemma setliterals_list : forall ts l, g_setliterals ts l ->
  exists is_, right_list COMMA id ts is_ /\ l = parse_literal is_.
Proof.
  assert (snoc : forall ts l i, right_list COMMA id ts l -> right_list COMMA id (ts ++ [COMMA; T_ID i]) (l ++ [i])).
  { intros ts l i H. induction H as [ts v us vs Hi Hl IH | ts v Hi].
    - rewrite <- app_assoc. cbn [app]. constructor; assumption.
    - cbn [app]. constructor; [exact Hi|]. apply right_one. constructor. }
  intros ts l H. induction H as [ts l i H (is_ & Hl & ->) | i].
  - exists (is_ ++ [i]). split; [apply snoc, Hl|]. unfold parse_literal. rewrite fold_left_app. reflexivity.
  - exists [i]. split; [apply right_one; constructor | reflexivity].
Qed.

Lemma setop_op : forall o op ts, g_setop o op -> p_op (o :: ts) = Some (op, ts).
Proof. intros o op ts H. inversion H; reflexivity. Qed.

Definition no_op (ts : tokens) : Prop := p_op ts = None.

(** the length of an operand that is found with fuel [n] *)
Lemma set_complete : forall n,
  (forall ts e rest, length ts < n -> 2 * length ts <= n -> g_setprimary ts e -> p_primary n (ts ++ rest) = Some (e, rest)) /\
  (forall ts e e' b rest, chain e ts e' -> no_op rest -> 2 * length ts < n ->
     p_ops n b e (ts ++ rest) = Some (b || match ts with [] => false | _ => true end, e', rest)).
Proof.
  induction n as [n IH] using lt_wf_ind. split.
  - intros ts e rest L1 L H. destruct n as [|n]; [exfalso; lia|]. cbn [p_primary].
    inversion H as [us e0 Ho | us l Hl | i]; subst.
    + flat. run. destruct (setoperation_chain _ _ Ho) as (as_ & e0 & bs & -> & Hp & Hc & Hb).
      cbn [length] in L. rewrite !app_length in L. cbn [length] in L.
      assert (length as_ > 0).
      { destruct as_; [inversion Hp | cbn [length]; lia]. }
      assert (length bs > 0) by (destruct bs; [congruence | cbn [length]; lia]).
      destruct n as [|n]; [exfalso; lia|]. cbn [p_set]. rewrite <- app_assoc.
      destruct (IH n ltac:(lia)) as [IHp IHo].
      rewrite (IHp as_ e0 _ ltac:(lia) ltac:(lia) Hp). cbn [bind].
      rewrite (IHo bs e0 e false (RPAR :: rest) Hc eq_refl ltac:(lia)).
      destruct bs; [congruence|]. run. reflexivity.
    + flat. run. destruct (setliterals_list _ _ Hl) as (is_ & Hi & ->).
      rewrite (commas_complete _ _ _ anything id_complete (fun _ => I) (fun _ => I) _ _ (RBRACE :: rest) Hi) by nxt.
      run. reflexivity.
    + run. reflexivity.
  - intros ts e e' b rest H Hr L. destruct n as [|n]; [exfalso; lia|]. cbn [p_ops].
    inversion H as [| e1 o op us r vs e2 Ho Hp Hc]; subst.
    + cbn [app]. rewrite Hr, orb_false_r. reflexivity.
    + flat. rewrite (setop_op _ _ _ Ho). cbn [length] in L. rewrite app_length in L.
      assert (length us > 0).
      { destruct us; [inversion Hp | cbn [length]; lia]. }
      destruct (IH n ltac:(lia)) as [IHp IHo].
      rewrite (IHp us r _ ltac:(lia) ltac:(lia) Hp). cbn [bind].
      rewrite (IHo vs _ e' true rest Hc Hr ltac:(lia)). cbn [orb]. rewrite orb_true_r. reflexivity.
Qed.

Lemma setexpr_complete : complete g_setexpr p_setexpr no_op.
Proof.
  intros ts e rest H Hr. unfold p_setexpr.
  destruct (setexpr_chain _ _ H) as (us & e0 & vs & -> & Hp & Hc).
  rewrite !app_length. replace (2 * (length us + length vs + length rest) + 3)
    with (S (2 * (length us + length vs + length rest) + 2)) by lia.
  cbn [p_set]. rewrite <- app_assoc.
  destruct (set_complete (2 * (length us + length vs + length rest) + 2)) as [Sp So].
  rewrite (Sp us e0 _ ltac:(lia) ltac:(lia) Hp). cbn [bind].
  rewrite (So vs e0 e false rest Hc Hr ltac:(lia)). reflexivity.
Qed.
