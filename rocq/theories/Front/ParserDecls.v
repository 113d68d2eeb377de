(** The parser of ParserRun.v finds every derivation: declarations. *)

From Coq Require Import List Ascii NArith Bool Lia PeanoNat Wf_nat.
From Verif Require Import Palm.StrModel Front.Syntax Front.SetsModel Front.ParserModel Front.ParserRun.
From Verif Require Import Front.ParserProof.
Import ListNotations.

(** what may stand behind a declaration *)
Definition decl_end (ts : tokens) : Prop := ts = [] \/ next [SEMICOLON] ts.
Lemma decl_end_plain : forall r, decl_end r -> at_ LBRACE r = false /\ at_ EQUALS r = false /\ no_op r.
Proof.
  intros r [-> | (t & r' & -> & Ht)]; [repeat split|]. cbn [In] in Ht. destruct Ht as [<- | []]. repeat split.
Qed.
Lemma decl_end_semicolon : forall r, decl_end (SEMICOLON :: r).
Proof. intros r. right. nxt. Qed.

(** which tokens are next does not depend on what follows a block *)
Lemma at_app : forall t x r us rest, us = x :: r -> at_ t (us ++ rest) = is t x.
Proof. intros t x r us rest ->. reflexivity. Qed.

Lemma left_right : forall A (g : tokens -> A -> Prop) ts l,
  left_list g ts l -> right_list COMMA g ts (rev l).
Proof.
  intros A g ts l H.
  assert (snoc : forall ts l us v, right_list COMMA g ts l -> g us v -> right_list COMMA g (ts ++ COMMA :: us) (l ++ [v])).
  { intros ts' l' us v H'. induction H' as [ts' v' us' vs' Hi Hl IH | ts' v' Hi]; intros Hv.
    - rewrite <- app_assoc. cbn [app]. constructor; auto.
    - cbn [app]. constructor; [exact Hi|]. apply right_one, Hv. }
  induction H as [ts vs us v H IH Hi | ts v Hi].
  - cbn [rev]. apply snoc; assumption.
  - apply right_one, Hi.
Qed.

Lemma travdataitem_complete : complete g_travdataitem p_travdataitem anything.
Proof.
  intros ts v rest H _. unfold p_travdataitem. inversion H as [p t n Hp | |]; subst.
  - cbn [app]. rewrite (primitive_type _ _ _ Hp). run. reflexivity.
  - unfold p_type. run. reflexivity.
  - unfold p_type. run. reflexivity.
Qed.

Lemma travdata_block : forall us d rest, g_travdata us d ->
  p_block T_TRAVDATA p_travdataitem (us ++ rest) = Some (rev d, rest).
Proof.
  intros us d rest H. inversion H as [ts l Hl]; subst. flat.
  apply (block_complete _ _ _ _ anything travdataitem_complete (fun _ => I) (fun _ => I)), left_right, Hl.
Qed.

Lemma pass_complete : complete g_pass p_pass decl_end.
Proof.
  intros ts v rest H Hr. destruct (decl_end_plain _ Hr) as (B1 & B2 & _).
  inversion H; subst; unfold p_pass; flat; run; rewrite ?B2, ?B1; run; reflexivity.
Qed.

Lemma travdata_starts : forall us d, g_travdata us d -> exists r, us = T_TRAVDATA :: r.
Proof. intros us d H. inversion H; subst. eauto. Qed.

Lemma traversal_complete : forall x, complete (g_traversal x) (p_traversal x) anything.
Proof.
  intros x ts v rest H _.
  inversion H as [n i u ts' e us d He Hd | n u ts' e us d He Hd | n i u us d Hd | n i u ts' e He | n i u
                 | n u us d Hd | n u ts' e He | n u]; subst; unfold p_traversal; flat; run;
    try (inversion He as [es e' Hs]; subst; flat; run);
    try (erewrite setexpr_complete; [| exact Hs | reflexivity]; run);
    try (destruct (travdata_starts _ _ Hd) as (r & E));
    try (rewrite (at_app _ _ _ _ _ E); run);
    try (rewrite (travdata_block _ _ (RBRACE :: rest) Hd); run; rewrite rev_involutive);
    reflexivity.
Qed.

Lemma childrenbody_block : forall us l rest, g_childrenbody us l ->
  p_block T_CHILDREN p_child (us ++ rest) = Some (l, rest).
Proof.
  intros us l rest H. inversion H as [ts l' Hl]; subst. flat.
  apply (block_complete _ _ _ _ item_end child_complete); try (intros; nxt). exact Hl.
Qed.
Lemma attributebody_block : forall us l rest, g_attributebody us l ->
  p_block T_ATTRIBUTES p_attribute (us ++ rest) = Some (l, rest).
Proof.
  intros us l rest H. inversion H as [ts l' Hl]; subst. flat.
  apply (block_complete _ _ _ _ item_end attribute_complete); try (intros; nxt). exact Hl.
Qed.
Lemma equationbody_block : forall us l rest, g_equationbody us l ->
  p_block T_EQUATIONS p_equation (us ++ rest) = Some (l, rest).
Proof.
  intros us l rest H. inversion H as [ts l' Hl]; subst. flat.
  apply (block_complete _ _ _ _ anything equation_complete (fun _ => I) (fun _ => I)). exact Hl.
Qed.

Lemma right_nonempty : forall A sep (g : tokens -> A -> Prop) ts l, right_list sep g ts l -> exists v vs, l = v :: vs.
Proof. intros A sep g ts l H. inversion H; eauto. Qed.

Lemma children_starts : forall us l, g_childrenbody us l -> (exists r, us = T_CHILDREN :: r) /\ exists v vs, l = v :: vs.
Proof. intros us l H. inversion H as [ts l' Hl]; subst. split; eauto using right_nonempty. Qed.
Lemma attributes_starts : forall us l, g_attributebody us l -> (exists r, us = T_ATTRIBUTES :: r) /\ exists v vs, l = v :: vs.
Proof. intros us l H. inversion H as [ts l' Hl]; subst. split; eauto using right_nonempty. Qed.
Lemma equations_starts : forall us l, g_equationbody us l -> (exists r, us = T_EQUATIONS :: r) /\ exists v vs, l = v :: vs.
Proof. intros us l H. inversion H as [ts l' Hl]; subst. split; eauto using right_nonempty. Qed.

Lemma lifetimes_next : forall ls l rest, g_nodelifetimes ls l ->
  at_ T_EQUATIONS (ls ++ RBRACE :: rest) = false /\ at_ T_ATTRIBUTES (ls ++ RBRACE :: rest) = false.
Proof. intros ls l rest H. inversion H; subst; split; reflexivity. Qed.

Lemma node_complete : complete g_node p_node anything.
Proof.
  intros ts v rest H _.
  inversion H as [rs r n cs c as_ a es e ls l Hr Hc Ha He Hl | rs r n cs c as_ a ls l Hr Hc Ha Hl
    | rs r n as_ a es e ls l Hr Ha He Hl | rs r n as_ a ls l Hr Ha Hl | rs r n cs c es e ls l Hr Hc He Hl
    | rs r n cs c ls l Hr Hc Hl | rs r n as_ a es e Hr Ha He | rs r n as_ a Hr Ha | rs r n cs c es e Hr Hc He
    | rs r n cs c Hr Hc | rs r n cs c as_ a es e Hr Hc Ha He | rs r n cs c as_ a Hr Hc Ha | rs r n es e Hr He
    | rs r n Hr]; subst; clear H;
  try (destruct (children_starts _ _ Hc) as ((cr & Ec) & c0 & c1 & ->));
  try (destruct (attributes_starts _ _ Ha) as ((ar & Ea) & a0 & a1 & ->));
  try (destruct (equations_starts _ _ He) as ((er & Ee) & e0 & e1 & ->));
  flat; unfold p_node;
  (assert (B : forall us, (if at_ T_ROOT (rs ++ T_NODE :: us)
                     then bind (eat T_ROOT (rs ++ T_NODE :: us)) (fun ts => Some (true, ts))
                     else Some (false, rs ++ T_NODE :: us)) = Some (r, T_NODE :: us));
   [intros us; inversion Hr; reflexivity|]); rewrite B; clear B; run;
  repeat first
    [ rewrite (at_app _ _ _ _ _ Ec); run
    | rewrite (at_app _ _ _ _ _ Ea); run
    | rewrite (at_app _ _ _ _ _ Ee); run
    | rewrite (childrenbody_block _ _ _ Hc); run
    | rewrite (attributebody_block _ _ _ Ha); run
    | rewrite (equationbody_block _ _ _ He); run
    | rewrite (proj1 (lifetimes_next _ _ rest Hl)); run
    | rewrite (proj2 (lifetimes_next _ _ rest Hl)); run
    | rewrite (nodelifetimes_complete _ _ (RBRACE :: rest) Hl ltac:(nxt)); run ];
  try reflexivity.
Qed.

Lemma nodeset_complete : complete g_nodeset p_nodeset decl_end.
Proof.
  intros ts v rest H Hr. destruct (decl_end_plain _ Hr) as (_ & _ & B).
  inversion H as [n i us e vs a He Ha | n i us e He | n us e vs a He Ha | n us e He | n us e He]; subst;
    unfold p_nodeset; flat; run;
    (rewrite (setexpr_complete _ _ _ He) by first [exact B | reflexivity]); run;
    try (rewrite (attributebody_block _ _ _ Ha); run); reflexivity.
Qed.

Lemma enum_complete : complete g_enum p_enum anything.
Proof.
  intros ts v rest H _.
  inversion H as [n i p us l Hv | n p us l Hv]; subst; unfold p_enum; inversion Hv as [vs l' Hl]; subst; flat; run;
    (rewrite (block_complete _ _ _ T_VALUES anything id_complete (fun _ => I) (fun _ => I) _ _ _ Hl)); run; reflexivity.
Qed.

(** * Phases *)

Lemma header_phase : forall hs h us, g_phaseheader hs h ->
  p_header (hs ++ LBRACE :: us) = Some (snd h, false, fst h, us).
Proof. intros hs h us H. inversion H as [ts b n Hs]; subst. inversion Hs; subst; reflexivity. Qed.
Lemma header_cycle : forall hs h us, g_cycleheader hs h ->
  p_header (hs ++ LBRACE :: us) = Some (snd h, true, fst h, us).
Proof. intros hs h us H. inversion H as [ts b n Hs]; subst. inversion Hs; subst; reflexivity. Qed.

Scheme phase_ind2 := Minimality for g_phase Sort Prop
  with actionsbody_ind2 := Minimality for g_actionsbody Sort Prop
  with actions_ind2 := Minimality for g_actions Sort Prop
  with action_ind2 := Minimality for g_action Sort Prop.
Combined Scheme phase_mutind from phase_ind2, actionsbody_ind2, actions_ind2, action_ind2.

Lemma new_phase_eta : forall h c i u g a, new_phase (fst h, snd h) c i u g a = new_phase h c i u g a.
Proof. intros [n b]. reflexivity. Qed.

Lemma actions_starts : forall s ts a s', g_actions s ts a s' -> exists t r, ts = t :: r /\ is RBRACE t = false.
Proof.
  assert (P : forall s ts p s', g_phase s ts p s' -> exists t r, ts = t :: r /\ is RBRACE t = false).
  { intros s ts p s' H. inversion H as
      [? ? ? ? ? ? ? ? ? ? Hh|? ? ? ? ? ? ? ? ? Hh|? ? ? ? ? ? ? ? ? Hh|? ? ? ? ? ? ? ? Hh|? ? ? ? ? ? Hh
      |? ? ? ? ? ? ? ? Hh|? ? ? ? ? ? ? Hh|? ? ? ? ? ? ? Hh
      |? ? ? ? ? ? ? ? ? ? Hh|? ? ? ? ? ? ? ? ? Hh|? ? ? ? ? ? ? ? ? Hh|? ? ? ? ? ? ? ? Hh|? ? ? ? ? ? Hh
      |? ? ? ? ? ? ? ? Hh|? ? ? ? ? ? ? Hh|? ? ? ? ? ? ? Hh]; subst;
      inversion Hh as [us b n Hs]; subst; inversion Hs; subst; eexists _, _; split; reflexivity. }
  assert (Q : forall s ts p s', g_action s ts p s' -> exists t r, ts = t :: r /\ is RBRACE t = false).
  { intros s ts p s' H. inversion H as [s0 ts0 t Ht | s0 ts0 q Hq | s0 ts0 q s1 Hq | s0 i]; subst.
    - inversion Ht; subst; eexists _, _; split; reflexivity.
    - inversion Hq; subst; eexists _, _; split; reflexivity.
    - eauto.
    - eexists _, _; split; reflexivity. }
  intros s ts a s' H. inversion H as [? ? ? ? ? ? ? Hx | ? ? ? ? Hx]; subst;
    destruct (Q _ _ _ _ Hx) as (t & r & -> & Ht); cbn [app]; eauto.
Qed.

Lemma phase_no_other : forall s ts p s' rest, g_phase s ts p s' ->
  at_id (ts ++ rest) = false /\ at_ T_TRAVERSAL (ts ++ rest) = false /\ at_ T_PASS (ts ++ rest) = false /\
  at_ T_ROOT (ts ++ rest) = false /\ at_ T_NODE (ts ++ rest) = false /\ at_ T_NODESET (ts ++ rest) = false /\
  at_ T_ENUM (ts ++ rest) = false /\ 0 < length ts.
Proof.
  intros s ts p s' rest H. inversion H as
      [? ? ? ? ? ? ? ? ? ? Hh|? ? ? ? ? ? ? ? ? Hh|? ? ? ? ? ? ? ? ? Hh|? ? ? ? ? ? ? ? Hh|? ? ? ? ? ? Hh
      |? ? ? ? ? ? ? ? Hh|? ? ? ? ? ? ? Hh|? ? ? ? ? ? ? Hh
      |? ? ? ? ? ? ? ? ? ? Hh|? ? ? ? ? ? ? ? ? Hh|? ? ? ? ? ? ? ? ? Hh|? ? ? ? ? ? ? ? Hh|? ? ? ? ? ? Hh
      |? ? ? ? ? ? ? ? Hh|? ? ? ? ? ? ? Hh|? ? ? ? ? ? ? Hh]; subst;
      inversion Hh as [us b n Hs]; subst; inversion Hs; subst; repeat split; cbn [app length]; lia.
Qed.

Lemma phases_complete :
  (forall s ts p s', g_phase s ts p s' -> forall n rest, 2 * length ts < n ->
     p_phase n s (ts ++ rest) = Some (p, s', rest)) /\
  (forall s ts a s', g_actionsbody s ts a s' ->
     exists us, ts = T_ACTIONS :: LBRACE :: us ++ [RBRACE] /\
     forall n rest, 2 * length us < n -> p_actions n s (us ++ RBRACE :: rest) = Some (a, s', RBRACE :: rest)) /\
  (forall s ts a s', g_actions s ts a s' -> forall n rest, 2 * length ts < n ->
     p_actions n s (ts ++ RBRACE :: rest) = Some (a, s', RBRACE :: rest)) /\
  (forall s ts a s', g_action s ts a s' -> forall n rest, 2 * length ts + 1 < n -> next [SEMICOLON] rest ->
     p_action n s (ts ++ rest) = Some (a, s', rest)).
Proof.
  apply phase_mutind.
  1-16: intros s hs h; intros;
    match goal with H : exists us, _ /\ _ |- _ => destruct H as (us & -> & IH) end;
    match goal with L : 2 * length _ < ?n |- _ =>
      repeat (progress (rewrite ?app_length in L; cbn [length] in L));
      destruct n as [|n]; [exfalso; lia|] end;
    cbn [p_phase]; flat;
    match goal with Hh : g_phaseheader _ _ |- _ => rewrite (header_phase _ _ _ Hh)
                  | Hh : g_cycleheader _ _ |- _ => rewrite (header_cycle _ _ _ Hh) end;
    unfold p_heading, p_gate;
    try match goal with Hg : g_gate _ _ |- _ => inversion Hg; subst end;
    run; rewrite IH by lia; run; rewrite ?new_phase_eta; destruct h; reflexivity.
  - intros s ts a s' Ha IH. exists ts. split; [reflexivity | exact IH].
  - intros s ts a s1 us l s2 Ha IHa Hl IHl n rest L.
    rewrite app_length in L. cbn [length] in L. destruct n as [|n]; [exfalso; lia|].
    cbn [p_actions]. flat. rewrite IHa by (first [lia | nxt]). run.
    destruct (actions_starts _ _ _ _ Hl) as (t & r & E & Ht).
    rewrite (at_app _ _ _ _ _ E), Ht. rewrite IHl by lia. reflexivity.
  - intros s ts a s1 Ha IHa n rest L.
    rewrite app_length in L. cbn [length] in L. destruct n as [|n]; [exfalso; lia|].
    cbn [p_actions]. flat. rewrite IHa by (first [lia | nxt]). run. reflexivity.
  - intros s ts t Ht n rest L Hr. destruct n as [|n]; [exfalso; lia|]. cbn [p_action].
    assert (at_id (ts ++ rest) = false /\ at_ T_TRAVERSAL (ts ++ rest) = true) as [-> ->]
      by (inversion Ht; subst; split; reflexivity).
    rewrite (traversal_complete _ _ _ rest Ht I). reflexivity.
  - intros s ts p Hp n rest L Hr. destruct n as [|n]; [exfalso; lia|]. cbn [p_action].
    assert (at_id (ts ++ rest) = false /\ at_ T_TRAVERSAL (ts ++ rest) = false /\ at_ T_PASS (ts ++ rest) = true)
      as (-> & -> & ->) by (inversion Hp; subst; repeat split).
    rewrite (pass_complete _ _ rest Hp) by (right; exact Hr). reflexivity.
  - intros s ts p s' Hp IH n rest L Hr. destruct n as [|n]; [exfalso; lia|]. cbn [p_action].
    destruct (phase_no_other _ _ _ _ rest Hp) as (-> & -> & -> & _ & _ & _ & _ & _).
    rewrite IH by lia. reflexivity.
  - intros s i n rest L Hr. destruct n as [|n]; [exfalso; lia|]. cbn [p_action]. run. reflexivity.
Qed.

Lemma entry_complete : forall s ts s', g_entry s ts s' -> forall rest, decl_end rest ->
  p_entry s (ts ++ rest) = Some (s', rest).
Proof.
  intros s ts s' H rest Hr.
  inversion H as [s0 us p s1 Hp | s0 us p Hp | s0 us t Ht | s0 us n Hn | s0 us n Hn | s0 us e He]; subst;
    unfold p_entry.
  - destruct (phase_no_other _ _ _ _ rest Hp) as (_ & -> & -> & -> & -> & -> & -> & _). cbn [orb].
    rewrite (proj1 phases_complete _ _ _ _ Hp) by (rewrite app_length; lia). reflexivity.
  - assert (at_ T_PASS (ts ++ rest) = true) as -> by (inversion Hp; subst; reflexivity).
    rewrite (pass_complete _ _ rest Hp Hr). reflexivity.
  - assert (at_ T_PASS (ts ++ rest) = false /\ at_ T_TRAVERSAL (ts ++ rest) = true) as [-> ->]
      by (inversion Ht; subst; split; reflexivity).
    rewrite (traversal_complete _ _ _ rest Ht I). reflexivity.
  - assert (at_ T_PASS (ts ++ rest) = false /\ at_ T_TRAVERSAL (ts ++ rest) = false /\
            at_ T_ROOT (ts ++ rest) || at_ T_NODE (ts ++ rest) = true) as (-> & -> & ->).
    { inversion Hn; subst; match goal with Hb : g_is_root _ _ |- _ => inversion Hb; subst end; repeat split. }
    rewrite (node_complete _ _ rest Hn I). reflexivity.
  - assert (at_ T_PASS (ts ++ rest) = false /\ at_ T_TRAVERSAL (ts ++ rest) = false /\
            at_ T_ROOT (ts ++ rest) || at_ T_NODE (ts ++ rest) = false /\ at_ T_NODESET (ts ++ rest) = true)
      as (-> & -> & -> & ->) by (inversion Hn; subst; repeat split).
    rewrite (nodeset_complete _ _ rest Hn Hr). reflexivity.
  - assert (at_ T_PASS (ts ++ rest) = false /\ at_ T_TRAVERSAL (ts ++ rest) = false /\
            at_ T_ROOT (ts ++ rest) || at_ T_NODE (ts ++ rest) = false /\ at_ T_NODESET (ts ++ rest) = false /\
            at_ T_ENUM (ts ++ rest) = true)
      as (-> & -> & -> & -> & ->) by (inversion He; subst; repeat split).
    rewrite (enum_complete _ _ rest He I). reflexivity.
Qed.

Lemma entry_nonempty : forall s ts s', g_entry s ts s' -> ts <> [].
Proof.
  intros s ts s' H ->.
  inversion H as [s0 us p s1 Hp | s0 us p Hp | s0 us t Ht | s0 us n Hn | s0 us n Hn | s0 us e He]; subst.
  - destruct (phase_no_other _ _ _ _ [] Hp) as (_ & _ & _ & _ & _ & _ & _ & L). cbn in L. lia.
  - inversion Hp.
  - inversion Ht.
  - inversion Hn; destruct rs; discriminate.
  - inversion Hn.
  - inversion He.
Qed.

Theorem parse_complete : forall ts p, SPparseDSL ts p -> parse ts = Some p.
Proof.
  assert (G : forall s ts p, g_entries s ts p -> forall n, length ts < n -> p_entries n s ts = Some p).
  { intros s ts p H. induction H as [s ts s1 us s2 He Hs IH | s ts s1 He | s]; intros [|n] L; try (exfalso; lia);
      cbn [p_entries].
    - pose proof (entry_complete _ _ _ He (SEMICOLON :: us) (decl_end_semicolon us)) as E.
      destruct (ts ++ SEMICOLON :: us) as [|t0 r0] eqn:El; [destruct ts; discriminate|].
      rewrite E. run. apply IH. rewrite <- El, app_length in L. cbn [length] in L. lia.
    - pose proof (entry_complete _ _ _ He [] (or_introl eq_refl)) as E. rewrite app_nil_r in E.
      destruct ts as [|t0 r0]; [exfalso; apply (entry_nonempty _ _ _ He); reflexivity|].
      rewrite E. reflexivity.
    - reflexivity. }
  intros ts p H. unfold parse. apply G; [exact H | lia].
Qed.
