(** The parts (C42) of the text of a specification. *)

From Coq Require Import String.
From Coq Require Import List Ascii Bool Lia.
From Verif Require Import Base.Outcome Palm.StrModel Front.LexerModel Front.LexerSpec Front.ScannerModel Front.ScannerSpec.
From Verif Require Import Front.ScannerText Front.LexerProps.
From Verif Require Import Front.Syntax Front.ParserModel Front.ParserSpec Front.FileModel Front.FileSpec Front.FileProof.
Import ListNotations.
Local Open Scope string_scope.
Local Open Scope list_scope.

Lemma toks_of_app : forall a b ks ls, toks_of a = Some ks -> toks_of b = Some ls -> toks_of (a ++ b) = Some (ks ++ ls).
Proof.
  induction a as [|t a IH]; intros b ks ls H G; cbn in *; [injection H as <-; exact G|].
  destruct (tok_of t); [|discriminate]. destruct (toks_of a) as [l|]; [|discriminate]. injection H as <-. now rewrite (IH b l ls eq_refl G).
Qed.

Definition divided (ts : tokens) : Prop := exists ps,
  flat_map lexemes ps = map spell ts /\ Forall well_formed ps /\ Forall manageable ps /\ ~ Exists has_bad_name ps /\
  forall tss, Forall2 part_tokens ps tss -> toks_of (List.concat tss) = Some ts.

Lemma divided_app : forall a b, divided a -> divided b -> divided (a ++ b).
Proof.
  intros a b (ps & E & W & M & B & T) (qs & E' & W' & M' & B' & T'). exists (ps ++ qs). split; [|split; [|split; [|split]]].
  - rewrite flat_map_app, map_app. congruence.
  - now apply Forall_app.
  - now apply Forall_app.
  - intros X. apply Exists_app in X. tauto.
  - intros tss F. apply Forall2_app_inv_l in F. destruct F as (l1 & l2 & F1 & F2 & ->). rewrite concat_app.
    apply toks_of_app; auto.
Qed.


Lemma good_other : forall t, good t -> other (spell t).
Proof.
  intros t G. destruct t; try (elim G; fail); try (split; cbn; discriminate).
  cbn in G. destruct G as (_ & K & _). split; cbn; intros [= E]; apply K; rewrite E; unfold is_keyword, language_words; cbn; tauto.
Qed.
Lemma good_name : forall t, good t -> ~ bad_name (spell t).
Proof.
  intros t G (w & E & C & K).
  destruct t; try (elim G; fail); try discriminate E;
    try (injection E as <-; apply K; unfold is_keyword, language_words; cbn; tauto).
  injection E as <-. destruct G as (_ & _ & C' & _). contradiction.
Qed.

Lemma good_divided : forall ts, Forall good ts -> divided ts.
Proof.
  intros ts F. exists (map (fun t => Other (spell t)) ts). split; [|split; [|split; [|split]]].
  - clear F. induction ts as [|t ts IH]; cbn; [reflexivity|]. now rewrite IH.
  - apply Forall_map. eapply Forall_impl; [|exact F]. intros t G. now apply good_other.
  - apply Forall_map. eapply Forall_impl; [|exact F]. intros t G. exact I.
  - intros X. apply Exists_exists in X. destruct X as (p & IN & B). apply in_map_iff in IN. destruct IN as (t & <- & IN).
    rewrite Forall_forall in F. exact (good_name t (F t IN) B).
  - intros tss G. revert tss G. induction F as [|t ts G F IH]; intros tss P; inversion P as [|? ks ? kss P1 P2]; subst; [reflexivity|].
    inversion P1 as [|? k PL]; subst. cbn. rewrite (spell_plain t k G PL), (IH _ P2). reflexivity.
Qed.

Lemma plain_list : forall ts ks, Forall good ts -> Forall2 plain (map spell ts) ks -> toks_of ks = Some ts.
Proof.
  intros ts ks F. revert ks. induction F as [|t ts G F IH]; intros ks P; inversion P as [|? k ? ks' P1 P2]; subst; [reflexivity|].
  cbn. now rewrite (spell_plain t k G P1), (IH _ P2).
Qed.

Definition value_tokens (l : list ident) : tokens := separated COMMA (map (fun v => [T_ID v]) l).

Lemma value_tokens_in : forall l t, In t (value_tokens l) -> t = COMMA \/ exists v, In v l /\ t = T_ID v.
Proof.
  induction l as [|v l IH]; intros t H; [destruct H|]. unfold value_tokens in H. cbn [map separated] in H.
  destruct l as [|w l].
  - destruct H as [<-|[]]. right. exists v. split; [now left | reflexivity].
  - cbn [map] in H. cbn [app] in H. destruct H as [<-|[<-|H]].
    + right. exists v. split; [now left | reflexivity].
    + now left.
    + destruct (IH t H) as [->|(x & I & ->)]; [now left|]. right. exists x. split; [now right | reflexivity].
Qed.

Lemma value_list : forall ts ks, (forall t, In t ts -> t = COMMA \/ exists v, t = T_ID v) ->
  Forall2 value (map spell ts) ks -> toks_of ks = Some ts.
Proof.
  induction ts as [|t ts IH]; intros ks H F; inversion F as [|? k ? ks' P1 P2]; subst; [reflexivity|].
  cbn. rewrite (IH ks' (fun t I => H t (or_intror I)) P2).
  destruct (H t (or_introl eq_refl)) as [->|(v & ->)]; cbn in P1; inversion P1; subst; [reflexivity|].
  cbn. now rewrite txt_str.
Qed.

(** A value that comes after another *)
Lemma str_inj : forall v w, str v = w -> v = txt w.
Proof. intros v w <-. now rewrite txt_str. Qed.

Lemma value_split : forall l a b, map spell (value_tokens l) = a ++ b ->
  exists x y, l = x ++ y /\ (forall w, In (Word w) a -> In (txt w) x) /\ (forall w, In (Word w) b -> In (txt w) y).
Proof.
  assert (W : forall l w, In (Word w) (map spell (value_tokens l)) -> In (txt w) l).
  { intros l w H. apply in_map_iff in H. destruct H as (t & E & I). apply value_tokens_in in I.
    destruct I as [->|(v & I & ->)]; [discriminate E|]. cbn in E. injection E as E. apply str_inj in E. now subst. }
  induction l as [|v l IH]; intros a b E.
  - cbn in E. symmetry in E. apply app_eq_nil in E. destruct E as [-> ->]. exists [], []. split; [reflexivity|]. split; intros w [].
  - destruct l as [|w l].
    + destruct a as [|x a].
      * exists [], [v]. split; [reflexivity|]. split; [intros w []|]. intros w H. cbn [app] in E. rewrite <- E in H. exact (W _ _ H).
      * cbn in E. injection E as <- E. symmetry in E. apply app_eq_nil in E. destruct E as [-> ->]. exists [v], [].
        split; [reflexivity|]. split; [|intros w []]. intros w [H|[]]. injection H as H. apply str_inj in H. left. exact H.
    + change (value_tokens (v :: w :: l)) with (T_ID v :: COMMA :: value_tokens (w :: l)) in E. cbn [map spell] in E.
      destruct a as [|x a].
      * exists [], (v :: w :: l). split; [reflexivity|]. split; [intros z []|]. intros z H. cbn [app] in E.
        apply (W (v :: w :: l) z). rewrite <- E in H. exact H.
      * cbn [app] in E. injection E as <- E. destruct a as [|y a].
        -- exists [v], (w :: l). split; [reflexivity|]. split.
           ++ intros z [H|[]]. injection H as H. apply str_inj in H. left. exact H.
           ++ intros z H. cbn [app] in E. rewrite <- E in H. destruct H as [H|H]; [discriminate H|]. exact (W _ _ H).
        -- cbn [app] in E. injection E as <- E. destruct (IH a b E) as (x & y & EQ & H1 & H2).
           exists (v :: x), y. split; [cbn; now rewrite EQ|]. split; [|exact H2].
           intros z [H|[H|H]]; [|discriminate H|right; now apply H1]. injection H as H. apply str_inj in H. left. exact H.
Qed.

Definition enum_start (p : ident) (i : option cstring) : tokens :=
  separated COMMA (info_field i) ++ (match i with None => [] | Some _ => [COMMA] end) ++ field T_PREFIX (T_ID p) ++ [COMMA].

Lemma enum_tokens : forall n p l i,
  T_ENUM :: T_ID n :: fields (info_field i ++ [field T_PREFIX (T_ID p)] ++ [T_VALUES :: fields (map (fun v => [T_ID v]) l)]) =
  T_ENUM :: [T_ID n] ++ LBRACE :: enum_start p i ++ T_VALUES :: LBRACE :: value_tokens l ++ [RBRACE; RBRACE].
Proof.
  intros n p l [s|]; unfold enum_start, fields, braces, value_tokens; cbn [info_field present app separated field];
    rewrite <- ?app_assoc; cbn [app]; rewrite <- ?app_assoc; reflexivity.
Qed.

Lemma enum_divided : forall n p l i, names_ok (ParserSpec.Enum (mk_enum n p l) i) ->
  divided (T_ENUM :: T_ID n :: fields (info_field i ++ [field T_PREFIX (T_ID p)] ++ [T_VALUES :: fields (map (fun v => [T_ID v]) l)])).
Proof.
  intros n p l i (F & FI & V & VN & VE). cbn in F, FI, V, VN, VE. inversion F as [|? ? F1 F2]; subst. inversion F2 as [|? ? F3 _]; subst.
  rewrite enum_tokens.
  assert (GN : Forall good [T_ID n]) by (repeat constructor; apply F1).
  assert (GS : Forall good (enum_start p i)).
  { unfold enum_start. apply Forall_app. split.
    - apply fine_separated; [exact I|]. now apply fine_info.
    - apply Forall_app. split; [destruct i; repeat constructor|]. constructor; [exact I|]. constructor; [exact I|].
      constructor; [exact F3|]. repeat constructor. }
  exists [LexerSpec.Enum (map spell [T_ID n]) (map spell (enum_start p i)) (map spell (value_tokens l))].
  assert (NB : forall t, good t -> t <> LBRACE -> t <> RBRACE -> ~ brace (spell t)).
  { intros t G N1 N2 B. destruct t; try (elim G; fail); try (destruct B; discriminate). now elim N1. now elim N2. }
  split; [|split; [|split; [|split]]].
  - cbn. rewrite app_nil_r. rewrite !map_app. cbn [map]. rewrite !map_app. reflexivity.
  - constructor; [|constructor]. split; [|split].
    + repeat constructor; try (apply good_other; exact F1); cbn; intros [X|X]; discriminate X.
    + apply Forall_map. apply Forall_forall. intros t I. rewrite Forall_forall in GS. split; [apply good_other, GS, I|].
      apply NB; [apply GS, I | |]; intros ->; revert I; unfold enum_start; destruct i; cbn; intuition discriminate.
    + apply Forall_map. apply Forall_forall. intros t IN. apply value_tokens_in in IN. destruct IN as [->|(v & _ & ->)].
      * right. exists ","%char. split; [reflexivity|]. intros [X|X]; discriminate X.
      * left. eexists. reflexivity.
  - constructor; [|constructor]. split.
    + intros X. apply in_map_iff in X. destruct X as (t & E & I). apply value_tokens_in in I.
      destruct I as [->|(v & I & ->)]; [discriminate E|]. cbn in E. injection E as E. apply str_inj in E. subst. exact (VN I).
    + intros a b E IA IB. destruct (value_split l a b E) as (x & y & EQ & H1 & H2). exact (VE x y EQ (H1 _ IA) (H2 _ IB)).
  - intros X. inversion X as [? ? B|? ? B]; subst; [|inversion B]. cbn [has_bad_name] in B. apply Exists_app in B.
    assert (H : forall ts, Forall good ts -> ~ Exists bad_name (map spell ts)).
    { intros ts G E. apply Exists_exists in E. destruct E as (q & IN & Q). apply in_map_iff in IN. destruct IN as (t & <- & IN).
      rewrite Forall_forall in G. exact (good_name t (G t IN) Q). }
    destruct B as [B|B]; [exact (H _ GN B) | exact (H _ GS B)].
  - intros tss P. inversion P as [|? ks ? kss P1 P2]; subst. inversion P2; subst. cbn [List.concat]. rewrite app_nil_r.
    inversion P1 as [? ? ? t1 t2 tv P3 P4 P5|]; subst.
    apply (plain_list _ _ GN) in P3. apply (plain_list _ _ GS) in P4.
    apply value_list in P5.
    2: { intros t I. destruct (value_tokens_in _ _ I) as [->|(v & _ & ->)]; eauto. }
    change (T_keyword "T_ENUM" :: ?a) with ([T_keyword "T_ENUM"] ++ a).
    apply (toks_of_app [T_keyword "T_ENUM"] _ [T_ENUM]); [reflexivity|].
    apply toks_of_app; [exact P3|].
    apply (toks_of_app [T_char "{"] _ [LBRACE]); [reflexivity|].
    apply toks_of_app; [exact P4|].
    apply (toks_of_app [T_keyword "T_VALUES"; T_char "{"] _ [T_VALUES; LBRACE]); [reflexivity|].
    apply toks_of_app; [exact P5 | reflexivity].
Qed.

Lemma declaration_divided : forall d ts, declaration_written d ts -> names_ok d -> divided ts.
Proof.
  intros d ts W N. assert (D : (exists e i, d = ParserSpec.Enum e i) \/ forall e i, d <> ParserSpec.Enum e i).
  { destruct d; try (right; intros; discriminate). left. eauto. }
  destruct D as [(e & i & ->)|D].
  - inversion W; subst. now apply enum_divided.
  - apply good_divided. eapply fine_declaration; [exact W | exact D | apply N | apply N].
Qed.

Lemma written_divided : forall d ts, written d ts -> Forall names_ok d -> divided ts.
Proof.
  intros d ts W. induction W as [|d ts W|d l ts us W _ IH]; intros N.
  - apply (good_divided []). constructor.
  - inversion N; subst. eapply declaration_divided; eassumption.
  - inversion N as [|? ? N1 N2]; subst. apply divided_app; [eapply declaration_divided; eassumption|].
    apply (divided_app [SEMICOLON] us); [|exact (IH N2)]. apply good_divided. repeat constructor.
Qed.

Lemma written_lexed : forall d ts, written d ts -> Forall names_ok d ->
  exists f ks, lex init_flags (map spell ts) = Val (f, ks) /\ toks_of ks = Some ts.
Proof.
  intros d ts W N. destruct (written_divided d ts W N) as (ps & E & WF & M & B & T).
  destruct (C42_keywords_in_place_partial ps WF M B) as (f & tss & F & L). rewrite E in L. exists f, (List.concat tss). auto.
Qed.
