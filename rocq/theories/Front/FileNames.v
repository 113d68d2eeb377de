(** The names in the tree of an accepted file. *)

From Coq Require Import String.
From Coq Require Import List Ascii Bool.
From Verif Require Import Base.Outcome Palm.StrModel Front.LexerModel Front.LexerSpec Front.LexerProof Front.ScannerModel Front.ScannerSpec
  Front.ScannerText Front.ScannerWhole Front.Syntax Front.ParserModel Front.ParserDecls Front.ParserElse Front.FileModel Front.FileSpec
  Front.FileNamesSpec.
Import ListNotations.
Local Open Scope string_scope.
Local Open Scope list_scope.

(** ** The scanner *)

Definition keyword_tok (t : tok) : Prop :=
  match t with
  | ParserModel.T_ID _ | ParserModel.T_NULL | ParserModel.T_STRINGVAL _ | ParserModel.T_FLOATVAL | ParserModel.T_INTVAL | ParserModel.T_UINTVAL
  | LPAR | RPAR | LBRACKET | RBRACKET | LBRACE | RBRACE | COMMA | EQUALS | SEMICOLON | BANG | BAR | AMPERSAND | MINUS | DOT => False
  | _ => True
  end.
Definition id_all (Q : ident -> Prop) (t : tok) : Prop := match t with ParserModel.T_ID i => Q i | _ => True end.

Definition lexed (f : flags) (ls : list lexeme) (f' : flags) (ts : tokens) : Prop :=
  exists ks, lex f ls = Val (f', ks) /\ toks_of ks = Some ts /\ Forall lexeme_ok ls.

Lemma lexed_nil : forall f ls f', lexed f ls f' [] -> f' = f.
Proof.
  intros f ls f' (ks & L & T & O). destruct ks as [|k ks]; cbn in T.
  - destruct ls as [|l ls]; cbn in L; [congruence|]. destruct (lex_one f l); cbn [bind] in L; try discriminate.
    destruct (lex _ ls); cbn [bind] in L; discriminate.
  - destruct (tok_of k); [destruct (toks_of ks); discriminate|discriminate].
Qed.
Lemma lexed_cons : forall f ls f' t ts, lexed f ls f' (t :: ts) ->
  exists l ls' f1 k, lexeme_ok l /\ lex_one f l = Val (f1, k) /\ tok_of k = Some t /\ lexed f1 ls' f' ts.
Proof.
  intros f ls f' t ts (ks & L & T & O). destruct ks as [|k ks]; cbn in T; [discriminate|].
  destruct (tok_of k) as [t'|] eqn:Et; [|discriminate]. destruct (toks_of ks) as [ts'|] eqn:Ets; [|discriminate]. injection T as -> ->.
  destruct ls as [|l ls]; cbn in L; [congruence|]. destruct (lex_one f l) as [[f1 k1]| | | |] eqn:E1; cbn [bind] in L; try discriminate.
  cbn [fst snd] in L. destruct (lex f1 ls) as [[f2 ks2]| | | |] eqn:E2; cbn [bind] in L; try discriminate. cbn [fst snd] in L.
  inversion L; subst. inversion O; subst. exists l, ls, f1, k. split; [assumption|]. split; [exact E1|]. split; [exact Et|]. exists ks. auto.
Qed.
Lemma lexed_app : forall ts us f ls f', lexed f ls f' (ts ++ us) -> exists ls1 f1 ls2, lexed f ls1 f1 ts /\ lexed f1 ls2 f' us.
Proof.
  induction ts as [|t ts IH]; intros us f ls f' H; cbn [app] in H.
  - exists [], f, ls. split; [exists []; cbn; auto|exact H].
  - destruct (lexed_cons _ _ _ _ _ H) as (l & ls' & f1 & k & O & E & T & R). destruct (IH _ _ _ _ R) as (ls1 & f2 & ls2 & (ks & L1 & T1 & O1) & R2).
    exists (l :: ls1), f2, ls2. split; [|exact R2]. exists (k :: ks). cbn [lex toks_of]. rewrite E. cbn [bind fst snd]. rewrite L1.
    cbn [bind fst snd]. rewrite T, T1. split; [reflexivity|]. split; [reflexivity|]. constructor; assumption.
Qed.

Lemma not_in_words : forall w, assoc w keywords = None -> ~ is_keyword w.
Proof. intros w E I. apply assoc_none in E. apply E. apply keywords_words. exact I. Qed.

Definition keyword_tokb (t : tok) : bool :=
  match t with
  | ParserModel.T_ID _ | ParserModel.T_NULL | ParserModel.T_STRINGVAL _ | ParserModel.T_FLOATVAL | ParserModel.T_INTVAL | ParserModel.T_UINTVAL
  | LPAR | RPAR | LBRACKET | RBRACKET | LBRACE | RBRACE | COMMA | EQUALS | SEMICOLON | BANG | BAR | AMPERSAND | MINUS | DOT => false
  | _ => true
  end.
Definition is_enum (t : tok) : bool := match t with T_ENUM => true | _ => false end.
Definition is_values (t : tok) : bool := match t with T_VALUES => true | _ => false end.
Lemma keyword_tokens : forall w x t, assoc w keywords = Some x -> tok_of (T_keyword x) = Some t ->
  keyword_tokb t = true /\ is_enum t = String.eqb w "enum" /\ is_values t = String.eqb w "values".
Proof.
  assert (C : forallb (fun p => match tok_of (T_keyword (snd p)) with
    | Some t => keyword_tokb t && Bool.eqb (is_enum t) (String.eqb (fst p) "enum") && Bool.eqb (is_values t) (String.eqb (fst p) "values")
    | None => true end) keywords = true) by (vm_compute; reflexivity).
  intros w x t E T. assert (I : In (w, x) keywords).
  { clear C T. revert E. generalize keywords. induction l as [|[y v] l IH]; cbn [assoc]; [discriminate|].
    destruct (String.eqb y w) eqn:Ew; intros H; [|right; auto]. apply String.eqb_eq in Ew. left. congruence. }
  rewrite forallb_forall in C. specialize (C (w, x) I). cbn [fst snd] in C. rewrite T in C. rewrite !andb_true_iff in C.
  destruct C as [[C1 C2] C3]. split; [exact C1|]. split; apply Bool.eqb_prop; assumption.
Qed.
Lemma keyword_class : forall t, keyword_tokb t = true <-> keyword_tok t.
Proof. intros t. destruct t; cbn; split; intros; try discriminate; try exact I; try contradiction; reflexivity. Qed.
Lemma character_class : forall c t, tok_of (T_char c) = Some t -> keyword_tokb t = false /\ id_all (fun _ => False) t /\
  (t = LBRACE <-> Ascii.eqb c "{" = true) /\ (t = RBRACE <-> Ascii.eqb c "}" = true).
Proof.
  assert (C : forallb (fun p => match snd p with ParserModel.T_ID _ => false | _ => true end && negb (keyword_tokb (snd p)) &&
      Bool.eqb (match snd p with LBRACE => true | _ => false end) (Ascii.eqb (fst p) "{") &&
      Bool.eqb (match snd p with RBRACE => true | _ => false end) (Ascii.eqb (fst p) "}")) character_tokens = true) by (vm_compute; reflexivity).
  intros c t T. cbn [tok_of] in T. assert (I : In (c, t) character_tokens).
  { clear C. revert T. generalize character_tokens. induction l as [|[y v] l IH]; cbn [numbered_as]; [discriminate|].
    destruct (Ascii.eqb y c) eqn:Ew; intros H; [|right; auto]. apply Ascii.eqb_eq in Ew. left. congruence. }
  rewrite forallb_forall in C. specialize (C (c, t) I). cbn [fst snd] in C. rewrite !andb_true_iff in C.
  destruct C as [[[C0 C1] C2] C3]. apply negb_true_iff in C1. apply Bool.eqb_prop in C2, C3. rewrite <- C2, <- C3.
  split; [exact C1|]. split; [destruct t; try discriminate; exact Logic.I|].
  split; destruct t; split; intros; try discriminate; reflexivity.
Qed.

Lemma word_name : forall w, lexeme_ok (Word w) -> assoc w keywords = None -> w <> "NULL" -> existsb (String.eqb w) c_keywords = false -> name_ok (txt w).
Proof.
  intros w O A N C. unfold name_ok. rewrite str_txt. split; [exact O|]. split; [apply not_in_words; exact A|]. split; [|exact N].
  intros I. apply c_keywords_words in I. assert (X : existsb (String.eqb w) c_keywords = true); [|congruence].
  apply existsb_exists. exists w. split; [exact I|apply String.eqb_refl].
Qed.

(** One token while keywords are recognised. *)
Lemma on_step : forall e v l f1 k t, lexeme_ok l -> lex_one (mk_flags true e v) l = Val (f1, k) -> tok_of k = Some t ->
  id_all name_ok t /\
  match t with
  | T_ENUM => f1 = mk_flags true true v
  | T_VALUES => f1 = mk_flags true e (e || v)
  | LBRACE => f1 = if v then mk_flags false false false else mk_flags true e v
  | _ => f1 = mk_flags true e v
  end.
Proof.
  intros e v l f1 k t O E T. destruct l as [w|c| |x|x|x|x]; cbn [lex_one] in E.
  - unfold lex_word in E. destruct (assoc w keywords) as [x|] eqn:Ea.
    + destruct (String.eqb w "enum") eqn:E1; [|destruct (String.eqb w "values") eqn:E2].
      * inversion E; subst. cbn [LEX_KEYWORD yy_lex_keywords] in T. destruct (keyword_tokens w x t Ea T) as (K1 & K2 & K3).
        rewrite E1 in K2. destruct t; try discriminate. split; [exact I|reflexivity].
      * destruct (keyword_tokens w x t Ea) as (K1 & K2 & K3); [destruct e; inversion E; subst; exact T|].
        rewrite E2 in K3. destruct t; try discriminate. split; [exact I|]. destruct e; inversion E; reflexivity.
      * inversion E; subst. cbn [LEX_KEYWORD yy_lex_keywords] in T. destruct (keyword_tokens w x t Ea T) as (K1 & K2 & K3).
        rewrite E1 in K2. rewrite E2 in K3. destruct t; try discriminate; (split; [exact I|reflexivity]).
    + assert (E1 : String.eqb w "enum" = false) by (apply String.eqb_neq; intros ->; discriminate Ea).
      assert (E2 : String.eqb w "values" = false) by (apply String.eqb_neq; intros ->; discriminate Ea).
      rewrite E1, E2 in E. destruct (String.eqb w "NULL") eqn:En.
      * inversion E; subst. cbn in T. injection T as <-. split; [exact I|reflexivity].
      * unfold check_c_keyword in E. cbn [yy_lex_keywords negb] in E. destruct (existsb _ c_keywords) eqn:Ec; cbn [bind] in E; [discriminate|].
        inversion E; subst. cbn in T. injection T as <-. split; [|reflexivity]. apply word_name; auto. apply String.eqb_neq, En.
  - cbn [in_enum_values in_enum yy_lex_keywords] in E.
    destruct (Ascii.eqb c "{") eqn:E1; [|destruct (Ascii.eqb c "}") eqn:E2]; inversion E; subst;
      destruct (character_class c t T) as (C1 & C2 & C3 & C4).
    + assert (t = LBRACE) by (apply C3; exact E1). subst t. split; [exact I|]. reflexivity.
    + assert (t = RBRACE) by (apply C4; exact E2). subst t. split; [exact I|]. reflexivity.
    + destruct t; try discriminate; try contradiction; try (split; [exact I|reflexivity]).
      assert (X : false = true) by (rewrite <- E1; apply C3; reflexivity). discriminate X.
  - inversion E; subst. cbn in T. injection T as <-. split; [exact I|reflexivity].
  - inversion E; subst. cbn in T. injection T as <-. split; [exact I|reflexivity].
  - inversion E; subst. cbn in T. injection T as <-. split; [exact I|reflexivity].
  - inversion E; subst. cbn in T. injection T as <-. split; [exact I|reflexivity].
  - inversion E; subst. cbn in T. injection T as <-. split; [exact I|reflexivity].
Qed.

(** One token while they are not. *)
Lemma off_step : forall e v l f1 k t, lexeme_ok l -> lex_one (mk_flags false e v) l = Val (f1, k) -> tok_of k = Some t ->
  id_all value_ok t /\ ~ keyword_tok t /\ yy_lex_keywords f1 = match t with RBRACE => true | _ => false end.
Proof.
  intros e v l f1 k t O E T. rewrite <- keyword_class. destruct l as [w|c| |x|x|x|x]; cbn [lex_one] in E.
  - assert (F : forall f, yy_lex_keywords f = false -> f = (if String.eqb w "enum" then mk_flags false true v
       else if String.eqb w "values" then (if e then mk_flags false e true else mk_flags false e v) else mk_flags false e v) -> True) by auto.
    clear F. unfold lex_word in E. cbn [yy_lex_keywords in_enum in_enum_values] in E.
    set (f := if String.eqb w "enum" then _ else _) in E.
    assert (Y : yy_lex_keywords f = false) by (unfold f; destruct (String.eqb w "enum"); [|destruct (String.eqb w "values"); [destruct e|]]; reflexivity).
    clearbody f. destruct (assoc w keywords) as [x|] eqn:Ea.
    + unfold LEX_KEYWORD in E. rewrite Y in E. inversion E; subst. cbn in T. injection T as <-.
      split; [left; split; [exact O|]|split; [discriminate|exact Y]]. rewrite str_txt. intros ->. discriminate Ea.
    + destruct (String.eqb w "NULL") eqn:En.
      * inversion E; subst. cbn in T. injection T as <-. split; [exact I|]. split; [discriminate|exact Y].
      * unfold check_c_keyword in E. rewrite Y in E. cbn [negb bind] in E. inversion E; subst. cbn in T. injection T as <-.
        split; [left; split; [exact O|]|split; [discriminate|exact Y]]. rewrite str_txt. now apply String.eqb_neq.
  - cbn [in_enum_values in_enum yy_lex_keywords] in E.
    destruct (Ascii.eqb c "{") eqn:E1; [|destruct (Ascii.eqb c "}") eqn:E2]; inversion E; subst;
      destruct (character_class c t T) as (C1 & C2 & C3 & C4).
    + assert (t = LBRACE) by (apply C3; exact E1). subst t. split; [exact I|]. split; [discriminate|]. destruct v; reflexivity.
    + assert (t = RBRACE) by (apply C4; exact E2). subst t. split; [exact I|]. split; [discriminate|]. reflexivity.
    + rewrite C1. split; [destruct t; try exact I; contradiction|]. split; [discriminate|]. destruct t; try reflexivity.
      assert (X : false = true) by (rewrite <- E2; apply C4; reflexivity). discriminate X.
  - inversion E; subst. cbn in T. injection T as <-. split; [right; reflexivity|]. split; [discriminate|reflexivity].
  - inversion E; subst. cbn in T. injection T as <-. split; [exact I|]. split; [discriminate|reflexivity].
  - inversion E; subst. cbn in T. injection T as <-. split; [exact I|]. split; [discriminate|reflexivity].
  - inversion E; subst. cbn in T. injection T as <-. split; [exact I|]. split; [discriminate|reflexivity].
  - inversion E; subst. cbn in T. injection T as <-. split; [exact I|]. split; [discriminate|reflexivity].
Qed.

(** ** Runs of the scanner *)

Definition okt (t : tok) : bool := negb (is_enum t) && negb (is_values t).
Definition plain (ts : tokens) : Prop := forallb okt ts = true.
Definition flat (ts : tokens) : Prop := plain ts /\ ~ In LBRACE ts.

Lemma flat_run : forall ts e v ls f', flat ts -> lexed (mk_flags true e v) ls f' ts ->
  f' = mk_flags true e v /\ Forall (id_all name_ok) ts.
Proof.
  induction ts as [|t ts IH]; intros e v ls f' [P N] L.
  - apply lexed_nil in L. auto.
  - destruct (lexed_cons _ _ _ _ _ L) as (l & ls' & f1 & k & O & E & T & R). destruct (on_step _ _ _ _ _ _ O E T) as [A B].
    unfold plain in P. cbn [forallb] in P. apply andb_true_iff in P. destruct P as [P1 P2].
    assert (F1 : f1 = mk_flags true e v).
    { destruct t; try exact B; try discriminate P1. elim N. left. reflexivity. }
    subst f1. destruct (IH e v ls' f') as [C D]; [split; [exact P2|]|exact R|].
    { intros X. apply N. right. exact X. }
    split; [exact C|]. constructor; assumption.
Qed.
Lemma plain_run : forall ts e ls f', plain ts -> lexed (mk_flags true e false) ls f' ts ->
  f' = mk_flags true e false /\ Forall (id_all name_ok) ts.
Proof.
  induction ts as [|t ts IH]; intros e ls f' P L.
  - apply lexed_nil in L. auto.
  - destruct (lexed_cons _ _ _ _ _ L) as (l & ls' & f1 & k & O & E & T & R). destruct (on_step _ _ _ _ _ _ O E T) as [A B].
    unfold plain in P. cbn [forallb] in P. apply andb_true_iff in P. destruct P as [P1 P2].
    assert (F1 : f1 = mk_flags true e false) by (destruct t; try exact B; try discriminate P1).
    subst f1. destruct (IH e ls' f' P2 R) as [C D]. split; [exact C|]. constructor; assumption.
Qed.

(** Between braces where keywords are not recognised there are none. *)
Lemma off_run : forall ts f ls f', yy_lex_keywords f = false -> ~ In RBRACE ts -> lexed f ls f' ts ->
  yy_lex_keywords f' = false /\ Forall (id_all value_ok) ts /\ Forall (fun t => ~ keyword_tok t) ts.
Proof.
  induction ts as [|t ts IH]; intros f ls f' Y N L.
  - apply lexed_nil in L. subst. auto.
  - destruct (lexed_cons _ _ _ _ _ L) as (l & ls' & f1 & k & O & E & T & R). destruct f as [y e v]. cbn in Y. subst y.
    destruct (off_step _ _ _ _ _ _ O E T) as (A & B & C).
    assert (Y1 : yy_lex_keywords f1 = false).
    { rewrite C. destruct t; try reflexivity. elim N. left. reflexivity. }
    destruct (IH f1 ls' f' Y1) as (D1 & D2 & D3); [intros X; apply N; right; exact X|exact R|].
    split; [exact D1|]. split; constructor; assumption.
Qed.

(** A declaration with a heading and a body that contains a keyword. *)
Lemma declaration_run : forall hs bs k rs e v ls f', flat hs -> plain (bs ++ k :: rs) -> ~ In RBRACE bs -> keyword_tok k ->
  lexed (mk_flags true e v) ls f' (hs ++ LBRACE :: bs ++ k :: rs) ->
  v = false /\ f' = mk_flags true e false /\ Forall (id_all name_ok) (hs ++ LBRACE :: bs ++ k :: rs).
Proof.
  intros hs bs k rs e v ls f' H P N K L. destruct (lexed_app _ _ _ _ _ L) as (ls1 & f1 & ls2 & L1 & L2).
  destruct (flat_run _ _ _ _ _ H L1) as [-> A].
  destruct (lexed_cons _ _ _ _ _ L2) as (l & ls' & f2 & k2 & O & E & T & R). destruct (on_step _ _ _ _ _ _ O E T) as [_ B].
  destruct v.
  - exfalso. subst f2. destruct (lexed_app _ _ _ _ _ R) as (ls3 & f3 & ls4 & L3 & L4).
    destruct (off_run bs (mk_flags false false false) ls3 f3 eq_refl N L3) as (Y & _ & _).
    destruct (lexed_cons _ _ _ _ _ L4) as (l5 & ls5 & f5 & k5 & O5 & E5 & T5 & R5). destruct f3 as [y e3 v3]. cbn in Y. subst y.
    destruct (off_step _ _ _ _ _ _ O5 E5 T5) as (_ & X & _). exact (X K).
  - subst f2. destruct (plain_run _ _ _ _ P R) as [C D]. split; [reflexivity|]. split; [exact C|].
    apply Forall_app. split; [exact A|]. constructor; [exact I|exact D].
Qed.

(** ** The names of the parts of a file *)

Definition nameful (Q : ident -> Prop) (ns : list ident) (ts : tokens) : Prop :=
  plain ts /\ (Forall (id_all Q) ts -> Forall Q ns).

Ltac fa :=
  unfold nameful, plain in *; cbn [flat_map info uid func prefix] in *;
  repeat match goal with H : _ /\ _ |- _ => destruct H end;
  split;
  [ repeat (first [rewrite forallb_app | progress cbn [forallb okt is_enum is_values negb andb app]]);
    repeat match goal with H : forallb okt _ = true |- _ => rewrite H; clear H end; reflexivity
  | let F := fresh "F" in intros F; unfold info, uid, func, prefix in *;
    repeat first [ rewrite Forall_app in * | rewrite Forall_cons_iff in * | progress cbn [flat_map app] in * ];
    repeat match goal with H : _ /\ _ |- _ => destruct H end;
    cbn [id_all] in *; repeat split; auto ].

Section Nameful.
Variable Q : ident -> Prop.

Lemma right_nameful : forall A sep (item : tokens -> A -> Prop) (names : A -> list ident),
  okt sep = true -> id_all Q sep -> (forall ts v, item ts v -> nameful Q (names v) ts) ->
  forall ts l, right_list sep item ts l -> nameful Q (flat_map names l) ts.
Proof.
  intros A sep item names S S' H ts l R. induction R as [ts v us vs I R IH|ts v I].
  - specialize (H _ _ I). destruct H as [H1 H2]. destruct IH as [I1 I2]. split.
    + unfold plain in *. rewrite forallb_app. cbn [forallb]. rewrite H1, S, I1. reflexivity.
    + intros F. rewrite Forall_app, Forall_cons_iff in F. cbn [flat_map]. rewrite Forall_app. tauto.
  - destruct (H _ _ I) as [H1 H2]. split; [exact H1|]. intros F. cbn [flat_map]. rewrite app_nil_r. auto.
Qed.
Lemma left_nameful : forall A (item : tokens -> A -> Prop) (names : A -> list ident),
  (forall ts v, item ts v -> nameful Q (names v) ts) ->
  forall ts l, left_list item ts l -> nameful Q (flat_map names l) ts.
Proof.
  intros A item names H ts l R. induction R as [ts vs us v R IH I|ts v I].
  - specialize (H _ _ I). destruct H as [H1 H2]. destruct IH as [I1 I2]. split.
    + unfold plain in *. rewrite forallb_app. cbn [forallb]. rewrite H1, I1. reflexivity.
    + intros F. rewrite Forall_app, Forall_cons_iff in F. cbn [flat_map]. rewrite Forall_app. tauto.
  - destruct (H _ _ I) as [H1 H2]. split; [exact H1|]. intros F. cbn [flat_map]. rewrite app_nil_r. auto.
Qed.
Lemma ids_nameful : forall sep, okt sep = true -> id_all Q sep -> forall ts l, right_list sep id ts l -> nameful Q l ts.
Proof.
  intros sep S S' ts l R. assert (E : flat_map (fun i : ident => [i]) l = l) by (clear; induction l; cbn; congruence).
  rewrite <- E. refine (right_nameful _ sep id _ S S' _ _ _ R). intros us v H. inversion H; subst. fa.
Qed.
Lemma range_nameful : forall ts r, g_range ts r -> nameful Q (range_names r) ts.
Proof.
  intros ts r H. inversion H; subst; try match goal with R : range_spec _ _ |- _ => apply (ids_nameful DOT eq_refl I) in R end;
    cbn [range_names lr_target]; fa.
Qed.
Lemma lifetime_nameful : forall ts l, g_lifetime ts l -> nameful Q (lifetime_names l) ts.
Proof.
  intros ts l H. inversion H; subst; repeat match goal with R : g_range _ _ |- _ => apply range_nameful in R end;
    cbn [lifetime_names lt_begin lt_end range_names]; unfold lifetime_names; cbn [lt_begin lt_end range_names app]; fa.
Qed.
Lemma lifetimes_nameful : forall ts l, g_lifetimes ts l -> nameful Q (flat_map lifetime_names l) ts.
Proof. apply right_nameful; [reflexivity|exact I|exact lifetime_nameful]. Qed.
Lemma child_nameful : forall ts c, g_child ts c -> nameful Q (child_names c) ts.
Proof.
  intros ts c H. inversion H; subst; repeat match goal with R : g_lifetimes _ _ |- _ => apply lifetimes_nameful in R end;
    unfold child_names; cbn [ch_type ch_name ch_lifetimes]; fa.
Qed.
Lemma children_nameful : forall ts l, g_childrenbody ts l -> nameful Q (flat_map child_names l) ts.
Proof.
  intros ts l H. inversion H; subst. match goal with R : right_list _ _ _ _ |- _ => apply (right_nameful _ COMMA _ child_names eq_refl I child_nameful) in R end. fa.
Qed.
Definition keyword_names (k : keyword) : list ident := match k with BAO_lifetime l => lifetime_names l | _ => [] end.
Lemma keyword_nameful : forall ts k, g_keyword ts k -> nameful Q (keyword_names k) ts.
Proof. intros ts k H. inversion H; subst; cbn [keyword_names]; [fa|fa|fa|]. apply lifetime_nameful. assumption. Qed.
Lemma keywords_nameful : forall ts l, g_keywords ts l -> nameful Q (flat_map keyword_names l) ts.
Proof.
  intros ts l H. induction H as [|ts k H|ts k us ks H H' IH]; [fa| |]; apply keyword_nameful in H; fa.
Qed.
Lemma options_names : forall ks, Forall Q (flat_map keyword_names ks) -> Forall Q (flat_map lifetime_names (opt_lifetime (parse_attribute_options ks))).
Proof.
  intros ks. unfold parse_attribute_options.
  assert (G : forall ks o, Forall Q (flat_map lifetime_names (opt_lifetime o)) -> Forall Q (flat_map keyword_names ks) ->
    Forall Q (flat_map lifetime_names (opt_lifetime (fold_left parse_option ks o)))).
  { induction ks0 as [|k ks0 IH]; intros o A B; cbn [fold_left]; [exact A|]. cbn [flat_map] in B. rewrite Forall_app in B. destruct B as [B1 B2].
    apply IH; [|exact B2]. destruct o as [l c i s]. cbn [opt_lifetime] in A. destruct k; cbn [parse_option opt_lifetime]; try exact A.
    rewrite flat_map_app, Forall_app. split; [exact A|]. cbn. rewrite app_nil_r. exact B1. }
  intros F. apply G; [constructor|exact F].
Qed.
Lemma primitive_plain : forall p t, g_primitive p t -> okt p = true /\ id_all Q p.
Proof. intros p t H. inversion H; subst; split; try reflexivity; exact I. Qed.
Lemma attribute_nameful : forall ts a, g_attribute ts a -> nameful Q (attribute_names a) ts.
Proof.
  intros ts a H. inversion H; subst;
    repeat match goal with R : g_primitive _ _ |- _ => apply primitive_plain in R; destruct R as [? ?] end;
    repeat match goal with R : g_keywords _ _ |- _ => apply keywords_nameful in R; destruct R as [? R]; pose proof (fun F => options_names _ (R F)); clear R end;
    unfold attribute_names, new_attribute; cbn [at_type_reference at_name at_lifetimes opt app no_options opt_lifetime];
    unfold nameful, plain in *; (split; [|intros F]).
  all: try (cbn [forallb app]; rewrite ?forallb_app; cbn [forallb okt is_enum is_values negb andb];
            repeat match goal with H : _ = true |- _ => rewrite H; clear H end; reflexivity).
  all: rewrite ?Forall_cons_iff, ?Forall_app in F; rewrite ?Forall_cons_iff; cbn [id_all] in F; cbn [flat_map]; intuition auto.
Qed.
Lemma attributes_nameful : forall ts l, g_attributebody ts l -> nameful Q (flat_map attribute_names l) ts.
Proof.
  intros ts l H. inversion H; subst. match goal with R : right_list _ _ _ _ |- _ => apply (right_nameful _ COMMA _ attribute_names eq_refl I attribute_nameful) in R end. fa.
Qed.
Lemma reference_nameful : forall ts r, g_reference ts r -> nameful Q (reference_names r) ts.
Proof. intros ts r H. inversion H; subst; unfold reference_names; cbn [ar_inode ar_attribute opt app]; fa. Qed.
Lemma dependency_nameful : forall ts l, g_dependencybody ts l -> nameful Q (flat_map reference_names l) ts.
Proof.
  intros ts l H. inversion H; subst; try match goal with R : right_list _ _ _ _ |- _ => apply (right_nameful _ COMMA _ reference_names eq_refl I reference_nameful) in R end; fa.
Qed.
Lemma prodblock_nameful : forall ts l, g_prodblock ts l -> nameful Q (flat_map reference_names l) ts.
Proof. intros ts l H. inversion H; subst; try match goal with R : g_dependencybody _ _ |- _ => apply dependency_nameful in R end; fa. Qed.
Lemma equation_nameful : forall ts l, g_equation ts l -> nameful Q (equation_names l) ts.
Proof.
  intros ts l H. inversion H as [us r vs l' A B]; subst. apply reference_nameful in A. apply prodblock_nameful in B.
  unfold equation_names. cbn [eq_rule eq_args]. fa.
Qed.
Lemma equations_nameful : forall ts l, g_equationbody ts l -> nameful Q (flat_map equation_names l) ts.
Proof.
  intros ts l H. inversion H; subst. match goal with R : right_list _ _ _ _ |- _ => apply (right_nameful _ COMMA _ equation_names eq_refl I equation_nameful) in R end. fa.
Qed.
Lemma nodelifetimes_nameful : forall ts l, g_nodelifetimes ts l -> nameful Q (flat_map lifetime_names l) ts.
Proof. intros ts l H. inversion H; subst; try match goal with R : g_lifetimes _ _ |- _ => apply lifetimes_nameful in R end; fa. Qed.
Lemma literals_plain : forall ts l, g_setliterals ts l -> plain ts.
Proof. intros ts l H. unfold plain. induction H; [|reflexivity]. rewrite forallb_app, IHg_setliterals. reflexivity. Qed.
Lemma sets_plain : (forall ts e, g_setexpr ts e -> plain ts) /\ (forall ts e, g_setprimary ts e -> plain ts) /\
  (forall ts e, g_setoperation ts e -> plain ts).
Proof.
  unfold plain. apply g_sets_min; intros; auto.
  - cbn [forallb]. rewrite forallb_app, H0. reflexivity.
  - apply literals_plain in H. unfold plain in H. cbn [forallb]. rewrite forallb_app, H. reflexivity.
  - rewrite forallb_app. cbn [forallb]. rewrite H0, H3. inversion H1; reflexivity.
Qed.
Lemma set_nameful : forall ts e, g_setexpr ts e -> nameful Q [] ts.
Proof. intros ts e H. split; [apply (proj1 sets_plain _ _ H)|constructor]. Qed.
Lemma dataitem_nameful : forall ts d, g_travdataitem ts d -> nameful Q (data_names d) ts.
Proof.
  intros ts d H. inversion H; subst; unfold data_names; cbn [td_type_reference td_name opt app].
  - match goal with R : g_primitive _ _ |- _ => destruct (primitive_plain _ _ R) as [A B] end.
    split; [unfold plain; cbn [forallb]; rewrite A; reflexivity|]. intros F. rewrite !Forall_cons_iff in F. cbn in F. intuition auto.
  - fa.
  - fa.
Qed.
Lemma travdata_nameful : forall ts l, g_travdata ts l -> nameful Q (flat_map data_names l) ts.
Proof.
  intros ts l H. inversion H; subst. match goal with R : left_list _ _ _ |- _ => apply (left_nameful _ _ data_names dataitem_nameful) in R end. fa.
Qed.

Lemma nodes_nameful : forall ts e, g_traversalnodes ts e -> nameful Q [] ts.
Proof. intros ts e H. inversion H; subst. match goal with R : g_setexpr _ _ |- _ => apply set_nameful in R end. fa. Qed.
Lemma traversal_nameful : forall x ts t, g_traversal x ts t -> nameful Q (tree_traversal_names (pt_traversal t)) ts.
Proof.
  intros x ts t H. inversion H; subst; repeat match goal with R : g_traversalnodes _ _ |- _ => apply nodes_nameful in R
    | R : g_travdata _ _ |- _ => apply travdata_nameful in R end;
  unfold tree_traversal_names; cbn [pt_traversal tv_name tv_uid tv_data opt app flat_map]; fa.
Qed.
Lemma pass_nameful : forall ts p, g_pass ts p -> nameful Q (tree_pass_names (pa_pass p)) ts.
Proof. intros ts p H. inversion H; subst; unfold tree_pass_names; cbn [pa_pass ps_name ps_uid ps_func opt app]; fa. Qed.

Record all_names (V : ident -> Prop) (s : parser) : Prop := {
  an_phases : Forall (fun p => Forall Q (tree_phase_names (pp_phase p))) (AST_IPHASES s);
  an_traversals : Forall (fun t => Forall Q (tree_traversal_names (pt_traversal t))) (AST_ITRAVERSALS s);
  an_passes : Forall (fun p => Forall Q (tree_pass_names (pa_pass p))) (AST_IPASSES s);
  an_nodes : Forall (fun n => Forall Q (tree_node_names (pn_node n))) (AST_INODES s);
  an_nodesets : Forall (fun n => Forall Q (tree_nodeset_names (pset_nodeset n))) (AST_INODESETS s);
  an_enums : Forall (fun e => Forall Q (tree_enum_names (pe_enum e)) /\ Forall V (en_values (pe_enum e))) (AST_ENUMS s) }.

Section Phases.
Variable V : ident -> Prop.
Definition grows (s s' : parser) (ns : list ident) (ts : tokens) : Prop :=
  plain ts /\ (Forall (id_all Q) ts -> all_names V s -> all_names V s' /\ Forall Q ns).

Lemma gate_nameful : forall ts g, g_gate ts g -> nameful Q (opt g) ts.
Proof. intros ts g H. inversion H; subst; cbn [opt]; fa. Qed.
Lemma phaseheader_nameful : forall ts h, g_phaseheader ts h -> nameful Q [fst h] ts.
Proof. intros ts h H. inversion H as [us b n S]; subst. inversion S; subst; cbn [fst]; fa. Qed.
Lemma cycleheader_nameful : forall ts h, g_cycleheader ts h -> nameful Q [fst h] ts.
Proof. intros ts h H. inversion H as [us b n S]; subst. inversion S; subst; cbn [fst]; fa. Qed.

Lemma grows_body : forall s s' ns ts ms us, grows s s' ns ts -> nameful Q ms us -> forall ks,
  plain ks -> (Forall (id_all Q) ks -> Forall (id_all Q) ts /\ Forall (id_all Q) us) -> grows s s' (ms ++ ns) ks.
Proof.
  intros s s' ns ts ms us [A B] [C D] ks P F. split; [exact P|]. intros G S. destruct (F G) as [F1 F2]. destruct (B F1 S) as [B1 B2].
  split; [exact B1|]. rewrite Forall_app. auto.
Qed.

Lemma phases_grow :
  (forall s ts p s', g_phase s ts p s' -> grows s s' (tree_phase_names (pp_phase p)) ts) /\
  (forall s ts l s', g_actionsbody s ts l s' -> grows s s' l ts) /\
  (forall s ts l s', g_actions s ts l s' -> grows s s' l ts) /\
  (forall s ts a s', g_action s ts a s' -> grows s s' [a] ts).
Proof.
  apply phase_mutind; intros;
    repeat match goal with R : g_gate _ _ |- _ => apply gate_nameful in R
      | R : g_phaseheader _ _ |- _ => apply phaseheader_nameful in R
      | R : g_cycleheader _ _ |- _ => apply cycleheader_nameful in R end.
  1-16: unfold new_phase, tree_phase_names; cbn [pp_phase ph_name ph_uid ph_gate ph_actions opt app fst]; unfold info, uid, grows, nameful, plain in *;
    repeat match goal with H : _ /\ _ |- _ => destruct H end;
    (split;
     [ repeat (first [rewrite forallb_app | progress cbn [forallb okt is_enum is_values negb andb app]]);
       repeat match goal with H : forallb okt _ = true |- _ => rewrite H; clear H end; reflexivity
     | let F := fresh "F" in let S := fresh "S" in intros F S;
       repeat first [ rewrite Forall_app in * | rewrite Forall_cons_iff in * | progress cbn [app] in * ];
       repeat match goal with H : _ /\ _ |- _ => destruct H end;
       match goal with H : Forall (id_all Q) ?b -> all_names V _ -> _, K : Forall (id_all Q) ?b |- _ => destruct (H K S) as [? ?] end;
       repeat match goal with H : Forall (id_all Q) ?b -> _, K : Forall (id_all Q) ?b |- _ => specialize (H K) end;
       repeat match goal with H : _ /\ _ |- _ => destruct H end;
       cbn [id_all] in *; (split; [assumption|]); repeat split; auto ]).
  - destruct H0 as [A B]. split; [unfold plain in *; cbn [forallb]; rewrite forallb_app, A; reflexivity|].
    intros F S. rewrite !Forall_cons_iff, Forall_app in F. apply B; tauto.
  - destruct H0 as [A B], H2 as [C D]. split; [unfold plain in *; rewrite forallb_app; cbn [forallb]; rewrite A, C; reflexivity|].
    intros F S. rewrite Forall_app, Forall_cons_iff in F. destruct F as (F1 & _ & F2). destruct (B F1 S) as [B1 B2]. destruct (D F2 B1) as [D1 D2].
    split; [exact D1|]. inversion B2; subst. constructor; assumption.
  - destruct H0 as [A B]. split; [unfold plain in *; rewrite forallb_app, A; reflexivity|].
    intros F S. rewrite Forall_app in F. apply B; tauto.
  - destruct (traversal_nameful _ _ _ H) as [A B]. split; [exact A|]. intros F S. specialize (B F). split.
    + destruct S. constructor; cbn; auto.
    + unfold tree_traversal_names in B. inversion B; subst. auto.
  - destruct (pass_nameful _ _ H) as [A B]. split; [exact A|]. intros F S. specialize (B F). split.
    + destruct S. constructor; cbn; auto.
    + unfold tree_pass_names in B. inversion B; subst. auto.
  - destruct H0 as [A B]. split; [exact A|]. intros F S. destruct (B F S) as [[] B2]. split.
    + constructor; cbn; auto.
    + unfold tree_phase_names in B2. inversion B2; subst. auto.
  - split; [reflexivity|]. intros F S. split; [exact S|]. inversion F; subst. auto.
Qed.
Lemma node_nameful : forall ts n, g_node ts n -> nameful Q (tree_node_names n) ts.
Proof.
  intros ts n H. inversion H; subst; clear H;
    repeat match goal with R : g_childrenbody _ _ |- _ => apply children_nameful in R
      | R : g_attributebody _ _ |- _ => apply attributes_nameful in R
      | R : g_equationbody _ _ |- _ => apply equations_nameful in R
      | R : g_nodelifetimes _ _ |- _ => apply nodelifetimes_nameful in R
      | R : g_is_root _ _ |- _ => inversion R; subst; clear R end;
    unfold tree_node_names; cbn [nd_name nd_children nd_attributes nd_equations nd_lifetimes flat_map app]; fa.
Qed.
End Phases.
Lemma nodeset_nameful : forall ts n, g_nodeset ts n -> nameful Q (tree_nodeset_names (pset_nodeset n)) ts.
Proof.
  intros ts n H. inversion H as [m i us e vs a A B|m i us e A|m us e vs a A B|m us e A|m us e A]; subst;
    apply set_nameful in A; try apply attributes_nameful in B;
    unfold tree_nodeset_names; cbn [pset_nodeset ns_name ns_attributes flat_map]; fa.
Qed.
End Nameful.

(** ** Declarations *)

Ltac heading := split; [reflexivity|cbn; intuition discriminate].

Lemma in_run : forall hs bs k rs f ls f', yy_lex_keywords f = true -> flat hs -> plain (bs ++ k :: rs) -> ~ In RBRACE bs -> keyword_tok k ->
  lexed f ls f' (hs ++ LBRACE :: bs ++ k :: rs) ->
  yy_lex_keywords f' = true /\ Forall (id_all name_ok) (hs ++ LBRACE :: bs ++ k :: rs).
Proof.
  intros hs bs k rs [y e v] ls f' Y H P N K L. cbn in Y. subst y. destruct (declaration_run _ _ _ _ _ _ _ _ H P N K L) as (_ & -> & F). auto.
Qed.
Lemma flat_in_run : forall ts f ls f', yy_lex_keywords f = true -> flat ts -> lexed f ls f' ts ->
  yy_lex_keywords f' = true /\ Forall (id_all name_ok) ts.
Proof. intros ts [y e v] ls f' Y H L. cbn in Y. subst y. destruct (flat_run _ _ _ _ _ H L) as [-> F]. auto. Qed.
Lemma plain_app : forall ts us, plain (ts ++ us) -> plain us.
Proof. intros ts us H. unfold plain in *. rewrite forallb_app in H. apply andb_true_iff in H. tauto. Qed.

(** The form of a declaration: a heading, a brace and, perhaps after commas,
    a keyword. *)
Definition headed (ts : tokens) : Prop :=
  flat ts \/ exists hs bs k rs, ts = hs ++ LBRACE :: bs ++ k :: rs /\ flat hs /\ ~ In RBRACE bs /\ keyword_tok k.
Lemma headed_run : forall ts f ls f', headed ts -> plain ts -> yy_lex_keywords f = true -> lexed f ls f' ts ->
  yy_lex_keywords f' = true /\ Forall (id_all name_ok) ts.
Proof.
  intros ts f ls f' [H|(hs & bs & k & rs & -> & H & N & K)] P Y L; [eapply flat_in_run; eassumption|].
  apply (in_run hs bs k rs f ls f' Y H); try assumption. apply plain_app in P. exact P.
Qed.
Ltac hd h b := right; exists h, b; eexists _, _; split; [cbn; reflexivity|split; [heading|split; [cbn; intuition discriminate|exact I]]].

Lemma traversal_headed : forall x ts t, g_traversal x ts t -> headed ts.
Proof. intros x ts t H. inversion H; subst; hd [T_TRAVERSAL; ParserModel.T_ID n] (@nil tok). Qed.
Lemma pass_headed : forall ts p, g_pass ts p -> headed ts.
Proof. intros ts p H. inversion H; subst; try (left; heading; fail); hd [T_PASS; ParserModel.T_ID n] (@nil tok). Qed.
Lemma header_flat : forall hs h, g_phaseheader hs h \/ g_cycleheader hs h -> flat hs.
Proof. intros hs h [H|H]; inversion H as [us b n S]; subst; inversion S; subst; heading. Qed.
Lemma phase_headed : forall s ts p s', g_phase s ts p s' -> headed ts.
Proof.
  intros s ts p s' H.
  inversion H; subst; right;
    match goal with R : g_phaseheader ?hs ?h |- _ => exists hs; pose proof (header_flat hs h (or_introl R))
      | R : g_cycleheader ?hs ?h |- _ => exists hs; pose proof (header_flat hs h (or_intror R)) end;
    try (exists (@nil tok); eexists _, _; split; [cbn; reflexivity|split; [assumption|split; [cbn; tauto|exact I]]]; fail);
    match goal with R : g_actionsbody _ _ _ _ |- _ => inversion R; subst end;
    try match goal with R : g_gate _ _ |- _ => inversion R; subst end;
    first [ exists (@nil tok); eexists _, _; split; [cbn; reflexivity|split; [assumption|split; [cbn; intuition discriminate|exact I]]]
          | exists [COMMA]; eexists _, _; split; [cbn; reflexivity|split; [assumption|split; [cbn; intuition discriminate|exact I]]] ].
Qed.

Lemma close_run : forall f ls f', lexed f ls f' [RBRACE] -> yy_lex_keywords f' = true.
Proof.
  intros f ls f' L. destruct (lexed_cons _ _ _ _ _ L) as (l & ls' & f1 & k & O & E & T & R). apply lexed_nil in R. subst f1.
  destruct f as [[|] e v].
  - destruct (on_step _ _ _ _ _ _ O E T) as [_ ->]. reflexivity.
  - destruct (off_step _ _ _ _ _ _ O E T) as (_ & _ & ->). reflexivity.
Qed.
Lemma on_one : forall t f ls f', t <> LBRACE -> yy_lex_keywords f = true -> lexed f ls f' [t] -> yy_lex_keywords f' = true.
Proof.
  intros t f ls f' N Y L. destruct (lexed_cons _ _ _ _ _ L) as (l & ls' & f1 & k & O & E & T & R). apply lexed_nil in R. subst f1.
  destruct f as [y e v]. cbn in Y. subst y. destruct (on_step _ _ _ _ _ _ O E T) as [_ B]. destruct t; try (rewrite B; reflexivity). now elim N.
Qed.
(** Braces around names: whether or not keywords are recognised inside, they
    are after it. *)
Lemma braces_run : forall ts f ls f', flat ts -> ~ In RBRACE ts -> yy_lex_keywords f = true ->
  lexed f ls f' (LBRACE :: ts ++ [RBRACE]) -> yy_lex_keywords f' = true.
Proof.
  intros ts f ls f' P N Y L. destruct (lexed_cons _ _ _ _ _ L) as (l & ls' & f1 & k & O & E & T & R).
  destruct (lexed_app _ _ _ _ _ R) as (ls1 & f2 & ls2 & L1 & L2). exact (close_run _ _ _ L2).
Qed.

Lemma node_run : forall ts n f ls f', g_node ts n -> yy_lex_keywords f = true -> lexed f ls f' ts ->
  yy_lex_keywords f' = true /\ Forall (id_all name_ok) ts.
Proof.
  intros ts n f ls f' H Y L. pose proof (proj1 (node_nameful name_ok _ _ H)) as P.
  inversion H; subst;
    try (refine (headed_run _ _ _ _ _ P Y L); right;
         match goal with R : g_is_root _ _ |- _ => inversion R; subst end;
         repeat match goal with R : g_childrenbody _ _ |- _ => inversion R; subst; clear R | R : g_attributebody _ _ |- _ => inversion R; subst; clear R
           | R : g_equationbody _ _ |- _ => inversion R; subst; clear R end;
         first [ exists [T_ROOT; T_NODE; ParserModel.T_ID n0], (@nil tok); eexists _, _; split; [cbn; reflexivity|split; [heading|split; [cbn; intuition discriminate|exact I]]]
               | exists [T_NODE; ParserModel.T_ID n0], (@nil tok); eexists _, _; split; [cbn; reflexivity|split; [heading|split; [cbn; intuition discriminate|exact I]]] ]).
  assert (E : rs ++ [T_NODE; ParserModel.T_ID n0; LBRACE; RBRACE] = (rs ++ [T_NODE; ParserModel.T_ID n0]) ++ LBRACE :: [] ++ [RBRACE])
    by (rewrite <- app_assoc; reflexivity).
  rewrite E in L |- *. destruct (lexed_app _ _ _ _ _ L) as (ls1 & f1 & ls2 & L1 & L2).
  assert (A : flat (rs ++ [T_NODE; ParserModel.T_ID n0])) by (match goal with R : g_is_root _ _ |- _ => inversion R; subst end; heading).
  destruct (flat_in_run _ _ _ _ Y A L1) as [Y1 F]. split.
  - apply (braces_run [] f1 ls2 f'); [heading|tauto|exact Y1|exact L2].
  - apply Forall_app. split; [exact F|]. repeat constructor.
Qed.

Lemma literals_flat : forall ts l, g_setliterals ts l -> flat ts /\ ~ In RBRACE ts.
Proof.
  intros ts l H. split; [split; [exact (literals_plain _ _ H)|]|];
    (induction H; [rewrite in_app_iff; cbn; intuition discriminate|cbn; intuition discriminate]).
Qed.
Lemma sets_run :
  (forall ts e, g_setexpr ts e -> forall f ls f', yy_lex_keywords f = true -> lexed f ls f' ts -> yy_lex_keywords f' = true) /\
  (forall ts e, g_setprimary ts e -> forall f ls f', yy_lex_keywords f = true -> lexed f ls f' ts -> yy_lex_keywords f' = true) /\
  (forall ts e, g_setoperation ts e -> forall f ls f', yy_lex_keywords f = true -> lexed f ls f' ts -> yy_lex_keywords f' = true).
Proof.
  apply g_sets_min; intros; eauto.
  - change (LPAR :: ts ++ [RPAR]) with ([LPAR] ++ ts ++ [RPAR]) in H2. destruct (lexed_app _ _ _ _ _ H2) as (ls1 & f1 & ls2 & L1 & L2).
    destruct (lexed_app _ _ _ _ _ L2) as (ls3 & f3 & ls4 & L3 & L4). apply (on_one RPAR f3 ls4 f'); [discriminate| |exact L4].
    apply (H0 f1 ls3 f3); [|exact L3]. apply (on_one LPAR f ls1 f1); [discriminate|exact H1|exact L1].
  - destruct (literals_flat _ _ H) as [A B]. exact (braces_run ts f ls f' A B H0 H1).
  - apply (on_one (ParserModel.T_ID i) f ls f'); [discriminate|exact H|exact H0].
  - change (ts ++ o :: us) with (ts ++ [o] ++ us) in H5. destruct (lexed_app _ _ _ _ _ H5) as (ls1 & f1 & ls2 & L1 & L2).
    destruct (lexed_app _ _ _ _ _ L2) as (ls3 & f3 & ls4 & L3 & L4). apply (H3 f3 ls4 f'); [|exact L4].
    apply (on_one o f1 ls3 f3); [inversion H1; discriminate| |exact L3]. exact (H0 _ _ _ H4 L1).
Qed.
Lemma nodeset_run : forall ts n f ls f', g_nodeset ts n -> yy_lex_keywords f = true -> lexed f ls f' ts ->
  yy_lex_keywords f' = true /\ Forall name_ok (tree_nodeset_names (pset_nodeset n)).
Proof.
  intros ts n f ls f' H Y L.
  assert (X : (exists m us e, ts = T_NODESET :: ParserModel.T_ID m :: EQUALS :: us /\ g_setexpr us e /\ n = mk_pnodeset (mk_nodeset m e []) None) \/
    headed ts /\ nameful name_ok (tree_nodeset_names (pset_nodeset n)) ts).
  { inversion H as [m i us e vs a A B|m i us e A|m us e vs a A B|m us e A|m us e A]; subst.
    5: left; exists m, us, e; split; [reflexivity|split; [exact A|reflexivity]].
    1-4: right; (split; [hd [T_NODESET; ParserModel.T_ID m] (@nil tok)|exact (nodeset_nameful name_ok _ _ H)]). }
  destruct X as [(m & us & e & -> & A & ->)|[A [P B]]].
  - change (T_NODESET :: ParserModel.T_ID m :: EQUALS :: us) with ([T_NODESET; ParserModel.T_ID m; EQUALS] ++ us) in L.
    destruct (lexed_app _ _ _ _ _ L) as (ls1 & f1 & ls2 & L1 & L2).
    destruct (flat_in_run [T_NODESET; ParserModel.T_ID m; EQUALS] _ _ _ Y ltac:(heading) L1) as [Y1 F].
    split; [exact (proj1 sets_run _ _ A _ _ _ Y1 L2)|]. rewrite !Forall_cons_iff in F. destruct F as (_ & F & _).
    constructor; [exact F|constructor].
  - destruct (headed_run _ _ _ _ A P Y L) as [Y1 F]. auto.
Qed.

Lemma idlist_tokens : forall ts l, idlist ts l -> ~ In RBRACE ts /\ forall V, Forall (id_all V) ts -> Forall V l.
Proof.
  intros ts l H. split; [|intros V; apply (ids_nameful V COMMA eq_refl I ts l H)].
  induction H as [ts v us vs A R IH|ts v A]; inversion A; subst; [rewrite in_app_iff|]; cbn; intuition discriminate.
Qed.
Lemma enum_run : forall ts n f ls f', g_enum ts n -> yy_lex_keywords f = true -> lexed f ls f' ts ->
  yy_lex_keywords f' = true /\ Forall name_ok (tree_enum_names (pe_enum n)) /\ Forall value_ok (en_values (pe_enum n)).
Proof.
  intros ts n [y e v] ls f' H Y L. cbn in Y. subst y.
  assert (X : exists m k rs p us vs i, ts = T_ENUM :: ([ParserModel.T_ID m] ++ LBRACE :: [] ++ k :: rs) ++ T_VALUES :: LBRACE :: us ++ [RBRACE; RBRACE] /\
    n = mk_penum (mk_enum m p vs) i /\ idlist us vs /\ keyword_tok k /\ plain (k :: rs) /\ In (ParserModel.T_ID p) rs).
  { inversion H as [m i p us l A|m p us l A]; subst; inversion A as [us' l' B]; subst.
    - exists m, T_INFO, ([EQUALS; ParserModel.T_STRINGVAL i; COMMA] ++ prefix p ++ [COMMA]), p, us', l, (Some i).
      cbn. rewrite <- !app_assoc. cbn. repeat split; auto 10.
    - exists m, T_PREFIX, [EQUALS; ParserModel.T_ID p; COMMA], p, us', l, None.
      cbn. rewrite <- !app_assoc. cbn. repeat split; auto 10. }
  destruct X as (m & k & rs & p & us & vs & i & -> & -> & A & K & P & IP).
  destruct (idlist_tokens _ _ A) as [A1 A2].
  destruct (lexed_cons _ _ _ _ _ L) as (l1 & ls1 & f1 & k1 & O1 & E1 & T1 & R1). destruct (on_step _ _ _ _ _ _ O1 E1 T1) as [_ ->].
  destruct (lexed_app _ _ _ _ _ R1) as (ls2 & f2 & ls3 & L2 & L3).
  destruct (declaration_run [ParserModel.T_ID m] [] k rs true v ls2 f2 ltac:(heading) P ltac:(cbn; tauto) K L2) as (_ & -> & F).
  destruct (lexed_cons _ _ _ _ _ L3) as (l4 & ls4 & f4 & k4 & O4 & E4 & T4 & R4). destruct (on_step _ _ _ _ _ _ O4 E4 T4) as [_ ->].
  destruct (lexed_cons _ _ _ _ _ R4) as (l5 & ls5 & f5 & k5 & O5 & E5 & T5 & R5). destruct (on_step _ _ _ _ _ _ O5 E5 T5) as [_ ->].
  cbn [orb] in R5. destruct (lexed_app _ _ _ _ _ R5) as (ls6 & f6 & ls7 & L6 & L7).
  destruct (off_run us (mk_flags false false false) _ _ eq_refl A1 L6) as (_ & F6 & _).
  change [RBRACE; RBRACE] with ([RBRACE] ++ [RBRACE]) in L7. destruct (lexed_app _ _ _ _ _ L7) as (ls8 & f8 & ls9 & L8 & L9).
  split; [exact (close_run _ _ _ L9)|]. cbn [pe_enum tree_enum_names en_name en_prefix en_values].
  rewrite Forall_forall in F. split; [|exact (A2 _ F6)]. unfold tree_enum_names. cbn [en_name en_prefix]. constructor; [|constructor; [|constructor]].
  - exact (F (ParserModel.T_ID m) (or_introl eq_refl)).
  - apply (F (ParserModel.T_ID p)). cbn. auto.
Qed.

Definition fine : parser -> Prop := all_names name_ok value_ok.

Lemma entry_run : forall s ts s' f ls f', g_entry s ts s' -> yy_lex_keywords f = true -> lexed f ls f' ts -> fine s ->
  yy_lex_keywords f' = true /\ fine s'.
Proof.
  intros s ts s' f ls f' H Y L S. inversion H as [s0 us p s1 G|s0 us p G|s0 us t G|s0 us n G|s0 us n G|s0 us e G]; subst.
  - destruct (proj1 (phases_grow name_ok value_ok) _ _ _ _ G) as [P Q].
    destruct (headed_run _ _ _ _ (phase_headed _ _ _ _ G) P Y L) as [Y1 F]. split; [exact Y1|].
    destruct (Q F S) as [[] Q2]. constructor; cbn; auto.
  - destruct (pass_nameful name_ok _ _ G) as [P Q]. destruct (headed_run _ _ _ _ (pass_headed _ _ G) P Y L) as [Y1 F]. split; [exact Y1|].
    destruct S. constructor; cbn; auto.
  - destruct (traversal_nameful name_ok _ _ _ G) as [P Q]. destruct (headed_run _ _ _ _ (traversal_headed _ _ _ G) P Y L) as [Y1 F]. split; [exact Y1|].
    destruct S. constructor; cbn; auto.
  - destruct (node_run _ _ _ _ _ G Y L) as [Y1 F]. split; [exact Y1|]. pose proof (proj2 (node_nameful name_ok _ _ G) F).
    destruct S. constructor; cbn; auto.
  - destruct (nodeset_run _ _ _ _ _ G Y L) as [Y1 F]. split; [exact Y1|]. destruct S. constructor; cbn; auto.
  - destruct (enum_run _ _ _ _ _ G Y L) as [Y1 F]. split; [exact Y1|]. destruct S. constructor; cbn; auto.
Qed.
Lemma entries_run : forall s ts s', g_entries s ts s' -> forall f ls f', yy_lex_keywords f = true -> lexed f ls f' ts -> fine s -> fine s'.
Proof.
  intros s ts s' H. induction H as [s ts s1 us s2 G H IH|s ts s1 G|s]; intros f ls f' Y L S.
  - destruct (lexed_app _ _ _ _ _ L) as (ls1 & f1 & ls2 & L1 & L2). destruct (entry_run _ _ _ _ _ _ G Y L1 S) as [Y1 S1].
    change (SEMICOLON :: us) with ([SEMICOLON] ++ us) in L2. destruct (lexed_app _ _ _ _ _ L2) as (ls3 & f3 & ls4 & L3 & L4).
    apply (IH f3 ls4 f'); [|exact L4|exact S1]. exact (on_one SEMICOLON f1 ls3 f3 ltac:(discriminate) Y1 L3).
  - exact (proj2 (entry_run _ _ _ _ _ _ G Y L S)).
  - exact S.
Qed.

Lemma laid_lexemes : forall ps tail, laid_before ps tail -> Forall lexeme_ok (lexemes_of ps).
Proof.
  induction ps as [|x ps IH]; intros tail H; [constructor|]. destruct H as (O & A & H). destruct x; cbn [lexemes_of]; try exact (IH tail H).
  constructor; [exact O|exact (IH tail H)].
Qed.

Lemma flat_map_all : forall A B (g : A -> B) (h : B -> list ident) (l : list A), Forall (fun x => Forall name_ok (h (g x))) l ->
  Forall name_ok (flat_map h (map g l)).
Proof. intros A B g h l F. induction F; cbn; [constructor|]. apply Forall_app. auto. Qed.

Theorem file_names : forall t p, reads_file t p ->
  Forall name_ok (tree_names (ast_of p)) /\ forall e, In e (a_enums (ast_of p)) -> Forall value_ok (en_values e).
Proof.
  intros t p (lts & s & ts & A & B & C). destruct (all_pieces _ t (le_n _)) as (ps & tail & -> & L & T).
  assert (X : (tail = [] \/ open_comment tail) \/ stray tail) by tauto. destruct X as [X|X].
  2: { rewrite (scan_stray ps tail L X) in A. discriminate. }
  pose proof (scan_layout ps tail L X) as S. destruct (lex init_flags (lexemes_of ps)) as [[f ks]| | | |] eqn:LX; try now elim S.
  2: congruence.
  destruct S as (lts' & s' & A' & M & _). rewrite A in A'. injection A' as <- <-. rewrite M in B.
  assert (F : fine p).
  { refine (entries_run _ _ _ C init_flags (lexemes_of ps) f eq_refl _ _).
    - exists ks. split; [exact LX|]. split; [exact B|]. exact (laid_lexemes _ _ L).
    - constructor; constructor. }
  destruct F as [F1 F2 F3 F4 F5 F6]. unfold tree_names, ast_of. cbn [a_phases a_traversals a_passes a_nodes a_nodesets a_enums].
  split; [|intros e I; apply in_map_iff in I; destruct I as (x & <- & I); rewrite Forall_forall in F6; exact (proj2 (F6 x I))].
  repeat (apply Forall_app; split); apply flat_map_all; auto.
  eapply Forall_impl; [|exact F6]. intros x [K _]. exact K.
Qed.
