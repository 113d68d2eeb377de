(** From the tokens of a specification to their spelling and back. *)

From Coq Require Import String.
From Coq Require Import List Ascii Bool Lia.
From Verif Require Import Base.Outcome Palm.StrModel Front.LexerModel Front.LexerSpec Front.ScannerModel Front.ScannerSpec.
From Verif Require Import Front.ScannerText Front.LexerProps.
From Verif Require Import Front.Syntax Front.ParserModel Front.ParserSpec Front.FileModel Front.FileSpec.
Import ListNotations.
Local Open Scope string_scope.
Local Open Scope list_scope.

(** * Which tokens a declaration consists of *)

Section Tokens.
  Variable PN : ident -> Prop.
  Variable PI : cstring -> Prop.

  Definition fine (t : tok) : Prop :=
    match t with
    | T_ID i => PN i
    | T_STRINGVAL s => PI s
    | T_ENUM | T_VALUES | T_NULL | T_INTVAL | T_UINTVAL | T_FLOATVAL | T_CHARVAL => False
    | _ => True
    end.

  Lemma fine_separated : forall sep l, fine sep -> Forall (Forall fine) l -> Forall fine (separated sep l).
  Proof.
    intros sep l S. induction l as [|x l IH]; intros F; [constructor|]. inversion F as [|? ? F1 F2]; subst.
    cbn [separated]. destruct l as [|y l]; [exact F1|]. apply Forall_app. split; [exact F1|]. constructor; auto.
  Qed.
  Lemma fine_fields : forall l, Forall (Forall fine) l -> Forall fine (fields l).
  Proof.
    intros l F. unfold fields, braces. constructor; [exact I|]. apply Forall_app. split; [|repeat constructor].
    apply fine_separated; [exact I | exact F].
  Qed.
  Lemma fine_path : forall p, Forall PN p -> Forall fine (path p).
  Proof.
    intros p F. apply fine_separated; [exact I|]. induction F; cbn; constructor; [repeat constructor; assumption | assumption].
  Qed.
  Lemma fine_begin : forall o ts, begin_written o ts -> Forall PN (range_names o) -> Forall fine ts.
  Proof.
    intros o ts [ts' [->| ->]|p i] F; [constructor | repeat constructor|]. constructor; [destruct i; exact I|]. now apply fine_path.
  Qed.
  Lemma fine_end : forall o ts, end_written o ts -> Forall PN (range_names o) -> Forall fine ts.
  Proof.
    intros o ts [ts' [->| ->]|p i] F; [constructor | repeat constructor|]. apply Forall_app. split; [now apply fine_path|].
    constructor; [destruct i; exact I | constructor].
  Qed.
  Lemma fine_word : forall t, fine (lifetime_word t).
  Proof. intros []; exact I. Qed.
  Lemma fine_lifetime : forall l ts, lifetime_written l ts -> Forall PN (lifetime_names l) -> Forall fine ts.
  Proof.
    intros l ts [t b e us vs B E|t _] F.
    - unfold lifetime_names in F. cbn in F. apply Forall_app in F. destruct F as [F1 F2]. constructor; [apply fine_word|].
      apply Forall_app. split; [exact (fine_begin _ _ B F1)|]. constructor; [exact I | exact (fine_end _ _ E F2)].
    - constructor; [apply fine_word | constructor].
  Qed.
  (** Lists *)
  Lemma fine_list : forall A (W : A -> tokens -> Prop) (names : A -> list ident),
    (forall a ts, W a ts -> Forall PN (names a) -> Forall fine ts) ->
    forall l ls, Forall2 W l ls -> Forall PN (flat_map names l) -> Forall (Forall fine) ls.
  Proof.
    intros A W names H l ls F. induction F as [|a ts l ls F1 F2 IH]; intros N; constructor; cbn in N; apply Forall_app in N.
    - exact (H _ _ F1 (proj1 N)).
    - exact (IH (proj2 N)).
  Qed.
  Lemma fine_child : forall c ts, child_written c ts -> Forall PN (child_names c) -> Forall fine ts.
  Proof.
    intros c ts [n t|n t b l ls W] F; unfold child_names in F; cbn in F; inversion F as [|? ? F1 F2]; subst; inversion F2; subst.
    - repeat constructor; assumption.
    - constructor; [assumption|]. constructor; [assumption|]. apply fine_fields. apply Forall_app. split.
      + destruct b; repeat constructor.
      + eapply fine_list; [|exact W | eassumption]. exact fine_lifetime.
  Qed.
  Lemma fine_type : forall t r ts, type_written t r ts -> Forall PN (opt r) -> Forall fine ts.
  Proof.
    intros t r ts [r'|r'|t' k I] F.
    - inversion F; subst. repeat constructor; assumption.
    - inversion F; subst. repeat constructor; assumption.
    - constructor; [|constructor]. cbn in I.
      repeat (destruct I as [[= <- <-]|I]; [exact Logic.I|]). destruct I.
  Qed.
  Lemma option_names : forall os, Forall PN (flat_map lifetime_names (lifetimes_of os)) -> forall us,
    Forall2 option_written os us -> Forall (Forall fine) us.
  Proof.
    intros os F us W. revert F. induction W as [|o ts os us W1 W2 IH]; intros F; constructor.
    - destruct W1; try (repeat constructor; fail). cbn in F. apply Forall_app in F. exact (fine_lifetime _ _ H (proj1 F)).
    - apply IH. destruct o; try exact F. cbn in F. apply Forall_app in F. exact (proj2 F).
  Qed.
  Lemma fine_attribute : forall a ts, attribute_written a ts -> Forall PN (attribute_names a) -> Forall fine ts.
  Proof.
    intros a ts [n t r us W|n t r c i s l us os vs W _ _ _ L O] F; unfold attribute_names in F; cbn in F;
      apply Forall_app in F; destruct F as [F1 F2]; inversion F2; subst; apply Forall_app.
    - split; [exact (fine_type _ _ _ W F1)|]. repeat constructor; assumption.
    - split; [exact (fine_type _ _ _ W F1)|]. constructor; [assumption|]. apply fine_fields. eapply option_names; eassumption.
  Qed.
  Lemma fine_reference : forall r, Forall PN (reference_names r) -> Forall fine (reference_syntax r).
  Proof.
    intros [[c|] a] F; unfold reference_names in F; cbn in F; inversion F as [|? ? F1 F2]; subst.
    - inversion F2; subst. repeat constructor; assumption.
    - repeat constructor; assumption.
  Qed.
  Lemma fine_equation : forall e ts, equation_written e ts -> Forall PN (equation_names e) -> Forall fine ts.
  Proof.
    intros e ts [r l|r] F; unfold equation_names in F; cbn in F; apply Forall_app in F; destruct F as [F1 F2]; apply Forall_app.
    - split; [now apply fine_reference|]. constructor; [exact I|]. unfold braces. constructor; [exact I|]. apply Forall_app.
      split; [|repeat constructor]. constructor; [exact I|]. constructor; [exact I|]. apply fine_fields.
      clear F1. induction l as [|x l IH]; cbn in *; constructor; apply Forall_app in F2; [apply fine_reference | apply IH]; tauto.
    - split; [now apply fine_reference|]. repeat constructor.
  Qed.
  Lemma fine_ids : forall l, Forall PN l -> Forall (Forall fine) (map (fun i => [T_ID i]) l).
  Proof. intros l F. induction F; cbn; constructor; [repeat constructor; assumption | assumption]. Qed.
  Lemma fine_op : forall o, fine (op_word o).
  Proof. intros []; exact I. Qed.
  Scheme set_min := Minimality for set_written Sort Prop
    with operand_min := Minimality for operand_written Sort Prop.
  Combined Scheme written_set from set_min, operand_min.
  Lemma fine_sets :
    (forall e ts, set_written e ts -> Forall PN (set_names e) -> Forall fine ts) /\
    (forall e ts, operand_written e ts -> Forall PN (set_names e) -> Forall fine ts).
  Proof.
    apply written_set.
    - intros e ts _ IH. exact IH.
    - intros o l r ts us _ IH1 _ IH2 F. cbn in F. apply Forall_app in F. apply Forall_app. split; [tauto|].
      constructor; [apply fine_op | tauto].
    - intros l F. apply fine_fields, fine_ids, F.
    - intros i F. inversion F; subst. repeat constructor; assumption.
    - intros o l r ts us _ IH1 _ IH2 F. cbn in F. apply Forall_app in F. constructor; [exact I|]. apply Forall_app.
      split; [|repeat constructor]. apply Forall_app. split; [tauto|]. constructor; [apply fine_op | tauto].
  Qed.
  Lemma fine_info : forall o, Forall PI (opt o) -> Forall (Forall fine) (info_field o).
  Proof. intros [s|] F; [|constructor]. inversion F; subst. cbn. repeat constructor; assumption. Qed.
  Lemma fine_name : forall k o, fine k -> Forall PN (opt o) -> Forall (Forall fine) (name_field k o).
  Proof. intros k [s|] K F; [|constructor]. inversion F; subst. cbn. repeat constructor; assumption. Qed.
  Lemma fine_data : forall d ts, data_written d ts -> Forall PN (data_names d) -> Forall fine ts.
  Proof.
    intros [n t r] ts (us & W & ->) F. unfold data_names in F. cbn in *. apply Forall_app in F. destruct F as [F1 F2].
    apply Forall_app. split; [exact (fine_type _ _ _ W F1)|]. inversion F2; subst. repeat constructor; assumption.
  Qed.
  Lemma fine_filled : forall A (l : list A) ts, Forall fine ts -> Forall (Forall fine) (filled l ts).
  Proof. intros A [|x l] ts F; repeat constructor; assumption. Qed.
  Lemma fine_traversal : forall t ts, traversal_written t ts -> Forall PN (traversal_names t) -> Forall PI (opt (ts_info t)) ->
    Forall fine ts.
  Proof.
    intros t ts [n i u e d nodes data N D] F FI. unfold traversal_names in F. cbn in *. inversion F as [|? ? F1 F2]; subst.
    inversion F2 as [|? ? F3 F4]; subst. apply Forall_app in F4. destruct F4 as [F4 F5].
    constructor; [exact I|]. constructor; [exact F1|]. apply fine_fields. apply Forall_app. split; [now apply fine_info|].
    constructor; [repeat constructor; exact F3|]. apply Forall_app. split.
    - destruct e as [e|]; cbn in N; [|subst; constructor]. destruct N as (? & (us & W & ->) & ->). constructor; [|constructor].
      constructor; [exact I|]. constructor; [exact I|]. apply (proj1 fine_sets _ _ W). cbn in F4. now rewrite app_nil_r in F4.
    - apply fine_filled. constructor; [exact I|]. apply fine_fields. eapply fine_list; [exact fine_data | exact D | exact F5].
  Qed.
  Lemma fine_pass : forall p ts, pass_written p ts -> Forall PN (pass_names p) -> Forall PI (opt (pas_info p)) -> Forall fine ts.
  Proof.
    intros p ts [n|n f|n i u f _] F FI; unfold pass_names in F; cbn in *; inversion F as [|? ? F1 F2]; subst.
    - repeat constructor; assumption.
    - inversion F2; subst. repeat constructor; assumption.
    - apply Forall_app in F2. destruct F2 as [F2 F3]. constructor; [exact I|]. constructor; [exact F1|]. apply fine_fields.
      apply Forall_app. split; [now apply fine_info|]. apply Forall_app. split; now apply fine_name.
  Qed.
  Scheme action_min := Minimality for action_written Sort Prop
    with actions_min := Minimality for actions_written Sort Prop.
  Combined Scheme written_action from action_min, actions_min.
  Lemma fine_actions :
    (forall a ts, action_written a ts -> Forall PN (action_names a) -> Forall PI (action_infos a) -> Forall fine ts) /\
    (forall l ts, actions_written l ts -> Forall PN (flat_map action_names l) -> Forall PI (flat_map action_infos l) -> Forall fine ts).
  Proof.
    apply written_action.
    - intros i F _. inversion F; subst. repeat constructor; assumption.
    - intros t ts W F FI. exact (fine_traversal t ts W F FI).
    - intros p ts W F FI. exact (fine_pass p ts W F FI).
    - intros h l ts _ IH F FI. cbn in F, FI. inversion F as [|? ? F1 F2]; subst. apply Forall_app in F2. destruct F2 as [F2 F3].
      apply Forall_app in F3. destruct F3 as [F3 F4]. apply Forall_app in FI. destruct FI as [FI1 FI2].
      apply Forall_app. split; [destruct (hd_start h); repeat constructor|].
      constructor; [destruct (hd_cycle h); exact I|]. constructor; [exact F1|]. apply fine_fields.
      apply Forall_app. split; [now apply fine_info|]. apply Forall_app. split; [now apply fine_name|].
      apply Forall_app. split; [now apply fine_name|]. constructor; [|constructor].
      constructor; [exact I|]. unfold braces. constructor; [exact I|]. apply Forall_app. split; [auto|]. repeat constructor.
    - constructor.
    - intros a l ts us _ IH1 _ IH2 F FI. cbn in F, FI. apply Forall_app in F. apply Forall_app in FI. apply Forall_app.
      split; [tauto|]. constructor; [exact I | tauto].
  Qed.
  Lemma fine_declaration : forall d ts, declaration_written d ts -> (forall e i, d <> ParserSpec.Enum e i) ->
    Forall PN (declaration_names d) -> Forall PI (declaration_infos d) -> Forall fine ts.
  Proof.
    intros d ts [a us _ W|n r c a e l cs as_ es ls C A E L|n i e a us as_ W A|n e us W|n p l i] NE F FI; cbn in F, FI.
    - exact (proj1 fine_actions a us W F FI).
    - inversion F as [|? ? F1 F2]; subst. apply Forall_app in F2. destruct F2 as [F2 F3]. apply Forall_app in F3.
      destruct F3 as [F3 F4]. apply Forall_app in F4. destruct F4 as [F4 F5].
      apply Forall_app. split; [destruct r; repeat constructor|]. constructor; [exact I|]. constructor; [exact F1|].
      apply fine_fields. repeat (apply Forall_app; split); apply fine_filled; (constructor; [exact I|]); apply fine_fields.
      + eapply fine_list; [exact fine_child | exact C | exact F2].
      + eapply fine_list; [exact fine_attribute | exact A | exact F3].
      + eapply fine_list; [exact fine_equation | exact E | exact F4].
      + eapply fine_list; [exact fine_lifetime | exact L | exact F5].
    - inversion F as [|? ? F1 F2]; subst. apply Forall_app in F2. destruct F2 as [F2 F3].
      constructor; [exact I|]. constructor; [exact F1|]. apply fine_fields. apply Forall_app. split; [now apply fine_info|].
      constructor.
      + constructor; [exact I|]. constructor; [exact I|]. exact (proj1 fine_sets _ _ W F2).
      + apply fine_filled. constructor; [exact I|]. apply fine_fields. eapply fine_list; [exact fine_attribute | exact A | exact F3].
    - inversion F as [|? ? F1 F2]; subst. apply Forall_app in F2. destruct F2 as [F2 _].
      constructor; [exact I|]. constructor; [exact F1|]. constructor; [exact I|]. exact (proj1 fine_sets _ _ W F2).
    - elim (NE (mk_enum n p l) i eq_refl).
  Qed.
End Tokens.

(** * Spelling *)

Notation good := (fine name_ok string_body).

Lemma spell_plain : forall t k, good t -> plain (spell t) k -> tok_of k = Some t.
Proof.
  intros t k G P.
  assert (W : forall w, is_keyword w -> spell t = Word w -> numbered_as String.eqb (token_name w) token_numbers = Some t -> tok_of k = Some t).
  { intros w K E N. rewrite E in P. inversion P; subst; [exact N | | contradiction].
    exfalso. assert (X : existsb (String.eqb "NULL") language_words = true) by (apply existsb_exists; exists "NULL"; split; [exact K | reflexivity]).
    vm_compute in X. discriminate. }
  destruct t; try (elim G; fail);
    try (eapply W; [| reflexivity | vm_compute; reflexivity]; unfold is_keyword, language_words; cbn; tauto).
  - cbn in P. inversion P; subst. cbn. now rewrite txt_str.
  - cbn in P, G. destruct G as (_ & K & C & N). inversion P as [? K'|E|? ? ? ?| | | | | |]; subst; [contradiction | congruence |].
    cbn. now rewrite txt_str.
  - cbn in P. inversion P; subst. reflexivity.
  - cbn in P. inversion P; subst. reflexivity.
  - cbn in P. inversion P; subst. reflexivity.
  - cbn in P. inversion P; subst. reflexivity.
  - cbn in P. inversion P; subst. reflexivity.
  - cbn in P. inversion P; subst. reflexivity.
  - cbn in P. inversion P; subst. reflexivity.
  - cbn in P. inversion P; subst. reflexivity.
  - cbn in P. inversion P; subst. reflexivity.
  - cbn in P. inversion P; subst. reflexivity.
  - cbn in P. inversion P; subst. reflexivity.
  - cbn in P. inversion P; subst. reflexivity.
  - cbn in P. inversion P; subst. reflexivity.
  - cbn in P. inversion P; subst. reflexivity.
  - cbn in P. inversion P; subst. reflexivity.
Qed.
