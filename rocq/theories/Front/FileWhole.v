(** Every specification can be written, and laid out. *)

From Coq Require Import String.
From Coq Require Import List Ascii Bool Lia.
From Verif Require Import Base.Outcome Palm.StrModel Front.LexerModel Front.LexerSpec Front.ScannerModel Front.ScannerSpec.
From Verif Require Import Front.ScannerText Front.ScannerInst.
From Verif Require Import Front.Syntax Front.ParserModel Front.ParserSpec Front.FileModel Front.FileSpec Front.FileProof Front.FileParts.
Import ListNotations.
Local Open Scope string_scope.
Local Open Scope list_scope.

(** * Writing *)

Lemma write_list : forall A (W : A -> tokens -> Prop) (P : A -> Prop), (forall a, P a -> exists ts, W a ts) ->
  forall l, Forall P l -> exists ls, Forall2 W l ls.
Proof.
  intros A W P H l F. induction F as [|a l Pa F (ls & IH)]; [exists []; constructor|].
  destruct (H a Pa) as (ts & T). exists (ts :: ls). now constructor.
Qed.
Lemma write_all : forall A (W : A -> tokens -> Prop), (forall a, exists ts, W a ts) -> forall l, exists ls, Forall2 W l ls.
Proof.
  intros A W H l. apply (write_list A W (fun _ => True)); [auto|]. apply Forall_forall. auto.
Qed.
Lemma write_lifetime : forall l, exists ts, lifetime_written l ts.
Proof.
  intros [t b e].
  assert (B : exists ts, begin_written b ts) by (destruct b as [[p i]|]; eexists; [apply begin_at | apply begin_open; now left]).
  assert (E : exists ts, end_written e ts) by (destruct e as [[p i]|]; eexists; [apply end_at | apply end_open; now left]).
  destruct B as (ts & B), E as (us & E). eexists. now apply lifetime_range_written with (1 := B) (2 := E).
Qed.
Lemma write_child : forall c, exists ts, child_written c ts.
Proof.
  intros [n t c l]. destruct (write_all _ _ write_lifetime l) as (ls & W). eexists. apply child_options. exact W.
Qed.
Lemma write_type : forall t r, type_expressible t r -> exists ts, type_written t r ts.
Proof.
  intros t r H. destruct t, r; try (elim H; fail); eexists; first [apply named_type | apply user_type |
    (eapply primitive_type; cbn; first [now left | right; first [now left | right; first [now left | right; first [now left | right;
     first [now left | right; first [now left | right; first [now left | right; first [now left | right; first [now left | right;
     first [now left | right; first [now left | right; first [now left | right; now left]]]]]]]]]]]])].
Qed.
Lemma write_attribute : forall a, attribute_expressible a -> exists ts, attribute_written a ts.
Proof.
  intros [n t r c i s p l] [T P]. cbn in T, P. subst p. destruct (write_type t r T) as (ts & WT).
  destruct (write_all _ _ write_lifetime l) as (ls & WL).
  pose (os := (if c then [Constructor] else []) ++ (if i then [Inherited] else []) ++ (if s then [Synthesized] else []) ++ map Lifetime l).
  assert (L : lifetimes_of os = l).
  { unfold os. assert (X : lifetimes_of (map Lifetime l) = l) by (clear; induction l; cbn; congruence).
    destruct c, i, s; cbn; exact X. }
  assert (W : exists us, Forall2 option_written os us).
  { exists ((if c then [[T_CONSTRUCTOR]] else []) ++ (if i then [[T_INHERITED]] else []) ++ (if s then [[T_SYNTHESIZED]] else []) ++ ls).
    assert (X : Forall2 option_written (map Lifetime l) ls) by (clear -WL; induction WL; constructor; [now constructor | assumption]).
    unfold os. destruct c, i, s; cbn [app]; repeat (constructor; [constructor|]); exact X. }
  destruct W as (us & W). eexists. apply (attribute_options n t r c i s l ts os us WT); [| | |exact L|exact W].
  - unfold flag_of, os. split; [intros ->; now left|]. intros I. apply in_app_iff in I.
    destruct c; [reflexivity|]. destruct I as [[]|I]. apply in_app_iff in I. destruct I as [I|I]; [destruct i; cbn in I; intuition discriminate|].
    apply in_app_iff in I. destruct I as [I|I]; [destruct s; cbn in I; intuition discriminate|]. apply in_map_iff in I.
    destruct I as (x & I & _). discriminate.
  - unfold flag_of, os. split; [intros ->; apply in_app_iff; right; now left|]. intros I. apply in_app_iff in I.
    destruct i; [reflexivity|]. destruct I as [I|I]; [destruct c; cbn in I; intuition discriminate|]. apply in_app_iff in I. destruct I as [[]|I].
    apply in_app_iff in I. destruct I as [I|I]; [destruct s; cbn in I; intuition discriminate|]. apply in_map_iff in I.
    destruct I as (x & I & _). discriminate.
  - unfold flag_of, os. split; [intros ->; apply in_app_iff; right; apply in_app_iff; right; now left|]. intros I. apply in_app_iff in I.
    destruct s; [reflexivity|]. destruct I as [I|I]; [destruct c; cbn in I; intuition discriminate|]. apply in_app_iff in I.
    destruct I as [I|I]; [destruct i; cbn in I; intuition discriminate|]. apply in_app_iff in I. destruct I as [[]|I]. apply in_map_iff in I.
    destruct I as (x & I & _). discriminate.
Qed.
Lemma write_equation : forall e, exists ts, equation_written e ts.
Proof. intros [r l]. eexists. apply equation_args. Qed.
Lemma write_operand : forall e, exists ts, operand_written e ts.
Proof.
  induction e as [l|i|o l IHl r IHr]; [eexists; apply names_written | eexists; apply nodeset_reference|].
  destruct IHl as (ts & L), IHr as (us & R). eexists. apply parentheses; [apply set_operand; exact L | exact R].
Qed.
Lemma write_set : forall e, exists ts, set_written e ts.
Proof. intros e. destruct (write_operand e) as (ts & W). exists ts. now apply set_operand. Qed.
Lemma write_data : forall d, data_expressible d -> exists ts, data_written d ts.
Proof. intros d H. destruct (write_type _ _ H) as (us & W). eexists. exists us. split; [exact W | reflexivity]. Qed.
Lemma write_traversal : forall t, Forall data_expressible (ts_data t) -> exists ts, traversal_written t ts.
Proof.
  intros [n i u e d] H. cbn in H. destruct (write_list _ _ _ write_data d H) as (data & D).
  assert (E : exists nodes, option_all (fun e ts => exists us, set_written e us /\ ts = T_NODES :: EQUALS :: us) e nodes).
  { destruct e as [e|]; [|exists []; reflexivity]. destruct (write_set e) as (us & W). cbn. eexists. eexists. split; [|reflexivity].
    exists us. split; [exact W | reflexivity]. }
  destruct E as (nodes & E). eexists. apply a_traversal; eassumption.
Qed.
Lemma write_pass : forall p, exists ts, pass_written p ts.
Proof.
  intros [n i u f]. destruct i as [i|]; [eexists; apply pass_long; left; discriminate|].
  destruct u as [u|]; [eexists; apply pass_long; right; left; discriminate|].
  destruct f as [f|]; eexists; [apply pass_function | apply pass_short].
Qed.
Fixpoint action_size (a : action) : nat :=
  match a with Phase _ l => S (fold_right (fun a n => action_size a + n) 0 l) | _ => 1 end.
Lemma write_action : forall n a, action_size a <= n -> action_expressible a -> exists ts, action_written a ts.
Proof.
  induction n as [|n IH]; intros a S E; [destruct a; cbn in S; lia|].
  destruct a as [i|t|p|h l].
  - eexists. apply named_written.
  - destruct (write_traversal t E) as (ts & W). exists ts. now apply traversal_action.
  - destruct (write_pass p) as (ts & W). exists ts. now apply pass_action.
  - cbn in S, E. assert (X : exists ts, actions_written l ts).
    { assert (S' : fold_right (fun a n => action_size a + n) 0 l <= n) by lia. clear S. revert S' E.
      induction l as [|a l IHl]; cbn; intros S E; [exists []; constructor|]. destruct E as [E1 E2].
      destruct (IH a ltac:(lia) E1) as (ts & T). destruct (IHl ltac:(lia) E2) as (us & U).
      eexists. apply more_actions; eassumption. }
    destruct X as (ts & X). eexists. now apply phase_action with (1 := X).
Qed.
Lemma write_declaration : forall d, expressible d -> exists ts, declaration_written d ts.
Proof.
  intros [a|[n r c a e l]|n i e a|[n p l] i] E; cbn in E.
  - destruct E as [N E]. destruct (write_action _ a (le_n _) E) as (ts & W). exists ts. now apply action_declaration.
  - destruct (write_all _ _ write_child c) as (cs & C), (write_list _ _ _ write_attribute a E) as (as_ & A),
      (write_all _ _ write_equation e) as (es & Q), (write_all _ _ write_lifetime l) as (ls & L).
    eexists. apply node_declaration; eassumption.
  - destruct (write_set e) as (ts & W), (write_list _ _ _ write_attribute a E) as (as_ & A). eexists.
    apply nodeset_declaration; eassumption.
  - eexists. apply enum_declaration.
Qed.
Lemma write_all_declarations : forall d, Forall expressible d -> exists ts, written d ts.
Proof.
  intros d F. induction F as [|d l E F (us & IH)]; [exists []; constructor|].
  destruct (write_declaration d E) as (ts & W). eexists. now apply declarations_written with (1 := W) (2 := IH).
Qed.

(** * Laying out *)

Lemma spell_ok : forall t, match t with T_ID i => identifier_ok i | T_STRINGVAL s => string_body s | _ => True end -> lexeme_ok (spell t).
Proof.
  intros t H. destruct t; try (apply lexeme_okb_sound; vm_compute; reflexivity).
  - cbn. now rewrite txt_str.
  - cbn. rewrite txt_str. exact H.
Qed.

Lemma good_ok : forall t, good t -> lexeme_ok (spell t).
Proof. intros t G. apply spell_ok. destruct t; try exact I; [exact G | exact (proj1 G)]. Qed.

Lemma declaration_spelled : forall d ts, declaration_written d ts -> names_ok d -> Forall (fun t => lexeme_ok (spell t)) ts.
Proof.
  intros d ts W N. assert (D : (exists e i, d = ParserSpec.Enum e i) \/ forall e i, d <> ParserSpec.Enum e i).
  { destruct d; try (right; intros; discriminate). left. eauto. }
  destruct D as [(e & i & ->)|D].
  - inversion W as [| | | |n p l i']; subst. rewrite enum_tokens. destruct N as (F & FI & V & _). cbn in F, FI, V.
    inversion F as [|? ? F1 F2]; subst. inversion F2 as [|? ? F3 _]; subst.
    assert (GS : Forall good (enum_start p i)).
    { unfold enum_start. apply Forall_app. split.
      - apply fine_separated; [exact I|]. now apply fine_info.
      - apply Forall_app. split; [destruct i; repeat constructor|]. constructor; [exact I|]. constructor; [exact I|].
        constructor; [exact F3|]. repeat constructor. }
    constructor; [now apply spell_ok|]. cbn [app]. constructor; [apply spell_ok, F1|]. constructor; [now apply spell_ok|].
    apply Forall_app. split; [eapply Forall_impl; [|exact GS]; exact good_ok|].
    constructor; [now apply spell_ok|]. constructor; [now apply spell_ok|]. apply Forall_app. split.
    + apply Forall_forall. intros t IN. apply value_tokens_in in IN. destruct IN as [->|(v & IN & ->)]; [now apply spell_ok|].
      rewrite Forall_forall in V. apply spell_ok. exact (V v IN).
    + constructor; [now apply spell_ok|]. constructor; [now apply spell_ok | constructor].
  - eapply Forall_impl; [exact good_ok|]. eapply fine_declaration; [exact W | exact D | apply N | apply N].
Qed.
Lemma written_spelled : forall d ts, written d ts -> Forall names_ok d -> Forall (fun t => lexeme_ok (spell t)) ts.
Proof.
  intros d ts W. induction W as [|d ts W|d l ts us W _ IH]; intros N.
  - constructor.
  - inversion N; subst. eapply declaration_spelled; eassumption.
  - inversion N as [|? ? N1 N2]; subst. apply Forall_app. split; [eapply declaration_spelled; eassumption|].
    constructor; [now apply spell_ok | exact (IH N2)].
Qed.

(** Every token in a line of its own. *)
Definition one_per_line (ls : list lexeme) : list piece := flat_map (fun l => [Token l; Newline]) ls.

Lemma apart_newline : forall l r, apart (Token l) (newline :: r).
Proof.
  intros l r.
  assert (D : ~ is_digit newline) by (rewrite digit_iff; discriminate).
  assert (H : forall P, ~ P newline -> ~ starts_with P (newline :: r)) by (intros P N (c & u & [= <- <-] & Q); exact (N Q)).
  destruct l; cbn; try exact I.
  - apply H. rewrite word_iff. discriminate.
  - intros _. apply H. intros [X|X]; [discriminate X | exact (D X)].
  - now apply H.
  - split; [now apply H|]. intros (c & u & X & _). discriminate X.
  - split; [now apply H|]. intros (c & u & X & _). discriminate X.
Qed.
Lemma one_per_line_laid : forall ls, Forall lexeme_ok ls -> laid_out (one_per_line ls) /\ lexemes_of (one_per_line ls) = ls.
Proof.
  intros ls F. induction F as [|l ls O F [IH1 IH2]]; [split; [exact I | reflexivity]|].
  cbn [one_per_line flat_map app]. fold (one_per_line ls). split.
  - split; [exact O|]. split; [apply apart_newline|]. split; [exact I|]. split; [exact I | exact IH1].
  - cbn [lexemes_of]. now rewrite IH2.
Qed.
