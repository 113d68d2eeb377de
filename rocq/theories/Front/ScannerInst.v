(** Deciding the hypotheses about texts, and example texts. *)

From Coq Require Import String.
From Coq Require Import List Ascii Bool Arith Lia.
From Verif Require Import Base.Outcome Front.LexerModel Front.ScannerModel Front.ScannerSpec Front.ScannerNext.
From Verif Require Import Front.ScannerText.
Import ListNotations.
Local Open Scope string_scope.
Local Open Scope list_scope.

Definition digitsb (t : text) : bool := match t with [] => false | _ => forallb digit t end.
Definition fractionb (t : text) : bool :=
  let a := firstn (span digit t) t in
  digitsb a && match skipn (span digit t) t with c :: b => Ascii.eqb c "." && digitsb b | [] => false end.
Fixpoint string_bodyb (t : text) : bool :=
  match t with
  | [] => true
  | c :: u =>
      if Ascii.eqb c backslash then match u with d :: v => negb (Ascii.eqb d newline) && string_bodyb v | [] => false end
      else negb (Ascii.eqb c quote) && string_bodyb u
  end.
Definition lexeme_okb (l : lexeme) : bool :=
  match l with
  | Word w => match txt w with c :: t => letter c && forallb word_char t | [] => false end
  | Symbol c => existsb (Ascii.eqb c) (txt "()[]{},=;!|&-.")
  | Arrow => true
  | Float_number t => fractionb (txt t) || match txt t with c :: u => Ascii.eqb c "-" && fractionb u | [] => false end
  | Negative_number t => match txt t with c :: u => Ascii.eqb c "-" && digitsb u | [] => false end
  | Number t => digitsb (txt t)
  | Quoted t => string_bodyb (txt t)
  end.
Fixpoint ends_once (u : text) : bool :=
  match u with
  | [] => true
  | c :: v => (negb (prefixb (txt "*/") u) || (length u =? 2)%nat) && ends_once v
  end.
Definition piece_okb (p : piece) : bool :=
  match p with
  | Token l => lexeme_okb l
  | White c => white c
  | Newline => true
  | Line_comment t => forallb dot t
  | Block_comment t => ends_once (t ++ txt "*/")
  end.
Definition startsb (p : ascii -> bool) (t : text) : bool := match t with c :: _ => p c | [] => false end.
Definition apartb (p : piece) (rest : text) : bool :=
  match p with
  | Token (Word _) => negb (startsb word_char rest)
  | Token (Symbol c) => negb (Ascii.eqb c "-") || negb (startsb (fun d => Ascii.eqb d ">" || digit d) rest)
  | Token (Float_number _) => negb (startsb digit rest)
  | Token (Negative_number _) | Token (Number _) =>
      negb (startsb digit rest) && match rest with c :: d :: _ => negb (Ascii.eqb c "." && digit d) | _ => true end
  | Line_comment _ => match rest with [] => true | c :: _ => Ascii.eqb c newline end
  | _ => true
  end.
Fixpoint laid_outb (ps : list piece) : bool :=
  match ps with [] => true | p :: ps => piece_okb p && apartb p (text_of ps) && laid_outb ps end.

Lemma digitsb_sound : forall t, digitsb t = true -> digits t.
Proof.
  intros [|c t] H; [discriminate|]. cbn [digitsb forallb] in H. rewrite andb_true_iff in H. apply digits_iff.
  exists c, t. tauto.
Qed.
Lemma fractionb_sound : forall t, fractionb t = true -> fraction t.
Proof.
  intros t H. unfold fractionb in H. rewrite andb_true_iff in H. destruct H as [A B].
  pose proof (firstn_skipn (span digit t) t) as E. destruct (skipn (span digit t) t) as [|c b]; [discriminate|].
  rewrite andb_true_iff in B. destruct B as [B1 B2]. apply Ascii.eqb_eq in B1. subst c.
  exists (firstn (span digit t) t), b. auto using digitsb_sound.
Qed.
Lemma string_bodyb_sound : forall n t, length t <= n -> string_bodyb t = true -> string_body t.
Proof.
  induction n as [|n IH]; intros [|c u] L H; [apply body_end | cbn in L; lia | apply body_end |]. cbn [length] in L. cbn [string_bodyb] in H.
  destruct (Ascii.eqb_spec c backslash) as [->|N].
  - destruct u as [|d v]; [discriminate|]. rewrite andb_true_iff, negb_true_iff, Ascii.eqb_neq in H. destruct H as [H1 H2].
    apply body_escape; [exact H1|]. apply IH; [cbn in L; lia | exact H2].
  - rewrite andb_true_iff, negb_true_iff, Ascii.eqb_neq in H. destruct H as [H1 H2]. apply body_char; auto. apply IH; [lia | exact H2].
Qed.
Lemma lexeme_okb_sound : forall l, lexeme_okb l = true -> lexeme_ok l.
Proof.
  intros [w|c| |t|t|t|t] H; cbn [lexeme_okb lexeme_ok] in *.
  - destruct (txt w) as [|c t]; [discriminate|]. rewrite andb_true_iff in H. exists c, t. split; [reflexivity|].
    rewrite letter_iff, (forall_forallb _ _ _ word_iff). exact H.
  - now apply in_text.
  - exact I.
  - rewrite orb_true_iff in H. destruct H as [H|H]; [left; now apply fractionb_sound|]. right.
    destruct (txt t) as [|c u]; [discriminate|]. rewrite andb_true_iff, Ascii.eqb_eq in H. destruct H as [-> H].
    exists u. split; [reflexivity | now apply fractionb_sound].
  - destruct (txt t) as [|c u]; [discriminate|]. rewrite andb_true_iff, Ascii.eqb_eq in H. destruct H as [-> H].
    exists u. split; [reflexivity | now apply digitsb_sound].
  - now apply digitsb_sound.
  - apply (string_bodyb_sound _ _ (le_n _) H).
Qed.
Lemma ends_once_sound : forall u a b, ends_once u = true -> u = a ++ txt "*/" ++ b -> b = [].
Proof.
  intros u a. revert u. induction a as [|c a IH]; intros u b H ->.
  - cbn [app ends_once txt list_ascii_of_string] in H. rewrite andb_true_iff in H. destruct H as [H _].
    destruct b; [reflexivity|]. cbn in H. discriminate.
  - cbn [app ends_once] in H. rewrite andb_true_iff in H. destruct H as [_ H]. exact (IH _ b H eq_refl).
Qed.
Lemma piece_okb_sound : forall p, piece_okb p = true -> piece_ok p.
Proof.
  intros [l|c| |t|t] H; cbn [piece_okb piece_ok] in *.
  - now apply lexeme_okb_sound.
  - now apply white_iff.
  - exact I.
  - now apply no_newline.
  - intros a b E. exact (ends_once_sound _ a b H E).
Qed.
Lemma startsb_not : forall (P : ascii -> Prop) p r, (forall c, P c <-> p c = true) -> negb (startsb p r) = true -> ~ starts_with P r.
Proof. intros P p r H N (c & u & -> & Q). apply H in Q. cbn in N. rewrite Q in N. discriminate. Qed.
Lemma apartb_sound : forall p r, apartb p r = true -> apart p r.
Proof.
  assert (NUM : forall r, negb (startsb digit r) && match r with c :: d :: _ => negb (Ascii.eqb c "." && digit d) | _ => true end = true ->
    ~ starts_with is_digit r /\ ~ (exists c u, r = "."%char :: c :: u /\ is_digit c)).
  { intros r H. rewrite andb_true_iff in H. destruct H as [H1 H2]. split; [exact (startsb_not _ _ _ digit_iff H1)|].
    intros (c & u & -> & D). apply digit_iff in D. rewrite D in H2. discriminate. }
  intros [[w|c| |t|t|t|t]|c| |t|t] r H; cbn [apartb apart] in *; try exact I.
  - exact (startsb_not _ _ _ word_iff H).
  - intros ->. rewrite Ascii.eqb_refl in H. cbn [negb orb] in H. apply (startsb_not _ (fun d => Ascii.eqb d ">" || digit d)); [|exact H].
    intros d. rewrite orb_true_iff, Ascii.eqb_eq, digit_iff. tauto.
  - exact (startsb_not _ _ _ digit_iff H).
  - exact (NUM r H).
  - exact (NUM r H).
  - destruct r as [|c r]; [now left|]. right. exists c, r. split; [reflexivity|]. apply Ascii.eqb_eq in H. now symmetry.
Qed.
Lemma laid_outb_sound : forall ps, laid_outb ps = true -> laid_out ps.
Proof.
  induction ps as [|p ps IH]; cbn [laid_outb laid_out]; [auto|]. rewrite !andb_true_iff. intros ((A & B) & C).
  auto using piece_okb_sound, apartb_sound.
Qed.

(** An example: keywords, names, values, strings, numbers, comments. *)
Definition sp : piece := White " ".
Definition w (s : string) : piece := Token (Word s).
Definition sym (c : ascii) : piece := Token (Symbol c).
Definition sample_layout : list piece :=
  [Line_comment (txt " the nodes"); Newline; Newline;
   w "node"; sp; w "nodes1"; sp; sym "{"; Block_comment (txt " two " ++ newline :: txt "lines * / "); Newline;
   White tab; w "children"; sym "{"; w "A"; sp; w "int_"; sym "{"; w "mandatory"; sp; Token Arrow; w "x"; sym "}"; sym "}"; sym ",";
   Newline; Token (Negative_number "-12"); sym "."; sp; Token (Float_number "3.25"); sp; sym "-"; sp; sym "-"; sp; Token (Number "7"); Newline;
   w "enum"; sp; w "Values"; sp; sym "{"; w "values"; sym "="; sym "{"; w "int"; sym ","; w "node"; sym "}"; sym "}"; sym ";";
   Token (Quoted "a \"" string // no comment"); White return_; Newline; Newline].
Definition sample_tail : text := txt "/* open" ++ newline :: txt "int * ".
Definition two_lines : list piece :=
  [Token (Quoted (str (txt "a" ++ newline :: txt "bc"))); sp; w "x"].
