(** The scanner on a layout. *)

From Coq Require Import String.
From Coq Require Import List Ascii Bool Arith Lia.
From Verif Require Import Base.Outcome Front.LexerModel Front.ScannerModel Front.ScannerSpec Front.ScannerNext.
From Verif Require Import Front.ScannerText Front.ScannerPlace Front.ScannerProof.
Import ListNotations.
Local Open Scope outcome_scope.
Local Open Scope string_scope.
Local Open Scope list_scope.
Local Arguments Ascii.eqb : simpl never.
Local Arguments best : simpl never.
Local Arguments dot : simpl never.

Inductive runs : nat -> scanner -> list located -> scanner -> Prop :=
| runs_nil : forall s, runs 0 s [] s
| runs_cons : forall k s o s1 ts s2, input s <> [] -> step s = Val (o, s1) -> runs k s1 ts s2 ->
    runs (S k) s (match o with None => ts | Some t => t :: ts end) s2.

Definition measure (s : scanner) : nat :=
  2 * length (input s) + match YY_START s with SAVELINE => 1 | _ => 0 end.
Definition goes (s : scanner) (ts : list located) (s' : scanner) : Prop :=
  exists k, runs k s ts s' /\ k + measure s' <= measure s.

Lemma goes_refl : forall s, goes s [] s.
Proof. intros s. exists 0. split; [constructor | lia]. Qed.
Lemma goes_step : forall s o s1, input s <> [] -> step s = Val (o, s1) -> measure s1 < measure s ->
  goes s (match o with None => [] | Some t => [t] end) s1.
Proof.
  intros s o s1 N E M. exists 1. split; [|lia].
  change (match o with None => [] | Some t => [t] end) with (match o with None => [] | Some t => t :: [] end).
  eapply runs_cons; [exact N | exact E | constructor].
Qed.
Lemma runs_app : forall k s ts s', runs k s ts s' -> forall m us s'', runs m s' us s'' -> runs (k + m) s (ts ++ us) s''.
Proof.
  intros k s ts s' H. induction H as [s|k s o s1 ts s2 N E H IH]; intros m us s'' G; [exact G|].
  specialize (IH m us s'' G).
  replace ((match o with None => ts | Some t => t :: ts end) ++ us)
    with (match o with None => ts ++ us | Some t => t :: (ts ++ us) end) by (destruct o; reflexivity).
  cbn [Nat.add]. eapply runs_cons; eassumption.
Qed.
Lemma goes_trans : forall s ts s1 us s2, goes s ts s1 -> goes s1 us s2 -> goes s (ts ++ us) s2.
Proof.
  intros s ts s1 us s2 (k & R & M) (m & R' & M'). exists (k + m). split; [eapply runs_app; eassumption | lia].
Qed.

Lemma runs_fuel : forall k s ts s', runs k s ts s' -> forall f,
  yylex_all (k + f) s = let! r := yylex_all f s' in Val (ts ++ fst r, snd r).
Proof.
  intros k s ts s' H. induction H as [s|k s o s1 ts s2 N E H IH]; intros f.
  - cbn. destruct (yylex_all f s) as [[]| | | |]; reflexivity.
  - cbn [Nat.add yylex_all]. destruct (input s) as [|c t] eqn:I; [now elim N|]. rewrite E. cbn [bind fst snd].
    rewrite IH. destruct (yylex_all f s2) as [[]| | | |]; cbn; try reflexivity. destruct o; reflexivity.
Qed.

Lemma goes_end : forall s ts s' fuel, goes s ts s' -> input s' = [] -> measure s <= fuel -> yylex_all fuel s = Val (ts, s').
Proof.
  intros s ts s' fuel (k & R & M) E F. replace fuel with (k + (fuel - k)) by lia. rewrite (runs_fuel _ _ _ _ R).
  destruct (fuel - k); cbn; rewrite E; cbn; rewrite app_nil_r; reflexivity.
Qed.
Lemma goes_exit : forall s ts s' fuel, goes s ts s' -> input s' <> [] -> step s' = Exited -> measure s <= fuel ->
  yylex_all fuel s = Exited.
Proof.
  intros s ts s' fuel (k & R & M) N E F. replace fuel with (k + (fuel - k)) by lia. rewrite (runs_fuel _ _ _ _ R).
  assert (1 <= measure s') by (unfold measure; destruct (input s'); [now elim N | cbn [length]; lia]).
  destruct (fuel - k) as [|g] eqn:G; [lia|]. cbn [yylex_all]. destruct (input s'); [now elim N|]. rewrite E. reflexivity.
Qed.

(** * Between pieces *)

Definition at_top (s : scanner) : Prop :=
  YY_START s = INITIAL \/ (YY_START s = SAVELINE /\ exists l, yy_stack s = INITIAL :: l).

Lemma span_dot_pos : forall c t, c <> newline -> firstn (span dot (c :: t)) (c :: t) <> [].
Proof. intros c t N. cbn [span]. apply dot_iff in N. rewrite N. discriminate. Qed.

Lemma save : forall s c t x l, YY_START s = SAVELINE -> yy_stack s = x :: l -> x <> SAVELINE ->
  input s = c :: t -> c <> newline ->
  exists s1, goes s [] s1 /\ YY_START s1 = x /\ yy_stack s1 = l /\ input s1 = input s /\ mode s1 = mode s /\
             (forall b, placed b s -> placed b s1).
Proof.
  intros s c t x l S ST NX E N. eexists. split; [|split; [|split; [|split; [|split]]]].
  - apply (goes_step s None); [congruence | eapply step_save_line; eassumption|].
    unfold measure. cbn [input YY_START]. rewrite S. destruct x; [lia | lia | now elim NX].
  - reflexivity.
  - reflexivity.
  - reflexivity.
  - reflexivity.
  - intros b P. apply placed_save_line; auto. rewrite E. now apply span_dot_pos.
Qed.

Lemma enter : forall s c t, at_top s -> input s = c :: t -> c <> newline ->
  exists s1, goes s [] s1 /\ YY_START s1 = INITIAL /\ input s1 = input s /\ mode s1 = mode s /\
             (forall b, placed b s -> placed b s1).
Proof.
  intros s c t [S|[S [l ST]]] E N.
  - exists s. split; [apply goes_refl|]. auto.
  - destruct (save s c t INITIAL l S ST) as (s1 & A & B & _ & C & D & F); auto; [discriminate|]. exists s1. auto.
Qed.

(** * Comments *)

Definition in_comment (s : scanner) : Prop :=
  YY_START s = COMMENT \/ (YY_START s = SAVELINE /\ exists l, yy_stack s = COMMENT :: l).

Lemma comment_char : forall s c t, in_comment s -> input s = c :: t -> prefixb (txt "*/") (c :: t) = false ->
  exists s1, goes s [] s1 /\ in_comment s1 /\ input s1 = t /\ mode s1 = mode s /\
             (forall b, placed b s -> placed (b ++ [c]) s1).
Proof.
  assert (H : forall s c t, YY_START s = COMMENT -> input s = c :: t -> prefixb (txt "*/") (c :: t) = false ->
    exists s1, goes s [] s1 /\ in_comment s1 /\ input s1 = t /\ mode s1 = mode s /\
             (forall b, placed b s -> placed (b ++ [c]) s1)).
  { intros s c t S E P. destruct (ascii_dec c newline) as [->|N].
    - eexists. split; [|split; [|split; [|split]]].
      + apply (goes_step s None); [congruence | eapply step_comment_newline; eassumption|].
        unfold measure. cbn [input YY_START]. rewrite S, E. cbn [length]. lia.
      + right. split; [reflexivity|]. eexists. reflexivity.
      + reflexivity.
      + reflexivity.
      + intros b Pl. apply placed_newline; auto. congruence.
    - eexists. split; [|split; [|split; [|split]]].
      + apply (goes_step s None); [congruence | eapply step_comment_other; eassumption|].
        unfold measure, advance. cbn [input YY_START]. rewrite S, E. cbn [length]. lia.
      + left. reflexivity.
      + reflexivity.
      + reflexivity.
      + intros b Pl. unfold advance. rewrite newlines_none by (intros [I|[]]; congruence). rewrite Nat.add_0_r.
        apply placed_plain; auto; try congruence. intros [I|[]]; congruence. }
  intros s c t [S|[S [l ST]]] E P; [now apply H|].
  destruct (ascii_dec c newline) as [->|N].
  - eexists. split; [|split; [|split; [|split]]].
    + apply (goes_step s None); [congruence | eapply step_save_newline; eassumption|].
      unfold measure. cbn [input YY_START]. rewrite S, E. cbn [length]. lia.
    + right. split; [reflexivity|]. exists l. exact ST.
    + reflexivity.
    + reflexivity.
    + intros b Pl. apply placed_save_newline; auto.
  - destruct (save s c t COMMENT l S ST) as (s1 & A & B & _ & C & D & F); auto; [discriminate|].
    rewrite E in C. destruct (H s1 c t B C P) as (s2 & A2 & B2 & C2 & D2 & F2). exists s2.
    split; [exact (goes_trans _ _ _ _ _ A A2)|]. split; [exact B2|]. split; [exact C2|]. split; [congruence|]. auto.
Qed.

Lemma comment_end : forall s r, in_comment s -> input s = txt "*/" ++ r ->
  exists s1, goes s [] s1 /\ YY_START s1 = INITIAL /\ input s1 = r /\ mode s1 = mode s /\
             (forall b, placed b s -> placed (b ++ txt "*/") s1).
Proof.
  assert (NL : ~ In newline (txt "*/")) by (cbn; intros [|[|[]]]; discriminate).
  assert (H : forall s r, YY_START s = COMMENT -> input s = txt "*/" ++ r ->
    exists s1, goes s [] s1 /\ YY_START s1 = INITIAL /\ input s1 = r /\ mode s1 = mode s /\
             (forall b, placed b s -> placed (b ++ txt "*/") s1)).
  { intros s r S E. eexists. split; [|split; [|split; [|split]]].
    - apply (goes_step s None); [rewrite E; discriminate | eapply step_comment_end; eassumption|].
      unfold measure, advance. cbn [input YY_START]. rewrite S, E, app_length. cbn [length txt list_ascii_of_string]. lia.
    - reflexivity.
    - reflexivity.
    - reflexivity.
    - intros b Pl. unfold advance. rewrite newlines_none by exact NL. rewrite Nat.add_0_r.
      apply placed_plain; auto; congruence. }
  intros s r [S|[S [l ST]]] E; [now apply H|].
  destruct (save s "*" ("/"%char :: r) COMMENT l S ST) as (s1 & A & B & _ & C & D & F); [discriminate | exact E | discriminate|].
  rewrite E in C. destruct (H s1 r B C) as (s2 & A2 & B2 & C2 & D2 & F2). exists s2.
  split; [exact (goes_trans _ _ _ _ _ A A2)|]. split; [exact B2|]. split; [exact C2|]. split; [congruence|]. auto.
Qed.

Lemma comment_body : forall t s r, in_comment s -> input s = t ++ txt "*/" ++ r -> piece_ok (Block_comment t) ->
  exists s1, goes s [] s1 /\ YY_START s1 = INITIAL /\ input s1 = r /\ mode s1 = mode s /\
             (forall b, placed b s -> placed (b ++ t ++ txt "*/") s1).
Proof.
  induction t as [|c t IH]; intros s r C E O; [now apply comment_end|].
  assert (P : prefixb (txt "*/") (c :: t ++ txt "*/" ++ r) = false).
  { destruct (prefixb (txt "*/") (c :: t ++ txt "*/" ++ r)) eqn:P; [|reflexivity]. exfalso.
    cbn in P. rewrite andb_true_iff, Ascii.eqb_eq in P. destruct P as [<- P].
    assert (X : exists y, (("*"%char :: t) ++ txt "*/" = [] ++ txt "*/" ++ y) /\ y <> []).
    { destruct t as [|d t]; cbn in P; [discriminate|]. rewrite andb_true_iff, Ascii.eqb_eq in P. destruct P as [<- _].
      exists (t ++ txt "*/"). split; [reflexivity|]. destruct t; discriminate. }
    destruct X as (y & X & Y). exact (Y (O _ _ X)). }
  destruct (comment_char s c (t ++ txt "*/" ++ r) C E P) as (s1 & A1 & B1 & C1 & D1 & F1).
  destruct (IH s1 r B1 C1) as (s2 & A2 & B2 & C2 & D2 & F2).
  { intros a b X. apply (O (c :: a) b). cbn. now f_equal. }
  exists s2. split; [exact (goes_trans _ _ _ _ _ A1 A2)|]. split; [exact B2|]. split; [exact C2|]. split; [congruence|].
  intros b Pl. specialize (F2 _ (F1 _ Pl)). rewrite <- app_assoc in F2. exact F2.
Qed.

Lemma comment_open : forall t s, in_comment s -> input s = t -> (forall a b, t <> a ++ txt "*/" ++ b) ->
  exists s1, goes s [] s1 /\ in_comment s1 /\ input s1 = [] /\ mode s1 = mode s /\
             (forall b, placed b s -> placed (b ++ t) s1).
Proof.
  induction t as [|c t IH]; intros s C E O.
  - exists s. split; [apply goes_refl|]. split; [exact C|]. split; [exact E|]. split; [reflexivity|].
    intros b Pl. now rewrite app_nil_r.
  - assert (P : prefixb (txt "*/") (c :: t) = false).
    { destruct (prefixb (txt "*/") (c :: t)) eqn:P; [|reflexivity]. exfalso.
      destruct t as [|d t]; cbn in P; rewrite ?andb_false_r in P; [discriminate|].
      rewrite !andb_true_iff, !Ascii.eqb_eq in P. destruct P as (<- & <- & _). exact (O [] t eq_refl). }
    destruct (comment_char s c t C E P) as (s1 & A1 & B1 & C1 & D1 & F1).
    destruct (IH s1 B1 C1) as (s2 & A2 & B2 & C2 & D2 & F2).
    { intros a b X. apply (O (c :: a) b). cbn. now f_equal. }
    exists s2. split; [exact (goes_trans _ _ _ _ _ A1 A2)|]. split; [exact B2|]. split; [exact C2|]. split; [congruence|].
    intros b Pl. specialize (F2 _ (F1 _ Pl)). rewrite <- app_assoc in F2. exact F2.
Qed.

(** * Pieces *)

Definition blank (p : piece) : Prop := forall l, p <> Token l.

Lemma piece_head : forall p, piece_ok p -> p = Newline \/ exists c t, piece_text p = c :: t /\ c <> newline.
Proof.
  intros p O. assert (LN : forall c, letter c = true -> c <> newline) by (intros c L ->; discriminate).
  assert (DN : forall c, digit c = true -> c <> newline) by (intros c L ->; discriminate).
  destruct p as [l|c| |t|t]; [right|right|now left|right|right]; cbn [piece_text piece_ok] in *.
  - destruct l as [w|c| |t|t|t|t]; cbn [lexeme_ok lexeme_text] in *.
    + destruct O as (c & t & -> & L & _). apply letter_iff in L. eauto.
    + exists c, []. split; [reflexivity|]. intros ->. revert O. cbn. intuition discriminate.
    + eexists _, _. split; [reflexivity | discriminate].
    + destruct O as [F|(u & -> & F)]; [destruct (fraction_number _ F) as (c & a & b & -> & C & _); eexists _, _; split; [reflexivity | auto]|].
      eexists _, _. split; [reflexivity | discriminate].
    + destruct O as (u & -> & _). eexists _, _. split; [reflexivity | discriminate].
    + apply digits_iff in O. destruct O as (c & u & -> & D & _). eauto.
    + eexists _, _. split; [reflexivity | discriminate].
  - exists c, []. split; [reflexivity|]. intros ->. destruct O as [O|[O|O]]; discriminate.
  - eexists _, _. split; [reflexivity | discriminate].
  - eexists _, _. split; [reflexivity | discriminate].
Qed.

Lemma blank_piece : forall p s rest, blank p -> piece_ok p -> apart p rest -> at_top s -> input s = piece_text p ++ rest ->
  exists s1, goes s [] s1 /\ at_top s1 /\ input s1 = rest /\ mode s1 = mode s /\
             (forall b, placed b s -> placed (b ++ piece_text p) s1).
Proof.
  intros p s rest B O A T E. destruct (piece_head p O) as [->|(c & t & H & N)].
  - cbn [piece_text app] in *. destruct T as [S|[S [l ST]]].
    + eexists. split; [|split; [|split; [|split]]].
      * apply (goes_step s None); [congruence | eapply step_newline; eassumption|].
        unfold measure. cbn [input YY_START]. rewrite S, E. cbn [length]. lia.
      * right. split; [reflexivity|]. eexists. reflexivity.
      * reflexivity.
      * reflexivity.
      * intros b Pl. apply placed_newline; auto. congruence.
    + eexists. split; [|split; [|split; [|split]]].
      * apply (goes_step s None); [congruence | eapply step_save_newline; eassumption|].
        unfold measure. cbn [input YY_START]. rewrite S, E. cbn [length]. lia.
      * right. split; [reflexivity|]. exists l. exact ST.
      * reflexivity.
      * reflexivity.
      * intros b Pl. apply placed_save_newline; auto.
  - destruct (enter s c (t ++ rest) T) as (s0 & A0 & B0 & C0 & D0 & F0); [rewrite E, H; reflexivity | exact N|].
    rewrite E in C0.
    enough (X : exists s1, goes s0 [] s1 /\ at_top s1 /\ input s1 = rest /\ mode s1 = mode s0 /\
             (forall b, placed b s0 -> placed (b ++ piece_text p) s1)).
    { destruct X as (s1 & A1 & B1 & C1 & D1 & F1). exists s1. split; [exact (goes_trans _ _ _ _ _ A0 A1)|].
      split; [exact B1|]. split; [exact C1|]. split; [congruence|]. auto. }
    clear s T E A0 D0 F0. rename s0 into s, B0 into S, C0 into E.
    destruct p as [l|x| |u|u]; [now elim (B l)| | | |]; cbn [piece_text piece_ok apart] in *.
    + assert (NX : ~ In newline [x]) by (injection H as -> _; intros [|[]]; congruence).
      eexists. split; [|split; [|split; [|split]]].
      * apply (goes_step s None); [rewrite E; discriminate | apply (step_white s x rest S E); now apply white_iff|].
        unfold measure, advance. cbn [input YY_START]. rewrite S, E. cbn [length app]. lia.
      * left. reflexivity.
      * reflexivity.
      * reflexivity.
      * intros b Pl. unfold advance. rewrite newlines_none by exact NX. rewrite Nat.add_0_r.
        apply placed_plain; auto; congruence.
    + injection H as <- _. now elim N.
    + assert (NX : ~ In newline (txt "//" ++ u)) by (cbn; intros [|[|]]; [discriminate | discriminate | auto]).
      eexists. split; [|split; [|split; [|split]]].
      * rewrite <- app_assoc in E. apply (goes_step s None); [rewrite E; discriminate | apply (step_line_comment s u rest S E O A)|].
        unfold measure, advance. cbn [input YY_START]. rewrite S, E. rewrite !app_length. cbn [length txt list_ascii_of_string]. lia.
      * left. reflexivity.
      * reflexivity.
      * reflexivity.
      * intros b Pl. unfold advance. rewrite newlines_none by exact NX. rewrite Nat.add_0_r.
        apply placed_plain; auto; congruence.
    + rewrite <- !app_assoc in E. pose proof (step_comment_start s _ S E) as ST.
      assert (NX : ~ In newline (txt "/*")) by (cbn; intros [|[|[]]]; discriminate).
      assert (G : goes s [] (advance (txt "/*") (mode s) COMMENT (INITIAL :: yy_stack s) s (u ++ txt "*/" ++ rest))).
      { apply (goes_step s None); [rewrite E; discriminate | exact ST|].
        unfold measure, advance. cbn [input YY_START]. rewrite S, E. rewrite !app_length. cbn [length txt list_ascii_of_string]. lia. }
      destruct (comment_body u (advance (txt "/*") (mode s) COMMENT (INITIAL :: yy_stack s) s (u ++ txt "*/" ++ rest)) rest)
        as (s2 & A2 & B2 & C2 & D2 & F2); [left; reflexivity | reflexivity | exact O|].
      exists s2. split; [exact (goes_trans _ _ _ _ _ G A2)|]. split; [left; exact B2|]. split; [exact C2|]. split; [exact D2|].
      intros b Pl. rewrite app_assoc. apply F2. unfold advance. rewrite newlines_none by exact NX. rewrite Nat.add_0_r.
      apply placed_plain; auto; congruence.
Qed.

Definition place (t : located) : nat * nat * nat := (the_line t, first_column t, last_column t).
Definition place_of (o : text * lexeme) : nat * nat * nat :=
  (line_at (fst o), column_at (fst o), column_at (fst o) + length (lexeme_text (snd o)) - 1).

Lemma lex_one_cases : forall f l, (exists r, lex_one f l = Val r) \/ lex_one f l = Exited.
Proof.
  intros f [w|x| |z|z|z|z]; cbn [lex_one]; eauto.
  - unfold lex_word. destruct (assoc w keywords); [eauto|]. destruct (String.eqb w "NULL"); [eauto|].
    match goal with |- context [check_c_keyword ?g w] => assert (X : check_c_keyword g w = Val tt \/ check_c_keyword g w = Exited) end.
    { unfold check_c_keyword. destruct (negb _); [auto|]. destruct (existsb _ _); auto. }
    destruct X as [->| ->]; cbn [bind]; eauto.
  - destruct (Ascii.eqb x "{"); [eauto|]. destruct (Ascii.eqb x "}"); eauto.
Qed.

Lemma token_piece : forall l s rest, lexeme_ok l -> apart (Token l) rest -> at_top s -> input s = lexeme_text l ++ rest ->
  match lex_one (mode s) l with
  | Val (f, k) =>
      exists t s1, goes s [t] s1 /\ at_top s1 /\ input s1 = rest /\ mode s1 = f /\ the_token t = k /\
        (forall b, placed b s -> one_line l -> placed (b ++ lexeme_text l) s1 /\ place t = place_of (b, l))
  | _ => exists s1, goes s [] s1 /\ input s1 <> [] /\ step s1 = Exited
  end.
Proof.
  intros l s rest O A T E. destruct (piece_head (Token l) O) as [X|(c & t & H & N)]; [discriminate|]. cbn [piece_text] in H.
  destruct (enter s c (t ++ rest) T) as (s0 & A0 & B0 & C0 & D0 & F0); [rewrite E, H; reflexivity | exact N|].
  rewrite E in C0. pose proof (step_token s0 l rest B0 C0 O A) as ST. rewrite D0 in ST.
  destruct (lex_one_cases (mode s) l) as [[[f k] L]|L]; rewrite L in *; cbn [bind fst snd] in ST.
  - eexists _, _. split; [|split; [|split; [|split; [|split]]]].
    + change ([?t]) with ([] ++ [t]). eapply (goes_trans _ [] _ [_]); [exact A0|].
      eapply (goes_step s0 (Some _)); [rewrite C0, H; discriminate | exact ST|].
      unfold measure, advance. cbn [input YY_START]. rewrite B0, C0, H. cbn [length app]. rewrite app_length. lia.
    + left. reflexivity.
    + reflexivity.
    + reflexivity.
    + reflexivity.
    + intros b Pl OL. specialize (F0 b Pl). unfold advance. rewrite newlines_none by exact OL. rewrite Nat.add_0_r. split.
      * apply placed_plain; auto; congruence.
      * destruct F0 as [F1 F2]. rewrite B0 in F2. destruct F2 as [F2 _]. unfold place, place_of. cbn. rewrite F1, F2. reflexivity.
  - exists s0. split; [exact A0|]. split; [rewrite C0, H; discriminate | exact ST].
Qed.

Lemma layout_runs : forall ps s tail, at_top s -> input s = text_of ps ++ tail -> laid_before ps tail ->
  match lex (mode s) (lexemes_of ps) with
  | Val (f, toks) =>
      exists ts s1, goes s ts s1 /\ at_top s1 /\ input s1 = tail /\ mode s1 = f /\ map the_token ts = toks /\
        (forall b, placed b s -> Forall one_line (lexemes_of ps) ->
           placed (b ++ text_of ps) s1 /\ map place ts = map place_of (occurrences b ps))
  | Exited => exists ts s1, goes s ts s1 /\ input s1 <> [] /\ step s1 = Exited
  | _ => False
  end.
Proof.
  induction ps as [|p ps IH]; intros s tail T E L.
  - cbn. exists [], s. split; [apply goes_refl|]. split; [exact T|]. split; [exact E|]. split; [reflexivity|]. split; [reflexivity|].
    intros b Pl _. rewrite app_nil_r. auto.
  - destruct L as (O & A & L). cbn [text_of flat_map] in E. fold (text_of ps) in E. rewrite <- app_assoc in E.
    assert (BC : blank p -> lexemes_of (p :: ps) = lexemes_of ps /\
      forall b, occurrences b (p :: ps) = occurrences (b ++ piece_text p) ps).
    { intros B. destruct p; [now elim (B l) | split; reflexivity ..]. }
    assert (D : (exists l, p = Token l) \/ blank p) by (destruct p; [left; eauto | right; intros ?; discriminate ..]).
    destruct D as [[l ->]|B].
    2: { destruct (blank_piece p s (text_of ps ++ tail) B O A T E) as (s1 & A1 & B1 & C1 & D1 & F1).
         destruct (BC B) as [-> BO]. rewrite <- D1.
         specialize (IH s1 tail B1 C1 L). destruct (lex (mode s1) (lexemes_of ps)) as [[f toks]| | | |]; try exact IH.
         - destruct IH as (ts & s2 & A2 & B2 & C2 & D2 & E2 & F2). exists ts, s2.
           split; [exact (goes_trans _ _ _ _ _ A1 A2)|]. split; [exact B2|]. split; [exact C2|]. split; [exact D2|].
           split; [exact E2|]. intros b Pl OL. rewrite BO. cbn [text_of flat_map]. fold (text_of ps). rewrite app_assoc. apply F2; auto.
         - destruct IH as (ts & s2 & A2 & B2 & C2). exists ts, s2. split; [exact (goes_trans _ _ _ _ _ A1 A2)|]. auto. }
    cbn [lexemes_of lex]. pose proof (token_piece l s (text_of ps ++ tail) O A T E) as TP.
    destruct (lex_one (mode s) l) as [[f k]| | | |] eqn:LO; cbn [bind fst snd].
    + destruct TP as (t & s1 & A1 & B1 & C1 & D1 & E1 & F1). specialize (IH s1 tail B1 C1 L). rewrite D1 in IH.
      destruct (lex f (lexemes_of ps)) as [[f' toks]| | | |]; cbn [bind fst snd]; try exact IH.
      * destruct IH as (ts & s2 & A2 & B2 & C2 & D2 & E2 & F2). exists (t :: ts), s2.
        split; [exact (goes_trans _ [t] _ ts _ A1 A2)|]. split; [exact B2|]. split; [exact C2|]. split; [exact D2|].
        split; [cbn; congruence|]. intros b Pl OL. inversion OL as [|? ? OL1 OL2]; subst.
        destruct (F1 b Pl OL1) as [G1 G2]. destruct (F2 _ G1 OL2) as [G3 G4].
        cbn [text_of flat_map occurrences map]. fold (text_of ps). rewrite app_assoc. split; [exact G3|]. now rewrite G2, G4.
      * destruct IH as (ts & s2 & A2 & B2 & C2). exists (t :: ts), s2. split; [exact (goes_trans _ [t] _ ts _ A1 A2)|]. auto.
    + destruct (lex_one_cases (mode s) l) as [[r X]|X]; rewrite X in LO; discriminate LO.
    + destruct (lex_one_cases (mode s) l) as [[r X]|X]; rewrite X in LO; discriminate LO.
    + destruct TP as (s1 & A1 & B1 & C1). exists [], s1. auto.
    + destruct (lex_one_cases (mode s) l) as [[r X]|X]; rewrite X in LO; discriminate LO.
Qed.
