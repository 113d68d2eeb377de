(** Lines and columns. *)

From Coq Require Import String.
From Coq Require Import List Ascii Bool Arith Lia.
From Verif Require Import Base.Outcome Front.LexerModel Front.ScannerModel Front.ScannerSpec Front.ScannerNext Front.ScannerText.
Import ListNotations.
Local Open Scope string_scope.
Local Open Scope list_scope.
Local Arguments Ascii.eqb : simpl never.

Lemma lines_not_nil : forall t l, lines_from l t <> [].
Proof. induction t as [|c t IH]; intros l; cbn; [discriminate|]. destruct (Ascii.eqb c newline); [discriminate | apply IH]. Qed.

Lemma lines_from_app : forall a l r init x, lines_from l a = init ++ [x] -> lines_from l (a ++ r) = init ++ lines_from x r.
Proof.
  induction a as [|c a IH]; intros l r init x H; cbn in *.
  - destruct init as [|y init]; [injection H as ->; reflexivity|].
    destruct init; discriminate.
  - destruct (Ascii.eqb c newline); [|apply IH, H].
    destruct init as [|y init].
    + exfalso. injection H as _ H. exact (lines_not_nil a [] H).
    + injection H as <- H. cbn. f_equal. apply IH, H.
Qed.

Lemma lines_from_some : forall t l, exists init x, lines_from l t = init ++ [x].
Proof.
  induction t as [|c t IH]; intros l; cbn.
  - exists [], l. reflexivity.
  - destruct (Ascii.eqb c newline); [|apply IH]. destruct (IH []) as (init & x & ->). exists (l :: init), x. reflexivity.
Qed.

Lemma lines_from_plain : forall x l r, ~ In newline x -> lines_from l (x ++ r) = lines_from (l ++ x) r.
Proof.
  induction x as [|c x IH]; intros l r N; [now rewrite app_nil_r|].
  cbn. destruct (Ascii.eqb_spec c newline) as [->|_]; [exfalso; apply N; now left|].
  rewrite IH by (intros I; apply N; now right). rewrite <- app_assoc. reflexivity.
Qed.

(** The last line is [l], the lines before it are [init]. *)
Definition at_line (before : text) (init : list text) (l : text) : Prop := lines before = init ++ [l].

Lemma at_line_exists : forall b, exists init l, at_line b init l.
Proof. intros b. apply lines_from_some. Qed.
Lemma at_line_start : at_line [] [] [].
Proof. reflexivity. Qed.
Lemma at_line_plain : forall b init l x, at_line b init l -> ~ In newline x -> at_line (b ++ x) init (l ++ x).
Proof.
  intros b init l x H N. unfold at_line, lines. rewrite (lines_from_app b [] x init l H).
  rewrite <- (app_nil_r x) at 1. rewrite lines_from_plain by exact N. reflexivity.
Qed.
Lemma at_line_newline : forall b init l, at_line b init l -> at_line (b ++ [newline]) (init ++ [l]) [].
Proof.
  intros b init l H. unfold at_line, lines. rewrite (lines_from_app b [] [newline] init l H). cbn.
  rewrite <- app_assoc. reflexivity.
Qed.
Lemma at_line_line : forall b init l, at_line b init l -> line_at b = length init + 1.
Proof. intros b init l H. unfold line_at. rewrite H, app_length. reflexivity. Qed.
Lemma at_line_column : forall b init l, at_line b init l -> column_at b = length l + 1.
Proof. intros b init l H. unfold column_at. rewrite H, last_last. reflexivity. Qed.

Lemma at_line_rest : forall b init l r, at_line b init l ->
  exists more, lines (b ++ r) = init ++ (l ++ firstn (span dot r) r) :: more.
Proof.
  intros b init l r H. unfold lines. rewrite (lines_from_app b [] r init l H).
  assert (G : exists more, lines_from l r = (l ++ firstn (span dot r) r) :: more).
  { pose proof (firstn_skipn (span dot r) r) as E.
    pose proof (proj2 (no_newline _) (span_firstn dot r)) as F.
    pose proof (span_skipn (fun c => c <> newline) dot r dot_iff) as N.
    revert E F N. generalize (firstn (span dot r) r) (skipn (span dot r) r). intros x u E F N. subst r.
    rewrite lines_from_plain by exact F. destruct u as [|c u]; [exists []; reflexivity|].
    assert (c = newline) as ->.
    { destruct (ascii_dec c newline) as [|K]; [assumption|]. exfalso. apply N. exists c, u. auto. }
    cbn. rewrite Ascii.eqb_refl. eexists. reflexivity. }
  destruct G as (more & ->). exists more. reflexivity.
Qed.

Lemma numbered_app : forall l n m, numbered n (l ++ m) = numbered n l ++ numbered (n + length l) m.
Proof.
  induction l as [|x l IH]; intros n m; cbn; [now rewrite Nat.add_0_r|].
  rewrite IH. do 2 f_equal. f_equal. lia.
Qed.
Lemma numbered_length : forall l n, length (numbered n l) = length l.
Proof. induction l as [|x l IH]; intros n; cbn; [|rewrite IH]; reflexivity. Qed.

(** * The place of a scanner in the text *)

Definition saved (t : text) (k : nat) : list (nat * text) := written_lines (firstn k (numbered 1 (lines t))).

Definition placed (before : text) (s : scanner) : Prop :=
  yylineno s = line_at before /\
  match YY_START s with
  | SAVELINE => column_at before = 1 /\ line_map s = saved (before ++ input s) (yylineno s - 1)
  | _ => yycolumn s = column_at before /\ line_map s = saved (before ++ input s) (yylineno s)
  end.

Lemma placed_init : forall t, placed [] (init_scanner t).
Proof. intros t. split; [reflexivity|]. cbn. split; reflexivity. Qed.

(** A match without newlines *)
Lemma placed_plain : forall b s x r f c st, placed b s -> YY_START s <> SAVELINE -> c <> SAVELINE ->
  input s = x ++ r -> ~ In newline x ->
  placed (b ++ x) (mk_scanner f c st (yylineno s) (yycolumn s + length x) (line_map s) r).
Proof.
  intros b s x r f c st [PL P] NS NC E N. destruct (at_line_exists b) as (init & l & H).
  pose proof (at_line_plain b init l x H N) as H'. split.
  - cbn. rewrite PL, (at_line_line _ _ _ H), (at_line_line _ _ _ H'). reflexivity.
  - cbn. assert (Q : yycolumn s = column_at b /\ line_map s = saved (b ++ input s) (yylineno s)).
    { destruct (YY_START s); [exact P | exact P | now elim NS]. }
    destruct Q as [Q1 Q2].
    assert (G : yycolumn s + length x = column_at (b ++ x) /\ line_map s = saved ((b ++ x) ++ r) (yylineno s)).
    { split.
      - rewrite Q1, (at_line_column _ _ _ H), (at_line_column _ _ _ H'), app_length. lia.
      - rewrite Q2, E, app_assoc. reflexivity. }
    destruct c; [exact G | exact G | now elim NC].
Qed.

(** A newline outside of SAVELINE *)
Lemma placed_newline : forall b s r f st n, placed b s -> YY_START s <> SAVELINE -> input s = newline :: r ->
  placed (b ++ [newline]) (mk_scanner f SAVELINE st (yylineno s + 1) n (line_map s) r).
Proof.
  intros b s r f st n [PL P] NS E. destruct (at_line_exists b) as (init & l & H).
  pose proof (at_line_newline b init l H) as H'. split.
  - cbn. rewrite PL, (at_line_line _ _ _ H), (at_line_line _ _ _ H'), app_length. cbn. lia.
  - cbn. assert (Q : yycolumn s = column_at b /\ line_map s = saved (b ++ input s) (yylineno s)).
    { destruct (YY_START s); [exact P | exact P | now elim NS]. }
    destruct Q as [_ Q]. split; [apply (at_line_column _ _ _ H')|].
    rewrite Q, E, <- app_assoc. replace (yylineno s + 1 - 1) with (yylineno s) by lia. reflexivity.
Qed.

(** A newline in SAVELINE *)
Lemma placed_save_newline : forall b s r st n, placed b s -> YY_START s = SAVELINE -> input s = newline :: r ->
  placed (b ++ [newline]) (mk_scanner (mode s) SAVELINE st (yylineno s + 1) n (line_map s) r).
Proof.
  intros b s r st n [PL P] S E. rewrite S in P. destruct P as [C Q]. destruct (at_line_exists b) as (init & l & H).
  pose proof (at_line_newline b init l H) as H'. split.
  - cbn. rewrite PL, (at_line_line _ _ _ H), (at_line_line _ _ _ H'), app_length. cbn. lia.
  - cbn. split; [apply (at_line_column _ _ _ H')|].
    assert (l = []) as -> by (rewrite (at_line_column _ _ _ H) in C; destruct l; [reflexivity | cbn in C; lia]).
    rewrite Q, E, <- app_assoc. cbn [app]. destruct (at_line_rest b init [] (newline :: r) H) as (more & LM).
    unfold saved. rewrite LM, PL, (at_line_line _ _ _ H).
    replace (length init + 1 - 1) with (length init) by lia. replace (length init + 1 + 1 - 1) with (length init + 1) by lia.
    rewrite numbered_app. cbn [numbered]. rewrite !firstn_app, !numbered_length, Nat.sub_diag.
    replace (length init + 1 - length init) with 1 by lia. cbn [firstn].
    rewrite (firstn_all2 (n := length init + 1)) by (rewrite numbered_length; lia).
    rewrite (firstn_all2 (n := length init)) by (rewrite numbered_length; lia). rewrite app_nil_r.
    unfold written_lines. rewrite filter_app. cbn. rewrite app_nil_r. reflexivity.
Qed.

(** A line is saved *)
Lemma placed_save_line : forall b s c st, placed b s -> YY_START s = SAVELINE -> c <> SAVELINE ->
  firstn (span dot (input s)) (input s) <> [] ->
  placed b (mk_scanner (mode s) c st (yylineno s) 1
    ((yylineno s, firstn (span dot (input s)) (input s)) :: line_map s) (input s)).
Proof.
  intros b s c st [PL P] S NC NE. rewrite S in P. destruct P as [C Q]. destruct (at_line_exists b) as (init & l & H).
  split; [exact PL|]. cbn.
  assert (l = []) as -> by (rewrite (at_line_column _ _ _ H) in C; destruct l; [reflexivity | cbn in C; lia]).
  assert (G : 1 = column_at b /\
    (yylineno s, firstn (span dot (input s)) (input s)) :: line_map s = saved (b ++ input s) (yylineno s)).
  { split; [now rewrite C|]. rewrite Q. destruct (at_line_rest b init [] (input s) H) as (more & LM).
    unfold saved. rewrite LM, PL, (at_line_line _ _ _ H). cbn [app].
    replace (length init + 1 - 1) with (length init) by lia.
    rewrite numbered_app. cbn [numbered]. rewrite !firstn_app, !numbered_length, Nat.sub_diag.
    replace (length init + 1 - length init) with 1 by lia. cbn [firstn].
    rewrite (firstn_all2 (n := length init + 1)) by (rewrite numbered_length; lia).
    rewrite (firstn_all2 (n := length init)) by (rewrite numbered_length; lia). rewrite app_nil_r.
    unfold written_lines. rewrite filter_app, rev_app_distr. cbn [filter snd].
    destruct (firstn (span dot (input s)) (input s)); [now elim NE|]. cbn [rev app]. f_equal. f_equal. lia. }
  destruct c; [exact G | exact G | now elim NC].
Qed.

(** At the end *)
Lemma placed_end : forall b s, placed b s -> input s = [] -> line_map s = written_lines (numbered 1 (lines b)).
Proof.
  intros b s [PL P] E. destruct (at_line_exists b) as (init & l & H).
  assert (L : length (numbered 1 (lines b)) = yylineno s) by (rewrite numbered_length; now rewrite PL).
  rewrite E, app_nil_r in P. destruct (YY_START s).
  - destruct P as [_ ->]. unfold saved. rewrite firstn_all2 by lia. reflexivity.
  - destruct P as [_ ->]. unfold saved. rewrite firstn_all2 by lia. reflexivity.
  - destruct P as [C ->]. assert (l = []) as -> by (rewrite (at_line_column _ _ _ H) in C; destruct l; [reflexivity | cbn in C; lia]).
    unfold saved. rewrite PL, (at_line_line _ _ _ H), H, numbered_app. cbn [numbered].
    replace (length init + 1 - 1) with (length init) by lia.
    rewrite firstn_app, numbered_length, Nat.sub_diag. cbn [firstn].
    rewrite firstn_all2 by (rewrite numbered_length; lia). rewrite app_nil_r.
    unfold written_lines. rewrite filter_app. cbn. rewrite app_nil_r. reflexivity.
Qed.
