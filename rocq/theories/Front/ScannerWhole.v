(** Whole files. *)

From Coq Require Import String.
From Coq Require Import List Ascii Bool Arith Lia.
From Verif Require Import Base.Outcome Front.LexerModel Front.ScannerModel Front.ScannerSpec Front.ScannerNext.
From Verif Require Import Front.ScannerText Front.ScannerPlace Front.ScannerProof Front.ScannerRuns Front.ScannerUnique.
Import ListNotations.
Local Open Scope outcome_scope.
Local Open Scope string_scope.
Local Open Scope list_scope.

Lemma at_top_init : forall t, at_top (init_scanner t).
Proof. intros t. right. split; [reflexivity|]. exists []. reflexivity. Qed.

Lemma measure_init : forall t, measure (init_scanner t) <= 2 * length t + 2.
Proof. intros t. unfold measure. cbn [init_scanner input YY_START]. lia. Qed.

Lemma stray_start : forall t, stray t -> exists c u, t = c :: u /\ c <> newline.
Proof.
  intros [|c u] (N & _ & S); [now elim N|]. exists c, u. split; [reflexivity|]. intros ->. exact (S Newline u I eq_refl).
Qed.

(** What happens at the end of a layout *)
Lemma run_tail : forall s tail, at_top s -> input s = tail -> tail = [] \/ open_comment tail ->
  exists s1, goes s [] s1 /\ input s1 = [] /\ mode s1 = mode s /\
    (tail <> [] -> in_comment s1) /\ (forall b, placed b s -> placed (b ++ tail) s1).
Proof.
  intros s tail T E [->|(u & -> & N)].
  - exists s. split; [apply goes_refl|]. split; [exact E|]. split; [reflexivity|]. split; [congruence|].
    intros b P. now rewrite app_nil_r.
  - destruct (enter s "/" ("*"%char :: u) T E) as (s0 & A0 & B0 & C0 & D0 & F0); [discriminate|]. rewrite E in C0.
    pose proof (step_comment_start s0 u B0 C0) as ST.
    assert (NX : ~ In newline (txt "/*")) by (cbn; intros [|[|[]]]; discriminate).
    assert (G : goes s0 [] (advance (txt "/*") (mode s0) COMMENT (INITIAL :: yy_stack s0) s0 u)).
    { apply (goes_step s0 None); [rewrite C0; discriminate | exact ST|].
      unfold measure, advance. cbn [input YY_START]. rewrite B0, C0. rewrite !app_length. cbn [length txt list_ascii_of_string]. lia. }
    destruct (comment_open u (advance (txt "/*") (mode s0) COMMENT (INITIAL :: yy_stack s0) s0 u))
      as (s2 & A2 & B2 & C2 & D2 & F2); [left; reflexivity | reflexivity | exact N|].
    exists s2. split; [exact (goes_trans _ [] _ [] _ A0 (goes_trans _ [] _ [] _ G A2))|]. split; [exact C2|].
    split; [rewrite D2; exact D0|]. split; [intros _; exact B2|].
    intros b P. rewrite app_assoc. apply F2. unfold advance. rewrite newlines_none by exact NX. rewrite Nat.add_0_r.
    apply placed_plain; auto; congruence.
Qed.

Lemma scan_layout : forall ps tail, laid_before ps tail -> tail = [] \/ open_comment tail ->
  match lex init_flags (lexemes_of ps) with
  | Val (f, toks) =>
      exists ts s, scan (text_of ps ++ tail) = Val (ts, s) /\ map the_token ts = toks /\ input s = [] /\ mode s = f /\
        (Forall one_line (lexemes_of ps) ->
           map place ts = map place_of (occurrences [] ps) /\
           line_map s = written_lines (numbered 1 (lines (text_of ps ++ tail))))
  | Exited => scan (text_of ps ++ tail) = Exited
  | _ => False
  end.
Proof.
  intros ps tail L T. pose proof (layout_runs ps (init_scanner (text_of ps ++ tail)) tail (at_top_init _) eq_refl L) as R.
  cbn [init_scanner mode] in R. destruct (lex init_flags (lexemes_of ps)) as [[f toks]| | | |]; try exact R.
  - destruct R as (ts & s1 & A & B & C & D & E & F).
    destruct (run_tail s1 tail B C T) as (s2 & A2 & B2 & C2 & _ & F2).
    exists ts, s2. split; [|split; [exact E|split; [exact B2|split; [congruence|]]]].
    + unfold scan. apply goes_end; [|exact B2 | apply measure_init].
      rewrite <- (app_nil_r ts). exact (goes_trans _ _ _ _ _ A A2).
    + intros O. destruct (F [] (placed_init _) O) as [F3 F4]. split; [exact F4|].
      apply placed_end; [|exact B2]. apply F2. exact F3.
  - destruct R as (ts & s1 & A & B & C). unfold scan. eapply goes_exit; try eassumption. apply measure_init.
Qed.

Lemma scan_stray : forall ps tail, laid_before ps tail -> stray tail -> scan (text_of ps ++ tail) = Exited.
Proof.
  intros ps tail L S. pose proof (layout_runs ps (init_scanner (text_of ps ++ tail)) tail (at_top_init _) eq_refl L) as R.
  cbn [init_scanner mode] in R. destruct (lex init_flags (lexemes_of ps)) as [[f toks]| | | |]; try now elim R.
  - destruct R as (ts & s1 & A & B & C & _). destruct (stray_start tail S) as (c & u & E & N).
    rewrite E in C. destruct (enter s1 c u B C N) as (s2 & A2 & B2 & C2 & _). rewrite C, <- E in C2.
    unfold scan. eapply (goes_exit _ ts s2).
    + rewrite <- (app_nil_r ts). exact (goes_trans _ _ _ _ _ A A2).
    + rewrite C2, E. discriminate.
    + apply step_stray; [exact B2 | rewrite C2; exact S].
    + apply measure_init.
  - destruct R as (ts & s1 & A & B & C). unfold scan. eapply goes_exit; try eassumption. apply measure_init.
Qed.

Lemma laid_before_nil : forall ps, laid_before ps [] <-> laid_out ps.
Proof. induction ps as [|p ps IH]; cbn; [tauto|]. rewrite app_nil_r, IH. tauto. Qed.
