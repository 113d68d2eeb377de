(** What the rules of the scanner match. *)

From Coq Require Import String.
From Coq Require Import List Ascii Bool Arith Lia.
From Verif Require Import Base.Outcome Front.LexerModel Front.ScannerModel Front.ScannerSpec.
Import ListNotations.
Local Open Scope string_scope.
Local Open Scope list_scope.

(** * Longest matches *)

Lemma matches_nullable : forall r, nullable r = true <-> matches r [].
Proof.
  induction r; cbn; split; intros H; try discriminate; try (inversion H; fail); try reflexivity.
  - constructor.
  - apply andb_true_iff in H. destruct H. change (@nil ascii) with (@nil ascii ++ []). constructor; tauto.
  - inversion H; subst. destruct t; [|discriminate]. cbn in *. subst. apply andb_true_iff. tauto.
  - apply orb_true_iff in H. destruct H; [apply match_left | apply match_right]; tauto.
  - apply orb_true_iff. inversion H; subst; tauto.
  - apply match_none.
Qed.

Lemma matches_cat : forall r s t, matches (cat r s) t <-> matches (Cat r s) t.
Proof.
  assert (N : forall t, ~ matches Nothing t) by (intros t H; inversion H).
  intros r s t. split; intros H.
  - destruct r; cbn in H; try (exfalso; exact (N _ H));
      try (destruct s; [exfalso; exact (N _ H) | exact H ..]).
    change t with ([] ++ t). constructor; [constructor | exact H].
  - inversion H as [| |? ? x y Hx Hy| | | |]; subst.
    destruct r; cbn; try (destruct s; [exfalso; exact (N _ Hy) | exact H ..]).
    + exfalso. exact (N _ Hx).
    + inversion Hx; subst. exact Hy.
Qed.

Lemma matches_alt : forall r s t, matches (alt r s) t <-> matches (Alt r s) t.
Proof.
  assert (N : forall t, ~ matches Nothing t) by (intros t H; inversion H).
  intros r s t. split; intros H.
  - destruct r; cbn in H; try (apply match_right; exact H);
      (destruct s; [apply match_left; exact H | exact H ..]).
  - inversion H; subst.
    + destruct r; cbn; try (exfalso; eapply N; eassumption); destruct s; assumption.
    + destruct r; cbn; try assumption; destruct s; try assumption; exfalso; eapply N; eassumption.
Qed.

Lemma inv_cat : forall r s t, matches (Cat r s) t -> exists a b, t = a ++ b /\ matches r a /\ matches s b.
Proof. intros r s t H. inversion H; subst. eauto. Qed.
Lemma inv_alt : forall r s t, matches (Alt r s) t -> matches r t \/ matches s t.
Proof. intros r s t H. inversion H; subst; auto. Qed.

Lemma matches_deriv : forall r c t, matches (deriv c r) t <-> matches r (c :: t).
Proof.
  induction r; intros c t; cbn.
  - split; intros H; inversion H.
  - split; intros H; inversion H.
  - destruct (p c) eqn:E; split; intros H; inversion H; subst; try constructor; congruence.
  - assert (D : matches (cat (deriv c r1) r2) t <->
                exists a b, t = a ++ b /\ matches r1 (c :: a) /\ matches r2 b).
    { rewrite matches_cat. split.
      - intros H. apply inv_cat in H. destruct H as (a & b & -> & A & B). exists a, b. rewrite <- IHr1. auto.
      - intros (a & b & -> & A & B). constructor; [now apply IHr1 | exact B]. }
    assert (W : matches (Cat r1 r2) (c :: t) <->
                (exists a b, t = a ++ b /\ matches r1 (c :: a) /\ matches r2 b) \/
                (matches r1 [] /\ matches r2 (c :: t))).
    { split.
      - intros H. apply inv_cat in H. destruct H as ([|x a] & b & E & A & B); cbn in E.
        + subst. auto.
        + injection E as -> ->. left. eauto.
      - intros [(a & b & -> & A & B)|[A B]].
        + change (c :: a ++ b) with ((c :: a) ++ b). now constructor.
        + change (c :: t) with ([] ++ c :: t). now constructor. }
    rewrite W. destruct (nullable r1) eqn:N.
    + apply matches_nullable in N. rewrite matches_alt. split.
      * intros H. apply inv_alt in H. rewrite D, IHr2 in H. tauto.
      * intros [H|H]; [apply match_left; now apply D | apply match_right; now apply IHr2].
    + rewrite D. split; [tauto|]. intros [H|[H _]]; [exact H|]. apply matches_nullable in H. congruence.
  - rewrite matches_alt. split; intros H; apply inv_alt in H; rewrite IHr1, IHr2 in * || idtac.
    + destruct H; [apply match_left | apply match_right]; assumption.
    + destruct H as [H|H]; [apply match_left; now apply IHr1 | apply match_right; now apply IHr2].
  - rewrite matches_cat. split; intros H.
    + apply inv_cat in H. destruct H as (a & b & -> & A & B). apply IHr in A.
      change (c :: a ++ b) with ((c :: a) ++ b). now constructor.
    + remember (Star r) as R eqn:ER. remember (c :: t) as x eqn:Ex. revert t Ex.
      induction H; intros t' Ex; try discriminate. injection ER as ->.
      destruct t as [|y t]; cbn in Ex.
      * apply IHmatches2; auto.
      * injection Ex as -> <-. constructor; [now apply IHr | assumption].
Qed.

(** [longest] is the longest prefix that matches. *)
Lemma longest_none : forall s r, longest r s = None <-> forall n, ~ matches r (firstn n s).
Proof.
  induction s as [|c s IH]; intros r; cbn.
  - destruct (nullable r) eqn:N; split; intros H; try discriminate; try reflexivity.
    + exfalso. apply (H 0). now apply matches_nullable.
    + intros n M. rewrite firstn_nil in M. apply matches_nullable in M. congruence.
  - destruct (longest (deriv c r) s) eqn:L.
    + split; intros H; [discriminate|]. exfalso.
      enough (longest (deriv c r) s = None) by congruence. apply IH. intros m M. apply matches_deriv in M.
      exact (H (S m) M).
    + pose proof (proj1 (IH _) L) as L1. destruct (nullable r) eqn:N; split; intros H; try discriminate; try reflexivity.
      * exfalso. apply (H 0). now apply matches_nullable.
      * intros [|n] M; [apply matches_nullable in M; cbn in M; congruence|].
        apply matches_deriv in M. exact (L1 n M).
Qed.

Lemma longest_some : forall s r n, longest r s = Some n <->
  n <= length s /\ matches r (firstn n s) /\ forall m, n < m <= length s -> ~ matches r (firstn m s).
Proof.
  induction s as [|c s IH]; intros r n; cbn.
  - destruct (nullable r) eqn:N; split.
    + intros [= <-]. cbn. split; [lia|]. split; [now apply matches_nullable | intros; lia].
    + intros (A & _). f_equal. lia.
    + discriminate.
    + intros (_ & M & _). rewrite firstn_nil in M. apply matches_nullable in M. congruence.
  - destruct (longest (deriv c r) s) as [k|] eqn:L.
    + apply IH in L. destruct L as (A & B & C). apply matches_deriv in B. split.
      * intros [= <-]. split; [lia|]. split; [exact B|]. intros [|m] Hm M; [lia|]. apply matches_deriv in M.
        apply (C m); [lia | exact M].
      * intros (A' & B' & C'). f_equal. destruct (Nat.lt_trichotomy (S k) n) as [K|[K|K]]; [|exact K|].
        -- destruct n; [lia|]. exfalso. apply (C n); [lia|]. apply matches_deriv. exact B'.
        -- exfalso. apply (C' (S k)); [lia | exact B].
    + assert (L' : forall m, ~ matches (deriv c r) (firstn m s)) by (now apply longest_none).
      destruct (nullable r) eqn:N; split.
      * intros [= <-]. split; [lia|]. split; [now apply matches_nullable|]. intros [|m] Hm M; [lia|].
        apply matches_deriv in M. exact (L' m M).
      * intros (_ & M & _). destruct n; [reflexivity|]. exfalso. apply matches_deriv in M. exact (L' n M).
      * discriminate.
      * intros (_ & M & _). exfalso. destruct n; [apply matches_nullable in M; cbn in M; congruence|].
        apply matches_deriv in M. exact (L' n M).
Qed.

Lemma best_none : forall rs s, best rs s = None <-> forall q m, In q rs -> m <= length s -> ~ matches (pattern q) (firstn m s).
Proof.
  induction rs as [|r rs IH]; intros s; cbn [best].
  - split; [intros _ q m [] | reflexivity].
  - destruct (longest (pattern r) s) as [n|] eqn:L.
    + split.
      * intros H. destruct (best rs s) as [[a m]|]; [destruct (m <=? n)%nat|]; discriminate.
      * intros H. apply longest_some in L. destruct L as (A & B & _). elim (H r n (or_introl eq_refl) A B).
    + rewrite IH. pose proof (proj1 (longest_none _ _) L) as N. split.
      * intros H q m [<-|I] M; [apply N | now apply H].
      * intros H q m I. apply H. now right.
Qed.

Lemma best_sound : forall rs s a n, best rs s = Some (a, n) ->
  exists before r after, rs = before ++ r :: after /\ a = act r /\ n <= length s /\ matches (pattern r) (firstn n s) /\
    (forall q m, In q rs -> n < m <= length s -> ~ matches (pattern q) (firstn m s)) /\
    (forall q, In q before -> ~ matches (pattern q) (firstn n s)).
Proof.
  induction rs as [|r rs IH]; intros s a n; cbn [best]; [discriminate|].
  destruct (longest (pattern r) s) as [k|] eqn:L.
  - apply longest_some in L. destruct L as (A & B & C).
    destruct (best rs s) as [[a' m]|] eqn:E.
    + destruct (Nat.leb_spec m k) as [M|M]; intros [= <- <-].
      * exists [], r, rs. split; [reflexivity|]. split; [reflexivity|]. split; [exact A|]. split; [exact B|]. split; [|intros q []].
        intros q x [<-|I] X; [now apply C|].
        destruct (IH s a' m E) as (_ & _ & _ & _ & _ & _ & _ & Z & _). apply (Z q x I). lia.
      * destruct (IH s a' m E) as (bf & r' & af & -> & -> & P & Q & Z & Y). exists (r :: bf), r', af.
        split; [reflexivity|]. split; [reflexivity|]. split; [exact P|]. split; [exact Q|]. split.
        -- intros q x [<-|I] X; [apply C; lia | now apply Z].
        -- intros q [<-|I]; [apply C; lia | now apply Y].
    + intros [= <- <-]. exists [], r, rs. split; [reflexivity|]. split; [reflexivity|]. split; [exact A|]. split; [exact B|].
      split; [|intros q []]. intros q x [<-|I] X; [now apply C|]. exact (proj1 (best_none _ _) E q x I (proj2 X)).
  - intros E. pose proof (proj1 (longest_none _ _) L) as N. destruct (IH s a n E) as (bf & r' & af & -> & -> & P & Q & Z & Y).
    exists (r :: bf), r', af. split; [reflexivity|]. split; [reflexivity|]. split; [exact P|]. split; [exact Q|]. split.
    + intros q x [<-|I] X; [apply N | now apply Z].
    + intros q [<-|I]; [apply N | now apply Y].
Qed.

Lemma best_iff : forall rs s a n, best rs s = Some (a, n) <->
  exists before r after, rs = before ++ r :: after /\ a = act r /\ n <= length s /\ matches (pattern r) (firstn n s) /\
    (forall q m, In q rs -> n < m <= length s -> ~ matches (pattern q) (firstn m s)) /\
    (forall q, In q before -> ~ matches (pattern q) (firstn n s)).
Proof.
  intros rs s a n. split; [apply best_sound|].
  intros (bf & r & af & E & -> & P & Q & Z & Y). destruct (best rs s) as [[a' n']|] eqn:B.
  - destruct (best_sound _ _ _ _ B) as (bf' & r' & af' & E' & -> & P' & Q' & Z' & Y').
    assert (N : n = n').
    { destruct (Nat.lt_trichotomy n n') as [H|[H|H]]; [|exact H|]; exfalso.
      - apply (Z r' n'); [rewrite E'; apply in_elt | lia | exact Q'].
      - apply (Z' r n); [rewrite E; apply in_elt | lia | exact Q]. }
    subst n'. assert (X : r = r'); [|now subst].
    rewrite E in E'. clear -E' Q Q' Y Y'. revert bf' E' Y'. induction bf as [|x bf IH]; intros [|y bf'] E' Y'; cbn in E'.
    + now injection E'.
    + injection E' as <- _. elim (Y' r (or_introl eq_refl) Q).
    + injection E' as -> _. elim (Y r' (or_introl eq_refl) Q').
    + injection E' as <- E'. apply (IH (fun q I => Y q (or_intror I)) bf' E'). intros q I. apply Y'. now right.
  - exfalso. exact (proj1 (best_none _ _) B r n ltac:(rewrite E; apply in_elt) P Q).
Qed.
