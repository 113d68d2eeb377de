(** The numbers that strtoul reads. *)

From Coq Require Import String.
From Coq Require Import List Ascii Bool NArith Lia.
From Verif Require Import Base.Outcome Palm.StrModel Gen.AccessModel Gen.TablesModel Gen.RunSpec Gen.CommandLineModel Gen.CommandLineSpec.
Import ListNotations.
Local Open Scope list_scope.

Lemma digit_iff : forall c d, digit c = Some d <-> is_digit c d.
Proof.
  intros c d. unfold digit, is_digit. destruct ((48 <=? N_of_ascii c) && (N_of_ascii c <=? 57))%N eqn:E.
  - apply andb_true_iff in E. destruct E as [A B]. apply N.leb_le in A. apply N.leb_le in B.
    split; [intros X; injection X as <-; lia|intros [X Y]; f_equal; lia].
  - apply andb_false_iff in E. split; [discriminate|intros [X Y]; exfalso]. destruct E as [E|E]; apply N.leb_gt in E; lia.
Qed.
Lemma is_space_iff : forall c, is_space c = true <-> space c.
Proof.
  intros c. unfold is_space, space. rewrite orb_true_iff, andb_true_iff, N.eqb_eq, !N.leb_le. cbn [In]. split.
  - intros H. lia.
  - intros H. lia.
Qed.

Definition digit_value (acc : N) (c : ascii) : N := (10 * acc + (N_of_ascii c - 48))%N.
Definition all_digits (ds : cstring) : Prop := Forall (fun c => exists d, is_digit c d) ds.

Lemma digits_app : forall ds rest acc, all_digits ds -> (forall c r d, rest = c :: r -> ~ is_digit c d) ->
  digits acc (ds ++ rest) = fold_left digit_value ds acc.
Proof.
  induction ds as [|c ds IH]; intros rest acc D R.
  - cbn. destruct rest as [|c r]; [reflexivity|]. cbn. destruct (digit c) as [d|] eqn:E; [|reflexivity]. apply digit_iff in E. destruct (R c r d eq_refl E).
  - inversion D as [|x y (d & Dc) Ds]. subst. cbn [app digits fold_left]. rewrite (proj2 (digit_iff c d) Dc), IH by assumption. f_equal.
    unfold digit_value. destruct Dc as [_ ->]. lia.
Qed.
Lemma digits_span : forall s, exists ds rest, s = ds ++ rest /\ all_digits ds /\ (forall c r d, rest = c :: r -> ~ is_digit c d).
Proof.
  induction s as [|c s (ds & rest & -> & D & R)]; [exists [], []; repeat split; [constructor|discriminate]|].
  destruct (digit c) as [d|] eqn:E.
  - exists (c :: ds), rest. split; [reflexivity|]. split; [|exact R]. constructor; [exists d; apply digit_iff; exact E|exact D].
  - exists [], (c :: ds ++ rest). split; [reflexivity|]. split; [constructor|]. intros c' r d X Y. injection X as <- _. apply digit_iff in Y. congruence.
Qed.
Lemma decimal_iff : forall ds m, decimal ds m <-> ds <> [] /\ all_digits ds /\ fold_left digit_value ds 0%N = m.
Proof.
  intros ds m. split.
  - induction 1 as [c d D|l n c d H (A & B & C) D].
    + split; [discriminate|]. split; [constructor; [exists d; exact D|constructor]|]. cbn [fold_left]. unfold digit_value. destruct D as [_ ->]. lia.
    + split; [intros E; apply app_eq_nil in E; destruct E as [_ E]; discriminate E|]. split; [apply Forall_app; split; [exact B|constructor; [exists d; exact D|constructor]]|].
      rewrite fold_left_app, C. cbn [fold_left]. unfold digit_value. destruct D as [_ ->]. lia.
  - revert m. induction ds as [|c ds IH] using rev_ind; intros m (A & B & C); [destruct (A eq_refl)|].
    apply Forall_app in B. destruct B as [B Bc]. inversion Bc as [|x y (d & D) _]. subst. rewrite fold_left_app. cbn [fold_left].
    assert (V : N_of_ascii c = (48 + d)%N) by apply D. destruct ds as [|c' ds].
    + cbn [app fold_left]. replace (digit_value 0 c) with d by (unfold digit_value; rewrite V; lia). constructor. exact D.
    + replace (digit_value (fold_left digit_value (c' :: ds) 0%N) c) with (10 * fold_left digit_value (c' :: ds) 0%N + d)%N by (unfold digit_value; rewrite V; lia).
      apply decimal_more; [apply IH; split; [discriminate|split; [exact B|reflexivity]]|exact D].
Qed.

Definition number_of (negative : bool) (m : N) : N :=
  (if 2 ^ 64 - 1 <? m then 2 ^ 64 - 1 else if negative then (2 ^ 64 - m) mod 2 ^ 64 else m)%N.

Lemma unsigned_iff : forall b s n, unsigned_number b s = Some n <->
  exists ds rest m, s = ds ++ rest /\ decimal ds m /\ (forall c r d, rest = c :: r -> ~ is_digit c d) /\ n = number_of b m.
Proof.
  intros b s n.
  assert (V : forall m, (if ulong_max <? m then Some ulong_max else Some (if b && (0 <? m) then ulong_max + 1 - m else m))%N = Some (number_of b m)).
  { intros m. unfold number_of. change (2 ^ 64 - 1)%N with ulong_max. destruct (N.ltb_spec ulong_max m) as [L|L]; [reflexivity|]. f_equal.
    destruct b; [|reflexivity]. cbn [andb]. change (2 ^ 64)%N with (ulong_max + 1)%N. destruct (N.ltb_spec 0 m) as [Lm|Lm].
    - rewrite N.mod_small; [reflexivity|lia].
    - replace m with 0%N by lia. reflexivity. }
  split.
  - intros H. destruct (digits_span s) as (ds & rest & -> & D & R). destruct ds as [|c ds].
    + exfalso. cbn in H. destruct rest as [|c r]; [discriminate H|]. cbn in H. destruct (digit c) as [d|] eqn:E; [|discriminate H]. apply digit_iff in E. exact (R c r d eq_refl E).
    + exists (c :: ds), rest, (fold_left digit_value (c :: ds) 0%N). split; [reflexivity|].
      split; [apply decimal_iff; split; [discriminate|auto]|]. split; [exact R|].
      cbn [app unsigned_number] in H. inversion D as [|x y (d & Dc) Ds]. subst. rewrite (proj2 (digit_iff c d) Dc) in H.
      change (c :: ds ++ rest) with ((c :: ds) ++ rest) in H. cbv zeta in H. rewrite (digits_app (c :: ds) rest 0%N D R), V in H. injection H as <-. reflexivity.
  - intros (ds & rest & m & -> & D & R & ->). apply decimal_iff in D. destruct D as (A & B & C). destruct ds as [|c ds]; [destruct (A eq_refl)|].
    inversion B as [|x y (d & Dc) Ds]. subst. cbn [app unsigned_number]. rewrite (proj2 (digit_iff c d) Dc).
    change (c :: ds ++ rest) with ((c :: ds) ++ rest). cbv zeta. rewrite (digits_app (c :: ds) rest 0%N B R). apply V.
Qed.

Lemma skip_space_app : forall sp s, Forall space sp -> (forall c r, s = c :: r -> ~ space c) -> skip_space (sp ++ s) = s.
Proof.
  induction sp as [|c sp IH]; intros s F H.
  - cbn. destruct s as [|c r]; [reflexivity|]. cbn. destruct (is_space c) eqn:E; [|reflexivity]. apply is_space_iff in E. destruct (H c r eq_refl E).
  - inversion F as [|x y Sc Ss]. subst. cbn. rewrite (proj2 (is_space_iff c) Sc). apply IH; assumption.
Qed.
Lemma skip_space_span : forall s, exists sp, s = sp ++ skip_space s /\ Forall space sp.
Proof.
  induction s as [|c s (sp & E & F)]; [exists []; split; [reflexivity|constructor]|]. cbn. destruct (is_space c) eqn:S.
  - exists (c :: sp). split; [cbn; rewrite <- E; reflexivity|constructor; [apply is_space_iff; exact S|exact F]].
  - exists []. split; [reflexivity|constructor].
Qed.

(** The sign *)
Lemma sign_cases : forall s n,
  match s with "-"%char :: s => unsigned_number true s | "+"%char :: s => unsigned_number false s | s => unsigned_number false s end = Some n <->
  exists sign s', s = sign ++ s' /\ In sign [[]; str "+"; str "-"] /\
    unsigned_number (if list_eq_dec ascii_dec sign (str "-") then true else false) s' = Some n.
Proof.
  intros s n. split.
  - intros H. destruct s as [|c s]; [discriminate H|]. destruct (ascii_dec c "-") as [->|A].
    + exists (str "-"), s. split; [reflexivity|]. split; [cbn; tauto|exact H].
    + destruct (ascii_dec c "+") as [->|B].
      * exists (str "+"), s. split; [reflexivity|]. split; [cbn; tauto|exact H].
      * exists [], (c :: s). split; [reflexivity|]. split; [cbn; tauto|]. cbn [list_eq_dec].
        destruct c as [[] [] [] [] [] [] [] []]; try exact H; [destruct B|destruct A]; reflexivity.
  - intros (sign & s' & -> & I & H). destruct I as [<-|[<-|[<-|[]]]]; [|exact H|exact H].
    cbn [app]. destruct s' as [|c s']; [discriminate H|]. destruct (ascii_dec c "-") as [->|A]; [discriminate H|].
    destruct (ascii_dec c "+") as [->|B]; [discriminate H|].
    destruct c as [[] [] [] [] [] [] [] []]; try exact H; [destruct B|destruct A]; reflexivity.
Qed.

Lemma strtoul_iff : forall v n, strtoul v = Some n <-> reads_number v n.
Proof.
  intros v n.
  assert (E : strtoul v = (fun s => match s with "-"%char :: s => unsigned_number true s | "+"%char :: s => unsigned_number false s
                                    | s => unsigned_number false s end) (skip_space v)).
  { unfold strtoul. destruct (skip_space v) as [|c s]; [reflexivity|]. destruct c as [[] [] [] [] [] [] [] []]; reflexivity. }
  rewrite E. clear E. rewrite sign_cases. split.
  - intros (sign & s' & E & I & U). apply unsigned_iff in U. destruct U as (ds & rest & m & -> & D & R & ->).
    destruct (skip_space_span v) as (sp & Ev & F). exists sp, sign, ds, rest, m. rewrite <- E. repeat split; try assumption.
    unfold number_of. destruct (list_eq_dec ascii_dec sign (str "-")); reflexivity.
  - intros (sp & sign & ds & rest & m & -> & F & I & D & R & ->). exists sign, (ds ++ rest). split; [|split; [exact I|]].
    + apply skip_space_app; [exact F|]. intros c r E Sc. destruct I as [<-|[<-|[<-|[]]]].
      * apply decimal_iff in D. destruct D as (A & B & _). destruct ds as [|c' ds]; [destruct (A eq_refl)|]. injection E as -> _.
        inversion B as [|x y (d & Dc) _]. subst. unfold space in Sc. destruct Dc as [_ V]. rewrite V in Sc. cbn [In] in Sc. lia.
      * injection E as <- _. cbn in Sc. unfold space in Sc. cbn in Sc. intuition discriminate.
      * injection E as <- _. cbn in Sc. unfold space in Sc. cbn in Sc. intuition discriminate.
    + apply unsigned_iff. exists ds, rest, m. repeat split; try assumption. unfold number_of. destruct (list_eq_dec ascii_dec sign (str "-")); reflexivity.
Qed.
