(** The rule that is taken in the condition INITIAL, as a function of the text. *)

From Coq Require Import String.
From Coq Require Import List Ascii Bool Arith Lia.
From Verif Require Import Base.Outcome Front.LexerModel Front.ScannerModel Front.ScannerSpec.
Import ListNotations.
Local Open Scope string_scope.
Local Open Scope list_scope.
Local Arguments Ascii.eqb : simpl never.
Local Arguments digit : simpl never.
Local Arguments letter : simpl never.
Local Arguments dot : simpl never.
Local Arguments word_char : simpl never.

(** * Choosing between rules *)

Definition better (x y : option (action * nat)) : option (action * nat) :=
  match x, y with
  | Some (a, n), Some (b, m) => if (m <=? n)%nat then Some (a, n) else Some (b, m)
  | Some v, None => Some v
  | None, y => y
  end.
Definition one_rule (r : rule) (s : text) : option (action * nat) :=
  option_map (pair (act r)) (longest (pattern r) s).

Lemma best_cons : forall r rs s, best (r :: rs) s = better (one_rule r s) (best rs s).
Proof. intros r rs s. unfold one_rule. cbn. destruct (longest (pattern r) s), (best rs s) as [[]|]; reflexivity. Qed.

Lemma better_assoc : forall x y z, better x (better y z) = better (better x y) z.
Proof.
  intros [[a n]|] [[b m]|] [[c k]|]; cbn; try reflexivity;
    repeat (match goal with |- context [(?u <=? ?v)%nat] => destruct (Nat.leb_spec u v) end; cbn);
    try reflexivity; lia.
Qed.

Lemma best_app : forall l1 l2 s, best (l1 ++ l2) s = better (best l1 s) (best l2 s).
Proof.
  induction l1 as [|r l1 IH]; intros l2 s; [reflexivity|].
  cbn [app]. rewrite !best_cons, IH. apply better_assoc.
Qed.

Lemma better_none : forall x, better x None = x.
Proof. intros [[]|]; reflexivity. Qed.

(** * Simple expressions *)

Lemma longest_nothing : forall s, longest Nothing s = None.
Proof. induction s as [|c s IH]; cbn; [|rewrite IH]; reflexivity. Qed.
Lemma longest_empty : forall s, longest Empty s = Some 0.
Proof. destruct s as [|c s]; cbn; [|rewrite longest_nothing]; reflexivity. Qed.

Lemma longest_chr : forall p c s, longest (Chr p) (c :: s) = if p c then Some 1 else None.
Proof. intros p c s. cbn. destruct (p c); [rewrite longest_empty | rewrite longest_nothing]; reflexivity. Qed.

Fixpoint span (p : ascii -> bool) (s : text) : nat :=
  match s with [] => 0 | c :: s => if p c then S (span p s) else 0 end.

Lemma longest_star : forall p s, longest (Star (Chr p)) s = Some (span p s).
Proof.
  induction s as [|c s IH]; [reflexivity|].
  cbn. destruct (p c); cbn; [rewrite IH; reflexivity | rewrite longest_nothing; reflexivity].
Qed.

Fixpoint prefixb (k s : text) : bool :=
  match k, s with
  | [], _ => true
  | c :: k, d :: s => Ascii.eqb c d && prefixb k s
  | _ :: _, [] => false
  end.

Lemma longest_literal : forall k s, longest (literal k) s = if prefixb k s then Some (length k) else None.
Proof.
  induction k as [|c k IH]; intros s; [apply longest_empty|].
  destruct s as [|d s]; [reflexivity|].
  cbn. destruct (Ascii.eqb c d); cbn; [rewrite IH; destruct (prefixb k s); reflexivity|].
  rewrite longest_nothing. reflexivity.
Qed.

(** * Rules for one text *)

Definition lit_rule (k : text * action) : rule := mk_rule (literal (fst k)) (snd k).
Definition literals : list (text * action) := Eval vm_compute in
  map (fun p => (txt (fst p), snd p))
   ([("/*", push COMMENT); ("(", character "("); (")", character ")"); ("[", character "["); ("]", character "]");
     ("{", open_brace); ("}", close_brace); (",", character ","); ("=", character "="); (";", character ";");
     ("!", character "!"); ("|", character "|"); ("&", character "&"); ("-", character "-"); (".", character ".")]
    ++ map (fun k => (fst k, if String.eqb (fst k) "enum" then keyword_enum
                             else if String.eqb (fst k) "values" then keyword_values
                             else keyword (snd k))) keywords
    ++ [("->", keyword "T_ARROW"); ("NULL", null)]).
Lemma literal_rules_eq : literal_rules = map lit_rule literals.
Proof. reflexivity. Qed.

Lemma one_lit : forall k s, one_rule (lit_rule k) s = if prefixb (fst k) s then Some (snd k, length (fst k)) else None.
Proof. intros k s. unfold one_rule, lit_rule. cbn. rewrite longest_literal. destruct (prefixb (fst k) s); reflexivity. Qed.

Definition head_in (p : ascii -> bool) (k : text * action) : bool :=
  match fst k with [] => true | c :: _ => p c end.

Lemma lits_none : forall p L c s, p c = true -> forallb (fun k => negb (head_in p k)) L = true ->
  best (map lit_rule L) (c :: s) = None.
Proof.
  intros p L c s P. induction L as [|k L IH]; intros F; [reflexivity|].
  cbn [map]. rewrite best_cons, one_lit. cbn [forallb] in F. apply andb_true_iff in F. destruct F as [F G].
  rewrite (IH G). unfold head_in in F. destruct (fst k) as [|d x]; [discriminate|]. cbn.
  destruct (Ascii.eqb_spec d c) as [->|N]; [rewrite P in F; discriminate | reflexivity].
Qed.

Lemma lits_filter : forall L c s,
  best (map lit_rule L) (c :: s) = best (map lit_rule (filter (head_in (fun d => Ascii.eqb d c)) L)) (c :: s).
Proof.
  intros L c s. induction L as [|k L IH]; [reflexivity|].
  cbn [map filter]. rewrite best_cons, IH. destruct (head_in (fun d => Ascii.eqb d c) k) eqn:H.
  - cbn [map]. rewrite best_cons. reflexivity.
  - rewrite one_lit. unfold head_in in H. destruct (fst k) as [|d x]; [discriminate|]. cbn [prefixb]. rewrite H. reflexivity.
Qed.

Fixpoint lookup (w : text) (L : list (text * action)) : option action :=
  match L with
  | [] => None
  | (k, a) :: L => if list_eq_dec ascii_dec k w then Some a else lookup w L
  end.

Lemma prefixb_eq : forall k s, prefixb k s = true <-> firstn (length k) s = k /\ length k <= length s.
Proof.
  induction k as [|c k IH]; intros [|d s]; cbn [prefixb length firstn]; try (split; [tauto || discriminate | intros [? ?]; auto]).
  - split; auto with arith.
  - split; auto with arith.
  - intros. lia.
  - rewrite andb_true_iff, IH, Ascii.eqb_eq. split.
    + intros [-> [-> H]]. split; [reflexivity | lia].
    + intros [[= -> ->] H]. repeat split. lia.
Qed.

Lemma span_le : forall p s, span p s <= length s.
Proof. induction s as [|c s IH]; cbn; [|destruct (p c)]; lia. Qed.

Lemma span_all : forall p k s, prefixb k s = true -> forallb p k = true -> length k <= span p s.
Proof.
  induction k as [|c k IH]; intros [|d s] H F; cbn in *; try lia; try discriminate.
  apply andb_true_iff in H, F. destruct H as [H1 H2], F as [F1 F2]. apply Ascii.eqb_eq in H1. subst d. rewrite F1.
  specialize (IH s H2 F2). lia.
Qed.

(** Words of the list are whole words. *)
Lemma lits_word : forall L c s, letter c = true ->
  Forall (fun k => head_in letter k = true -> forallb word_char (fst k) = true /\ fst k <> []) L ->
  let n := S (span word_char s) in
  match lookup (firstn n (c :: s)) L with
  | Some a => best (map lit_rule L) (c :: s) = Some (a, n)
  | None => forall a m, best (map lit_rule L) (c :: s) = Some (a, m) -> m < n
  end /\ forall a m, best (map lit_rule L) (c :: s) = Some (a, m) -> m <= n.
Proof.
  intros L c s HL F n. induction F as [|[k a] L HF F IH]; [split; cbn; discriminate|].
  cbn [map]. rewrite best_cons, one_lit. cbn [fst snd].
  assert (W : word_char c = true) by (unfold word_char; rewrite HL; reflexivity).
  assert (K : prefixb k (c :: s) = true -> length k <= n).
  { intros P. destruct k as [|d k]; [cbn; lia|].
    assert (d = c) by (cbn in P; apply andb_true_iff in P; destruct P as [P _]; now apply Ascii.eqb_eq in P). subst d.
    destruct (HF HL) as [A _]. pose proof (span_all word_char _ _ P A) as Q. cbn [fst span] in Q. rewrite W in Q. exact Q. }
  destruct IH as [IH1 IH2]. unfold lookup at 1. fold (lookup (firstn n (c :: s)) L).
  destruct (list_eq_dec ascii_dec k (firstn n (c :: s))) as [E|N].
  - assert (LK : length k = n).
    { rewrite E. rewrite firstn_length. cbn [length]. pose proof (span_le word_char s). unfold n. lia. }
    assert (P : prefixb k (c :: s) = true).
    { apply prefixb_eq. rewrite LK. split; [congruence|]. cbn. pose proof (span_le word_char s). unfold n. lia. }
    rewrite P, LK. destruct (best (map lit_rule L) (c :: s)) as [[b m]|]; cbn.
    + specialize (IH2 b m eq_refl). destruct (Nat.leb_spec m n); [|lia]. split; [reflexivity|]. intros ? ? [= <- <-]. lia.
    + split; [reflexivity|]. intros ? ? [= <- <-]. lia.
  - destruct (prefixb k (c :: s)) eqn:P.
    + specialize (K eq_refl). assert (LT : length k < n).
      { destruct (Nat.eq_dec (length k) n) as [E|]; [|lia]. exfalso. apply prefixb_eq in P. rewrite E in P. destruct P. congruence. }
      destruct (lookup (firstn n (c :: s)) L).
      * rewrite IH1. cbn [better]. destruct (Nat.leb_spec n (length k)); [lia|]. split; [reflexivity|]. intros ? ? [= <- <-]. lia.
      * destruct (best (map lit_rule L) (c :: s)) as [[b m]|] eqn:B; cbn [better].
        -- specialize (IH1 b m eq_refl). split; intros b' m'; destruct (Nat.leb_spec m (length k)); intros [= <- <-]; lia.
        -- split; intros b' m' [= <- <-]; lia.
    + cbn [better]. auto.
Qed.

(** * The other rules *)

(** Which characters are different. *)
Lemma letter_class : forall c, letter c = true ->
  digit c = false /\ white c = false /\ Ascii.eqb "-" c = false /\ Ascii.eqb "/" c = false /\
  Ascii.eqb quote c = false /\ Ascii.eqb newline c = false.
Proof. intros [[] [] [] [] [] [] [] []]; vm_compute; intros H; try discriminate H; auto 10. Qed.
Lemma digit_class : forall c, digit c = true ->
  letter c = false /\ white c = false /\ Ascii.eqb "-" c = false /\ Ascii.eqb "/" c = false /\
  Ascii.eqb quote c = false /\ Ascii.eqb newline c = false /\ Ascii.eqb "." c = false.
Proof. intros [[] [] [] [] [] [] [] []]; vm_compute; intros H; try discriminate H; auto 10. Qed.

Definition fraction_length (s : text) : option nat :=
  let k := span digit s in
  match skipn k s with
  | c :: d :: t => if Ascii.eqb "." c && digit d then Some (k + 2 + span digit t) else None
  | _ => None
  end.

Lemma longest_digits : forall c s, longest (plus (Chr digit)) (c :: s) = if digit c then Some (S (span digit s)) else None.
Proof.
  intros c s. cbn. destruct (digit c); cbn; [rewrite longest_star | rewrite longest_nothing]; reflexivity.
Qed.

Lemma longest_fraction : forall s,
  longest (Cat (Star (Chr digit)) (Cat (one ".") (plus (Chr digit)))) s = fraction_length s.
Proof.
  induction s as [|c s IH]; [reflexivity|].
  unfold fraction_length. cbn [span]. destruct (digit c) eqn:D.
  - destruct (digit_class c D) as (_ & _ & _ & _ & _ & _ & N).
    assert (Q : deriv c (Cat (Star (Chr digit)) (Cat (one ".") (plus (Chr digit)))) =
                Cat (Star (Chr digit)) (Cat (one ".") (plus (Chr digit)))).
    { cbn. rewrite D, N. reflexivity. }
    cbn [longest]. rewrite Q, IH. unfold fraction_length. cbn [skipn].
    destruct (skipn (span digit s) s) as [|x [|y t]]; try reflexivity.
    destruct (Ascii.eqb "." x && digit y); reflexivity.
  - cbn [skipn].
    assert (Q : deriv c (Cat (Star (Chr digit)) (Cat (one ".") (plus (Chr digit)))) =
                if Ascii.eqb "." c then plus (Chr digit) else Nothing).
    { cbn. rewrite D. destruct (Ascii.eqb "." c); reflexivity. }
    cbn [longest]. rewrite Q. destruct (Ascii.eqb "." c); [|rewrite longest_nothing; destruct s; reflexivity].
    destruct s as [|d t]; [reflexivity|]. rewrite longest_digits. destruct (digit d); reflexivity.
Qed.

Lemma longest_float : forall c s,
  longest float_re (c :: s) =
  if digit c then option_map S (fraction_length s)
  else if Ascii.eqb "-" c then
    match s with
    | d :: t => if digit d then option_map (fun n => S (S n)) (fraction_length t) else None
    | [] => None
    end
  else None.
Proof.
  intros c s.
  assert (Q : forall c, deriv c (Cat (plus (Chr digit)) (Cat (one ".") (plus (Chr digit)))) =
              if digit c then Cat (Star (Chr digit)) (Cat (one ".") (plus (Chr digit))) else Nothing).
  { intros d. cbn. destruct (digit d); reflexivity. }
  assert (P : deriv c float_re =
    if digit c then Cat (Star (Chr digit)) (Cat (one ".") (plus (Chr digit)))
    else if Ascii.eqb "-" c then Cat (plus (Chr digit)) (Cat (one ".") (plus (Chr digit))) else Nothing).
  { destruct (digit c) eqn:D.
    - destruct (digit_class c D) as (_ & _ & N & _). cbn. rewrite D, N. reflexivity.
    - cbn. rewrite D. destruct (Ascii.eqb "-" c); reflexivity. }
  cbn [longest]. rewrite P. destruct (digit c).
  - rewrite longest_fraction. destruct (fraction_length s); reflexivity.
  - destruct (Ascii.eqb "-" c); [|rewrite longest_nothing; reflexivity].
    destruct s as [|d t]; [reflexivity|]. cbn [longest]. rewrite Q. destruct (digit d).
    + rewrite longest_fraction. destruct (fraction_length t); reflexivity.
    + rewrite longest_nothing. reflexivity.
Qed.

Lemma longest_int : forall c s,
  longest int_re (c :: s) =
  if Ascii.eqb "-" c then
    match s with d :: t => if digit d then Some (S (S (span digit t))) else None | [] => None end
  else None.
Proof.
  intros c s. assert (P : deriv c int_re = if Ascii.eqb "-" c then plus (Chr digit) else Nothing).
  { cbn. destruct (Ascii.eqb "-" c); reflexivity. }
  cbn [longest]. rewrite P. destruct (Ascii.eqb "-" c); [|rewrite longest_nothing; reflexivity].
  destruct s as [|d t]; [reflexivity|]. rewrite longest_digits. destruct (digit d); reflexivity.
Qed.

Lemma longest_identifier : forall c s,
  longest identifier_re (c :: s) = if letter c then Some (S (span word_char s)) else None.
Proof.
  intros c s. assert (P : deriv c identifier_re = if letter c then Star (Chr word_char) else Nothing).
  { cbn. destruct (letter c); reflexivity. }
  cbn [longest]. rewrite P. destruct (letter c); [rewrite longest_star | rewrite longest_nothing]; reflexivity.
Qed.

Lemma longest_comment : forall c s,
  longest (pattern line_comment_rule) (c :: s) =
  if Ascii.eqb "/" c then
    match s with d :: t => if Ascii.eqb "/" d then Some (S (S (span dot t))) else None | [] => None end
  else None.
Proof.
  intros c s. assert (P : deriv c (pattern line_comment_rule) =
    if Ascii.eqb "/" c then Cat (one "/") (Star (Chr dot)) else Nothing).
  { cbn. destruct (Ascii.eqb "/" c); reflexivity. }
  cbn [longest]. rewrite P. destruct (Ascii.eqb "/" c); [|rewrite longest_nothing; reflexivity].
  destruct s as [|d t]; [reflexivity|].
  assert (Q : deriv d (Cat (one "/") (Star (Chr dot))) = if Ascii.eqb "/" d then Star (Chr dot) else Nothing).
  { cbn. destruct (Ascii.eqb "/" d); reflexivity. }
  cbn [longest]. rewrite Q. destruct (Ascii.eqb "/" d); [rewrite longest_star | rewrite longest_nothing]; reflexivity.
Qed.

(** The length of the rest of a string after its opening quote. *)
Fixpoint close (s : text) : option nat :=
  match s with
  | [] => None
  | c :: s =>
      if Ascii.eqb quote c then Some 1
      else if Ascii.eqb backslash c then
        match s with
        | [] => None
        | d :: s => if dot d then option_map (fun n => S (S n)) (close s) else None
        end
      else option_map S (close s)
  end.

Definition body_re : regex := Star (Alt (Cat (one backslash) (Chr dot)) (Chr string_char)).
Lemma longest_body : forall n s, length s <= n -> longest (Cat body_re (one quote)) s = close s.
Proof.
  induction n as [|n IH]; intros [|c s] L; try reflexivity; cbn [length] in L; [lia|].
  cbn [close]. destruct (Ascii.eqb_spec quote c) as [<-|N1].
  - assert (P : deriv quote (Cat body_re (one quote)) = Empty) by reflexivity.
    cbn [longest]. rewrite P, longest_empty. reflexivity.
  - destruct (Ascii.eqb_spec backslash c) as [<-|N2].
    + assert (P : deriv backslash (Cat body_re (one quote)) = Cat (Cat (Chr dot) body_re) (one quote)) by reflexivity.
      cbn [longest]. rewrite P. destruct s as [|d s]; [reflexivity|]. cbn [length] in L.
      assert (Q : deriv d (Cat (Cat (Chr dot) body_re) (one quote)) = if dot d then Cat body_re (one quote) else Nothing).
      { cbn. destruct (dot d); reflexivity. }
      cbn [longest]. rewrite Q. destruct (dot d); [|rewrite longest_nothing; reflexivity].
      rewrite IH by lia. destruct (close s); reflexivity.
    + assert (P : deriv c (Cat body_re (one quote)) = Cat body_re (one quote)).
      { unfold body_re, one. cbn [deriv nullable andb orb].
        assert (E1 : Ascii.eqb backslash c = false) by (now apply Ascii.eqb_neq).
        assert (E2 : Ascii.eqb quote c = false) by (now apply Ascii.eqb_neq).
        unfold string_char at 1. rewrite E1, E2. reflexivity. }
      cbn [longest]. rewrite P, IH by lia. destruct (close s); reflexivity.
Qed.

Lemma longest_string : forall c s,
  longest string_re (c :: s) = if Ascii.eqb quote c then option_map S (close s) else None.
Proof.
  intros c s. assert (P : deriv c string_re = if Ascii.eqb quote c then Cat body_re (one quote) else Nothing).
  { unfold string_re. cbn [deriv nullable one]. destruct (Ascii.eqb quote c); reflexivity. }
  cbn [longest]. rewrite P. destruct (Ascii.eqb quote c); [|rewrite longest_nothing; reflexivity].
  rewrite (longest_body (length s)) by lia. destruct (close s); reflexivity.
Qed.

(** * The choice *)

Definition next (c : ascii) (s : text) : action * nat :=
  if letter c then
    let n := S (span word_char s) in
    (match lookup (firstn n (c :: s)) literals with Some a => a | None => identifier end, n)
  else if digit c then
    match fraction_length s with Some n => (floatval, S n) | None => (uintval, S (span digit s)) end
  else if Ascii.eqb "-" c then
    match s with
    | d :: t =>
        if Ascii.eqb ">" d then (keyword "T_ARROW", 2)
        else if digit d then
          match fraction_length t with
          | Some n => (floatval, S (S n))
          | None => (intval, S (S (span digit t)))
          end
        else (character "-", 1)
    | [] => (character "-", 1)
    end
  else if Ascii.eqb quote c then
    match close s with Some n => (stringval, S n) | None => (unexpected, 1) end
  else if Ascii.eqb "/" c then
    match s with
    | d :: t =>
        if Ascii.eqb "/" d then (skip, S (S (span dot t)))
        else if Ascii.eqb "*" d then (push COMMENT, 2)
        else (unexpected, 1)
    | [] => (unexpected, 1)
    end
  else if white c then (skip, 1)
  else if Ascii.eqb newline c then (push SAVELINE, 1)
  else (match lookup [c] literals with Some a => a | None => unexpected end, 1).

Lemma fraction_more : forall s n, fraction_length s = Some n -> span digit s < n.
Proof.
  unfold fraction_length. intros s n. destruct (skipn (span digit s) s) as [|x [|y t]]; try discriminate.
  destruct (Ascii.eqb "." x && digit y); [|discriminate]. intros [= <-]. lia.
Qed.

Definition special (c : ascii) : bool :=
  letter c || digit c || Ascii.eqb "-" c || Ascii.eqb quote c || Ascii.eqb "/" c || white c || Ascii.eqb newline c.

Lemma lits_single : forall L c s, special c = false ->
  Forall (fun k => head_in special k = false -> length (fst k) = 1) L ->
  Forall (fun k => fst k <> []) L ->
  best (map lit_rule L) (c :: s) = option_map (fun a => (a, 1)) (lookup [c] L).
Proof.
  intros L c s SC F G. induction F as [|[k a] L HF F IH]; [reflexivity|]. inversion G as [|? ? NE G']; subst.
  cbn [map]. rewrite best_cons, one_lit, (IH G'). cbn [fst snd lookup].
  destruct (list_eq_dec ascii_dec k [c]) as [->|N].
  - cbn [prefixb]. rewrite Ascii.eqb_refl. cbn. destruct (lookup [c] L); reflexivity.
  - destruct k as [|d k]; [now elim NE|]. cbn [prefixb]. destruct (Ascii.eqb_spec d c) as [->|M]; [|reflexivity].
    assert (length (c :: k) = 1) as Len by (apply HF; exact SC). destruct k; [|discriminate]. now elim N.
Qed.

Lemma patterns_spec : forall c s, best pattern_rules (c :: s) =
  better (option_map (pair identifier) (if letter c then Some (S (span word_char s)) else None))
  (better (option_map (pair floatval) (longest float_re (c :: s)))
  (better (option_map (pair intval) (longest int_re (c :: s)))
  (better (option_map (pair uintval) (if digit c then Some (S (span digit s)) else None))
  (better (option_map (pair stringval) (if Ascii.eqb quote c then option_map S (close s) else None))
  (better (if white c then Some (skip, 1) else None)
  (better (if Ascii.eqb newline c then Some (push SAVELINE, 1) else None)
          (if dot c then Some (unexpected, 1) else None))))))).
Proof.
  intros c s. unfold pattern_rules. rewrite !best_cons. unfold one_rule. cbn [pattern act].
  rewrite longest_identifier. unfold uint_re. rewrite longest_digits, longest_string, !longest_chr.
  unfold one. rewrite longest_chr. cbn [best]. rewrite better_none.
  destruct (white c), (Ascii.eqb newline c), (dot c); reflexivity.
Qed.

Lemma dot_newline : forall c, dot c = negb (Ascii.eqb newline c).
Proof. reflexivity. Qed.

Lemma words_in_literals :
  Forall (fun k => head_in letter k = true -> forallb word_char (fst k) = true /\ fst k <> []) literals.
Proof.
  assert (B : forallb (fun k => implb (head_in letter k)
            (forallb word_char (fst k) && negb (match fst k with [] => true | _ => false end))) literals = true)
    by (vm_compute; reflexivity).
  rewrite forallb_forall in B. apply Forall_forall. intros k Hk H. specialize (B k Hk). rewrite H in B. cbn [implb] in B.
  apply andb_true_iff in B. destruct B as [B1 B2]. split; [exact B1|]. destruct (fst k); [discriminate|congruence].
Qed.

Lemma singles_in_literals :
  Forall (fun k => head_in special k = false -> length (fst k) = 1) literals /\ Forall (fun k => fst k <> []) literals.
Proof.
  assert (B : forallb (fun k => (head_in special k || Nat.eqb (length (fst k)) 1) &&
                negb (match fst k with [] => true | _ => false end)) literals = true) by (vm_compute; reflexivity).
  rewrite forallb_forall in B. split; apply Forall_forall; intros k Hk; specialize (B k Hk); apply andb_true_iff in B;
    destruct B as [B1 B2].
  - intros H. rewrite H in B1. now apply Nat.eqb_eq in B1.
  - destruct k as [[|x k] a]; [discriminate B2 | discriminate].
Qed.

Lemma lits_minus : forall s, best (map lit_rule literals) ("-"%char :: s) =
  match s with
  | d :: _ => if Ascii.eqb ">" d then Some (keyword "T_ARROW", 2) else Some (character "-", 1)
  | [] => Some (character "-", 1)
  end.
Proof.
  intros s. rewrite lits_filter.
  replace (filter (head_in (fun d => Ascii.eqb d "-")) literals)
    with [(txt "-", character "-"); (txt "->", keyword "T_ARROW")] by (vm_compute; reflexivity).
  cbn [map]. rewrite !best_cons, !one_lit. cbn [fst snd prefixb txt list_ascii_of_string]. rewrite Ascii.eqb_refl.
  destruct s as [|d s]; [reflexivity|]. destruct (Ascii.eqb ">" d); reflexivity.
Qed.
Lemma lits_slash : forall s, best (map lit_rule literals) ("/"%char :: s) =
  match s with d :: _ => if Ascii.eqb "*" d then Some (push COMMENT, 2) else None | [] => None end.
Proof.
  intros s. rewrite lits_filter.
  replace (filter (head_in (fun d => Ascii.eqb d "/")) literals) with [(txt "/*", push COMMENT)] by (vm_compute; reflexivity).
  cbn [map]. rewrite !best_cons, !one_lit. cbn [fst snd prefixb txt list_ascii_of_string]. rewrite Ascii.eqb_refl.
  destruct s as [|d s]; [reflexivity|]. destruct (Ascii.eqb "*" d); reflexivity.
Qed.

Lemma white_class : forall c, white c = true ->
  letter c = false /\ digit c = false /\ Ascii.eqb "-" c = false /\ Ascii.eqb "/" c = false /\
  Ascii.eqb quote c = false /\ Ascii.eqb newline c = false.
Proof. intros [[] [] [] [] [] [] [] []]; vm_compute; intros H; try discriminate H; auto 10. Qed.

Ltac leb := repeat match goal with
  | |- context [(?u <=? ?v)%nat] => destruct (Nat.leb_spec u v); try lia
  | H : context [(?u <=? ?v)%nat] |- _ => destruct (Nat.leb_spec u v); try lia
  end.

(** The choice, given the choice between the rules for one text. *)
Definition choose (lits : option (action * nat)) (c : ascii) (s : text) : option (action * nat) :=
  better (option_map (pair skip)
    (if Ascii.eqb "/" c then
       match s with d :: t => if Ascii.eqb "/" d then Some (S (S (span dot t))) else None | [] => None end
     else None))
  (better lits
  (better (option_map (pair identifier) (if letter c then Some (S (span word_char s)) else None))
  (better (option_map (pair floatval)
    (if digit c then option_map S (fraction_length s)
     else if Ascii.eqb "-" c then
       match s with
       | d :: t => if digit d then option_map (fun n => S (S n)) (fraction_length t) else None
       | [] => None
       end
     else None))
  (better (option_map (pair intval)
    (if Ascii.eqb "-" c then
       match s with d :: t => if digit d then Some (S (S (span digit t))) else None | [] => None end
     else None))
  (better (option_map (pair uintval) (if digit c then Some (S (span digit s)) else None))
  (better (option_map (pair stringval) (if Ascii.eqb quote c then option_map S (close s) else None))
  (better (if white c then Some (skip, 1) else None)
  (better (if Ascii.eqb newline c then Some (push SAVELINE, 1) else None)
          (if negb (Ascii.eqb newline c) then Some (unexpected, 1) else None))))))))).

Lemma best_choose : forall c s, best (rules INITIAL) (c :: s) = choose (best (map lit_rule literals) (c :: s)) c s.
Proof.
  intros c s. unfold choose. rewrite <- longest_comment, <- longest_float, <- longest_int. change (negb (Ascii.eqb newline c)) with (dot c).
  rewrite <- patterns_spec. rewrite <- literal_rules_eq, <- best_app. apply best_cons.
Qed.

Lemma choose_word : forall lits c s w, letter c = true ->
  match w with Some a => lits = Some (a, S (span word_char s)) | None => forall a m, lits = Some (a, m) -> m < S (span word_char s) end ->
  choose lits c s = Some (match w with Some a => a | None => identifier end, S (span word_char s)).
Proof.
  intros lits c s w EL H. unfold choose. destruct (letter_class c EL) as (D & W & M & SL & Q & N).
  rewrite EL, D, W, M, SL, Q, N. cbn [option_map better negb].
  replace (1 <=? S (span word_char s))%nat with true by (symmetry; apply Nat.leb_le; lia).
  destruct w as [a|].
  - subst lits. cbn [better]. rewrite Nat.leb_refl. reflexivity.
  - destruct lits as [[a m]|]; [|reflexivity]. cbn [better]. specialize (H a m eq_refl). leb. reflexivity.
Qed.

Lemma choose_number : forall c s, digit c = true ->
  choose None c s =
  Some match fraction_length s with Some n => (floatval, S n) | None => (uintval, S (span digit s)) end.
Proof.
  intros c s D. unfold choose. destruct (digit_class c D) as (EL & W & M & SL & Q & N & _).
  rewrite EL, D, W, M, SL, Q, N. cbn [option_map better negb].
  replace (1 <=? S (span digit s))%nat with true by (symmetry; apply Nat.leb_le; lia).
  destruct (fraction_length s) as [n|] eqn:F; [|reflexivity]. cbn [option_map better].
  apply fraction_more in F. leb. reflexivity.
Qed.

Lemma choose_minus : forall s,
  choose (match s with
          | d :: _ => if Ascii.eqb ">" d then Some (keyword "T_ARROW", 2) else Some (character "-", 1)
          | [] => Some (character "-", 1)
          end) "-" s =
  Some match s with
    | d :: t =>
        if Ascii.eqb ">" d then (keyword "T_ARROW", 2)
        else if digit d then
          match fraction_length t with
          | Some n => (floatval, S (S n))
          | None => (intval, S (S (span digit t)))
          end
        else (character "-", 1)
    | [] => (character "-", 1)
    end.
Proof.
  intros s. unfold choose.
  replace (Ascii.eqb quote "-") with false by reflexivity. replace (Ascii.eqb newline "-") with false by reflexivity.
  replace (Ascii.eqb "/" "-") with false by reflexivity. replace (white "-") with false by reflexivity.
  replace (letter "-") with false by reflexivity. replace (digit "-") with false by reflexivity.
  rewrite Ascii.eqb_refl. cbn [option_map better negb].
  destruct s as [|d t]; [reflexivity|]. destruct (Ascii.eqb_spec ">" d) as [<-|N2].
  - replace (digit ">") with false by reflexivity. reflexivity.
  - destruct (digit d); [|reflexivity]. cbn [option_map better].
    replace (1 <=? S (S (span digit t)))%nat with true by (symmetry; apply Nat.leb_le; lia).
    destruct (fraction_length t) as [n|] eqn:F; cbn [option_map better].
    + apply fraction_more in F. replace (S (S (span digit t)) <=? S (S n))%nat with true by (symmetry; apply Nat.leb_le; lia).
      reflexivity.
    + reflexivity.
Qed.

Lemma choose_quote : forall s,
  choose None quote s = Some match close s with Some n => (stringval, S n) | None => (unexpected, 1) end.
Proof.
  intros s. unfold choose.
  replace (Ascii.eqb "/" quote) with false by reflexivity. replace (Ascii.eqb newline quote) with false by reflexivity.
  replace (Ascii.eqb "-" quote) with false by reflexivity. replace (white quote) with false by reflexivity.
  replace (letter quote) with false by reflexivity. replace (digit quote) with false by reflexivity.
  rewrite Ascii.eqb_refl. cbn [option_map better negb]. destruct (close s) as [n|]; reflexivity.
Qed.

Lemma choose_slash : forall s,
  choose (match s with d :: _ => if Ascii.eqb "*" d then Some (push COMMENT, 2) else None | [] => None end) "/" s =
  Some match s with
    | d :: t =>
        if Ascii.eqb "/" d then (skip, S (S (span dot t)))
        else if Ascii.eqb "*" d then (push COMMENT, 2)
        else (unexpected, 1)
    | [] => (unexpected, 1)
    end.
Proof.
  intros s. unfold choose.
  replace (Ascii.eqb quote "/") with false by reflexivity. replace (Ascii.eqb newline "/") with false by reflexivity.
  replace (Ascii.eqb "-" "/") with false by reflexivity. replace (white "/") with false by reflexivity.
  replace (letter "/") with false by reflexivity. replace (digit "/") with false by reflexivity.
  rewrite Ascii.eqb_refl. cbn [option_map better negb].
  destruct s as [|d t]; [reflexivity|]. destruct (Ascii.eqb_spec "/" d) as [<-|N4].
  - reflexivity.
  - destruct (Ascii.eqb "*" d); reflexivity.
Qed.

Lemma choose_other : forall lits c s, letter c = false -> digit c = false -> Ascii.eqb "-" c = false ->
  Ascii.eqb quote c = false -> Ascii.eqb "/" c = false ->
  choose lits c s =
  better lits (if white c then Some (skip, 1) else if Ascii.eqb newline c then Some (push SAVELINE, 1)
               else Some (unexpected, 1)).
Proof.
  intros lits c s EL D M Q SL. unfold choose. rewrite EL, D, M, Q, SL. cbn [option_map better].
  destruct (white c) eqn:W.
  - destruct (white_class c W) as (_ & _ & _ & _ & _ & N). rewrite N. reflexivity.
  - destruct (Ascii.eqb newline c); reflexivity.
Qed.

Lemma lits_digit : forall c s, digit c = true -> best (map lit_rule literals) (c :: s) = None.
Proof. intros c s D. apply (lits_none digit _ _ _ D). vm_compute. reflexivity. Qed.
Lemma lits_white : forall c s, white c = true -> best (map lit_rule literals) (c :: s) = None.
Proof. intros c s D. apply (lits_none white _ _ _ D). vm_compute. reflexivity. Qed.
Lemma lits_quote : forall s, best (map lit_rule literals) (quote :: s) = None.
Proof. intros s. apply (lits_none (Ascii.eqb quote)); vm_compute; reflexivity. Qed.
Lemma lits_newline : forall s, best (map lit_rule literals) (newline :: s) = None.
Proof. intros s. apply (lits_none (Ascii.eqb newline)); vm_compute; reflexivity. Qed.

Lemma best_next : forall c s, best (rules INITIAL) (c :: s) = Some (next c s).
Proof.
  intros c s. rewrite best_choose. unfold next. destruct (letter c) eqn:EL.
  - apply choose_word; [exact EL|]. exact (proj1 (lits_word literals c s EL words_in_literals)).
  - destruct (digit c) eqn:D.
    + rewrite (lits_digit c s D). apply choose_number, D.
    + destruct (Ascii.eqb_spec "-" c) as [<-|N1].
      * rewrite lits_minus. apply choose_minus.
      * destruct (Ascii.eqb_spec quote c) as [<-|N2].
        -- rewrite lits_quote. apply choose_quote.
        -- destruct (Ascii.eqb_spec "/" c) as [<-|N3].
           ++ rewrite lits_slash. apply choose_slash.
           ++ apply Ascii.eqb_neq in N1, N2, N3. rewrite choose_other by assumption. destruct (white c) eqn:W.
              ** rewrite (lits_white c s W). reflexivity.
              ** destruct (Ascii.eqb_spec newline c) as [<-|N4].
                 --- rewrite lits_newline. reflexivity.
                 --- apply Ascii.eqb_neq in N4.
                     assert (SC : special c = false) by (unfold special; rewrite EL, D, W, N1, N2, N3, N4; reflexivity).
                     rewrite (lits_single literals c s SC (proj1 singles_in_literals) (proj2 singles_in_literals)).
                     destruct (lookup [c] literals); reflexivity.
Qed.
