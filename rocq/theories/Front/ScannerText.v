(** Every text is a sequence of pieces up to a place where no piece begins. *)

From Coq Require Import String.
From Coq Require Import List Ascii Bool Arith Lia.
From Verif Require Import Base.Outcome Front.LexerModel Front.ScannerModel Front.ScannerSpec Front.ScannerNext.
Import ListNotations.
Local Open Scope string_scope.
Local Open Scope list_scope.
Local Arguments Ascii.eqb : simpl never.
Local Arguments digit : simpl never.
Local Arguments letter : simpl never.
Local Arguments dot : simpl never.
Local Arguments word_char : simpl never.
Local Arguments white : simpl never.

(** * Kinds of characters *)

Lemma in_text : forall c l, In c l <-> existsb (Ascii.eqb c) l = true.
Proof.
  intros c l. rewrite existsb_exists. split.
  - intros H. exists c. split; [exact H | apply Ascii.eqb_refl].
  - intros (x & H & E). apply Ascii.eqb_eq in E. congruence.
Qed.

Lemma letter_iff : forall c, is_letter c <-> letter c = true.
Proof.
  intros c. unfold is_letter. rewrite in_text.
  replace (letter c) with (existsb (Ascii.eqb c) (txt "ABCDEFGHIJKLMNOPQRSTUVWXYZabcdefghijklmnopqrstuvwxyz")); [tauto|].
  destruct c as [[] [] [] [] [] [] [] []]; vm_compute; reflexivity.
Qed.
Lemma digit_iff : forall c, is_digit c <-> digit c = true.
Proof.
  intros c. unfold is_digit. rewrite in_text.
  replace (digit c) with (existsb (Ascii.eqb c) (txt "0123456789")); [tauto|].
  destruct c as [[] [] [] [] [] [] [] []]; vm_compute; reflexivity.
Qed.
Lemma word_iff : forall c, in_word c <-> word_char c = true.
Proof.
  intros c. unfold in_word, word_char. rewrite letter_iff, digit_iff, !orb_true_iff, Ascii.eqb_eq.
  split; [intros [|[|]] | intros [[|]|]]; auto.
Qed.
Lemma white_iff : forall c, (c = " "%char \/ c = tab \/ c = return_) <-> white c = true.
Proof.
  intros c. unfold white. rewrite !orb_true_iff, !Ascii.eqb_eq. split; [intros [|[|]] | intros [[|]|]]; subst; auto.
Qed.

Lemma forall_forallb : forall (P : ascii -> Prop) p t, (forall c, P c <-> p c = true) -> (Forall P t <-> forallb p t = true).
Proof.
  intros P p t H. rewrite forallb_forall, Forall_forall. split; intros F c I; apply H, F, I.
Qed.

(** * Spans *)

Lemma span_app : forall p t r, forallb p t = true -> span p (t ++ r) = length t + span p r.
Proof.
  induction t as [|c t IH]; intros r F; [reflexivity|]. cbn in *. apply andb_true_iff in F. destruct F as [-> F].
  now rewrite IH.
Qed.
Lemma span_stop : forall (P : ascii -> Prop) p r, (forall c, P c <-> p c = true) -> ~ starts_with P r -> span p r = 0.
Proof.
  intros P p [|c r] H N; [reflexivity|]. cbn. destruct (p c) eqn:E; [|reflexivity].
  exfalso. apply N. exists c, r. split; [reflexivity | now apply H].
Qed.
Lemma span_firstn : forall p s, forallb p (firstn (span p s) s) = true.
Proof. induction s as [|c s IH]; [reflexivity|]. cbn. destruct (p c) eqn:E; cbn; [now rewrite E | reflexivity]. Qed.
Lemma span_skipn : forall (P : ascii -> Prop) p s, (forall c, P c <-> p c = true) -> ~ starts_with P (skipn (span p s) s).
Proof.
  intros P p s H. induction s as [|c s IH]; cbn.
  - intros (x & u & E & _). discriminate.
  - destruct (p c) eqn:E; [exact IH|]. cbn. intros (x & u & [= <- <-] & Q). apply H in Q. congruence.
Qed.

Lemma txt_str : forall t, txt (str t) = t.
Proof. apply list_ascii_of_string_of_list_ascii. Qed.
Lemma str_txt : forall s, str (txt s) = s.
Proof. apply string_of_list_ascii_of_string. Qed.

(** * Numbers and strings *)

Lemma digits_iff : forall t, digits t <-> exists c u, t = c :: u /\ digit c = true /\ forallb digit u = true.
Proof.
  intros t. unfold digits. rewrite (forall_forallb _ _ t digit_iff). split.
  - intros [N F]. destruct t as [|c u]; [now elim N|]. cbn in F. apply andb_true_iff in F. exists c, u. tauto.
  - intros (c & u & -> & A & B). split; [discriminate|]. cbn. now rewrite A, B.
Qed.

Lemma fraction_length_app : forall a b r, forallb digit a = true -> digits b -> ~ starts_with is_digit r ->
  fraction_length (a ++ "."%char :: b ++ r) = Some (length (a ++ "."%char :: b)).
Proof.
  intros a b r A B R. unfold fraction_length. rewrite span_app by exact A.
  replace (span digit ("."%char :: b ++ r)) with 0 by reflexivity. rewrite Nat.add_0_r.
  rewrite skipn_app, skipn_all, Nat.sub_diag. cbn [skipn app].
  apply digits_iff in B. destruct B as (c & u & -> & C & U). cbn [app]. rewrite C. cbn [andb].
  rewrite span_app by exact U. rewrite (span_stop is_digit digit r digit_iff R). rewrite Ascii.eqb_refl. cbn [andb].
  rewrite app_length. cbn [length]. f_equal. lia.
Qed.

Lemma no_fraction : forall a r, forallb digit a = true -> ~ starts_with is_digit r ->
  ~ (exists c u, r = "."%char :: c :: u /\ is_digit c) -> fraction_length (a ++ r) = None.
Proof.
  intros a r A R F. unfold fraction_length. rewrite span_app by exact A.
  rewrite (span_stop is_digit digit r digit_iff R), Nat.add_0_r.
  rewrite skipn_app, skipn_all, Nat.sub_diag. cbn [skipn app].
  destruct r as [|c [|d u]]; try reflexivity. destruct (Ascii.eqb_spec "." c) as [<-|N]; [|reflexivity].
  destruct (digit d) eqn:D; [|reflexivity]. exfalso. apply F. exists d, u. split; [reflexivity | now apply digit_iff].
Qed.

Lemma fraction_split : forall s n, fraction_length s = Some n ->
  exists a b r, s = a ++ "."%char :: b ++ r /\ forallb digit a = true /\ digits b /\ ~ starts_with is_digit r /\
                n = length (a ++ "."%char :: b).
Proof.
  intros s n. unfold fraction_length. pose proof (span_firstn digit s) as A.
  pose proof (firstn_skipn (span digit s) s) as E. pose proof (span_le digit s) as L.
  destruct (skipn (span digit s) s) as [|c [|d t]]; try discriminate.
  destruct (Ascii.eqb_spec "." c) as [<-|]; [|discriminate]. destruct (digit d) eqn:D; [|discriminate]. cbn [andb].
  intros [= <-]. exists (firstn (span digit s) s), (d :: firstn (span digit t) t), (skipn (span digit t) t).
  repeat split.
  - cbn [app]. rewrite firstn_skipn. now symmetry.
  - exact A.
  - discriminate.
  - apply (forall_forallb _ _ _ digit_iff). cbn. rewrite D. apply span_firstn.
  - apply span_skipn, digit_iff.
  - rewrite app_length. cbn [length]. rewrite !firstn_length. pose proof (span_le digit t). lia.
Qed.

Lemma close_app : forall b r, string_body b -> close (b ++ quote :: r) = Some (length b + 1).
Proof.
  intros b r H. induction H as [|c t N1 N2 H IH|c t N H IH].
  - reflexivity.
  - cbn [app close]. apply not_eq_sym, Ascii.eqb_neq in N1. apply not_eq_sym, Ascii.eqb_neq in N2. rewrite N1, N2, IH. reflexivity.
  - cbn [app close]. replace (Ascii.eqb quote backslash) with false by reflexivity. rewrite Ascii.eqb_refl.
    apply not_eq_sym, Ascii.eqb_neq in N. unfold dot. rewrite N. cbn [negb]. rewrite IH. reflexivity.
Qed.

Lemma close_split : forall n s k, length s <= n -> close s = Some k ->
  exists b r, s = b ++ quote :: r /\ string_body b /\ k = length b + 1.
Proof.
  induction n as [|n IH]; intros [|c s] k L; try discriminate; cbn [length] in L; [lia|]. cbn [close].
  destruct (Ascii.eqb_spec quote c) as [<-|N1].
  - intros [= <-]. exists [], s. repeat split. constructor.
  - destruct (Ascii.eqb_spec backslash c) as [<-|N2].
    + destruct s as [|d s]; [discriminate|]. cbn [length] in L. unfold dot.
      destruct (Ascii.eqb_spec newline d) as [|N3]; [discriminate|]. cbn [negb].
      destruct (close s) as [m|] eqn:C; [|discriminate]. intros [= <-].
      destruct (IH s m) as (b & r & -> & B & ->); [lia | exact C|]. exists (backslash :: d :: b), r.
      split; [reflexivity|]. split; [constructor; [congruence | exact B] | cbn; lia].
    + destruct (close s) as [m|] eqn:C; [|discriminate]. intros [= <-].
      destruct (IH s m) as (b & r & -> & B & ->); [lia | exact C|]. exists (c :: b), r.
      split; [reflexivity|]. split; [constructor; [congruence | congruence | exact B] | cbn; lia].
Qed.

(** * Comments *)

Lemma comment_split : forall u,
  (exists b r, u = b ++ txt "*/" ++ r /\ piece_ok (Block_comment b)) \/ (forall a b, u <> a ++ txt "*/" ++ b).
Proof.
  assert (Z : forall a b, [] <> a ++ txt "*/" ++ b) by (intros [|] b; discriminate).
  induction u as [|c u IH]; [right; exact Z|].
  destruct (Bool.bool_dec (prefixb (txt "*/") (c :: u)) true) as [P|P].
  - left. destruct u as [|d u]; [cbn in P; rewrite andb_comm in P; discriminate|]. cbn in P.
    rewrite !andb_true_iff, !Ascii.eqb_eq in P. destruct P as (<- & <- & _). exists [], u. split; [reflexivity|].
    intros a b E. apply (f_equal (@length ascii)) in E. rewrite !app_length in E. cbn [length txt list_ascii_of_string] in E.
    destruct b; [reflexivity|]. cbn [length] in E. lia.
  - destruct IH as [(b & r & -> & B)|N].
    + left. exists (c :: b), r. split; [reflexivity|]. intros x y E. destruct x as [|z x].
      * exfalso. apply P. cbn in E. destruct b as [|d b]; cbn in E; [discriminate|]. injection E as -> -> _. reflexivity.
      * cbn in E. injection E as -> E. exact (B x y E).
    + right. intros [|x a] b E.
      * apply P. cbn in E. injection E as -> ->. reflexivity.
      * cbn in E. injection E as -> E. exact (N a b E).
Qed.

(** * The rule for a token *)

Definition found (w : text) (other : action) : action :=
  match lookup w literals with Some a => a | None => other end.
Definition token_act (l : lexeme) : action :=
  match l with
  | Word w => found (txt w) identifier
  | Symbol c => found [c] unexpected
  | Arrow => keyword "T_ARROW"
  | Float_number _ => floatval
  | Negative_number _ => intval
  | Number _ => uintval
  | Quoted _ => stringval
  end.

Lemma firstn_length_app : forall (a b : text), firstn (length a) (a ++ b) = a.
Proof. intros a b. rewrite firstn_app, firstn_all, Nat.sub_diag, firstn_O, app_nil_r. reflexivity. Qed.
Lemma skipn_length_app : forall (a b : text), skipn (length a) (a ++ b) = b.
Proof. intros a b. rewrite skipn_app, skipn_all, Nat.sub_diag. reflexivity. Qed.

Definition symbol_facts (c : ascii) : bool :=
  negb (letter c) && negb (digit c) && negb (Ascii.eqb quote c) && negb (Ascii.eqb "/" c) && negb (white c)
  && negb (Ascii.eqb newline c) && match lookup [c] literals with Some unexpected => false | Some _ => true | None => false end.
Lemma symbol_class : forall c, In c (txt "()[]{},=;!|&-.") -> symbol_facts c = true.
Proof.
  intros c H. assert (F : forallb symbol_facts (txt "()[]{},=;!|&-.") = true) by (vm_compute; reflexivity).
  rewrite forallb_forall in F. exact (F c H).
Qed.

Lemma minus_found : found [("-")%char] unexpected = character "-".
Proof. reflexivity. Qed.

Lemma next_minus : forall s, ~ starts_with (fun d => d = ">"%char \/ is_digit d) s -> next "-" s = (character "-", 1).
Proof.
  intros s N. change (next "-" s) with
   (match s with
    | d :: t => if Ascii.eqb ">" d then (keyword "T_ARROW", 2)
        else if digit d then match fraction_length t with Some n => (floatval, S (S n)) | None => (intval, S (S (span digit t))) end
        else (character "-", 1)
    | [] => (character "-", 1) end).
  destruct s as [|d t]; [reflexivity|]. destruct (Ascii.eqb_spec ">" d) as [<-|M].
  - exfalso. apply N. exists ">"%char, t. auto.
  - destruct (digit d) eqn:D; [|reflexivity]. exfalso. apply N. exists d, t. rewrite digit_iff. auto.
Qed.
Lemma next_minus_digit : forall d t, digit d = true -> next "-" (d :: t) =
  match fraction_length t with Some n => (floatval, S (S n)) | None => (intval, S (S (span digit t))) end.
Proof.
  intros d t D. change (next "-" (d :: t)) with
   (if Ascii.eqb ">" d then (keyword "T_ARROW", 2)
    else if digit d then match fraction_length t with Some n => (floatval, S (S n)) | None => (intval, S (S (span digit t))) end
    else (character "-", 1)).
  destruct (Ascii.eqb_spec ">" d) as [<-|M]; [discriminate D | now rewrite D].
Qed.
Lemma next_digit : forall c s, digit c = true -> next c s =
  match fraction_length s with Some n => (floatval, S n) | None => (uintval, S (span digit s)) end.
Proof. intros c s D. unfold next. destruct (digit_class c D) as (E & _). rewrite E, D. reflexivity. Qed.
Lemma next_quote : forall s, next quote s = match close s with Some n => (stringval, S n) | None => (unexpected, 1) end.
Proof. reflexivity. Qed.
Lemma next_slash : forall s, next "/" s =
  match s with
  | d :: t => if Ascii.eqb "/" d then (skip, S (S (span dot t)))
              else if Ascii.eqb "*" d then (push COMMENT, 2) else (unexpected, 1)
  | [] => (unexpected, 1)
  end.
Proof. reflexivity. Qed.
Lemma next_white : forall c s, white c = true -> next c s = (skip, 1).
Proof. intros c s W. unfold next. destruct (white_class c W) as (-> & -> & -> & -> & -> & _). rewrite W. reflexivity. Qed.
Lemma next_newline : forall s, next newline s = (push SAVELINE, 1).
Proof. reflexivity. Qed.
Lemma next_symbol : forall c s, symbol_facts c = true -> c <> "-"%char -> next c s = (found [c] unexpected, 1).
Proof.
  intros c s F N. unfold symbol_facts in F. rewrite !andb_true_iff, !negb_true_iff in F.
  destruct F as ((((((A & B) & C) & D) & E) & G) & _). unfold next. rewrite A, B, C, D, E, G.
  apply not_eq_sym, Ascii.eqb_neq in N. rewrite N. reflexivity.
Qed.

Lemma fraction_number : forall t, fraction t -> exists c a b,
  t = (c :: a) ++ "."%char :: b /\ digit c = true /\ forallb digit a = true /\ digits b.
Proof.
  intros t (a & b & -> & A & B). apply digits_iff in A. destruct A as (c & u & -> & C & U). exists c, u, b. auto.
Qed.

Lemma next_token : forall l rest, lexeme_ok l -> apart (Token l) rest ->
  exists c s, lexeme_text l ++ rest = c :: s /\ next c s = (token_act l, length (lexeme_text l)).
Proof.
  intros [w|c| |t|t|t|t] rest O A; cbn [lexeme_ok lexeme_text apart token_act] in *.
  - destruct O as (c & u & E & L & W). rewrite E. exists c, (u ++ rest). split; [reflexivity|].
    apply letter_iff in L. apply (forall_forallb _ _ _ word_iff) in W. unfold next. rewrite L.
    rewrite (span_app _ _ _ W), (span_stop in_word word_char rest word_iff A), Nat.add_0_r.
    change (S (length u)) with (length (c :: u)). change (c :: u ++ rest) with ((c :: u) ++ rest).
    rewrite firstn_length_app. reflexivity.
  - exists c, rest. split; [reflexivity|]. cbn [length]. destruct (ascii_dec c "-") as [->|N].
    + rewrite minus_found. apply next_minus, A. reflexivity.
    + apply next_symbol; [now apply symbol_class | exact N].
  - eexists _, _. split; [reflexivity|]. reflexivity.
  - destruct O as [F|(u & E & F)]; destruct (fraction_number _ F) as (c & a & b & E1 & C & A1 & B).
    + rewrite E1. exists c, (a ++ "."%char :: b ++ rest). split; [cbn; rewrite <- app_assoc; reflexivity|].
      rewrite next_digit, fraction_length_app by assumption. cbn [app length]. reflexivity.
    + rewrite E, E1. exists "-"%char, (c :: a ++ "."%char :: b ++ rest). split; [cbn; rewrite <- app_assoc; reflexivity|].
      rewrite next_minus_digit, fraction_length_app by assumption. cbn [app length]. reflexivity.
  - destruct A as [A1 A2], O as (u & E & D). apply digits_iff in D. destruct D as (c & a & -> & C & D). rewrite E.
    exists "-"%char, (c :: a ++ rest). split; [reflexivity|]. rewrite next_minus_digit, no_fraction by assumption.
    rewrite span_app by assumption. rewrite (span_stop is_digit digit rest digit_iff A1), Nat.add_0_r. reflexivity.
  - destruct A as [A1 A2]. apply digits_iff in O. destruct O as (c & a & -> & C & D).
    exists c, (a ++ rest). split; [reflexivity|]. rewrite next_digit, no_fraction by assumption.
    rewrite span_app by assumption. rewrite (span_stop is_digit digit rest digit_iff A1), Nat.add_0_r. reflexivity.
  - exists quote, (txt t ++ quote :: rest). split; [cbn; rewrite <- app_assoc; reflexivity|].
    rewrite next_quote, close_app by assumption. cbn [length]. rewrite app_length. reflexivity.
Qed.

(** * One piece *)

Lemma dot_iff : forall c, (c <> newline) <-> dot c = true.
Proof. intros c. unfold dot. rewrite negb_true_iff, Ascii.eqb_neq. intuition. Qed.

Lemma no_newline : forall t, ~ In newline t <-> forallb dot t = true.
Proof.
  intros t. rewrite <- (forall_forallb _ _ t dot_iff), Forall_forall. split.
  - intros N c I ->. exact (N I).
  - intros F I. exact (F _ I eq_refl).
Qed.

Lemma next_letter : forall c s, letter c = true ->
  next c s = (found (firstn (S (span word_char s)) (c :: s)) identifier, S (span word_char s)).
Proof. intros c s L. unfold next. rewrite L. reflexivity. Qed.
Lemma found_not : forall k o, o <> unexpected -> found k o <> unexpected.
Proof.
  intros k o N. unfold found. assert (F : forallb (fun k => match snd k with unexpected => false | _ => true end) literals = true)
    by (vm_compute; reflexivity).
  revert F. generalize literals. induction l as [|[k' a] l IH]; [intros _; exact N|]. cbn [lookup forallb snd].
  rewrite andb_true_iff. intros [F1 F2]. destruct (list_eq_dec ascii_dec k' k); [|apply IH, F2].
  intros ->. discriminate F1.
Qed.

Lemma stray_not : forall c s n, next c s = (unexpected, n) -> stray (c :: s).
Proof.
  intros c s n H. split; [discriminate|]. split.
  - intros (u & E & _). injection E as -> ->. discriminate H.
  - intros p rest O E. destruct p as [l|x| |t|t]; cbn [piece_ok piece_text] in *.
    + destruct l as [w|x| |t|t|t|t]; cbn [lexeme_ok lexeme_text] in *.
      * destruct O as (d & u & E1 & L & _). rewrite E1 in E. injection E as -> ->. apply letter_iff in L.
        rewrite (next_letter _ _ L) in H. apply (f_equal fst) in H. cbn [fst] in H. revert H. apply found_not. discriminate.
      * injection E as -> ->. destruct (ascii_dec x "-") as [->|N].
        -- destruct rest as [|d t]; [discriminate H|]. revert H. unfold next. cbn [letter digit]. 
           change (letter "-") with false. change (digit "-") with false. cbn [andb orb]. rewrite Ascii.eqb_refl.
           destruct (Ascii.eqb ">" d); [discriminate|]. destruct (digit d); [|discriminate].
           destruct (fraction_length t); discriminate.
        -- apply symbol_class in O. rewrite (next_symbol _ _ O N) in H. apply (f_equal fst) in H. cbn [fst] in H. unfold symbol_facts in O.
           unfold found in H. revert H O. destruct (lookup [x] literals) as [[]|]; rewrite ?andb_false_r; discriminate.
      * injection E as -> ->. discriminate H.
      * destruct O as [F|(u & E1 & F)]; destruct (fraction_number _ F) as (d & a & b & E2 & D & _ & _).
        -- rewrite E2 in E. injection E as -> ->. rewrite next_digit in H by exact D.
           destruct (fraction_length _); discriminate.
        -- rewrite E1, E2 in E. injection E as -> ->. rewrite next_minus_digit in H by exact D.
           destruct (fraction_length _); discriminate.
      * destruct O as (u & E1 & D). apply digits_iff in D. destruct D as (d & a & -> & D & _). rewrite E1 in E.
        injection E as -> ->. rewrite next_minus_digit in H by exact D. destruct (fraction_length _); discriminate.
      * apply digits_iff in O. destruct O as (d & a & E1 & D & _). rewrite E1 in E. injection E as -> ->.
        rewrite next_digit in H by exact D. destruct (fraction_length _); discriminate.
      * cbn in E. rewrite <- app_assoc in E. injection E as -> ->. cbn [app] in H.
        rewrite next_quote, close_app in H by exact O. discriminate.
    + injection E as -> ->. apply white_iff in O. rewrite (next_white _ _ O) in H. discriminate.
    + injection E as -> ->. discriminate H.
    + injection E as -> ->. discriminate H.
    + injection E as -> ->. discriminate H.
Qed.

Lemma lookup_single : forall c a, lookup [c] literals = Some a -> letter c = false -> In c (txt "()[]{},=;!|&-.").
Proof.
  intros c a. unfold literals. intros H L.
  repeat (cbn [lookup] in H;
    match type of H with (if list_eq_dec ascii_dec ?k ?w then _ else _) = _ =>
      destruct (list_eq_dec ascii_dec k w) as [E|_]; [clear H; try discriminate E; injection E as <-; cbn; tauto|] end).
  discriminate H.
Qed.

Lemma one_piece : forall c s,
  (exists p rest, c :: s = piece_text p ++ rest /\ piece_ok p /\ apart p rest /\ length rest <= length s) \/
  open_comment (c :: s) \/ stray (c :: s).
Proof.
  intros c s. destruct (letter c) eqn:L.
  - left. exists (Token (Word (str (firstn (S (span word_char s)) (c :: s))))), (skipn (span word_char s) s).
    cbn [piece_text lexeme_text piece_ok lexeme_ok apart]. rewrite txt_str. cbn [firstn]. split; [|split; [|split]].
    + cbn [app]. rewrite firstn_skipn. reflexivity.
    + exists c, (firstn (span word_char s) s). split; [reflexivity|]. split; [now apply letter_iff|].
      apply (forall_forallb _ _ _ word_iff), span_firstn.
    + apply span_skipn, word_iff.
    + rewrite skipn_length. lia.
  - destruct (digit c) eqn:D.
    + left. destruct (fraction_length s) as [n|] eqn:F.
      * apply fraction_split in F. destruct F as (a & b & r & -> & A & B & R & _).
        exists (Token (Float_number (str (c :: a ++ "."%char :: b)))), r.
        cbn [piece_text lexeme_text piece_ok lexeme_ok apart]. rewrite txt_str. split; [|split; [|split]].
        -- cbn [app]. rewrite <- app_assoc. reflexivity.
        -- left. exists (c :: a), b. split; [reflexivity|]. split; [|exact B]. apply digits_iff. exists c, a. auto.
        -- exact R.
        -- rewrite !app_length. cbn [length]. rewrite app_length. lia.
      * exists (Token (Number (str (c :: firstn (span digit s) s)))), (skipn (span digit s) s).
        cbn [piece_text lexeme_text piece_ok lexeme_ok apart]. rewrite txt_str. split; [|split; [|split; [split|]]].
        -- cbn [app]. rewrite firstn_skipn. reflexivity.
        -- apply digits_iff. exists c, (firstn (span digit s) s). split; [reflexivity|]. split; [exact D | apply span_firstn].
        -- apply span_skipn, digit_iff.
        -- intros (d & u & E & DD). apply digit_iff in DD. unfold fraction_length in F. rewrite E, DD, Ascii.eqb_refl in F. discriminate.
        -- rewrite skipn_length. lia.
    + destruct (ascii_dec c "-") as [->|NM].
      * left. destruct s as [|d t].
        -- exists (Token (Symbol "-")), []. repeat split; [cbn; tauto | | cbn; lia]. intros _ (x & u & E & _). discriminate.
        -- destruct (ascii_dec d ">") as [->|NG].
           ++ exists (Token Arrow), t. repeat split. cbn. lia.
           ++ destruct (digit d) eqn:DD.
              ** destruct (fraction_length t) as [n|] eqn:F.
                 --- apply fraction_split in F. destruct F as (a & b & r & -> & A & B & R & _).
                     exists (Token (Float_number (str ("-"%char :: d :: a ++ "."%char :: b)))), r.
                     cbn [piece_text lexeme_text piece_ok lexeme_ok apart]. rewrite txt_str. split; [|split; [|split]].
                     +++ cbn [app]. rewrite <- app_assoc. reflexivity.
                     +++ right. exists (d :: a ++ "."%char :: b). split; [reflexivity|]. exists (d :: a), b.
                         split; [reflexivity|]. split; [|exact B]. apply digits_iff. exists d, a. auto.
                     +++ exact R.
                     +++ cbn [length]. rewrite !app_length. cbn [length]. rewrite app_length. lia.
                 --- exists (Token (Negative_number (str ("-"%char :: d :: firstn (span digit t) t)))), (skipn (span digit t) t).
                     cbn [piece_text lexeme_text piece_ok lexeme_ok apart]. rewrite txt_str. split; [|split; [|split; [split|]]].
                     +++ cbn [app]. rewrite firstn_skipn. reflexivity.
                     +++ exists (d :: firstn (span digit t) t). split; [reflexivity|]. apply digits_iff.
                         exists d, (firstn (span digit t) t). split; [reflexivity|]. split; [exact DD | apply span_firstn].
                     +++ apply span_skipn, digit_iff.
                     +++ intros (x & u & E & DX). apply digit_iff in DX. unfold fraction_length in F.
                         rewrite E, DX, Ascii.eqb_refl in F. discriminate.
                     +++ cbn [length]. rewrite skipn_length. lia.
              ** exists (Token (Symbol "-")), (d :: t). repeat split; [cbn; tauto | | cbn; lia].
                 intros _ (x & u & E & H). injection E as -> ->. destruct H as [H|H]; [congruence|].
                 apply digit_iff in H. congruence.
      * destruct (ascii_dec c quote) as [->|NQ].
        -- destruct (close s) as [n|] eqn:C.
           ++ left. destruct (close_split (length s) s n (le_n _) C) as (b & r & -> & B & _).
              exists (Token (Quoted (str b))), r. cbn [piece_text lexeme_text piece_ok lexeme_ok apart]. rewrite txt_str.
              split; [|split; [|split]].
              ** cbn [app]. rewrite <- app_assoc. reflexivity.
              ** exact B.
              ** exact I.
              ** rewrite app_length. cbn [length]. lia.
           ++ right. right. apply (stray_not _ _ 1). rewrite next_quote, C. reflexivity.
        -- destruct (ascii_dec c "/") as [->|NS].
           ++ destruct s as [|d t]; [right; right; apply (stray_not _ _ 1); reflexivity|].
              destruct (ascii_dec d "/") as [->|N1].
              ** left. exists (Line_comment (firstn (span dot t) t)), (skipn (span dot t) t).
                 cbn [piece_text piece_ok apart]. split; [|split; [|split]].
                 --- cbn. rewrite firstn_skipn. reflexivity.
                 --- apply no_newline, span_firstn.
                 --- pose proof (span_skipn (fun c => c <> newline) dot t dot_iff) as N.
                     destruct (skipn (span dot t) t) as [|x u]; [now left|]. right. exists x, u. split; [reflexivity|].
                     destruct (ascii_dec x newline) as [->|K]; [reflexivity|]. exfalso. apply N. exists x, u. auto.
                 --- cbn [length]. rewrite skipn_length. lia.
              ** destruct (ascii_dec d "*") as [->|N2].
                 --- destruct (comment_split t) as [(b & r & -> & B)|N].
                     +++ left. exists (Block_comment b), r. cbn [piece_text]. split; [|split; [exact B | split; [exact I|]]].
                         *** rewrite <- !app_assoc. reflexivity.
                         *** cbn [length]. rewrite !app_length. lia.
                     +++ right. left. exists t. auto.
                 --- right. right. apply (stray_not _ _ 1). rewrite next_slash.
                     apply not_eq_sym, Ascii.eqb_neq in N1. apply not_eq_sym, Ascii.eqb_neq in N2. rewrite N1, N2. reflexivity.
           ++ destruct (white c) eqn:W.
              ** left. exists (White c), s. repeat split; [now apply white_iff | lia].
              ** destruct (ascii_dec c newline) as [->|NN].
                 --- left. exists Newline, s. repeat split. lia.
                 --- destruct (lookup [c] literals) as [a|] eqn:Lk.
                     +++ left. exists (Token (Symbol c)), s. repeat split; [eapply lookup_single; eassumption | congruence | lia].
                     +++ right. right. apply (stray_not _ _ 1). unfold next. rewrite L, D, W, Lk.
                         apply not_eq_sym, Ascii.eqb_neq in NM. apply not_eq_sym, Ascii.eqb_neq in NQ.
                         apply not_eq_sym, Ascii.eqb_neq in NS. apply not_eq_sym, Ascii.eqb_neq in NN.
                         rewrite NM, NQ, NS, NN. reflexivity.
Qed.

Lemma all_pieces : forall n t, length t <= n ->
  exists ps tail, t = text_of ps ++ tail /\ laid_before ps tail /\ (tail = [] \/ open_comment tail \/ stray tail).
Proof.
  induction n as [|n IH]; intros [|c s] L; cbn [length] in L; try lia.
  - exists [], []. cbn. auto.
  - exists [], []. cbn. auto.
  - destruct (one_piece c s) as [(p & rest & E & O & A & LR)|H].
    + destruct (IH rest) as (ps & tail & -> & LB & T); [lia|]. exists (p :: ps), tail. split; [|split; [|exact T]].
      * rewrite E. cbn. rewrite <- app_assoc. reflexivity.
      * cbn. auto.
    + exists [], (c :: s). cbn. auto.
Qed.
