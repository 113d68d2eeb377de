(** A text is laid out in one way only. *)

From Coq Require Import String.
From Coq Require Import List Ascii Bool Arith Lia.
From Verif Require Import Base.Outcome Front.LexerModel Front.ScannerModel Front.ScannerSpec Front.ScannerNext Front.ScannerText.
Import ListNotations.
Local Open Scope string_scope.
Local Open Scope list_scope.
Local Arguments Ascii.eqb : simpl never.
Local Arguments dot : simpl never.

(** The piece with a given text. *)
Definition pointed (t : text) : bool := existsb (Ascii.eqb ".") t.
Definition piece_of (t : text) : piece :=
  match t with
  | [] => Newline
  | c :: u =>
      if letter c then Token (Word (str t))
      else if digit c then Token (if pointed t then Float_number (str t) else Number (str t))
      else if Ascii.eqb "-" c then
        match u with
        | [] => Token (Symbol "-")
        | d :: _ => if Ascii.eqb ">" d then Token Arrow
                    else Token (if pointed t then Float_number (str t) else Negative_number (str t))
        end
      else if Ascii.eqb quote c then Token (Quoted (str (firstn (length u - 1) u)))
      else if Ascii.eqb newline c then Newline
      else if white c then White c
      else if Ascii.eqb "/" c then
        match u with
        | d :: v => if Ascii.eqb "/" d then Line_comment v else Block_comment (firstn (length v - 2) v)
        | [] => Newline
        end
      else Token (Symbol c)
  end.

Lemma digit_not_pointed : forall t, forallb digit t = true -> pointed t = false.
Proof.
  induction t as [|c t IH]; [reflexivity|]. cbn [forallb pointed existsb]. rewrite andb_true_iff. intros [D F].
  destruct (Ascii.eqb_spec "." c) as [<-|_]; [discriminate D | exact (IH F)].
Qed.
Lemma is_pointed : forall a b, pointed (a ++ "."%char :: b) = true.
Proof. intros a b. unfold pointed. rewrite existsb_app. cbn [existsb]. rewrite Ascii.eqb_refl. apply orb_true_r. Qed.
Lemma digit_letter : forall c, digit c = true -> letter c = false.
Proof.
  intros c D. apply digit_iff in D.
  assert (F : forallb (fun c => negb (letter c)) (txt "0123456789") = true) by (vm_compute; reflexivity).
  rewrite forallb_forall in F. specialize (F c D). now apply negb_true_iff in F.
Qed.

Lemma piece_of_text : forall p, piece_ok p -> piece_of (piece_text p) = p.
Proof.
  intros [l|c| |t|t] O; cbn [piece_text piece_ok] in *.
  - destruct l as [w|c| |t|t|t|t]; cbn [lexeme_ok lexeme_text] in *.
    + destruct O as (c & t & E & L & _). rewrite E. unfold piece_of. apply letter_iff in L. rewrite L.
      rewrite <- E, str_txt. reflexivity.
    + destruct O as [<-|[<-|[<-|[<-|[<-|[<-|[<-|[<-|[<-|[<-|[<-|[<-|[<-|[<-|[]]]]]]]]]]]]]]]; reflexivity.
    + reflexivity.
    + destruct O as [F|(u & E & F)]; destruct (fraction_number _ F) as (c & a & b & E1 & C & _).
      * rewrite E1. cbn [app]. unfold piece_of. rewrite (digit_letter c C), C.
        change (c :: a ++ "."%char :: b) with ((c :: a) ++ "."%char :: b). rewrite is_pointed, <- E1, str_txt. reflexivity.
      * rewrite E, E1. unfold piece_of. change (letter "-") with false. change (digit "-") with false.
        cbn [app]. rewrite Ascii.eqb_refl. destruct (Ascii.eqb_spec ">" c) as [<-|_]; [discriminate C|].
        change ("-"%char :: c :: a ++ "."%char :: b) with (("-"%char :: c :: a) ++ "."%char :: b). rewrite is_pointed.
        cbn [app]. change (c :: a ++ "."%char :: b) with ((c :: a) ++ "."%char :: b). rewrite <- E1, <- E, str_txt. reflexivity.
    + destruct O as (u & E & D). apply digits_iff in D. destruct D as (c & a & -> & C & D). rewrite E. unfold piece_of.
      change (letter "-") with false. change (digit "-") with false. rewrite Ascii.eqb_refl.
      destruct (Ascii.eqb_spec ">" c) as [<-|_]; [discriminate C|].
      change (pointed ("-"%char :: c :: a)) with (pointed (c :: a)).
      rewrite digit_not_pointed by (cbn [forallb]; now rewrite C, D). rewrite <- E, str_txt. reflexivity.
    + apply digits_iff in O. destruct O as (c & a & E & C & D). rewrite E. unfold piece_of.
      rewrite (digit_letter c C), C. rewrite digit_not_pointed by (cbn [forallb]; now rewrite C, D).
      rewrite <- E, str_txt. reflexivity.
    + unfold piece_of. change (letter quote) with false. change (digit quote) with false.
      change (Ascii.eqb "-" quote) with false. rewrite Ascii.eqb_refl. rewrite app_length. cbn [length].
      replace (length (txt t) + 1 - 1) with (length (txt t)) by lia. rewrite firstn_length_app, str_txt. reflexivity.
  - destruct O as [->|[->| ->]]; reflexivity.
  - reflexivity.
  - reflexivity.
  - cbn [txt list_ascii_of_string app]. unfold piece_of. change (letter "/") with false. change (digit "/") with false.
    change (Ascii.eqb "-" "/") with false. change (Ascii.eqb quote "/") with false. change (Ascii.eqb newline "/") with false.
    change (white "/") with false. rewrite Ascii.eqb_refl. change (Ascii.eqb "/" "*") with false.
    rewrite app_length. cbn [length]. replace (length t + 2 - 2) with (length t) by lia. rewrite firstn_length_app. reflexivity.
Qed.

Definition block (p : piece) : Prop := exists t, p = Block_comment t.

Lemma span_here : forall t r, ~ In newline t -> r = [] \/ starts_with (eq newline) r -> span dot (t ++ r) = length t.
Proof.
  intros t r N H. rewrite span_app by now apply no_newline. destruct H as [->|(c & u & -> & <-)]; [cbn; lia|]. cbn [span]. change (dot newline) with false. cbn. lia.
Qed.

Lemma piece_length : forall p rest, piece_ok p -> apart p rest -> ~ block p ->
  exists c s, piece_text p ++ rest = c :: s /\ snd (next c s) = length (piece_text p).
Proof.
  intros [l|c| |t|t] rest O A B.
  - destruct (next_token l rest O A) as (c & s & E & N). exists c, s. cbn [piece_text]. rewrite N. auto.
  - exists c, rest. split; [reflexivity|]. apply white_iff in O. rewrite (next_white c rest O). reflexivity.
  - exists newline, rest. split; reflexivity.
  - exists "/"%char, ("/"%char :: t ++ rest). split; [reflexivity|]. rewrite next_slash, Ascii.eqb_refl.
    rewrite (span_here t rest O A). reflexivity.
  - elim B. eexists. reflexivity.
Qed.

(** Only comments begin with a slash. *)
Lemma slash : forall p s, piece_ok p -> piece_text p ++ s = "/"%char :: skipn 1 (piece_text p ++ s) ->
  (exists t, p = Line_comment t) \/ block p.
Proof.
  intros p s O E. destruct p as [l|c| |t|t]; [| | | left; eauto | right; eexists; eauto]; exfalso.
  - destruct (piece_of_text (Token l) O). cbn [piece_text] in *.
    assert (H : exists u, lexeme_text l = "/"%char :: u).
    { destruct l as [w|c| |t|t|t|t]; cbn [lexeme_ok lexeme_text piece_ok] in *.
      - destruct O as (c & t & H & _). rewrite H in *. injection E as ->. eauto.
      - injection E as ->. eauto.
      - discriminate E.
      - destruct O as [F|(u & H & F)]; [|rewrite H in E; discriminate].
        destruct (fraction_number _ F) as (c & a & b & H & _). rewrite H in *. injection E as ->. eexists. reflexivity.
      - destruct O as (u & H & _). rewrite H in E. discriminate E.
      - apply digits_iff in O. destruct O as (c & a & H & _). rewrite H in *. injection E as ->. eauto.
      - discriminate E. }
    destruct H as (u & H). pose proof (piece_of_text (Token l) O) as P. cbn [piece_text] in P. rewrite H in P.
    unfold piece_of in P. change (letter "/") with false in P. change (digit "/") with false in P.
    change (Ascii.eqb "-" "/") with false in P. change (Ascii.eqb quote "/") with false in P.
    change (Ascii.eqb newline "/") with false in P.
    change (white "/") with false in P. rewrite Ascii.eqb_refl in P.
    destruct u as [|d u]; [discriminate P|]. destruct (Ascii.eqb "/" d); discriminate P.
  - injection E as ->. destruct O as [O|[O|O]]; discriminate O.
  - discriminate E.
Qed.

Lemma first_end : forall t u r r', piece_ok (Block_comment t) -> piece_ok (Block_comment u) ->
  t ++ txt "*/" ++ r = u ++ txt "*/" ++ r' -> t = u.
Proof.
  assert (H : forall t u r r', piece_ok (Block_comment u) -> length t <= length u ->
    t ++ txt "*/" ++ r = u ++ txt "*/" ++ r' -> t = u).
  { intros t u r r' U L E.
    assert (F : exists v, u = t ++ v).
    { exists (skipn (length t) u). rewrite <- (firstn_skipn (length t) u) at 1. f_equal.
      apply (f_equal (firstn (length t))) in E. rewrite firstn_length_app, firstn_app in E.
      replace (length t - length u) with 0 in E by lia. rewrite app_nil_r in E. now symmetry. }
    destruct F as (v & ->). rewrite <- app_assoc in E. apply app_inv_head in E.
    destruct v as [|a v]; [now rewrite app_nil_r|]. exfalso.
    assert (X : exists y, (t ++ a :: v) ++ txt "*/" = t ++ txt "*/" ++ y /\ y <> []).
    { cbn in E. injection E as <- E. destruct v as [|b v].
      - cbn in E. discriminate E.
      - injection E as <- _. exists (v ++ txt "*/"). split; [rewrite <- app_assoc; reflexivity|]. destruct v; discriminate. }
    destruct X as (y & X & Y). exact (Y (U _ _ X)). }
  intros t u r r' T U E. destruct (le_ge_dec (length t) (length u)) as [L|L]; [exact (H _ _ _ _ U L E)|].
  symmetry. exact (H _ _ _ _ T L (eq_sym E)).
Qed.

Lemma same_piece : forall p q r r', piece_ok p -> piece_ok q -> apart p r -> apart q r' ->
  piece_text p ++ r = piece_text q ++ r' -> p = q /\ r = r'.
Proof.
  intros p q r r' P Q A A' E.
  assert (T : p = q -> p = q /\ r = r') by (intros ->; split; [reflexivity|]; now apply app_inv_head in E).
  apply T. assert (D : forall x, block x \/ ~ block x).
  { intros x. destruct x; [right|right|right|right|left; eexists; reflexivity]; intros [? X]; discriminate. }
  destruct (D p) as [BP|BP], (D q) as [BQ|BQ].
  - destruct BP as (t & ->), BQ as (u & ->). f_equal. cbn [piece_text] in E. rewrite <- !app_assoc in E.
    apply app_inv_head in E. exact (first_end _ _ _ _ P Q E).
  - destruct BP as (t & ->). exfalso. destruct (slash q r' Q) as [(u & ->)|X]; [rewrite <- E; reflexivity | discriminate E | exact (BQ X)].
  - destruct BQ as (t & ->). exfalso. destruct (slash p r P) as [(u & ->)|X]; [rewrite E; reflexivity | discriminate E | exact (BP X)].
  - destruct (piece_length p r P A BP) as (c & s & H & N), (piece_length q r' Q A' BQ) as (c' & s' & H' & N').
    assert (X : piece_text p = piece_text q).
    { rewrite <- (firstn_length_app (piece_text p) r), <- (firstn_length_app (piece_text q) r'), E. f_equal.
      rewrite <- N, <- N'. rewrite E, H' in H. injection H as -> ->. reflexivity. }
    rewrite <- (piece_of_text p P), <- (piece_of_text q Q), X. reflexivity.
Qed.

Lemma text_not_nil : forall p, piece_ok p -> piece_text p <> [].
Proof.
  intros p O E. destruct p as [l|c| |t|t]; try discriminate E. cbn [piece_text] in E.
  destruct l as [w|c| |t|t|t|t]; cbn [lexeme_ok lexeme_text piece_ok] in *; try discriminate E.
  - destruct O as (c & t & H & _). congruence.
  - destruct O as [F|(u & H & F)]; [|congruence]. destruct (fraction_number _ F) as (c & a & b & H & _). rewrite H in E. discriminate E.
  - destruct O as (u & H & _). congruence.
  - destruct O as [N _]. now elim N.
Qed.

Definition ended (tail : text) : Prop := tail = [] \/ open_comment tail \/ stray tail.

Lemma ended_no_piece : forall tail p rest, ended tail -> piece_ok p -> tail <> piece_text p ++ rest.
Proof.
  intros tail p rest [->|[(u & -> & N)|S]] O E.
  - symmetry in E. apply app_eq_nil in E. exact (text_not_nil p O (proj1 E)).
  - destruct (slash p rest O) as [(t & ->)|(t & ->)]; [rewrite <- E; reflexivity | discriminate E|].
    cbn [piece_text] in E. rewrite <- !app_assoc in E. apply app_inv_head in E. exact (N _ _ E).
  - exact (proj2 (proj2 S) p rest O E).
Qed.

Lemma one_layout : forall ps qs t u, laid_before ps t -> laid_before qs u -> ended t -> ended u ->
  text_of ps ++ t = text_of qs ++ u -> ps = qs /\ t = u.
Proof.
  induction ps as [|p ps IH]; intros [|q qs] t u P Q T U E.
  - auto.
  - exfalso. destruct Q as (Q & _). cbn in E. rewrite <- app_assoc in E. exact (ended_no_piece _ _ _ T Q E).
  - exfalso. destruct P as (P & _). cbn in E. rewrite <- app_assoc in E. exact (ended_no_piece _ _ _ U P (eq_sym E)).
  - destruct P as (P & A & L), Q as (Q & B & M). cbn [text_of flat_map] in E. fold (text_of ps) in E. fold (text_of qs) in E.
    rewrite <- !app_assoc in E. destruct (same_piece p q _ _ P Q A B E) as [-> E']. destruct (IH qs t u L M T U E') as [-> ->]. auto.
Qed.
