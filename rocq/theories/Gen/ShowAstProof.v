(** Different trees are printed differently (C68). *)

From Coq Require Import String.
From Coq Require Import List Ascii Bool Arith Lia ZArith DecimalString DecimalNat.
From Verif Require Import Base.Outcome Front.LexerModel Front.ScannerModel Front.ScannerSpec Front.Syntax Front.MessageModel
  Gen.ShowAstModel Gen.ShowAstSpec.
Import ListNotations.
Local Open Scope list_scope.

(** * Reading one thing *)

Definition stops (f : ascii -> bool) (r : text) : Prop := match r with [] => True | c :: _ => f c = false end.
Lemma token_inj : forall f (n m r s : text), Forall (fun c => f c = true) n -> Forall (fun c => f c = true) m ->
  stops f r -> stops f s -> n ++ r = m ++ s -> n = m /\ r = s.
Proof.
  intros f. induction n as [|c n IH]; intros [|d m] r s Hn Hm Hr Hs H; cbn [app] in H.
  - auto.
  - subst r. cbn [stops] in Hr. inversion Hm; congruence.
  - subst s. cbn [stops] in Hs. inversion Hn; congruence.
  - inversion Hn; inversion Hm; subst. injection H as -> H. destruct (IH m r s) as [-> ->]; auto.
Qed.

Definition word_chars : text := txt "ABCDEFGHIJKLMNOPQRSTUVWXYZabcdefghijklmnopqrstuvwxyz0123456789_".
Definition wordb (c : ascii) : bool := existsb (Ascii.eqb c) word_chars.
Lemma in_word_chars : forall c, in_word c -> In c word_chars.
Proof.
  intros c H. change word_chars with (txt "ABCDEFGHIJKLMNOPQRSTUVWXYZabcdefghijklmnopqrstuvwxyz" ++ txt "0123456789" ++ txt "_").
  rewrite !in_app_iff. destruct H as [H | [H | ->] ]; [left; exact H|right; left; exact H|right; right; now left].
Qed.
Lemma in_wordb : forall c, in_word c -> wordb c = true.
Proof. intros c H. apply existsb_exists. exists c. split; [now apply in_word_chars|apply Ascii.eqb_refl]. Qed.
Lemma b_word : forall i, forallb wordb i = true -> Forall in_word i.
Proof.
  intros i H. rewrite Forall_forall. rewrite forallb_forall in H. intros c I. apply H in I. apply existsb_exists in I.
  destruct I as (d & I & E). apply Ascii.eqb_eq in E as <-.
  change word_chars with (txt "ABCDEFGHIJKLMNOPQRSTUVWXYZabcdefghijklmnopqrstuvwxyz" ++ txt "0123456789" ++ ["_"%char]) in I.
  rewrite !in_app_iff in I. destruct I as [I | [I | [<- | [] ] ] ]; [left; exact I|right; left; exact I|right; right; reflexivity].
Qed.
Lemma word_b : forall i, word i -> Forall (fun c => wordb c = true) i.
Proof. intros i [_ H]. eapply Forall_impl; [|exact H]. exact in_wordb. Qed.
Lemma lower_wordb : forall c, in_word c -> wordb (lower_byte c) = true.
Proof.
  intros c H. apply in_word_chars in H.
  assert (A : forallb (fun c => wordb (lower_byte c)) word_chars = true) by (vm_compute; reflexivity).
  rewrite forallb_forall in A. now apply A.
Qed.
Lemma lower_b : forall i, word i -> Forall (fun c => wordb c = true) (ID_LWR i).
Proof. intros i [_ H]. unfold ID_LWR. apply Forall_map. eapply Forall_impl; [|exact H]. exact lower_wordb. Qed.
Lemma word_inj : forall n m r s, word n -> word m -> stops wordb r -> stops wordb s -> n ++ r = m ++ s -> n = m /\ r = s.
Proof. intros n m r s A B. apply token_inj; now apply word_b. Qed.
Lemma lower_inj : forall n m r s, word n -> word m -> stops wordb r -> stops wordb s ->
  ID_LWR n ++ r = ID_LWR m ++ s -> ID_LWR n = ID_LWR m /\ r = s.
Proof. intros n m r s A B. apply token_inj; now apply lower_b. Qed.
(** A word begins with none of the characters that end one. *)
Lemma word_head : forall i r, word i -> exists c t, i ++ r = c :: t /\ wordb c = true.
Proof.
  intros i r H. assert (B := word_b i H). destruct H as [H _]. destruct i as [|c i]; [contradiction|]. inversion B; subst.
  exists c, (i ++ r). auto.
Qed.

(** ** Numbers *)
Definition numb (c : ascii) : bool := existsb (Ascii.eqb c) (txt "0123456789-").
Lemma string_digits : forall u, Forall (fun c => numb c = true /\ c <> "-"%char /\ wordb c = true /\ c <> "_"%char) (txt (NilEmpty.string_of_uint u)).
Proof. unfold txt. induction u; cbn [NilEmpty.string_of_uint list_ascii_of_string]; constructor; trivial; repeat split; try discriminate; vm_compute; reflexivity. Qed.
Lemma txt_inj : forall x y, txt x = txt y -> x = y.
Proof. intros x y H. rewrite <- (string_of_list_ascii_of_string x), <- (string_of_list_ascii_of_string y). unfold txt in H. now rewrite H. Qed.
Lemma digits_inj : forall k l, digits_of k = digits_of l -> k = l.
Proof.
  intros k l H. apply txt_inj in H. apply (f_equal NilEmpty.uint_of_string) in H. rewrite !NilEmpty.usu in H. injection H as H.
  now apply Unsigned.to_uint_inj in H.
Qed.
Lemma digits_some : forall k, digits_of k <> [].
Proof.
  intros [|k] H; [discriminate|]. assert (Z : Nat.of_uint (Nat.to_uint (S k)) = 0).
  { unfold digits_of in H. destruct (Nat.to_uint (S k)); cbn in H; try discriminate. reflexivity. }
  rewrite Unsigned.of_to in Z. discriminate.
Qed.
Lemma digits_chars : forall k, Forall (fun c => numb c = true) (digits_of k).
Proof. intros k. eapply Forall_impl; [|apply string_digits]. intros c H. apply H. Qed.
Lemma percent_chars : forall z, Forall (fun c => numb c = true) (percent_d z).
Proof. intros [|p|p]; cbn [percent_d]; [apply digits_chars|apply digits_chars|constructor; [reflexivity|apply digits_chars] ]. Qed.
Lemma percent_some : forall z, exists c t, percent_d z = c :: t /\ numb c = true.
Proof.
  intros z. assert (A := percent_chars z). destruct (percent_d z) as [|c t] eqn:E.
  - exfalso. destruct z; cbn [percent_d] in E; try discriminate; now apply digits_some in E.
  - inversion A; subst. eauto.
Qed.
Lemma digits_no_minus : forall k t, digits_of k <> "-"%char :: t.
Proof.
  intros k t H. assert (A := string_digits (Nat.to_uint k)). unfold digits_of in H. rewrite H in A. inversion A; subst.
  match goal with X : _ /\ _ |- _ => destruct X as (_ & X & _); now apply X end.
Qed.
Lemma percent_d_inj : forall y z, percent_d y = percent_d z -> y = z.
Proof.
  intros [|p|p] [|q|q]; cbn [percent_d]; intros H; trivial;
    try (exfalso; symmetry in H; now apply digits_no_minus in H); try (exfalso; now apply digits_no_minus in H).
  - apply digits_inj in H. assert (0 < Pos.to_nat q) by lia. lia.
  - apply digits_inj in H. assert (0 < Pos.to_nat p) by lia. lia.
  - apply digits_inj in H. now apply Pos2Nat.inj in H as ->.
  - injection H as H. apply digits_inj in H. now apply Pos2Nat.inj in H as ->.
Qed.
Lemma number_inj : forall y z r s, stops numb r -> stops numb s -> percent_d y ++ r = percent_d z ++ s -> y = z /\ r = s.
Proof.
  intros y z r s A B H. apply (token_inj numb) in H; auto using percent_chars. destruct H as [H ->]. now apply percent_d_inj in H.
Qed.
Lemma underscore_split : forall n m d e : text, ~ In "_"%char d -> ~ In "_"%char e -> n ++ txt "_" ++ d = m ++ txt "_" ++ e -> n = m /\ d = e.
Proof.
  cbn [txt list_ascii_of_string app]. induction n as [|c n IH]; intros m d e Hd He H.
  - destruct m as [|c' m]; cbn [app] in H; [injection H as ->; auto|]. injection H as <- H. exfalso. apply Hd. rewrite H.
    apply in_or_app. right. now left.
  - destruct m as [|c' m]; cbn [app] in H.
    + injection H as -> H. exfalso. apply He. rewrite <- H. apply in_or_app. right. now left.
    + injection H as <- H. destruct (IH m d e Hd He H) as [-> ->]. auto.
Qed.
Lemma no_underscore : forall k, ~ In "_"%char (digits_of k).
Proof. intros k H. assert (A := string_digits (Nat.to_uint k)). rewrite Forall_forall in A. apply A in H. now destruct H as (_ & _ & _ & H). Qed.
Lemma label_chars : forall n i, word n -> Forall (fun c => wordb c = true) (visit_label n i).
Proof.
  intros n i H. unfold visit_label. rewrite !Forall_app. split; [now apply lower_b|]. split; [repeat constructor|].
  eapply Forall_impl; [|apply string_digits]. intros c X. apply X.
Qed.
Lemma label_inj : forall n m i j r s, word n -> word m -> stops wordb r -> stops wordb s ->
  visit_label n i ++ r = visit_label m j ++ s -> ID_LWR n = ID_LWR m /\ i = j /\ r = s.
Proof.
  intros n m i j r s A B C D H. apply (token_inj wordb) in H; auto using label_chars. destruct H as [H ->].
  apply underscore_split in H; auto using no_underscore. destruct H as [-> H]. apply digits_inj in H. auto.
Qed.

(** * Reading many things *)

Definition exact {A B} (good : A -> Prop) (rest : text -> Prop) (p : A -> text) (v : A -> B) : Prop :=
  forall x y r s, good x -> good y -> rest r -> rest s -> p x ++ r = p y ++ s -> v x = v y /\ r = s.
Definition any (_ : text) : Prop := True.
Lemma each_exact : forall {A B} (good : A -> Prop) (starts : text -> Prop) p (v : A -> B), exact good any p v ->
  (forall x r, good x -> starts (p x ++ r)) -> exact (Forall good) (fun r => ~ starts r) (each p) (map v).
Proof.
  intros A B good starts p v E S. intros xs. induction xs as [|x xs IH]; intros [|y ys] r s Gx Gy Hr Hs H;
    cbn [each flat_map map app] in *.
  - auto.
  - exfalso. apply Hr. rewrite H, <- app_assoc. apply S. now inversion Gy.
  - exfalso. apply Hs. rewrite <- H, <- app_assoc. apply S. now inversion Gx.
  - rewrite <- !app_assoc in H. inversion Gx; inversion Gy; subst.
    destruct (E x y _ _ ltac:(assumption) ltac:(assumption) I I H) as [-> H'].
    destruct (IH ys r s) as [-> ->]; auto.
Qed.
(** Whether the lines of a list go on is seen at one place. *)
Definition at_place (k : nat) (c : ascii) (t : text) : Prop := nth_error t k = Some c.
Lemma at_indent : forall j k r, j < k -> at_place j " "%char (PrintIndent k ++ r).
Proof.
  intros j k r H. unfold at_place, PrintIndent. rewrite nth_error_app1 by (rewrite repeat_length; exact H).
  rewrite (nth_error_nth' _ " "%char) by (rewrite repeat_length; exact H). now rewrite nth_repeat.
Qed.

Ltac const H := apply app_inv_head in H.
Ltac side := first [assumption | exact eq_refl | exact I | tauto].
Ltac read_word H := apply word_inj in H; [destruct H as [? H] | side ..].
Ltac read_number H := apply number_inj in H; [destruct H as [? H] | side ..].

Lemma actions_exact : exact (fun x : ident * Z => word (fst x)) any (PRTiactions 8) (fun x => x).
Proof.
  intros [n z] [m y] r s Gx Gy _ _ H. cbn [fst] in *. unfold PRTiactions in H. cbn [fst snd] in H. rewrite <- !app_assoc in H.
  const H. read_word H. const H. read_number H. const H. subst. auto.
Qed.

Lemma members_exact : forall k, exact (fun l => Forall word (members l)) (fun r => ~ exists n t, word n /\ r = PrintIndent k ++ n ++ nl ++ t)
  (PRTsetliteral k) members.
Proof.
  intros k.
  assert (E : forall l, PRTsetliteral k l = each (fun n => PrintIndent k ++ n ++ nl) (members l)).
  { induction l as [|n x IHx y IHy]; [reflexivity|]. cbn [PRTsetliteral members each flat_map]. rewrite IHx, IHy. unfold each.
    rewrite flat_map_app, <- !app_assoc. reflexivity. }
  assert (X := each_exact word (fun r => exists n t, word n /\ r = PrintIndent k ++ n ++ nl ++ t) (fun n => PrintIndent k ++ n ++ nl) (fun n => n)).
  intros x y r s Gx Gy Hr Hs H. rewrite !E in H. apply X in H; auto.
  - rewrite !map_id in H. exact H.
  - intros n m r' s' A B _ _ H'. rewrite <- !app_assoc in H'. const H'. read_word H'. const H'. auto.
  - intros n r' A. exists n, r'. rewrite <- !app_assoc. auto.
Qed.

Lemma lifetime_range_exact : forall (x y : option Z) r s, (exists c t, r = c :: t /\ numb c = false) -> (exists c t, s = c :: t /\ numb c = false) ->
  PRTlifetime_range x ++ r = PRTlifetime_range y ++ s -> x = y /\ r = s.
Proof.
  intros x y r s (c & t & -> & C) (d & u & -> & D) H. destruct x as [x|], y as [y|]; cbn [PRTlifetime_range app] in H.
  - read_number H. subst. auto.
  - destruct (percent_some x) as (e & w & E & F). rewrite E in H. cbn [app] in H. injection H as -> _. congruence.
  - destruct (percent_some y) as (e & w & E & F). rewrite E in H. cbn [app] in H. injection H as -> _. congruence.
  - auto.
Qed.
Lemma lifetime_exact : forall k, exact (fun _ => True) any (PRTilifetime k) shown_lifetime.
Proof.
  intros k [tx bx ex] [ty by_ ey] r s _ _ _ _ H. unfold PRTilifetime, shown_lifetime in *. cbn [fl_type fl_begin fl_end] in *.
  rewrite <- !app_assoc in H. const H.
  assert (T : match tx with LT_mandatory => true | _ => false end = match ty with LT_mandatory => true | _ => false end /\
    PRTlifetime_range bx ++ txt " -> " ++ PRTlifetime_range ex ++ txt ")" ++ nl ++ r =
    PRTlifetime_range by_ ++ txt " -> " ++ PRTlifetime_range ey ++ txt ")" ++ nl ++ s).
  { destruct tx, ty; cbn [txt list_ascii_of_string app] in H; try discriminate H; injection H as H; split; trivial. }
  clear H. destruct T as [-> H]. apply lifetime_range_exact in H; [|eexists; eexists; split; [reflexivity|reflexivity]..].
  destruct H as [-> H]. const H. apply lifetime_range_exact in H; [|eexists; eexists; split; [reflexivity|reflexivity]..].
  destruct H as [-> H]. const H. const H. auto.
Qed.
Lemma type_word : forall t i, word i -> word (print_attribute_type t i).
Proof.
  intros t i H. destruct t; cbn [print_attribute_type]; trivial; (split; [discriminate|]); apply b_word; vm_compute; reflexivity.
Qed.
Lemma type_inj : forall t u i j, ~ In i type_words -> ~ In j type_words -> print_attribute_type t i = print_attribute_type u j ->
  shown_type t i = shown_type u j.
Proof.
  intros t u i j Hi Hj H.
  destruct t, u; cbn [print_attribute_type shown_type] in *; try discriminate H; try reflexivity; try (f_equal; exact H);
    exfalso; first [ apply Hi; rewrite H; cbn [type_words map In]; tauto | apply Hj; rewrite <- H; cbn [type_words map In]; tauto ].
Qed.
Lemma attribute_exact : exact attribute_words any (PRTattribute 8) shown_attribute.
Proof.
  intros [nx tx rx cx sx ix lx] [ny ty ry cy sy iy ly] r s (Wx & Vx & Ox) (Wy & Vy & Oy) _ _ H. unfold PRTattribute, shown_attribute in *.
  cbn [fa_name fa_type fa_reference fa_constructor fa_synthesized fa_inherited fa_lifetimes] in *. rewrite <- !app_assoc in H.
  const H. apply (type_word tx) in Vx. apply (type_word ty) in Vy. apply word_inj in H; [destruct H as [T H]|side..]. apply type_inj in T; [|assumption|assumption]. const H. read_word H. const H.
  assert (L := each_exact (fun _ : final_lifetime => True) (at_place 8 " "%char) (PRTilifetime 12) shown_lifetime (lifetime_exact 12)).
  specialize (L ltac:(intros x t _; unfold PRTilifetime; rewrite <- !app_assoc; apply at_indent; lia)).
  assert (F : forall l : list final_lifetime, Forall (fun _ => True) l) by (intros l; now apply Forall_forall).
  assert (M : forall r s, each (PRTilifetime 12) lx ++ PrintIndent 8 ++ txt "}" ++ txt "}" ++ nl ++ r =
    each (PRTilifetime 12) ly ++ PrintIndent 8 ++ txt "}" ++ txt "}" ++ nl ++ s -> map shown_lifetime lx = map shown_lifetime ly /\ r = s).
  { intros r' s' E. apply L in E; [|apply F|apply F|discriminate|discriminate]. destruct E as [E1 E2]. const E2. const E2. const E2. const E2. auto. }
  clear L. 
  assert (G : (cx, sx, ix) = (cy, sy, iy) /\ (map shown_lifetime lx = map shown_lifetime ly /\ r = s)).
  { change (8 + 4) with 12 in H.
    destruct lx as [|x lx], ly as [|y ly].
    - destruct cx, sx, ix, cy, sy, iy; cbn [orb txt list_ascii_of_string app] in H; try discriminate H; (split; [reflexivity|]);
        injection H as H; exact (conj eq_refl H).
    - destruct cx, sx, ix, cy, sy, iy; cbn [orb txt list_ascii_of_string app] in H; discriminate H.
    - destruct cx, sx, ix, cy, sy, iy; cbn [orb txt list_ascii_of_string app] in H; discriminate H.
    - revert M H. generalize (each (PRTilifetime 12) (x :: lx)) (each (PRTilifetime 12) (y :: ly)). intros ex ey M H.
      destruct cx, sx, ix, cy, sy, iy; cbn [orb txt list_ascii_of_string app] in H; try discriminate H; (split; [reflexivity|]);
        injection H as H; apply M; rewrite <- !app_assoc in H; exact H. }
  destruct G as [G1 [G2 ->] ]. injection G1 as -> -> ->. rewrite G2, T. subst. auto.
Qed.

(** ** References *)
Lemma reference_exact : exact reference_words (stops wordb) PRTattribute_reference shown_reference.
Proof.
  intros [ix tx ax] [iy ty ay] r s (Ix & Tx & Ax) (Iy & Ty & Ay) Hr Hs H. unfold PRTattribute_reference, shown_reference in *.
  cbn [fr_inode fr_type fr_attribute] in *.
  destruct ix as [ix|], iy as [iy|]; cbn [optional_word] in *.
  - destruct tx as [tx|], ty as [ty|]; cbn [optional_word] in *; rewrite <- ?app_assoc in H; cbn [app] in H.
    + read_word H. const H. read_word H. const H. const H. read_word H. subst. auto.
    + read_word H. discriminate H.
    + read_word H. discriminate H.
    + read_word H. const H. read_word H. subst. auto.
  - exfalso. rewrite <- !app_assoc in H. destruct (word_head ix ((match tx with None => [] | Some t => txt "<" ++ t ++ txt ">" end) ++ txt "." ++ ax ++ r) Ix) as (c & t & E & C).
    rewrite E in H. cbn [txt list_ascii_of_string app] in H. injection H as -> _. discriminate C.
  - exfalso. rewrite <- !app_assoc in H. destruct (word_head iy ((match ty with None => [] | Some t => txt "<" ++ t ++ txt ">" end) ++ txt "." ++ ay ++ s) Iy) as (c & t & E & C).
    rewrite E in H. cbn [txt list_ascii_of_string app] in H. injection H as <- _. discriminate C.
  - rewrite <- !app_assoc in H. const H. const H. read_word H. subst. auto.
Qed.
Lemma reference_head : forall x r, reference_words x -> exists c t, PRTattribute_reference x ++ r = c :: t /\ c <> "}"%char.
Proof.
  intros [ix tx ax] r (Ix & _). unfold PRTattribute_reference. cbn [fr_inode fr_type fr_attribute] in *. destruct ix as [i|].
  - rewrite <- !app_assoc. cbn [optional_word] in Ix. destruct (word_head i ((match tx with None => [] | Some t => txt "<" ++ t ++ txt ">" end) ++ txt "." ++ ax ++ r) Ix) as (c & t & E & C).
    exists c, t. split; [exact E|]. intros ->. discriminate C.
  - eexists; eexists; split; [reflexivity|discriminate].
Qed.
(** After a list of references comes a brace. *)
Lemma references_exact : exact (Forall reference_words) (fun r => exists t, r = "}"%char :: t) PRTreferences (map shown_reference).
Proof.
  assert (C : forall x l, PRTreferences (x :: l) = PRTattribute_reference x ++ match l with [] => [] | _ => txt ", " ++ PRTreferences l end).
  { intros x [|y l]; cbn [PRTreferences]; rewrite ?app_nil_r; reflexivity. }
  intros xs. induction xs as [|x xs IH]; intros [|y ys] r s Gx Gy Hr Hs H.
  - auto.
  - exfalso. inversion Gy; subst. rewrite C, <- app_assoc in H. destruct Hr as [t ->]. cbn [PRTreferences app] in H.
    match type of H with _ = PRTattribute_reference y ++ ?q => destruct (reference_head y q ltac:(assumption)) as (c & u & E & N) end.
    rewrite E in H. injection H as <- _. now apply N.
  - exfalso. inversion Gx; subst. rewrite C, <- app_assoc in H. destruct Hs as [t ->]. cbn [PRTreferences app] in H.
    match type of H with PRTattribute_reference x ++ ?q = _ => destruct (reference_head x q ltac:(assumption)) as (c & u & E & N) end.
    rewrite E in H. injection H as -> _. now apply N.
  - inversion Gx; inversion Gy; subst. rewrite !C, <- !app_assoc in H.
    destruct Hr as [t ->], Hs as [u ->].
    apply reference_exact in H; [|assumption|assumption|destruct xs; exact eq_refl|destruct ys; exact eq_refl].
    destruct H as [E H]. cbn [map]. rewrite E.
    destruct xs as [|x' xs], ys as [|y' ys].
    + cbn [app] in H. auto.
    + discriminate H.
    + discriminate H.
    + rewrite <- !app_assoc in H. const H. apply IH in H; [|assumption|assumption|eexists; reflexivity|eexists; reflexivity].
      destruct H as [-> ->]. auto.
Qed.
Ltac read_references H := apply references_exact in H; [destruct H as [? H]|side|side|eexists; reflexivity|eexists; reflexivity].
Lemma equation_exact : exact equation_words any (PRTequation 8) shown_equation.
Proof.
  intros [rx ax] [ry ay] r s [Rx Ax] [Ry Ay] _ _ H. unfold PRTequation, shown_equation in *. cbn [fe_rule fe_args] in *.
  rewrite <- !app_assoc in H. const H. apply reference_exact in H; [destruct H as [? H]|side..].
  const H. const H. const H. const H. read_references H. const H. const H. const H. const H. const H.
  split; [congruence|exact H].
Qed.

(** ** Visits *)
Lemma alternative_exact : exact alternative_words (stops wordb) alternative shown_alternative.
Proof.
  intros [cx nx ix|nx] [cy ny iy|ny] r s Gx Gy Hr Hs H; cbn [alternative alternative_words shown_alternative] in *;
    rewrite <- ?app_assoc in H.
  - destruct Gx as [Cx Nx], Gy as [Cy Ny]. const H. apply lower_inj in H; [destruct H as [E H]|side..]. const H.
    apply label_inj in H; [destruct H as (F & -> & ->)|side..]. rewrite E, F. auto.
  - discriminate H.
  - discriminate H.
  - const H. read_word H. const H. subst. auto.
Qed.
Lemma alternatives_exact : forall xs ys k r s, Forall alternative_words xs -> Forall alternative_words ys ->
  PRTalternatives k xs ++ r = PRTalternatives k ys ++ s -> map shown_alternative xs = map shown_alternative ys /\ r = s.
Proof.
  induction xs as [|x xs IH]; intros [|y ys] k r s Gx Gy H; cbn [PRTalternatives map] in *.
  - const H. auto.
  - discriminate H.
  - discriminate H.
  - inversion Gx; inversion Gy; subst. rewrite <- !app_assoc in H. const H. const H. const H.
    apply alternative_exact in H; [|assumption|assumption|destruct xs; exact eq_refl|destruct ys; exact eq_refl].
    destruct H as [-> H]. apply IH in H; trivial. destruct H as [-> ->]. auto.
Qed.
(** What is printed if nothing aborts *)
Definition step_text (k : nat) (s : final_step) : text :=
  match s with
  | Eval _ => PrintIndent k ++ txt "eval " ++ nl
  | Step c n i l => PrintIndent k ++ alternative (Visit c n i) ++ PRTalternatives (k + 4) l
  end.
Lemma step_exact : forall k, exact step_words any (step_text k) shown_step.
Proof.
  intros k [rx|cx nx ix lx] [ry|cy ny iy ly] r s Gx Gy _ _ H; cbn [step_text shown_step step_words] in *; rewrite <- ?app_assoc in H; const H.
  - const H. const H. auto.
  - discriminate H.
  - discriminate H.
  - destruct Gx as (Cx & Nx & Lx), Gy as (Cy & Ny & Ly).
    apply alternative_exact in H; [|split; assumption|split; assumption|destruct lx; exact eq_refl|destruct ly; exact eq_refl].
    destruct H as [E H]. apply alternatives_exact in H; trivial. destruct H as [-> ->]. cbn [shown_alternative] in E.
    injection E as -> -> ->. auto.
Qed.
Definition visit_text (k : nat) (v : final_visit) : text :=
  PrintIndent k ++ visit_label (fv_node v) (fv_index v) ++ txt " (in: {" ++ PRTreferences (fv_inputs v) ++
  txt "} out: {" ++ PRTreferences (fv_outputs v) ++ txt "}) {" ++ nl ++ each (step_text (k + 4)) (fv_sequence v) ++ txt "}" ++ nl.
Lemma visit_exact : exact visit_words any (visit_text 4) shown_visit.
Proof.
  intros [nx ix ax bx qx] [ny iy ay by_ qy] r s (Nx & Ax & Bx & Qx) (Ny & Ay & By & Qy) _ _ H. unfold visit_text, shown_visit in *.
  cbn [fv_node fv_index fv_inputs fv_outputs fv_sequence] in *. rewrite <- !app_assoc in H. const H.
  apply label_inj in H; [destruct H as (E & -> & H)|side..]. const H. read_references H. const H. read_references H. const H. const H.
  apply (each_exact step_words (at_place 0 " "%char)) with (v := shown_step) in H; trivial.
  - destruct H as [F H]. const H. const H. split; [congruence|exact H].
  - apply step_exact.
  - intros x t _. destruct x; cbn [step_text]; rewrite <- !app_assoc; apply at_indent; lia.
  - discriminate.
  - discriminate.
Qed.
