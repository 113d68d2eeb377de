(** Deciding the hypotheses about the lexer, and example specifications. *)

From Coq Require Import String.
From Coq Require Import List Ascii Bool.
From Verif Require Import Base.Outcome Front.LexerModel Front.LexerSpec Front.LexerProof.
Import ListNotations.
Local Open Scope string_scope.
Local Open Scope list_scope.

Definition is_word (w : string) (l : lexeme) : bool := match l with Word v => String.eqb v w | _ => false end.
Definition otherb (l : lexeme) : bool := negb (is_word "enum" l) && negb (is_word "values" l).
Definition braceb (l : lexeme) : bool := match l with Symbol c => Ascii.eqb c "{" || Ascii.eqb c "}" | _ => false end.
Definition valueb (l : lexeme) : bool := match l with Word _ => true | Symbol _ => negb (braceb l) | _ => false end.
Definition well_formedb (p : part) : bool :=
  match p with
  | Enum m1 m2 vals => forallb (fun l => otherb l && negb (braceb l)) (m1 ++ m2) && forallb valueb vals
  | Other l => otherb l
  end.
Fixpoint no_enum_values (seen : bool) (vals : list lexeme) : bool :=
  match vals with
  | [] => true
  | l :: vals => negb (is_word "NULL" l) && negb (seen && is_word "values" l) &&
                 no_enum_values (seen || is_word "enum" l) vals
  end.
Definition manageableb (p : part) : bool :=
  match p with Enum _ _ vals => no_enum_values false vals | Other _ => true end.
Definition bad_nameb (l : lexeme) : bool :=
  match l with
  | Word w => existsb (String.eqb w) c99_words && negb (existsb (String.eqb w) language_words)
  | _ => false
  end.
Definition has_bad_nameb (p : part) : bool :=
  match p with Enum m1 m2 _ => existsb bad_nameb (m1 ++ m2) | Other l => bad_nameb l end.

Lemma is_word_true : forall w l, is_word w l = true <-> l = Word w.
Proof.
  intros w [v|c| |t|t|t|t]; cbn [is_word]; try (split; discriminate).
  rewrite String.eqb_eq. split; congruence.
Qed.
Lemma otherb_sound : forall l, otherb l = true -> other l.
Proof.
  intros l H. unfold otherb in H. apply andb_true_iff in H. destruct H as [A B].
  apply negb_true_iff in A. apply negb_true_iff in B.
  split; intros E; apply is_word_true in E; congruence.
Qed.
Lemma braceb_true : forall l, brace l -> braceb l = true.
Proof. intros l [-> | ->]; reflexivity. Qed.
Lemma well_formedb_sound : forall p, well_formedb p = true -> well_formed p.
Proof.
  intros [m1 m2 vals|l] H; cbn [well_formedb well_formed] in *; [|now apply otherb_sound].
  apply andb_true_iff in H. destruct H as [A B]. rewrite forallb_app in A. apply andb_true_iff in A.
  destruct A as [A1 A2]. rewrite forallb_forall in A1, A2, B.
  assert (O : forall l, otherb l && negb (braceb l) = true -> other l /\ ~ brace l).
  { intros l X. apply andb_true_iff in X. destruct X as [X Y]. split; [now apply otherb_sound|].
    intros Z. apply braceb_true in Z. rewrite Z in Y. discriminate. }
  split; [apply Forall_forall; auto|]. split; [apply Forall_forall; auto|].
  apply Forall_forall. intros l I. specialize (B l I). destruct l; cbn [valueb] in B; try discriminate; [left; eauto|].
  right. eexists. split; [reflexivity|]. intros Z. apply braceb_true in Z. rewrite Z in B. discriminate.
Qed.
Lemma no_enum_values_sound : forall vals seen, no_enum_values seen vals = true ->
  ~ In (Word "NULL") vals /\
  (forall a b, vals = a ++ b -> seen = true \/ In (Word "enum") a -> ~ In (Word "values") b).
Proof.
  induction vals as [|l vals IH]; intros seen H; cbn [no_enum_values] in H.
  - split; [intros []|]. intros [|] b E X; [cbn in E; subst b; intros []|discriminate].
  - apply andb_true_iff in H. destruct H as [H R]. apply andb_true_iff in H. destruct H as [N V].
    apply negb_true_iff in N. apply negb_true_iff in V. destruct (IH _ R) as [I1 I2]. split.
    + intros [E|E]; [apply is_word_true in E; congruence|contradiction].
    + intros a b E X. destruct a as [|x a].
      * cbn in E. subst b. destruct X as [->|[]]. cbn [andb] in V. intros [Y|Y].
        -- apply is_word_true in Y. congruence.
        -- exact (I2 [] vals eq_refl (or_introl eq_refl) Y).
      * cbn in E. injection E as <- E. apply (I2 a b E).
        destruct X as [->|[->|X]]; [now left|left; now rewrite orb_comm|now right].
Qed.
Lemma manageableb_sound : forall p, manageableb p = true -> manageable p.
Proof.
  intros [m1 m2 vals|l] H; [|exact I]. cbn [manageableb manageable] in *.
  destruct (no_enum_values_sound vals false H) as [A B]. split; [exact A|]. intros a b E X. apply (B a b E). now right.
Qed.
Lemma bad_nameb_complete : forall l, bad_name l -> bad_nameb l = true.
Proof.
  intros l (w & -> & C & K). cbn [bad_nameb]. apply andb_true_iff. split; [now apply existsb_eqb|].
  apply negb_true_iff. destruct (existsb _ _) eqn:E; [|reflexivity]. apply existsb_eqb in E. contradiction.
Qed.
Lemma has_bad_nameb_complete : forall p, has_bad_name p -> has_bad_nameb p = true.
Proof.
  intros [m1 m2 vals|l] H; cbn [has_bad_name has_bad_nameb] in *; [|now apply bad_nameb_complete].
  apply Exists_exists in H. destruct H as (x & I & B). apply existsb_exists. exists x. split; [exact I|now apply bad_nameb_complete].
Qed.

Lemma all_well_formed : forall ps, forallb well_formedb ps = true -> Forall well_formed ps.
Proof. intros ps H. apply Forall_forall. intros p I. rewrite forallb_forall in H. apply well_formedb_sound; auto. Qed.
Lemma all_manageable : forall ps, forallb manageableb ps = true -> Forall manageable ps.
Proof. intros ps H. apply Forall_forall. intros p I. rewrite forallb_forall in H. apply manageableb_sound; auto. Qed.
Lemma no_bad_name : forall ps, existsb has_bad_nameb ps = false -> ~ Exists has_bad_name ps.
Proof.
  intros ps H X. apply Exists_exists in X. destruct X as (p & I & B). apply has_bad_nameb_complete in B.
  assert (existsb has_bad_nameb ps = true) by (apply existsb_exists; eauto). congruence.
Qed.

(** The values "enum, values", then "; node n { children" *)
Definition tricky : list part :=
  [Enum [Word "e"] [] [Word "enum"; Symbol ","; Word "values"]; Other (Symbol ";"); Other (Word "node");
   Other (Word "n"); Other (Symbol "{"); Other (Word "children")].

Definition normal : list part :=
  [Other (Word "start"); Other (Word "phase"); Other (Word "p"); Other (Symbol "{"); Other (Symbol "}"); Other (Symbol ";");
   Enum [Word "op"] [Word "prefix"; Symbol "="; Word "OP"; Symbol ","]
     [Word "values"; Symbol ","; Word "node"; Symbol ","; Word "while"; Symbol ","; Word "enum"];
   Other (Symbol ";"); Other (Word "node"); Other (Word "values_of")].
