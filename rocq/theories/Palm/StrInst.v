(** Concrete strings: witnesses and examples for StrProps.v. *)

From Coq Require Import List Ascii String NArith ZArith Bool Lia.
From Verif Require Import Base.Outcome Palm.StrModel Palm.StrSpec Palm.StrProof.
Import ListNotations.
Local Open Scope outcome_scope.

(** A string literal as the list of its bytes. *)
Definition str (s : string) : cstring := list_ascii_of_string s.

Ltac compute_holds := eexists; repeat split; vm_compute; reflexivity.

Lemma subst_example :
  exists b, STRsubstToken 7 (Some (str "aXXbXXX")) (Some (str "XX")) (Some (str "-long-")) = Val b
  /\ holds b (str "a-long-b-long-X").
Proof. eexists. split; [vm_compute; reflexivity|]. compute_holds. Qed.

Lemma empty_token_witness : exists s u, forall fuel,
  STRsubstToken fuel (Some s) (Some []) (Some u) = NoFuel.
Proof. exists (str "ab"), (str "c"). intros fuel. apply STRsubstToken_empty_token. Qed.

Lemma null_subst_witness : exists t u, forall fuel,
  STRsubstToken fuel None (Some t) (Some u) = Undef.
Proof. exists (str "ab"), (str "c"). reflexivity. Qed.

Lemma tokens_example :
  tokens 4 tok_init (str ";a,;b") (Some (str ",;"))
  = [Some []; Some (str "a"); Some []; Some (str "b"); None].
Proof. vm_compute. reflexivity. Qed.

Lemma tok_leak_witness : exists s sep st,
  let (st1, t1) := STRtok st (Some s) sep in
  let (st2, t2) := STRtok st1 None sep in
  t1 <> None /\ t2 = None /\ keep st2 <> None.
Proof.
  exists (str "ab"), (Some (str ",")), tok_init. vm_compute.
  split; [discriminate|]. split; [reflexivity|discriminate].
Qed.

Lemma null_comparisons : forall s n,
  STReq None (Some s) = false /\ STReq (Some s) None = false /\
  STReqci None None = Val true /\ STReqci None (Some s) = Val false /\
  STReqci (Some s) None = Val false /\
  STReqn None None n = true /\
  (STReqn None (Some s) n = true <-> n = 0%Z) /\ (STReqn (Some s) None n = true <-> n = 0%Z) /\
  STRprefix None (Some s) = true /\ STRprefix (Some s) None = false /\
  STRsub None (Some s) = true /\ STRsub (Some s) None = false.
Proof. intros s n. repeat split; simpl; try apply Z.eqb_eq. Qed.

Lemma suffix_null_witness : forall s,
  STRsuffix None (Some s) = Undef /\ STRsuffix (Some []) None = Undef.
Proof.
  intros s. split; [|reflexivity]. unfold STRsuffix, STRlen.
  destruct (Z.ltb_spec (Z.of_nat (List.length s)) 0); [lia|reflexivity].
Qed.

Lemma substr_witness :
  STRsubStr (Some (str "abc")) 1 INT_MAX = Undef /\
  STRsubStr (Some (str "abc")) (-1) 2 = Undef /\
  STRsubStr (Some (str "abc")) 0 (-4) = Undef.
Proof. repeat split; vm_compute; reflexivity. Qed.

Lemma cat_null : forall s,
  STRcat None (Some s) = STRcpy (Some s) /\ STRcat (Some s) None = STRcpy (Some s) /\
  STRcat None None = Val None /\ STRcpy None = Val None.
Proof. intros s. repeat split. Qed.

Lemma catn_empty_witness : forall debug,
  STRcatn debug [Some []; Some []; Some []] = Val None.
Proof. intros []; reflexivity. Qed.

Lemma construct_example :
  exists b1 b2 b3, STRsubStr (Some (str "hello")) 1 (-2) = Val b1 /\ holds b1 (str "ell") /\
    STRcatn true [Some (str "a"); None; Some (str "bc")] = Val b2 /\ holds b2 (str "abc") /\
    STRncpy (Some (str "hello")) 2 = Val b3 /\ holds b3 (str "he").
Proof.
  eexists. eexists. eexists.
  split; [vm_compute; reflexivity|]. split; [compute_holds|].
  split; [vm_compute; reflexivity|]. split; [compute_holds|].
  split; [vm_compute; reflexivity|]. compute_holds.
Qed.

Lemma toLower_inv (a la : cstring) : STRtoLower (Some a) = Val (Some la) ->
  Forall ctype_ok a /\ Forall2 lower_of a la.
Proof.
  intros H.
  assert (Hc : Forall ctype_ok a).
  { assert (D : {Forall ctype_ok a} + {~ Forall ctype_ok a}).
    { apply Forall_dec. exact ctype_dec. }
    destruct D as [D|D]; [exact D|]. assert (X := STRtoLower_undef a D). congruence. }
  split; [exact Hc|].
  destruct (conv_loop_ok tolower lower_of tolower_ok a Hc) as (r & Hr & Hm & _).
  unfold STRtoLower in H. rewrite Hm in H. simpl in H. injection H as <-. exact Hr.
Qed.

Lemma Forall2_lower_functional a l : Forall2 lower_of a l ->
  forall l', Forall2 lower_of a l' -> l = l'.
Proof.
  induction 1 as [|c d a l H _ IH]; intros l' H'; inversion H'; subst; [reflexivity|].
  f_equal; [eapply lower_of_functional; eassumption|apply IH; assumption].
Qed.

Lemma STRtoLower_idem : forall s r r',
  STRtoLower (Some s) = Val (Some r) -> STRtoLower (Some r) = Val (Some r') -> r' = r.
Proof.
  intros s r r' H H'. apply toLower_inv in H. apply toLower_inv in H'.
  destruct H as [_ H], H' as [_ H']. apply lower_idempotent in H.
  exact (Forall2_lower_functional _ _ H' _ H).
Qed.

Lemma eqci_lower : forall a b la lb,
  STRtoLower (Some a) = Val (Some la) -> STRtoLower (Some b) = Val (Some lb) ->
  STReqci (Some a) (Some b) = Val (STReq (Some la) (Some lb)).
Proof.
  intros a b la lb Ha Hb. apply toLower_inv in Ha. apply toLower_inv in Hb.
  destruct Ha as [Ca La], Hb as [Cb Lb].
  destruct (STReqci_correct a b Ca Cb) as (r & Hr & Hiff). rewrite Hr. f_equal.
  apply eq_true_iff_eq. rewrite Hiff, STReq_iff. split.
  - intros (l & H1 & H2). rewrite (Forall2_lower_functional _ _ La _ H1),
      (Forall2_lower_functional _ _ Lb _ H2). reflexivity.
  - intros [= ->]. eauto.
Qed.

Lemma case_example :
  STRtoLower (Some (str "AbC_1z")) = Val (Some (str "abc_1z")) /\
  STRtoUpper (Some (str "AbC_1z")) = Val (Some (str "ABC_1Z")) /\
  STReqci (Some (str "NodeSet")) (Some (str "nODEsET")) = Val true.
Proof. repeat split; vm_compute; reflexivity. Qed.
