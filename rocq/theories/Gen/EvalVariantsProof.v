(** The call that is executed is the variant for the children that are NULL. *)

From Coq Require Import String.
From Coq Require Import List Ascii Bool Arith Lia Permutation.
From Verif Require Import Base.Outcome Palm.StrModel Front.Syntax Front.LifetimesModel Front.PropagateSpec
  Front.SymbolTableProof Gen.EvalVariantsModel Gen.EvalVariantsSpec.
Import ListNotations.
Local Open Scope list_scope.
Local Open Scope outcome_scope.

(** ** Numbers as sets of bits *)

Fixpoint number (l : list bool) : nat := match l with [] => 0 | b :: l => Nat.b2n b + 2 * number l end.

Lemma number_bit : forall l i, Nat.testbit (number l) i = nth i l false.
Proof.
  induction l as [|b l IH]; intros i; cbn [number].
  - rewrite Nat.bits_0. destruct i; reflexivity.
  - destruct i as [|i]; cbn [nth].
    + rewrite Nat.add_comm. apply Nat.add_b2n_double_bit0 || (rewrite Nat.add_comm; apply Nat.add_b2n_double_bit0).
    + rewrite <- IH. replace (Nat.b2n b + 2 * number l) with (2 * number l + Nat.b2n b) by lia.
      destruct b; cbn [Nat.b2n]; [apply Nat.testbit_odd_succ; lia|]. rewrite Nat.add_0_r. apply Nat.testbit_even_succ. lia.
Qed.

Lemma number_bound : forall l, number l < 2 ^ length l.
Proof. induction l as [|b l IH]; cbn [number length]; [cbn; lia|]. rewrite Nat.pow_succ_r'. destruct b; cbn [Nat.b2n]; lia. Qed.

Lemma subset_le : forall a b, (forall i, Nat.testbit a i = true -> Nat.testbit b i = true) -> a <= b.
Proof.
  intros a b H. apply Nat.ldiff_le. apply Nat.bits_inj_0. intros i. rewrite Nat.ldiff_spec.
  destruct (Nat.testbit a i) eqn:E; [|reflexivity]. rewrite (H i E). reflexivity.
Qed.

Lemma high_bits : forall k m i, m < 2 ^ k -> k <= i -> Nat.testbit m i = false.
Proof.
  intros k m i Hm Hi. destruct m as [|m]; [apply Nat.bits_0|]. apply Nat.bits_above_log2.
  apply Nat.lt_le_trans with k; [|exact Hi]. apply Nat.log2_lt_pow2; [lia|exact Hm].
Qed.

Lemma full : forall k m, m < 2 ^ k -> (forall i, i < k -> Nat.testbit m i = true) -> m = 2 ^ k - 1.
Proof.
  intros k m Hm H. assert (L : Nat.ones k <= m).
  { apply subset_le. intros i Hi. destruct (lt_dec i k) as [L|L]; [apply H; exact L|].
    rewrite Nat.ones_spec_high in Hi by lia. discriminate. }
  rewrite Nat.ones_equiv in L. lia.
Qed.

(** ** Lists *)

Lemma all_val : forall {X Y} (f : X -> outcome Y) g l, (forall x, In x l -> f x = Val (g x)) -> all f l = Val (map g l).
Proof.
  intros X Y f g. induction l as [|x l IH]; intros H; [reflexivity|].
  cbn [all map]. rewrite (H x) by (left; reflexivity). cbn [bind]. rewrite IH by (intros; apply H; right; assumption). reflexivity.
Qed.

Lemma all_in : forall {X Y} (f : X -> outcome Y) l r, all f l = Val r -> forall y, In y r -> exists x, In x l /\ f x = Val y.
Proof.
  intros X Y f. induction l as [|x l IH]; intros r H y Hy; cbn [all] in H.
  - injection H as <-. destruct Hy.
  - destruct (f x) as [y0| | | |] eqn:E; try discriminate H. cbn [bind] in H.
    destruct (all f l) as [r'| | | |] eqn:E'; try discriminate H. cbn [bind] in H. injection H as <-.
    destruct Hy as [<-|Hy]; [exists x; split; [left; reflexivity|exact E]|].
    destruct (IH _ eq_refl y Hy) as (x' & I & F). exists x'. split; [right; exact I|exact F].
Qed.

Lemma filter_agree : forall {X} (f g : X -> bool) l, (forall x, In x l -> f x = g x) -> filter f l = filter g l.
Proof.
  intros X f g. induction l as [|x l IH]; intros H; [reflexivity|]. cbn [filter].
  rewrite (H x) by (left; reflexivity). rewrite IH by (intros; apply H; right; assumption). reflexivity.
Qed.

Lemma not_nil : forall {X Y} (l : list X) (a b : Y), l <> [] -> match l with [] => a | _ :: _ => b end = b.
Proof. intros X Y l a b H. destruct l; [contradiction|reflexivity]. Qed.

(** ** The table *)

Section Table.
  Variable keys : list nat.
  Hypothesis once : NoDup keys.

  Lemma lookup_set : forall one zero m c,
    HTlookup_child (set_bitmask one zero keys m) c =
    match find (fun e => snd e =? c) (combine (seq 0 (length keys)) keys) with
    | Some e => Some (if Nat.testbit m (fst e) then one else zero)
    | None => None
    end.
  Proof.
    intros one zero m c. unfold HTlookup_child, set_bitmask. induction (combine _ keys) as [|e l IH]; [reflexivity|].
    cbn [map find fst]. destruct (snd e =? c); [reflexivity|exact IH].
  Qed.

  Lemma find_index : forall l k c, NoDup l -> find (fun e => snd e =? c) (combine (seq k (length l)) l) =
    match find (fun e => snd e =? c) (combine (seq k (length l)) l) with Some e => Some (fst e, c) | None => None end.
  Proof.
    intros l k c _. destruct (find _ _) as [e|] eqn:E; [|reflexivity]. apply find_some in E. destruct E as [_ E].
    apply Nat.eqb_eq in E. destruct e as [i d]. cbn in *. congruence.
  Qed.

  Lemma find_combine : forall l k c, NoDup l ->
    (forall i, nth_error l i = Some c -> find (fun e => snd e =? c) (combine (seq k (length l)) l) = Some (k + i, c)) /\
    (~ In c l -> find (fun e => snd e =? c) (combine (seq k (length l)) l) = None).
  Proof.
    induction l as [|d l IH]; intros k c N.
    - split; [intros i H; destruct i; discriminate|reflexivity].
    - cbn [length seq combine find snd]. inversion N as [|d' l' N1 N2]; subst. destruct (IH (S k) c N2) as [I1 I2]. split.
      + intros i H. destruct i as [|i]; cbn [nth_error] in H.
        * injection H as ->. rewrite Nat.eqb_refl, Nat.add_0_r. reflexivity.
        * destruct (d =? c) eqn:E.
          -- apply Nat.eqb_eq in E. subst. exfalso. apply N1. apply nth_error_In with i. exact H.
          -- rewrite (I1 i H). f_equal. f_equal. lia.
      + intros H. destruct (d =? c) eqn:E; [apply Nat.eqb_eq in E; exfalso; apply H; left; exact E|].
        apply I2. intros I. apply H. right. exact I.
  Qed.

  Lemma lookup_at : forall one zero m i c, nth_error keys i = Some c ->
    HTlookup_child (set_bitmask one zero keys m) c = Some (if Nat.testbit m i then one else zero).
  Proof. intros one zero m i c H. rewrite lookup_set. rewrite (proj1 (find_combine keys 0 c once) i H). reflexivity. Qed.
  Lemma lookup_out : forall one zero m c, ~ In c keys -> HTlookup_child (set_bitmask one zero keys m) c = None.
  Proof. intros one zero m c H. rewrite lookup_set. rewrite (proj2 (find_combine keys 0 c once) H). reflexivity. Qed.

  (** The table of a call: bit set, present; of a declaration: bit set,
      absent. *)
  Lemma call_null : forall m i c, nth_error keys i = Some c -> is_null (set_bitmask CH_TRUE CH_FALSE keys m) c = negb (Nat.testbit m i).
  Proof. intros m i c H. unfold is_null. rewrite (lookup_at _ _ m i c H). destruct (Nat.testbit m i); reflexivity. Qed.
  Lemma declaration_null : forall m i c, nth_error keys i = Some c -> is_null (set_bitmask CH_FALSE CH_TRUE keys m) c = Nat.testbit m i.
  Proof. intros m i c H. unfold is_null. rewrite (lookup_at _ _ m i c H). destruct (Nat.testbit m i); reflexivity. Qed.
  Lemma null_out : forall one zero m c, ~ In c keys -> is_null (set_bitmask one zero keys m) c = false.
  Proof. intros one zero m c H. unfold is_null. rewrite lookup_out by exact H. reflexivity. Qed.

  (** Every choice of absent children has its number. *)
  Definition choice (f : nat -> bool) : nat := number (map f keys).
  Lemma choice_bound : forall f, choice f < 2 ^ length keys.
  Proof. intros f. unfold choice. rewrite <- (map_length f keys). apply number_bound. Qed.
  Lemma choice_bit : forall f i c, nth_error keys i = Some c -> Nat.testbit (choice f) i = f c.
  Proof.
    intros f i c H. unfold choice. rewrite number_bit. apply (map_nth_error f) in H. apply nth_error_nth with (d := false) in H. exact H.
  Qed.
End Table.

(** ** Running *)

Lemma run_chain : forall null (f : nat -> branch) len a m call, a <= m < a + len ->
  (forall j, a <= j < m -> exists cs d, f j = (Some cs, d) /\ cs <> [] /\ forallb null cs = false) ->
  (f m = (None, call) \/ exists cs, f m = (Some cs, call) /\ cs <> [] /\ forallb null cs = true) ->
  run null (map f (seq a len)) = Val call.
Proof.
  intros null f. induction len as [|len IH]; intros a m call Hm Hb Hc; [lia|].
  cbn [seq map]. destruct (Nat.eq_dec a m) as [->|Ne].
  - destruct Hc as [E|(cs & E & N & T)]; rewrite E; cbn [run]; [reflexivity|]. destruct cs as [|x cs]; [contradiction|]. rewrite T. reflexivity.
  - destruct (Hb a ltac:(lia)) as (cs & d & E & N & F). rewrite E. cbn [run]. destruct cs as [|x cs]; [contradiction|]. rewrite F.
    apply IH with m; [lia| |exact Hc]. intros j Hj. apply Hb. lia.
Qed.

Section Node.
  Variable n : inode.
  Hypothesis distinct : NoDup (map (fun c => ID_LWR (ch_name c)) (nd_children n)).

  Lemma get_child_some : forall l k name c, get_child k l name = Some c ->
    k <= c /\ exists x, nth_error l (c - k) = Some x /\ same_id (ch_name x) name.
  Proof.
    induction l as [|x l IH]; intros k name c H; cbn [get_child] in H; [discriminate|].
    destruct (text_eqb _ _) eqn:E.
    - injection H as <-. split; [lia|]. exists x. rewrite Nat.sub_diag. split; [reflexivity|]. apply STReq_lwr in E. exact E.
    - apply IH in H. destruct H as (L & y & H1 & H2). split; [lia|]. exists y. replace (c - k) with (S (c - S k)) by lia. auto.
  Qed.
  Lemma get_child_none : forall l k name, get_child k l name = None -> forall x, In x l -> ~ same_id (ch_name x) name.
  Proof.
    induction l as [|x l IH]; intros k name H y Hy; cbn [get_child] in H; [destruct Hy|].
    destruct (text_eqb _ _) eqn:E; [discriminate|]. destruct Hy as [<-|Hy].
    - intros S. apply STReq_lwr in S. unfold text_eqb in E. congruence.
    - apply IH with (S k); assumption.
  Qed.

  Lemma same_child : forall c d x y, nth_error (nd_children n) c = Some x -> nth_error (nd_children n) d = Some y ->
    same_id (ch_name x) (ch_name y) -> c = d.
  Proof.
    intros c d x y Hx Hy S.
    apply (map_nth_error (fun c => ID_LWR (ch_name c))) in Hx. apply (map_nth_error (fun c => ID_LWR (ch_name c))) in Hy.
    rewrite NoDup_nth_error in distinct. apply distinct.
    - apply nth_error_Some. rewrite Hx. discriminate.
    - rewrite Hx, Hy. f_equal. exact S.
  Qed.

  Lemma get_child_iff : forall r name c, ar_inode r = Some name -> (get_child 0 (nd_children n) name = Some c <-> reads_child n r c).
  Proof.
    intros r name c Hr. split.
    - intros H. apply get_child_some in H. destruct H as (_ & x & H1 & H2). rewrite Nat.sub_0_r in H1. exists name, x. auto.
    - intros (name' & x & H1 & H2 & H3). rewrite Hr in H1. injection H1 as <-.
      destruct (get_child 0 (nd_children n) name) as [d|] eqn:E.
      + apply get_child_some in E. destruct E as (_ & y & E1 & E2). rewrite Nat.sub_0_r in E1. f_equal.
        apply (same_child d c y x E1 H2). unfold same_id in *. congruence.
      + exfalso. apply (get_child_none _ _ _ E x); [apply nth_error_In with c; exact H2|exact H3].
  Qed.
  Lemma reads_one : forall r c d, reads_child n r c -> reads_child n r d -> c = d.
  Proof.
    intros r c d (name & x & H1 & H2 & H3) (name' & y & H4 & H5 & H6). rewrite H1 in H4. injection H4 as <-.
    apply (same_child c d x y H2 H5). unfold same_id in *. congruence.
  Qed.

  Lemma optional_iff : forall c x, nth_error (nd_children n) c = Some x -> (CHILD_IS_MANDATORY n c = false <-> optional n c).
  Proof.
    intros c x H. unfold CHILD_IS_MANDATORY, optional. rewrite H. unfold CSMchild. split.
    - intros E. exists x. split; [reflexivity|]. intros l I (T & B & En).
      assert (E' : existsb (fun l => match lt_type l, lt_begin l, lt_end l with LT_mandatory, None, None => true | _, _, _ => false end)
        (ch_lifetimes x) = true).
      { apply existsb_exists. exists l. split; [exact I|]. rewrite T, B, En. reflexivity. }
      congruence.
    - intros (y & E & F). injection E as <-. apply not_true_is_false. intros E. apply existsb_exists in E. destruct E as (l & I & E).
      apply (F l I). destruct (lt_type l); try discriminate. destruct (lt_begin l); try discriminate. destruct (lt_end l); try discriminate. auto.
  Qed.

  (** ** The list of children *)

  Definition resolved (args : list attribute_reference) : Prop :=
    forall r name, In r args -> ar_inode r = Some name -> exists c, reads_child n r c.

  Lemma optional_child_unread : forall args r l, optional_children n args l ->
    (forall c, reads_child n r c -> optional n c -> In c l) -> optional_children n (args ++ [r]) l.
  Proof.
    intros args r l [O A B] H. constructor; [exact O| |].
    - intros c. rewrite A. split.
      + intros (Op & r' & I & R). split; [exact Op|]. exists r'. rewrite in_app_iff. auto.
      + intros (Op & r' & I & R). apply in_app_iff in I. destruct I as [I|[<-|[]]]; [split; [exact Op|]; exists r'; auto|].
        apply A. apply H; assumption.
    - intros l1 c l2 d l3 E. destruct (B _ _ _ _ _ E) as (a1 & r' & a2 & E' & Q). exists a1, r', (a2 ++ [r]). split; [|exact Q].
      rewrite E', <- app_assoc. reflexivity.
  Qed.

  Lemma optional_child_read : forall args r l c, optional_children n args l -> optional n c -> ~ In c l -> reads_child n r c ->
    optional_children n (args ++ [r]) (l ++ [c]).
  Proof.
    intros args r l c [O A B] Op Ni R. constructor.
    - apply NoDup_rev in O. rewrite <- (rev_involutive (l ++ [c])). apply NoDup_rev. rewrite rev_app_distr. cbn. constructor; [|exact O].
      rewrite <- in_rev. exact Ni.
    - intros d. rewrite in_app_iff, A. split.
      + intros [(Od & r' & I & R')|[<-|[]]].
        * split; [exact Od|]. exists r'. rewrite in_app_iff. auto.
        * split; [exact Op|]. exists r. rewrite in_app_iff. cbn. auto.
      + intros (Od & r' & I & R'). apply in_app_iff in I. destruct I as [I|[<-|[]]].
        * left. split; [exact Od|]. exists r'. auto.
        * right. left. apply (reads_one r); assumption.
    - intros l1 c' l2 d l3 E. destruct l3 as [|z l3].
      + change (l1 ++ c' :: l2 ++ [d]) with (l1 ++ (c' :: l2) ++ [d]) in E. rewrite app_assoc in E. apply app_inj_tail in E. destruct E as [E <-].
        assert (I : In c' l) by (rewrite E; apply in_or_app; right; left; reflexivity).
        apply A in I. destruct I as (Oc & r1 & I1 & R1). apply in_split in I1. destruct I1 as (a1 & a2 & E1).
        exists a1, r1, (a2 ++ [r]). split; [rewrite E1, <- app_assoc; reflexivity|]. split; [exact R1|].
        assert (Un : forall r', In r' args -> ~ reads_child n r' c) by (intros r' I' R'; apply Ni; apply A; split; [exact Op|]; exists r'; auto).
        split; [apply Un; rewrite E1; apply in_or_app; right; left; reflexivity|].
        intros r' I'. apply Un. rewrite E1. apply in_or_app. left. exact I'.
      + assert (E' : exists l3', l = l1 ++ c' :: l2 ++ d :: l3').
        { destruct (exists_last (l := z :: l3)) as (l3' & w & Ew); [discriminate|]. exists l3'. rewrite Ew in E.
          replace (l1 ++ c' :: l2 ++ d :: l3' ++ [w]) with ((l1 ++ c' :: l2 ++ d :: l3') ++ [w]) in E
            by (rewrite <- app_assoc; cbn; rewrite <- app_assoc; reflexivity).
          apply app_inj_tail in E. apply E. }
        destruct E' as (l3' & E'). destruct (B _ _ _ _ _ E') as (a1 & r' & a2 & E1 & Q). exists a1, r', (a2 ++ [r]). split; [|exact Q].
        rewrite E1, <- app_assoc. reflexivity.
  Qed.

  Lemma collect_right : forall args before acc, resolved args -> optional_children n before acc ->
    exists l, collect_children n acc args = Val l /\ optional_children n (before ++ args) l.
  Proof.
    induction args as [|r args IH]; intros before acc Rs O; cbn [collect_children].
    - exists acc. rewrite app_nil_r. auto.
    - replace (before ++ r :: args) with ((before ++ [r]) ++ args) by (rewrite <- app_assoc; reflexivity).
      assert (Rs' : resolved args) by (intros r' name I; apply Rs; right; exact I).
      destruct (ar_inode r) as [name|] eqn:E.
      + destruct (Rs r name (or_introl eq_refl) E) as (c & R). rewrite (proj2 (get_child_iff r name c E) R).
        apply IH; [exact Rs'|]. pose proof R as (name' & x & _ & Hx & _).
        destruct (CHILD_IS_MANDATORY n c) eqn:M; cbn [negb andb].
        * apply optional_child_unread; [exact O|]. intros d Rd Od. rewrite <- (reads_one r c d R Rd) in Od.
          apply (optional_iff c x Hx) in Od. congruence.
        * apply (optional_iff c x Hx) in M. destruct (existsb (Nat.eqb c) acc) eqn:X; cbn [negb].
          -- apply existsb_exists in X. destruct X as (d & I & X). apply Nat.eqb_eq in X. subst d.
             apply optional_child_unread; [exact O|]. intros d Rd _. rewrite <- (reads_one r c d R Rd). exact I.
          -- apply optional_child_read; [exact O|exact M| |exact R]. intros I.
             assert (existsb (Nat.eqb c) acc = true) by (apply existsb_exists; exists c; split; [exact I|apply Nat.eqb_refl]). congruence.
      + apply IH; [exact Rs'|]. apply optional_child_unread; [exact O|]. intros c (name & x & H & _). congruence.
  Qed.

  Lemma collect_children_right : forall args, resolved args ->
    exists l, collect_children n [] args = Val l /\ optional_children n args l.
  Proof.
    intros args Rs. apply (collect_right args [] [] Rs). constructor.
    - constructor.
    - intros c. split; [intros []|]. intros (_ & r & [] & _).
    - intros l1 c l2 d l3 E. destruct l1; discriminate.
  Qed.

  (** There is only one such list. *)
  Lemma read_before_asym : forall args c d, read_before n args c d -> read_before n args d c -> False.
  Proof.
    intros args c d (a1 & r & a2 & E & R1 & R2 & R3) (b1 & r' & b2 & E' & Q1 & Q2 & Q3).
    rewrite E in E'. destruct (Nat.lt_trichotomy (length a1) (length b1)) as [L|[L|L]].
    - apply (Q3 r); [|exact R1]. assert (H : nth_error (a1 ++ r :: a2) (length a1) = Some r) by (rewrite nth_error_app2 by lia; rewrite Nat.sub_diag; reflexivity).
      rewrite E', nth_error_app1 in H by exact L. apply nth_error_In in H. exact H.
    - assert (H : nth_error (a1 ++ r :: a2) (length a1) = Some r) by (rewrite nth_error_app2 by lia; rewrite Nat.sub_diag; reflexivity).
      rewrite E', L, nth_error_app2, Nat.sub_diag in H by lia. injection H as ->. contradiction.
    - apply (R3 r'); [|exact Q1]. assert (H : nth_error (b1 ++ r' :: b2) (length b1) = Some r') by (rewrite nth_error_app2 by lia; rewrite Nat.sub_diag; reflexivity).
      rewrite <- E', nth_error_app1 in H by exact L. apply nth_error_In in H. exact H.
  Qed.

  (** ** Names and arguments *)

  Definition agrees (t : children_null) (null : nat -> bool) (args : list attribute_reference) : Prop :=
    forall r c, In r args -> reads_child n r c -> is_null t c = null c.

  Lemma print_right : forall t null args, resolved args -> agrees t null args ->
    exists l, print_equation_args n t args = Val l /\ readable n null args l.
  Proof.
    intros t null. induction args as [|r args IH]; intros Rs A.
    - exists []. split; [reflexivity|constructor].
    - destruct IH as (l & E & Rd).
      { intros r' name I. apply Rs. right. exact I. }
      { intros r' c I. apply A. right. exact I. }
      cbn [print_equation_args]. destruct (ar_inode r) as [name|] eqn:Er.
      + destruct (Rs r name (or_introl eq_refl) Er) as (c & R). rewrite (proj2 (get_child_iff r name c Er) R). cbn [bind]. rewrite E. cbn [bind].
        rewrite (A r c (or_introl eq_refl) R). destruct (null c) eqn:Nc.
        * exists l. split; [reflexivity|]. apply readable_drop with c; assumption.
        * exists (r :: l). split; [reflexivity|]. apply readable_keep; [|exact Rd]. intros d Hd. rewrite <- (reads_one r c d R Hd). exact Nc.
      + cbn [bind]. rewrite E. cbn [bind]. exists (r :: l). split; [reflexivity|]. apply readable_keep; [|exact Rd].
        intros c (name & x & H & _). congruence.
  Qed.

  Lemma readable_unique : forall null args l1 l2, readable n null args l1 -> readable n null args l2 -> l1 = l2.
  Proof.
    intros null args l1 l2 H. revert l2. induction H; intros l2 H2; inversion H2; subst.
    - reflexivity.
    - auto.
    - match goal with K : forall c, reads_child n r c -> null c = false |- _ => rewrite (K c H) in H0; discriminate end.
    - rewrite H in * by eassumption. discriminate.
    - f_equal. auto.
  Qed.

  Lemma name_right : forall r t null children, (forall c, In c children -> is_null t c = null c) ->
    eval_name n r children t = variant_name n r (names n (filter null children)).
  Proof.
    intros r t null children H. unfold eval_name, variant_name, text. do 6 f_equal.
    induction children as [|c children IH]; [reflexivity|].
    cbn [map concat filter]. rewrite IH by (intros d Hd; apply H; right; exact Hd). rewrite (H c) by (left; reflexivity).
    destruct (null c); [|reflexivity]. unfold names. cbn [map concat]. rewrite <- !app_assoc. do 2 f_equal.
    unfold child_name. destruct (nth_error (nd_children n) c); reflexivity.
  Qed.

  (** ** The equation *)

  Section Equation.
    Variable e : equation.
    Hypothesis good : resolved (eq_args e).
    Variable children : list nat.
    Hypothesis they : optional_children n (eq_args e) children.
    Hypothesis collected : collect_children n [] (eq_args e) = Val children.
    Hypothesis few : length children < 64.

    (** the call for the absent children [null] *)
    Definition is_variant (r : attribute_reference) (null : nat -> bool) (p : prototype) : Prop :=
      fst p = variant_name n r (names n (filter null children)) /\ readable n null (eq_args e) (snd p).

    Lemma is_variant_unique : forall r null p q, is_variant r null p -> is_variant r null q -> p = q.
    Proof.
      intros r null [a l] [b m] [H1 H2] [H3 H4]. cbn [fst snd] in *. rewrite (readable_unique _ _ _ _ H2 H4). congruence.
    Qed.

    Definition only_optional (null : nat -> bool) : Prop :=
      forall r c, In r (eq_args e) -> reads_child n r c -> null c = true -> optional n c.

    Lemma table_agrees : forall t null, only_optional null -> (forall c, In c children -> is_null t c = null c) ->
      (forall c, ~ In c children -> is_null t c = false) -> agrees t null (eq_args e).
    Proof.
      intros t null Oo Hin Hout r c I R. destruct (in_dec Nat.eq_dec c children) as [Ic|Ic]; [apply Hin; exact Ic|].
      rewrite (Hout c Ic). destruct (null c) eqn:E; [|reflexivity]. exfalso. apply Ic. apply they. split; [|exists r; auto].
      apply (Oo r c); assumption.
    Qed.

    Lemma call_of : forall t null r, only_optional null -> (forall c, In c children -> is_null t c = null c) ->
      (forall c, ~ In c children -> is_null t c = false) ->
      exists args, print_equation_args n t (eq_args e) = Val args /\ is_variant r null (eval_name n r children t, args).
    Proof.
      intros t null r Oo Hin Hout. destruct (print_right t null (eq_args e) good (table_agrees t null Oo Hin Hout)) as (args & E & R).
      exists args. split; [exact E|]. split; cbn [fst snd]; [apply name_right; exact Hin|exact R].
    Qed.

    Variable iteration : list nat -> list nat.
    Hypothesis iterates : Permutation (iteration children) children.
    Let keys := iteration children.

    Lemma keys_once : NoDup keys.
    Proof. apply (Permutation_NoDup (Permutation_sym iterates)). apply they. Qed.
    Lemma keys_in : forall c, In c keys <-> In c children.
    Proof. intros c. split; apply Permutation_in; [|apply Permutation_sym]; exact iterates. Qed.
    Lemma keys_length : length keys = length children.
    Proof. apply Permutation_length. exact iterates. Qed.

    Lemma combinations_val : combinations (length children) = Val (2 ^ length children).
    Proof. unfold combinations. apply Nat.ltb_lt in few. rewrite few. reflexivity. Qed.

    Lemma in_children_key : forall c, In c children -> exists i, nth_error keys i = Some c.
    Proof. intros c I. apply In_nth_error. apply keys_in. exact I. Qed.

    (** the [bitmask]th declaration *)
    Definition absent_in (m : nat) (c : nat) : bool := is_null (set_bitmask CH_FALSE CH_TRUE keys m) c.
    Definition declaration (m : nat) : prototype :=
      let t := set_bitmask CH_FALSE CH_TRUE keys m in
      (eval_name n (eq_rule e) children t,
       match print_equation_args n t (eq_args e) with Val args => args | _ => [] end).

    Lemma absent_optional : forall m, only_optional (absent_in m).
    Proof.
      intros m r c I R H. destruct (in_dec Nat.eq_dec c children) as [Ic|Ic].
      - apply they in Ic. apply Ic.
      - unfold absent_in in H. rewrite null_out in H; [discriminate|apply keys_once|rewrite keys_in; exact Ic].
    Qed.

    Lemma table_out : forall one zero m c, ~ In c children -> is_null (set_bitmask one zero keys m) c = false.
    Proof. intros one zero m c H. apply null_out; [apply keys_once|]. rewrite keys_in. exact H. Qed.

    Lemma declaration_variant : forall m,
      (exists args, print_equation_args n (set_bitmask CH_FALSE CH_TRUE keys m) (eq_args e) = Val args) /\
      is_variant (eq_rule e) (absent_in m) (declaration m).
    Proof.
      intros m. destruct (call_of (set_bitmask CH_FALSE CH_TRUE keys m) (absent_in m) (eq_rule e) (absent_optional m)) as (args & E & V).
      - intros c I. reflexivity.
      - intros c I. apply table_out. exact I.
      - split; [exists args; exact E|]. unfold declaration. rewrite E. exact V.
    Qed.

    Lemma declared_val : DGEFequation n iteration e = Val (map declaration (seq 0 (2 ^ length children))).
    Proof.
      unfold DGEFequation. rewrite collected. cbn [bind]. rewrite combinations_val. cbn [bind].
      apply all_val. intros m _. destruct (declaration_variant m) as ((args & E) & _). fold keys. unfold declaration. rewrite E. reflexivity.
    Qed.

    Lemma choice_absent : forall null c, In c children -> absent_in (choice keys null) c = null c.
    Proof.
      intros null c I. destruct (in_children_key c I) as (i & H). unfold absent_in.
      rewrite (declaration_null keys keys_once _ i c H). apply choice_bit; assumption.
    Qed.

    Lemma variant_agree : forall r null null' p, only_optional null -> only_optional null' -> (forall c, In c children -> null c = null' c) ->
      is_variant r null p -> is_variant r null' p.
    Proof.
      intros r null null' p O1 O2 H [E R]. split.
      - rewrite E. do 2 f_equal. apply filter_agree. exact H.
      - assert (A : forall r c, In r (eq_args e) -> reads_child n r c -> null c = null' c).
        { intros r' c I Rc. destruct (in_dec Nat.eq_dec c children) as [Ic|Ic]; [apply H; exact Ic|].
          assert (No : forall f, only_optional f -> f c = false).
          { intros f Of. destruct (f c) eqn:Ef; [|reflexivity]. exfalso. apply Ic. apply they. split; [|exists r'; auto]. apply (Of r' c); assumption. }
          rewrite !No by assumption. reflexivity. }
        clear -R A. revert A. induction R; intros A.
        + constructor.
        + apply readable_drop with c; [assumption| |].
          * rewrite <- (A r c); [assumption|left; reflexivity|assumption].
          * apply IHR. intros r' d I. apply A. right. exact I.
        + apply readable_keep.
          * intros c Hc. rewrite <- (A r c); [auto|left; reflexivity|assumption].
          * apply IHR. intros r' d I. apply A. right. exact I.
    Qed.

    Lemma declares_variant : forall null, only_optional null -> exists p, In p (map declaration (seq 0 (2 ^ length children))) /\
      is_variant (eq_rule e) null p.
    Proof.
      intros null Oo. exists (declaration (choice keys null)). split.
      - apply in_map. apply in_seq. rewrite <- keys_length. split; [lia|]. apply choice_bound.
      - apply variant_agree with (absent_in (choice keys null)); [apply absent_optional|exact Oo| |apply declaration_variant].
        apply choice_absent.
    Qed.

    (** The statement for the attribute [r]. *)
    Section Statement.
      Variable r : attribute_reference.

      Definition call_branch (m : nat) : branch :=
        let t := set_bitmask CH_TRUE CH_FALSE keys m in
        (if m =? 2 ^ length children - 1 then None else Some (filter (is_null t) keys),
         (eval_name n r children t, match print_equation_args n t (eq_args e) with Val args => args | _ => [] end)).

      Definition absent_call (m : nat) (c : nat) : bool := is_null (set_bitmask CH_TRUE CH_FALSE keys m) c.
      Lemma absent_call_optional : forall m, only_optional (absent_call m).
      Proof.
        intros m r' c I R H. destruct (in_dec Nat.eq_dec c children) as [Ic|Ic].
        - apply they in Ic. apply Ic.
        - unfold absent_call in H. rewrite table_out in H by exact Ic. discriminate.
      Qed.

      Lemma call_branch_variant : forall m,
        (exists args, print_equation_args n (set_bitmask CH_TRUE CH_FALSE keys m) (eq_args e) = Val args) /\
        is_variant r (absent_call m) (snd (call_branch m)).
      Proof.
        intros m. destruct (call_of (set_bitmask CH_TRUE CH_FALSE keys m) (absent_call m) r (absent_call_optional m)) as (args & E & V).
        - intros c I. reflexivity.
        - intros c I. apply table_out. exact I.
        - split; [exists args; exact E|]. unfold call_branch. cbn [snd]. rewrite E. exact V.
      Qed.

      Lemma no_children : children = [] -> exists p, eval_statement n iteration r e = Val [(None, p)] /\
        forall null, only_optional null -> is_variant r null p.
      Proof.
        intros Ec. assert (Nk : forall c, ~ In c children) by (intros c; rewrite Ec; intros []).
        destruct (call_of [] (fun _ => false) r) as (args & E & V).
        - intros r' c _ _ H. discriminate.
        - intros c I. destruct (Nk c I).
        - reflexivity.
        - exists (eval_name n r [] [], args). split.
          + unfold eval_statement. rewrite collected, Ec. cbn [bind]. rewrite E. reflexivity.
          + intros null Oo. rewrite Ec in V. apply variant_agree with (fun _ => false); [intros r' c _ _ H; discriminate|exact Oo| |exact V].
            intros c I. destruct (Nk c I).
      Qed.

      Lemma some_children : children <> [] -> eval_statement n iteration r e = Val (map call_branch (seq 0 (2 ^ length children))).
      Proof.
        intros Ne. unfold eval_statement. rewrite collected. cbn [bind]. rewrite (not_nil _ _ _ Ne).
        rewrite combinations_val. cbn [bind]. apply all_val. intros m _.
        destruct (call_branch_variant m) as ((args & E) & _). fold keys. unfold call_branch. rewrite E. reflexivity.
      Qed.

      Lemma statement_right : exists l, eval_statement n iteration r e = Val l /\
        forall null, only_optional null -> exists p, run null l = Val p /\ is_variant r null p.
      Proof.
        destruct (list_eq_dec Nat.eq_dec children []) as [Ec|Ec].
        - destruct (no_children Ec) as (p & E & H). exists [(None, p)]. split; [exact E|]. intros null Oo. exists p. split; [reflexivity|]. apply H. exact Oo.
        - rewrite (some_children Ec). eexists. split; [reflexivity|]. intros null Oo.
          set (m := choice keys (fun c => negb (null c))).
          assert (Bm : m < 2 ^ length children) by (rewrite <- keys_length; apply choice_bound).
          assert (Am : forall c, In c children -> absent_call m c = null c).
          { intros c I. destruct (in_children_key c I) as (i & H). unfold absent_call. rewrite (call_null keys keys_once _ i c H).
            unfold m. rewrite (choice_bit keys _ i c H). apply negb_involutive. }
          assert (Some_absent : forall j, j < 2 ^ length children -> j <> 2 ^ length children - 1 ->
            filter (is_null (set_bitmask CH_TRUE CH_FALSE keys j)) keys <> []).
          { intros j Hj Nj E. apply Nj. apply full; [exact Hj|]. intros i Hi. rewrite <- keys_length in Hi.
            destruct (nth_error keys i) as [c|] eqn:Hc; [|apply nth_error_None in Hc; lia].
            destruct (Nat.testbit j i) eqn:T; [reflexivity|].
            assert (I : In c (filter (is_null (set_bitmask CH_TRUE CH_FALSE keys j)) keys)).
            { apply filter_In. split; [apply nth_error_In with i; exact Hc|]. rewrite (call_null keys keys_once j i c Hc), T. reflexivity. }
            rewrite E in I. destruct I. }
          exists (snd (call_branch m)). split.
          + apply run_chain with m; [lia| |].
            * intros j Hj. unfold call_branch. destruct (j =? 2 ^ length children - 1) eqn:Ej; [apply Nat.eqb_eq in Ej; lia|].
              apply Nat.eqb_neq in Ej. eexists _, _. split; [reflexivity|]. split; [apply Some_absent; [lia|exact Ej]|].
              apply not_true_is_false. intros F. rewrite forallb_forall in F.
              assert (L : m <= j); [|lia]. apply subset_le. intros i Ti. destruct (Nat.testbit j i) eqn:Tj; [reflexivity|].
              destruct (nth_error keys i) as [c|] eqn:Hc.
              -- assert (Nc : null c = true).
                 { apply F. apply filter_In. split; [apply nth_error_In with i; exact Hc|]. rewrite (call_null keys keys_once j i c Hc), Tj. reflexivity. }
                 unfold m in Ti. rewrite (choice_bit keys _ i c Hc), Nc in Ti. discriminate.
              -- apply nth_error_None in Hc. rewrite (high_bits (length children) m i Bm) in Ti; [discriminate|]. rewrite <- keys_length. exact Hc.
            * unfold call_branch. cbn [snd]. destruct (m =? 2 ^ length children - 1) eqn:Em; [left; reflexivity|]. right.
              apply Nat.eqb_neq in Em. eexists. split; [reflexivity|]. split; [apply Some_absent; assumption|].
              apply forallb_forall. intros c I. apply filter_In in I. destruct I as [I H]. apply keys_in in I. rewrite <- (Am c I). exact H.
          + apply variant_agree with (absent_call m); [apply absent_call_optional|exact Oo|exact Am|apply call_branch_variant].
      Qed.
    End Statement.
  End Equation.
End Node.
