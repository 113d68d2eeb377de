(** Lemmas about the queue. *)

From Coq Require Import List NArith Bool Lia.
From Verif Require Import Base.Outcome Base.Heap Sched.QueueModel Sched.QueueSpec.
Import ListNotations.
Local Open Scope outcome_scope.

Section Proof.
  Context {A : Type}.
  Variable malloc : qheap A -> option addr.
  Hypothesis M : standard malloc.
  Implicit Types h : qheap A.

  (** Entries [l] at the addresses [xs], linked. *)
  Fixpoint linked h (xs : list addr) (l : list (option A)) : Prop :=
    match xs, l with
    | [], [] => True
    | a :: xs, x :: l => lookup h a = Some (Item x (hd_error xs)) /\ linked h xs l
    | _, _ => False
    end.
  Definition last_error (xs : list addr) : option addr :=
    match xs with [] => None | a :: xs => Some (last xs a) end.
  Record holds h (q : addr) (xs : list addr) (l : list (option A)) : Prop := {
    h_queue : lookup h q = Some (Queue (hd_error xs) (last_error xs) (N.of_nat (length l)));
    h_items : linked h xs l;
    h_nodup : NoDup (q :: xs) }.

  Lemma linked_length : forall h xs l, linked h xs l -> length xs = length l.
  Proof. induction xs as [|a xs IH]; intros [|x l] L; cbn in L; try tauto. cbn. f_equal. apply IH, L. Qed.

  Lemma linked_frame : forall h h' xs l, (forall a, In a xs -> lookup h' a = lookup h a) ->
    linked h xs l -> linked h' xs l.
  Proof.
    induction xs as [|a xs IH]; intros [|x l] F L; cbn in L |- *; try tauto.
    split; [rewrite F by (left; reflexivity); apply L|]. apply IH; [|apply L]. intros b I. apply F. right. exact I.
  Qed.

  Lemma linked_in : forall h xs l a, linked h xs l -> In a xs -> lookup h a <> None.
  Proof.
    induction xs as [|b xs IH]; intros [|x l] a L I; cbn in L, I; try tauto.
    destruct I as [<-|I]; [destruct L as [-> _]; discriminate|]. apply (IH l a (proj2 L) I).
  Qed.

  (** The last link. *)
  Lemma linked_snoc : forall h h' xs l b y c x,
    linked h (xs ++ [b]) (l ++ [y]) -> ~ In b xs -> ~ In c (xs ++ [b]) ->
    (forall a, In a xs -> lookup h' a = lookup h a) ->
    lookup h' b = Some (Item y (Some c)) -> lookup h' c = Some (Item x None) ->
    linked h' (xs ++ [b; c]) (l ++ [y; x]).
  Proof.
    induction xs as [|a xs IH]; intros [|z l] b y c x L Nb Nc F Lb Lc; cbn [app linked] in *.
    - tauto.
    - destruct l; cbn in L; tauto.
    - destruct xs; cbn in L; tauto.
    - destruct L as [La L]. split.
      + rewrite F by (left; reflexivity). rewrite La. destruct xs; reflexivity.
      + apply IH; auto.
        * intros I. apply Nb. right. exact I.
        * intros I. apply Nc. right. exact I.
        * intros d I. apply F. right. exact I.
  Qed.

  Lemma linked_last : forall h xs l b y, linked h (xs ++ [b]) (l ++ [y]) -> lookup h b = Some (Item y None).
  Proof.
    induction xs as [|a xs IH]; intros [|z l] b y L; cbn [app linked] in L.
    - apply L.
    - destruct l; cbn in L; tauto.
    - destruct xs; cbn in L; tauto.
    - exact (IH l b y (proj2 L)).
  Qed.

  Lemma last_error_snoc : forall xs b, last_error (xs ++ [b]) = Some b.
  Proof. intros [|a xs] b; cbn; [reflexivity|]. rewrite last_last. reflexivity. Qed.

  Lemma last_error_cons : forall a b xs, last_error (a :: b :: xs) = last_error (b :: xs).
  Proof.
    intros a b xs. cbn [last_error]. f_equal. revert a b. induction xs as [|c xs IH]; intros a b; [reflexivity|].
    transitivity (last (c :: xs) a); [reflexivity|]. rewrite IH. symmetry. apply IH.
  Qed.

  (** Blocks outside the queue. *)
  Definition outside (q : addr) (xs : list addr) h h' q' xs' : Prop :=
    forall a, ~ In a (q :: xs) -> ~ In a (q' :: xs') -> lookup h' a = lookup h a.

  Lemma create_holds : forall h a h', QUcreate malloc h = Val (a, h') ->
    holds h' a [] [] /\ lookup h a = None /\ forall b, b <> a -> lookup h' b = lookup h b.
  Proof.
    intros h a h' E. unfold QUcreate, allocate in E. destruct (malloc h) as [x|] eqn:Ex; [|discriminate E].
    injection E as <- <-. split; [|split; [apply M; exact Ex|]].
    - split; [rewrite lookup_store, N.eqb_refl; reflexivity|exact I|constructor; [intros []|constructor]].
    - intros b Nb. rewrite lookup_store. destruct (N.eqb_spec b x); [congruence|reflexivity].
  Qed.

  Lemma insert_holds : forall h q xs l x h', holds h q xs l -> QUinsert malloc q x h = Val h' ->
    exists a, lookup h a = None /\ holds h' q (xs ++ [a]) (l ++ [x]) /\
      forall b, ~ In b (q :: xs ++ [a]) -> lookup h' b = lookup h b.
  Proof.
    intros h q xs l x h' H E. unfold QUinsert, allocate in E.
    destruct (malloc h) as [a|] eqn:Ea; [|discriminate E]. cbn [bind] in E.
    assert (Fa := M _ _ Ea). exists a. split; [exact Fa|].
    destruct H as [Hq Hi Hn]. assert (Nq : q <> a) by (intros ->; congruence).
    assert (Nx : ~ In a xs) by (intros J; exact (linked_in _ _ _ _ Hi J Fa)).
    unfold read_queue in E. rewrite lookup_store in E. destruct (N.eqb_spec q a) as [|_]; [contradiction|].
    rewrite Hq in E. cbn [bind] in E.
    assert (Nd : NoDup (q :: xs ++ [a])).
    { apply NoDup_cons_iff in Hn. destruct Hn as [N1 N2]. constructor.
      - rewrite in_app_iff. cbn. intros [J|[J|[]]]; auto.
      - apply (NoDup_Add (Add_app a xs [])). rewrite app_nil_r. auto. }
    assert (Ll : length (l ++ [x]) = S (length l)) by (rewrite app_length; cbn; lia).
    destruct l as [|y0 l0] using rev_ind.
    - destruct xs; [|destruct Hi]. cbn [length N.of_nat] in E.
      change (0 =? 0)%N with true in E. cbn iota in E. injection E as <-. split; [split|].
      + rewrite lookup_store, N.eqb_refl. reflexivity.
      + cbn [app linked hd_error]. rewrite !lookup_store, N.eqb_refl. destruct (N.eqb_spec a q); [congruence|]. auto.
      + exact Nd.
      + intros b Nb. cbn in Nb. rewrite !lookup_store.
        destruct (N.eqb_spec b q); [subst; tauto|]. destruct (N.eqb_spec b a); [subst; tauto|reflexivity].
    - clear IHl0. destruct xs as [|b xs0 _] using rev_ind.
      { destruct l0; destruct Hi. }
      destruct (N.eqb_spec (N.of_nat (length (l0 ++ [y0]))) 0) as [Z|_].
      { rewrite app_length in Z. cbn in Z. lia. }
      assert (Lb := linked_last _ _ _ _ _ Hi). rewrite last_error_snoc in E. unfold read_item in E.
      assert (Nba : b <> a) by (intros ->; apply Nx, in_app_iff; right; left; reflexivity).
      assert (Nbq : b <> q) by (intros ->; inversion Hn as [|q' r N1 N2]; apply N1, in_app_iff; right; left; reflexivity).
      rewrite lookup_store in E. destruct (N.eqb_spec b a) as [|_]; [contradiction|].
      rewrite Lb in E. cbn [bind] in E. injection E as <-.
      assert (Nb0 : ~ In b xs0).
      { inversion Hn as [|q' r N1 N2]. apply NoDup_remove_2 in N2. rewrite app_nil_r in N2. exact N2. }
      assert (Nq0 : ~ In q xs0).
      { inversion Hn as [|q' r N1 N2]. intros J. apply N1, in_app_iff. left. exact J. }
      split; [split|].
      + rewrite lookup_store, N.eqb_refl, Ll, last_error_snoc. f_equal. f_equal; [|lia].
        destruct xs0; reflexivity.
      + rewrite <- !app_assoc. cbn [app]. apply (linked_snoc h) with (b := b) (c := a); auto.
        * intros d I. rewrite !lookup_store.
          destruct (N.eqb_spec d q) as [->|_]; [contradiction|].
          destruct (N.eqb_spec d b) as [->|_]; [contradiction|].
          destruct (N.eqb_spec d a) as [->|_]; [|reflexivity].
          elim Nx. apply in_app_iff. left. exact I.
        * rewrite !lookup_store. destruct (N.eqb_spec b q); [contradiction|]. rewrite N.eqb_refl. reflexivity.
        * rewrite !lookup_store. destruct (N.eqb_spec a q); [congruence|].
          destruct (N.eqb_spec a b); [congruence|]. rewrite N.eqb_refl. reflexivity.
      + exact Nd.
      + intros d Nin. cbn [In] in Nin. rewrite !in_app_iff in Nin. cbn [In] in Nin. rewrite !lookup_store.
        destruct (N.eqb_spec d q); [subst; tauto|]. destruct (N.eqb_spec d b); [subst; tauto|].
        destruct (N.eqb_spec d a); [subst; tauto|reflexivity].
  Qed.

  Lemma insert_runs : forall h q xs l x, unlimited malloc -> holds h q xs l ->
    exists h', QUinsert malloc q x h = Val h'.
  Proof.
    intros h q xs l x U [Hq Hi Hn]. unfold QUinsert, allocate.
    destruct (malloc h) as [a|] eqn:Ea; [|destruct (U h Ea)]. cbn [bind].
    assert (Fa := M _ _ Ea). assert (Nq : q <> a) by (intros ->; congruence).
    unfold read_queue. rewrite lookup_store. destruct (N.eqb_spec q a) as [|_]; [contradiction|].
    rewrite Hq. cbn [bind]. destruct (_ =? 0)%N eqn:Z; [eauto|].
    destruct xs as [|b xs0 _] using rev_ind.
    { destruct l; [discriminate Z|destruct Hi]. }
    destruct l as [|y0 l0 _] using rev_ind.
    { destruct xs0; destruct Hi. }
    assert (Lb := linked_last _ _ _ _ _ Hi). rewrite last_error_snoc. unfold read_item. rewrite lookup_store.
    destruct (N.eqb_spec b a) as [->|_]; [congruence|]. rewrite Lb. cbn [bind]. eauto.
  Qed.

  Lemma pop_empty : forall h q, holds h q [] [] -> QUpop q h = Val (None, h).
  Proof. intros h q [Hq _ _]. unfold QUpop, read_queue. rewrite Hq. reflexivity. Qed.

  Lemma pop_holds : forall h q xs x l, holds h q xs (x :: l) ->
    exists a xs' h', xs = a :: xs' /\ QUpop q h = Val (x, h') /\ holds h' q xs' l /\
      lookup h' a = None /\ forall b, ~ In b (q :: xs) -> lookup h' b = lookup h b.
  Proof.
    intros h q xs x l [Hq Hi Hn]. destruct xs as [|a xs]; [destruct Hi|]. destruct Hi as [La Hi].
    exists a, xs. unfold QUpop, read_queue. rewrite Hq. cbn [bind].
    assert (Nq : q <> a) by (inversion Hn; subst; cbn in *; intuition).
    assert (Nx : ~ In a xs) by (inversion Hn as [|? ? ? N]; inversion N; auto).
    assert (Nqx : ~ In q xs) by (inversion Hn; subst; cbn in *; intuition).
    destruct (N.eqb_spec (N.of_nat (length (x :: l))) 0) as [Z|_]; [cbn [length] in Z; lia|].
    cbn [hd_error]. unfold read_item. rewrite La. cbn [bind].
    set (h1 := if (_ =? 1)%N then _ else _).
    assert (L1 : lookup h1 q = Some (Queue (hd_error xs) (last_error xs) (N.of_nat (length l))) /\
                 forall b, b <> q -> lookup h1 b = lookup h b).
    { unfold h1. cbn [length]. assert (Ll := linked_length _ _ _ Hi).
      destruct (N.eqb_spec (N.of_nat (S (length l))) 1) as [E1|N1].
      - assert (length l = 0%nat) by lia. destruct l; [|discriminate]. destruct xs; [|discriminate].
        split; [rewrite lookup_store, N.eqb_refl; reflexivity|].
        intros b Nb. rewrite lookup_store. destruct (N.eqb_spec b q); [contradiction|reflexivity].
      - split.
        + rewrite lookup_store, N.eqb_refl. f_equal. f_equal; [|lia].
          destruct xs as [|b xs]; [destruct l; [cbn in N1; lia|discriminate]|]. apply last_error_cons.
        + intros b Nb. rewrite lookup_store. destruct (N.eqb_spec b q); [contradiction|reflexivity]. }
    destruct L1 as [L1 F1]. unfold free. rewrite (F1 a) by congruence. rewrite La. cbn [bind].
    exists (remove h1 a). split; [reflexivity|]. split; [reflexivity|].
    assert (F2 : forall b, b <> a -> b <> q -> lookup (remove h1 a) b = lookup h b).
    { intros b Na Nb. rewrite lookup_remove. destruct (N.eqb_spec b a); [contradiction|]. apply F1. exact Nb. }
    split; [|split].
    - split.
      + rewrite lookup_remove. destruct (N.eqb_spec q a); [contradiction|exact L1].
      + eapply linked_frame; [|exact Hi]. intros b I. apply F2; intros ->; contradiction.
      + inversion Hn as [|? ? N1 N2]; subst. inversion N2; subst. constructor; assumption.
    - rewrite lookup_remove, N.eqb_refl. reflexivity.
    - intros b Nb. cbn in Nb. apply F2; intros ->; tauto.
  Qed.

  Lemma peek_holds : forall h q xs l, holds h q xs l -> QUpeek q h = Val (hd_error xs).
  Proof. intros h q xs l [Hq _ _]. unfold QUpeek, read_queue. rewrite Hq. reflexivity. Qed.

  (** Whole histories.  [h0] is the memory before the queue was made. *)
  Definition around h0 h q xs : Prop :=
    (forall a, In a (q :: xs) -> lookup h0 a = None) /\
    (forall a, ~ In a (q :: xs) -> lookup h a = lookup h0 a).

  Lemma run_fifo : forall os h0 h q xs l rs h', holds h q xs l -> around h0 h q xs ->
    run malloc q os h = Val (rs, h') ->
    rs = fst (fifo l os) /\ exists xs', holds h' q xs' (snd (fifo l os)) /\ around h0 h' q xs'.
  Proof.
    induction os as [|o os IH]; intros h0 h q xs l rs h' H [R1 R2] E; cbn [run] in E.
    - injection E as <- <-. split; [reflexivity|]. exists xs. split; [exact H|split; assumption].
    - destruct o as [x| |]; cbn [step] in E.
      + destruct (QUinsert malloc q x h) as [h1| | | |] eqn:E1; cbn [bind fst snd] in E; try discriminate E.
        destruct (run malloc q os h1) as [[rs1 h2]| | | |] eqn:E2; cbn [bind fst snd] in E; try discriminate E.
        injection E as <- <-. destruct (insert_holds _ _ _ _ _ _ H E1) as (a & Fa & H1 & F1).
        destruct (IH h0 h1 q (xs ++ [a]) (l ++ [x]) rs1 h2 H1) as [-> K]; [|exact E2|].
        * assert (Na : ~ In a (q :: xs)).
          { intros [<-|J]; [destruct H as [Q _ _]; congruence|].
            exact (linked_in _ _ _ _ (h_items _ _ _ _ H) J Fa). }
          assert (L0 : lookup h0 a = None) by (rewrite <- R2 by exact Na; exact Fa).
          split.
          -- intros b J. cbn [In] in J. rewrite in_app_iff in J. cbn [In] in J.
             destruct J as [J|[J|[<-|[]]]]; [apply R1; left; exact J|apply R1; right; exact J|exact L0].
          -- intros b Nb. rewrite F1 by exact Nb. apply R2. intros J. apply Nb. cbn [In] in *.
             rewrite in_app_iff. tauto.
        * cbn [fifo fst snd]. split; [reflexivity|exact K].
      + destruct l as [|x l].
        * assert (xs = []) as -> by (destruct xs; [reflexivity|destruct (h_items _ _ _ _ H)]).
          rewrite (pop_empty _ _ H) in E. cbn [bind fst snd] in E.
          destruct (run malloc q os h) as [[rs1 h2]| | | |] eqn:E2; cbn [bind fst snd] in E; try discriminate E.
          injection E as <- <-. destruct (IH h0 h q [] [] rs1 h2 H (conj R1 R2) E2) as [-> K].
          cbn [fifo fst snd]. auto.
        * destruct (pop_holds _ _ _ _ _ H) as (a & xs' & h1 & -> & E1 & H1 & La & F1).
          rewrite E1 in E. cbn [bind fst snd] in E.
          destruct (run malloc q os h1) as [[rs1 h2]| | | |] eqn:E2; cbn [bind fst snd] in E; try discriminate E.
          injection E as <- <-. destruct (IH h0 h1 q xs' l rs1 h2 H1) as [-> K]; [|exact E2|].
          -- split; [intros b J; apply R1; cbn [In] in *; tauto|]. intros b Nb.
             destruct (N.eqb_spec b a) as [->|Na].
             ++ rewrite La. symmetry. apply R1. right. left. reflexivity.
             ++ rewrite F1; [apply R2|]; cbn [In] in *; intuition.
          -- cbn [fifo fst snd]. auto.
      + rewrite (peek_holds _ _ _ _ H) in E. cbn [bind fst snd] in E.
        destruct (run malloc q os h) as [[rs1 h2]| | | |] eqn:E2; cbn [bind fst snd] in E; try discriminate E.
        injection E as <- <-. destruct (IH h0 h q xs l rs1 h2 H (conj R1 R2) E2) as [-> K].
        cbn [fifo fst snd]. split; [|exact K]. f_equal. f_equal.
        assert (Ll := linked_length _ _ _ (h_items _ _ _ _ H)). destruct xs, l; try discriminate Ll; reflexivity.
  Qed.

  Lemma run_defined : forall os h q xs l, unlimited malloc -> holds h q xs l ->
    exists rs h', run malloc q os h = Val (rs, h').
  Proof.
    induction os as [|o os IH]; intros h q xs l U H; cbn [run]; [eauto|].
    destruct o as [x| |]; cbn [step].
    - destruct (insert_runs h q xs l x U H) as (h1 & E1). rewrite E1. cbn [bind fst snd].
      destruct (insert_holds _ _ _ _ _ _ H E1) as (a & _ & H1 & _).
      destruct (IH h1 q _ _ U H1) as (rs & h2 & ->). cbn [bind]. eauto.
    - destruct l as [|x l].
      + assert (xs = []) as -> by (destruct xs; [reflexivity|destruct (h_items _ _ _ _ H)]).
        rewrite (pop_empty _ _ H). cbn [bind fst snd]. destruct (IH h q _ _ U H) as (rs & h2 & ->). cbn [bind]. eauto.
      + destruct (pop_holds _ _ _ _ _ H) as (a & xs' & h1 & _ & -> & H1 & _). cbn [bind fst snd].
        destruct (IH h1 q _ _ U H1) as (rs & h2 & ->). cbn [bind]. eauto.
    - rewrite (peek_holds _ _ _ _ H). cbn [bind fst snd]. destruct (IH h q _ _ U H) as (rs & h2 & ->). cbn [bind]. eauto.
  Qed.

  Lemma run_safe : forall os h q xs l, holds h q xs l ->
    (exists rs h', run malloc q os h = Val (rs, h')) \/ run malloc q os h = Aborted.
  Proof.
    induction os as [|o os IH]; intros h q xs l H; cbn [run]; [eauto|].
    destruct o as [x| |]; cbn [step].
    - destruct (malloc h) as [a|] eqn:Ea.
      + assert (exists h', QUinsert malloc q x h = Val h') as (h1 & E1).
        { assert (U : exists h', QUinsert (fun _ => Some a) q x h = Val h').
          { unfold QUinsert, allocate. cbn [bind].
            assert (Fa := M _ _ Ea). destruct H as [Hq Hi Hn]. assert (Nq : q <> a) by (intros ->; congruence).
            unfold read_queue. rewrite lookup_store. destruct (N.eqb_spec q a) as [|_]; [contradiction|].
            rewrite Hq. cbn [bind]. destruct (_ =? 0)%N eqn:Z; [eauto|].
            destruct xs as [|b xs0 _] using rev_ind.
            { destruct l; [discriminate Z|destruct Hi]. }
            destruct l as [|y0 l0 _] using rev_ind.
            { destruct xs0; destruct Hi. }
            assert (Lb := linked_last _ _ _ _ _ Hi). rewrite last_error_snoc. unfold read_item. rewrite lookup_store.
            destruct (N.eqb_spec b a) as [->|_]; [congruence|]. rewrite Lb. cbn [bind]. eauto. }
          destruct U as (h1 & E1). exists h1. rewrite <- E1. unfold QUinsert, allocate. rewrite Ea. reflexivity. }
        rewrite E1. cbn [bind fst snd]. destruct (insert_holds _ _ _ _ _ _ H E1) as (b & _ & H1 & _).
        destruct (IH h1 q _ _ H1) as [(rs & h2 & ->)| ->]; cbn [bind]; eauto.
      + right. unfold QUinsert, allocate. rewrite Ea. reflexivity.
    - destruct l as [|x l].
      + assert (xs = []) as -> by (destruct xs; [reflexivity|destruct (h_items _ _ _ _ H)]).
        rewrite (pop_empty _ _ H). cbn [bind fst snd]. destruct (IH h q _ _ H) as [(rs & h2 & ->)| ->]; cbn [bind]; eauto.
      + destruct (pop_holds _ _ _ _ _ H) as (a & xs' & h1 & _ & -> & H1 & _). cbn [bind fst snd].
        destruct (IH h1 q _ _ H1) as [(rs & h2 & ->)| ->]; cbn [bind]; eauto.
    - rewrite (peek_holds _ _ _ _ H). cbn [bind fst snd]. destruct (IH h q _ _ H) as [(rs & h2 & ->)| ->]; cbn [bind]; eauto.
  Qed.

  (** Deleting. *)
  Lemma delete_empty : forall h q, holds h q [] [] ->
    exists h', QUdelete q h = Val h' /\ lookup h' q = None /\ forall a, a <> q -> lookup h' a = lookup h a.
  Proof.
    intros h q [Hq _ _]. unfold QUdelete, read_queue. rewrite Hq. cbn [bind hd_error]. unfold free. rewrite Hq.
    eexists. split; [reflexivity|]. split; [rewrite lookup_remove, N.eqb_refl; reflexivity|].
    intros a Na. rewrite lookup_remove. destruct (N.eqb_spec a q); [contradiction|reflexivity].
  Qed.
  Lemma delete_nonempty : forall h q xs x l, holds h q xs (x :: l) -> QUdelete q h = Undef.
  Proof.
    intros h q xs x l [Hq Hi _]. destruct xs as [|a xs]; [destruct Hi|]. destruct Hi as [La _].
    unfold QUdelete, read_queue. rewrite Hq. cbn [bind hd_error]. unfold free. rewrite La. cbn [bind].
    unfold read_item. rewrite lookup_remove, N.eqb_refl. reflexivity.
  Qed.

  Lemma fifo_order : forall (os : list (qop A)) l,
    exists n, n <= length (l ++ inserted os) /\
      filter (fun x => match x with Some _ => true | None => false end) (popped (fst (fifo l os))) =
      filter (fun x => match x with Some _ => true | None => false end) (firstn n (l ++ inserted os)) /\
      snd (fifo l os) = skipn n (l ++ inserted os).
  Proof.
    induction os as [|o os IH]; intros l; cbn [fifo].
    - exists 0. split; [lia|]. cbn. rewrite app_nil_r. split; reflexivity.
    - destruct o as [x| |].
      + destruct (IH (l ++ [x])) as (n & Ln & E1 & E2). exists n. cbn [fst snd inserted flat_map].
        fold (inserted os). rewrite <- app_assoc in *. cbn [app] in *. auto.
      + destruct l as [|x l].
        * destruct (IH []) as (n & Ln & E1 & E2). exists n. cbn [fst snd inserted flat_map popped filter app]. auto.
        * destruct (IH l) as (n & Ln & E1 & E2). exists (S n).
          change (inserted (Pop :: os)) with (inserted os). cbn [fst snd].
          change (popped (Popped x :: fst (fifo l os))) with (x :: popped (fst (fifo l os))).
          cbn [app firstn skipn filter length].
          split; [lia|]. split; [|exact E2]. rewrite <- E1. reflexivity.
      + destruct (IH l) as (n & Ln & E1 & E2). exists n. cbn [fst snd inserted flat_map popped app]. auto.
  Qed.
End Proof.
