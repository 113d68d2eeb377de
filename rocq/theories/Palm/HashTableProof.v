(** Lemmas about the hash table model. *)

From Coq Require Import List NArith Arith Lia Bool.
From Verif Require Import Base.Outcome Palm.HashTableModel Palm.HashTableSpec.
Import ListNotations.
Local Open Scope outcome_scope.

Section Proof.
  Context {K V : Type}.
  Variable hash : K -> N.
  Variable eq : K -> K -> bool.
  Hypothesis GK : good_key hash eq.

  Notation table := (htable K V).
  Notation hop := (@op K V).

  Let refl := gk_refl _ _ GK.
  Let sym := gk_sym _ _ GK.
  Let trans := gk_trans _ _ GK.
  Let hcompat := gk_hash _ _ GK.

  Lemma eq_cong a b c : eq a b = true -> eq a c = eq b c.
  Proof.
    intros Hab. destruct (eq b c) eqn:Hbc.
    - exact (trans _ _ _ Hab Hbc).
    - destruct (eq a c) eqn:Hac; [|reflexivity].
      rewrite (trans _ _ _ (sym _ _ Hab) Hac) in Hbc. discriminate.
  Qed.

  Lemma eq_comm a b : eq a b = eq b a.
  Proof.
    destruct (eq a b) eqn:E; destruct (eq b a) eqn:F; try reflexivity.
    - apply sym in E. congruence.
    - apply sym in F. congruence.
  Qed.

  (* ----- chains ----- *)

  Implicit Types (b l : list (entry K V)) (v : ptr V) (k : K) (t : table) (h os : list hop).

  Fixpoint chain_find (b : list (entry K V)) (k : K) : option (ptr V) :=
    match b with
    | [] => None
    | (k', v') :: b' => if eq k' k then Some v' else chain_find b' k
    end.

  Fixpoint distinct (b : list (entry K V)) : Prop :=
    match b with
    | [] => True
    | (k, _) :: b' => (forall e, In e b' -> eq k (fst e) = false) /\ distinct b'
    end.

  Lemma chain_lookup_find b k : chain_lookup eq b k = answer (chain_find b k).
  Proof.
    induction b as [|[k' v'] b IH]; simpl; [reflexivity|].
    destruct (eq k' k); auto.
  Qed.

  Lemma chain_find_none b k :
    chain_find b k = None <-> forall e, In e b -> eq (fst e) k = false.
  Proof.
    induction b as [|[k' v'] b IH]; simpl; [split; [intros _ e []|reflexivity]|].
    destruct (eq k' k) eqn:E.
    - split; [discriminate|]. intros H.
      specialize (H (k', v') (or_introl eq_refl)). simpl in H. congruence.
    - rewrite IH. split.
      + intros H e [<-|He]; [exact E|exact (H e He)].
      + intros H e He. exact (H e (or_intror He)).
  Qed.

  Lemma chain_find_some_in b k v :
    chain_find b k = Some v -> exists k', In (k', v) b /\ eq k' k = true.
  Proof.
    induction b as [|[k' v'] b IH]; simpl; [discriminate|].
    destruct (eq k' k) eqn:E.
    - intros [= ->]. exists k'. auto.
    - intros H. destruct (IH H) as (k1 & H1 & H2). exists k1. auto.
  Qed.

  Lemma chain_find_in b k v k' :
    distinct b -> In (k', v) b -> eq k' k = true -> chain_find b k = Some v.
  Proof.
    induction b as [|[k1 v1] b IH]; simpl; [intros _ []|].
    intros [Hd Hd'] [Heq|Hin] E.
    - injection Heq as -> ->. rewrite E. reflexivity.
    - destruct (eq k1 k) eqn:E1.
      + exfalso. specialize (Hd _ Hin). simpl in Hd.
        rewrite (eq_cong _ _ _ E1) in Hd. rewrite eq_comm in Hd. congruence.
      + exact (IH Hd' Hin E).
  Qed.

  Lemma chain_find_cong b k1 k2 :
    eq k1 k2 = true -> chain_find b k1 = chain_find b k2.
  Proof.
    intros E. induction b as [|[k' v'] b IH]; simpl; [reflexivity|].
    rewrite (eq_comm k' k1), (eq_comm k' k2), (eq_cong _ _ _ E), IH. reflexivity.
  Qed.

  (* insert *)

  Lemma chain_insert_find b k v b' fresh k2 :
    chain_insert eq b k v = (b', fresh) ->
    chain_find b' k2 = if eq k k2 then Some v else chain_find b k2.
  Proof.
    revert b' fresh. induction b as [|[k' v'] b IH]; simpl; intros b' fresh H.
    - injection H as <- <-. simpl. reflexivity.
    - destruct (eq k' k) eqn:E.
      + injection H as <- <-. simpl. rewrite (eq_cong _ _ _ E).
        destruct (eq k k2); reflexivity.
      + destruct (chain_insert eq b k v) as [r fr] eqn:Hr.
        injection H as <- <-. simpl. rewrite (IH _ _ eq_refl).
        destruct (eq k' k2) eqn:E2; [|reflexivity].
        destruct (eq k k2) eqn:E3; [|reflexivity].
        rewrite (trans _ _ _ E2 (sym _ _ E3)) in E. discriminate.
  Qed.

  Lemma chain_insert_keys b k v b' fresh :
    chain_insert eq b k v = (b', fresh) ->
    forall e, In e b' -> eq (fst e) k = true \/ In (fst e) (map fst b).
  Proof.
    revert b' fresh. induction b as [|[k' v'] b IH]; simpl; intros b' fresh H e He.
    - injection H as <- <-. destruct He as [<-|[]]. left. apply refl.
    - destruct (eq k' k) eqn:E.
      + injection H as <- <-. destruct He as [<-|He]; [left; exact E|].
        right. right. apply in_map. exact He.
      + destruct (chain_insert eq b k v) as [r fr] eqn:Hr.
        injection H as <- <-. destruct He as [<-|He]; [right; left; reflexivity|].
        destruct (IH _ _ eq_refl e He) as [H|H]; auto.
  Qed.

  Lemma chain_insert_distinct b k v b' fresh :
    chain_insert eq b k v = (b', fresh) -> distinct b -> distinct b'.
  Proof.
    revert b' fresh. induction b as [|[k' v'] b IH]; simpl; intros b' fresh H Hd.
    - injection H as <- <-. simpl. split; [intros e []|exact I].
    - destruct Hd as [Hd Hd']. destruct (eq k' k) eqn:E.
      + injection H as <- <-. simpl. auto.
      + destruct (chain_insert eq b k v) as [r fr] eqn:Hr.
        injection H as <- <-. simpl. split; [|exact (IH _ _ eq_refl Hd')].
        intros e He. destruct (chain_insert_keys _ _ _ _ _ Hr e He) as [H|H].
        * rewrite eq_comm, (eq_cong _ _ _ H), eq_comm. exact E.
        * apply in_map_iff in H. destruct H as (e' & <- & He'). exact (Hd e' He').
  Qed.

  Lemma chain_insert_length b k v b' fresh :
    chain_insert eq b k v = (b', fresh) ->
    length b' = length b + (if fresh then 1 else 0) /\
    fresh = match chain_find b k with None => true | Some _ => false end.
  Proof.
    revert b' fresh. induction b as [|[k' v'] b IH]; simpl; intros b' fresh H.
    - injection H as <- <-. auto.
    - destruct (eq k' k) eqn:E.
      + injection H as <- <-. simpl. auto.
      + destruct (chain_insert eq b k v) as [r fr] eqn:Hr.
        injection H as <- <-. simpl. destruct (IH _ _ eq_refl) as [H1 H2].
        split; [lia|exact H2].
  Qed.

  Lemma chain_insert_hash b k v b' fresh (P : N -> Prop) :
    chain_insert eq b k v = (b', fresh) -> P (hash k) ->
    (forall e, In e b -> P (hash (fst e))) -> forall e, In e b' -> P (hash (fst e)).
  Proof.
    intros H Hk Hb e He. destruct (chain_insert_keys _ _ _ _ _ H e He) as [E|E].
    - rewrite (hcompat _ _ E). exact Hk.
    - apply in_map_iff in E. destruct E as (e' & <- & He'). auto.
  Qed.

  (* remove: the general chain function, covering the head as well *)

  Lemma chain_remove_spec b k b' o :
    chain_remove eq b k = (b', o) -> distinct b ->
    o = chain_find b k /\
    (forall k2, chain_find b' k2 = if eq k k2 then None else chain_find b k2) /\
    distinct b' /\ (forall e, In e b' -> In e b) /\
    length b = length b' + (match o with Some _ => 1 | None => 0 end) /\
    (o = None -> b' = b).
  Proof.
    revert b' o. induction b as [|[k' v'] b IH]; simpl; intros b' o H Hd.
    - injection H as <- <-. simpl. repeat split; auto.
      intros k2. destruct (eq k k2); reflexivity.
    - destruct Hd as [Hd Hd']. destruct (eq k' k) eqn:E.
      + injection H as <- <-. repeat split; auto.
        * intros k2. rewrite (eq_cong _ _ _ E).
          destruct (eq k k2) eqn:E2; [|reflexivity].
          apply chain_find_none. intros e He.
          specialize (Hd e He). rewrite eq_comm.
          rewrite <- (eq_cong _ _ _ E2), <- (eq_cong _ _ _ E). exact Hd.
        * lia.
        * discriminate.
      + destruct (chain_remove eq b k) as [r ro] eqn:Hr.
        injection H as <- <-.
        destruct (IH _ _ eq_refl Hd') as (H1 & H2 & H3 & H4 & H5 & H6).
        repeat split; auto.
        * intros k2. simpl. rewrite H2.
          destruct (eq k' k2) eqn:E2; [|reflexivity].
          destruct (eq k k2) eqn:E3; [|reflexivity].
          rewrite (trans _ _ _ E2 (sym _ _ E3)) in E. discriminate.
        * intros e [<-|He]; [left; reflexivity|right; auto].
        * simpl. lia.
        * intros Hn. rewrite (H6 Hn). reflexivity.
  Qed.

  (* ----- arrays ----- *)

  Lemma set_nth_length {A} i (x : A) (l : list A) : length (set_nth i x l) = length l.
  Proof. revert i. induction l as [|y l IH]; intros [|i]; simpl; auto. Qed.

  Lemma set_nth_same {A} i (x : A) (l : list A) :
    i < length l -> nth_error (set_nth i x l) i = Some x.
  Proof.
    revert i. induction l as [|y l IH]; intros [|i]; simpl; intros H; try lia; auto.
    apply IH. lia.
  Qed.

  Lemma set_nth_other {A} i j (x : A) (l : list A) :
    i <> j -> nth_error (set_nth i x l) j = nth_error l j.
  Proof.
    revert i j. induction l as [|y l IH]; intros [|i] [|j]; simpl; intros H; auto; try congruence.
  Qed.

  Lemma concat_set_nth_length {A} i (x b : list A) (l : list (list A)) :
    nth_error l i = Some b ->
    length (concat (set_nth i x l)) + length b = length (concat l) + length x.
  Proof.
    revert i. induction l as [|y l IH]; intros [|i]; simpl; intros H; try discriminate.
    - injection H as ->. rewrite !app_length. lia.
    - rewrite !app_length. specialize (IH _ H). lia.
  Qed.

  Lemma set_nth_id {A} i (b : A) (l : list A) : nth_error l i = Some b -> set_nth i b l = l.
  Proof.
    revert i. induction l as [|y l IH]; intros [|i]; simpl; intros H; try discriminate.
    - injection H as ->. reflexivity.
    - rewrite (IH _ H). reflexivity.
  Qed.

  (* ----- invariant ----- *)

  Variable n : nat.
  Hypothesis Hn : n > 0.

  Definition idx (k : K) : nat := N.to_nat (hash k mod N.of_nat n).

  Lemma idx_lt k : idx k < n.
  Proof.
    unfold idx. assert (hash k mod N.of_nat n < N.of_nat n)%N by (apply N.mod_lt; lia). lia.
  Qed.

  Lemma idx_eq (a b : K) : eq a b = true -> idx a = idx b.
  Proof. intros E. unfold idx. rewrite (hcompat _ _ E). reflexivity. Qed.

  Definition find (t : table) (k : K) : option (ptr V) :=
    match nth_error (entries t) (idx k) with
    | Some b => chain_find b k
    | None => None
    end.

  Record Inv (t : table) (h : list hop) : Prop := {
    inv_size : length (entries t) = n;
    inv_hash : forall i b e, nth_error (entries t) i = Some b -> In e b -> idx (fst e) = i;
    inv_distinct : forall i b, nth_error (entries t) i = Some b -> distinct b;
    inv_find : forall k, find t k = latest eq h k;
    inv_count : elements t >= length (concat (entries t))
  }.

  Lemma inv_bucket t h k : Inv t h ->
    exists b, nth_error (entries t) (idx k) = Some b /\
              index hash t k = Val (idx k) /\ bucket t (idx k) = Val b /\
              chain_find b k = latest eq h k.
  Proof.
    intros I. assert (Hl := idx_lt k). rewrite <- (inv_size _ _ I) in Hl.
    destruct (nth_error (entries t) (idx k)) as [b|] eqn:E.
    2:{ apply nth_error_None in E. lia. }
    exists b. split; [reflexivity|].
    unfold index, bucket, size. rewrite (inv_size _ _ I), E.
    destruct n as [|n'] eqn:En; [lia|].
    repeat split.
    - unfold idx. rewrite En. reflexivity.
    - rewrite <- (inv_find _ _ I). unfold find. rewrite E. reflexivity.
  Qed.

  Lemma inv_new : Inv (HTnew n) [].
  Proof.
    split; simpl.
    - apply repeat_length.
    - intros i b e H He. apply nth_error_In in H. apply repeat_spec in H. subst. destruct He.
    - intros i b H. apply nth_error_In in H. apply repeat_spec in H. subst. exact I.
    - intros k. unfold find. simpl. destruct (nth_error (repeat [] n) (idx k)) eqn:E; [|reflexivity].
      apply nth_error_In in E. apply repeat_spec in E. subst. reflexivity.
    - clear Hn. induction n; simpl; auto.
  Qed.

  Lemma find_set_nth t i b k el :
    i < length (entries t) ->
    find (mk_htable (set_nth i b (entries t)) el) k =
    if Nat.eqb i (idx k) then chain_find b k else find t k.
  Proof.
    intros Hi. unfold find. simpl. destruct (Nat.eqb_spec i (idx k)) as [->|Hne].
    - rewrite set_nth_same; auto.
    - rewrite set_nth_other; auto.
  Qed.

  Lemma insert_inv t h k v : Inv t h ->
    exists t', HTinsert hash eq t k v = Val (t', true) /\ Inv t' (OpInsert k v :: h) /\
      elements t' = elements t + (match latest eq h k with None => 1 | Some _ => 0 end) /\
      length (concat (entries t')) =
        length (concat (entries t)) + (match latest eq h k with None => 1 | Some _ => 0 end).
  Proof.
    intros I. destruct (inv_bucket t h k I) as (b & Hb & Hi & Hbk & Hf).
    unfold HTinsert. rewrite Hi. simpl. rewrite Hbk. simpl.
    destruct (chain_insert eq b k v) as [b' fresh] eqn:Hc.
    eexists. split; [reflexivity|].
    assert (Hlt : idx k < length (entries t)) by (rewrite (inv_size _ _ I); apply idx_lt).
    destruct (chain_insert_length _ _ _ _ _ Hc) as [Hlen Hfresh].
    assert (Hcl := concat_set_nth_length _ b' _ _ Hb).
    rewrite <- Hf. simpl.
    assert (He : (if fresh then S (elements t) else elements t) =
                 elements t + match chain_find b k with None => 1 | Some _ => 0 end).
    { rewrite Hfresh. destruct (chain_find b k); lia. }
    assert (Hcc : length (concat (set_nth (idx k) b' (entries t))) =
       length (concat (entries t)) + match chain_find b k with None => 1 | Some _ => 0 end).
    { rewrite Hlen, Hfresh in Hcl. destruct (chain_find b k); lia. }
    split; [|split; [exact He|exact Hcc]].
    split; cbn [entries elements].
    - rewrite set_nth_length. exact (inv_size _ _ I).
    - intros i b0 e H He0. destruct (Nat.eq_dec (idx k) i) as [<-|Hne].
      + rewrite set_nth_same in H by exact Hlt. injection H as <-.
        unfold idx at 1.
        refine (chain_insert_hash b k v b' fresh
                  (fun hh => N.to_nat (hh mod N.of_nat n) = idx k) Hc eq_refl _ e He0).
        intros e' He'. exact (inv_hash _ _ I _ _ _ Hb He').
      + rewrite set_nth_other in H by exact Hne. exact (inv_hash _ _ I _ _ _ H He0).
    - intros i b0 H. destruct (Nat.eq_dec (idx k) i) as [<-|Hne].
      + rewrite set_nth_same in H by exact Hlt. injection H as <-.
        exact (chain_insert_distinct _ _ _ _ _ Hc (inv_distinct _ _ I _ _ Hb)).
      + rewrite set_nth_other in H by exact Hne. exact (inv_distinct _ _ I _ _ H).
    - intros k2. rewrite find_set_nth by exact Hlt. simpl.
      destruct (Nat.eqb_spec (idx k) (idx k2)) as [E|E].
      + rewrite (chain_insert_find _ _ _ _ _ k2 Hc).
        destruct (eq k k2); [reflexivity|].
        rewrite <- (inv_find _ _ I). unfold find. rewrite <- E, Hb. reflexivity.
      + destruct (eq k k2) eqn:Ek; [elim E; exact (idx_eq _ _ Ek)|].
        exact (inv_find _ _ I k2).
    - rewrite He, Hcc. assert (Hq := inv_count _ _ I). lia.
  Qed.

  Lemma remove_defined_bucket t h k b : Inv t h ->
    nth_error (entries t) (idx k) = Some b ->
    (remove_defined eq hash n h k <-> b <> []).
  Proof.
    intros I Hb. split.
    - intros (k' & Hs & Hk') ->. unfold stored in Hs.
      rewrite <- (inv_find _ _ I) in Hs. unfold find in Hs.
      assert (E : idx k' = idx k) by (unfold idx; rewrite Hk'; reflexivity).
      rewrite E, Hb in Hs. apply Hs. reflexivity.
    - intros Hne. destruct b as [|[k' v'] b]; [congruence|]. exists k'. split.
      + unfold stored. rewrite <- (inv_find _ _ I). unfold find.
        assert (E := inv_hash _ _ I _ _ _ Hb (or_introl eq_refl)). simpl in E.
        rewrite E, Hb. simpl. rewrite refl. discriminate.
      + assert (E := inv_hash _ _ I _ _ _ Hb (or_introl eq_refl)). simpl in E.
        unfold idx in E. apply N2Nat.inj in E. exact E.
  Qed.

  Lemma remove_undef t h k : Inv t h ->
    ~ remove_defined eq hash n h k -> HTremove hash eq t k = Undef.
  Proof.
    intros I Hnd. destruct (inv_bucket t h k I) as (b & Hb & Hi & Hbk & Hf).
    unfold HTremove. rewrite Hi. simpl. rewrite Hbk. simpl.
    destruct b as [|e b]; [reflexivity|].
    exfalso. apply Hnd. apply (remove_defined_bucket t h k _ I Hb). discriminate.
  Qed.

  Lemma remove_inv t h k : Inv t h -> remove_defined eq hash n h k ->
    exists t', HTremove hash eq t k = Val (t', answer (latest eq h k)) /\
      Inv t' (OpRemove k :: h) /\
      elements t = elements t' + (match latest eq h k with None => 0 | Some _ => 1 end) /\
      length (concat (entries t)) =
        length (concat (entries t')) + (match latest eq h k with None => 0 | Some _ => 1 end).
  Proof.
    intros I Hd. destruct (inv_bucket t h k I) as (b & Hb & Hi & Hbk & Hf).
    apply (remove_defined_bucket t h k _ I Hb) in Hd.
    assert (Hlt : idx k < length (entries t)) by (rewrite (inv_size _ _ I); apply idx_lt).
    (* the two branches of the C code are one call of chain_remove *)
    assert (Hrem : HTremove hash eq t k =
      let (b', o) := chain_remove eq b k in
      Val (match o with
           | Some v => (mk_htable (set_nth (idx k) b' (entries t)) (pred (elements t)), v)
           | None => (t, None) end)).
    { unfold HTremove. rewrite Hi. simpl. rewrite Hbk. simpl.
      destruct b as [|[k0 v0] b0]; [congruence|]. simpl.
      destruct (eq k0 k); [reflexivity|].
      destruct (chain_remove eq b0 k) as [b1 [v|]]; reflexivity. }
    rewrite Hrem.
    destruct (chain_remove eq b k) as [b' o] eqn:Hc.
    destruct (chain_remove_spec _ _ _ _ Hc (inv_distinct _ _ I _ _ Hb))
      as (Ho & Hf' & Hd' & Hsub & Hlen & Hid).
    rewrite Hf in Ho.
    assert (Hcl := concat_set_nth_length _ b' _ _ Hb).
    assert (Hcnt := inv_count _ _ I).
    destruct o as [v|].
    - rewrite <- Ho. eexists. split; [reflexivity|].
      cbn [elements entries].
      split; [|split; lia].
      split; cbn [entries elements].
      + rewrite set_nth_length. exact (inv_size _ _ I).
      + intros i b0 e H He0. destruct (Nat.eq_dec (idx k) i) as [<-|Hne].
        * rewrite set_nth_same in H by exact Hlt. injection H as <-.
          exact (inv_hash _ _ I _ _ _ Hb (Hsub _ He0)).
        * rewrite set_nth_other in H by exact Hne. exact (inv_hash _ _ I _ _ _ H He0).
      + intros i b0 H. destruct (Nat.eq_dec (idx k) i) as [<-|Hne].
        * rewrite set_nth_same in H by exact Hlt. injection H as <-. exact Hd'.
        * rewrite set_nth_other in H by exact Hne. exact (inv_distinct _ _ I _ _ H).
      + intros k2. rewrite find_set_nth by exact Hlt. simpl.
        destruct (Nat.eqb_spec (idx k) (idx k2)) as [E|E].
        * rewrite Hf'. destruct (eq k k2); [reflexivity|].
          rewrite <- (inv_find _ _ I). unfold find. rewrite <- E, Hb. reflexivity.
        * destruct (eq k k2) eqn:Ek; [elim E; exact (idx_eq _ _ Ek)|].
          exact (inv_find _ _ I k2).
      + lia.
    - rewrite <- Ho. simpl. exists t. split; [reflexivity|].
      split; [|split; lia].
      split; [exact (inv_size _ _ I)|exact (inv_hash _ _ I)|exact (inv_distinct _ _ I)| |exact Hcnt].
      intros k2. simpl. destruct (eq k k2) eqn:Ek; [|exact (inv_find _ _ I k2)].
      unfold find. rewrite <- (idx_eq _ _ Ek), Hb, <- (chain_find_cong _ _ _ Ek), Hf. auto.
  Qed.

  Lemma lookup_inv t h k : Inv t h ->
    HTlookup hash eq t k = Val (answer (latest eq h k)).
  Proof.
    intros I. destruct (inv_bucket t h k I) as (b & Hb & Hi & Hbk & Hf).
    unfold HTlookup. rewrite Hi. simpl. rewrite Hbk. simpl.
    rewrite chain_lookup_find, Hf. reflexivity.
  Qed.

  Lemma concat_map_nil {A B} (l : list A) : concat (map (fun _ => @nil B) l) = [].
  Proof. induction l; simpl; auto. Qed.

  Lemma clear_inv t h : Inv t h -> Inv (HTclear t) (OpClear :: h).
  Proof.
    intros I. split; simpl.
    - rewrite map_length. exact (inv_size _ _ I).
    - intros i b e H He. apply nth_error_In, in_map_iff in H.
      destruct H as (? & <- & _). destruct He.
    - intros i b H. apply nth_error_In, in_map_iff in H.
      destruct H as (? & <- & _). exact Logic.I.
    - intros k. unfold find, HTclear. cbn [entries].
      destruct (nth_error (map (fun _ => []) (entries t)) (idx k)) eqn:E; [|reflexivity].
      apply nth_error_In, in_map_iff in E. destruct E as (? & <- & _). reflexivity.
    - rewrite concat_map_nil. simpl. lia.
  Qed.

  Lemma inv_lookup_op t h k : Inv t h -> Inv t (OpLookup k :: h).
  Proof. intros [A B C D E]. split; auto. Qed.

  (* ----- histories ----- *)

  Lemma run_refines : forall os t h, Inv t h ->
    all_removes_defined eq hash n h os ->
    exists t', run hash eq t os = Val (t', spec_outs eq h os) /\ Inv t' (rev os ++ h) /\
      (no_clear os -> elements t = length (concat (entries t)) ->
       elements t' = length (concat (entries t'))).
  Proof.
    induction os as [|o os IH]; intros t h I Hd; simpl.
    - exists t. auto.
    - destruct Hd as [Ho Hd]. rewrite <- app_assoc. simpl.
      assert (Hncl : forall (o' : hop) os', no_clear (o' :: os') -> no_clear os').
      { intros o' os' H Hin. apply H. right. exact Hin. }
      destruct o as [k v|k|k|]; simpl.
      + destruct (insert_inv t h k v I) as (t1 & -> & I1 & E1 & L1). simpl.
        destruct (IH t1 _ I1 Hd) as (t2 & -> & I2 & E2). simpl.
        exists t2. split; [reflexivity|]. split; [exact I2|].
        intros Hc He. apply E2; [exact (Hncl _ _ Hc)|lia].
      + destruct (remove_inv t h k I Ho) as (t1 & -> & I1 & E1 & L1). simpl.
        destruct (IH t1 _ I1 Hd) as (t2 & -> & I2 & E2). simpl.
        exists t2. split; [reflexivity|]. split; [exact I2|].
        intros Hc He. apply E2; [exact (Hncl _ _ Hc)|lia].
      + rewrite (lookup_inv t h k I). simpl.
        destruct (IH t _ (inv_lookup_op _ _ k I) Hd) as (t2 & -> & I2 & E2). simpl.
        exists t2. split; [reflexivity|]. split; [exact I2|].
        intros Hc He. apply E2; [exact (Hncl _ _ Hc)|exact He].
      + destruct (IH _ _ (clear_inv _ _ I) Hd) as (t2 & -> & I2 & E2). simpl.
        exists t2. split; [reflexivity|]. split; [exact I2|].
        intros Hc. exfalso. apply Hc. left. reflexivity.
  Qed.

  Lemma run_val_defined : forall os t h t' rs, Inv t h ->
    run hash eq t os = Val (t', rs) -> all_removes_defined eq hash n h os.
  Proof.
    induction os as [|o os IH]; intros t h t' rs I H; simpl; [exact Logic.I|].
    simpl in H. destruct o as [k v|k|k|]; simpl in H.
    - destruct (insert_inv t h k v I) as (t1 & E & I1 & _). rewrite E in H. simpl in H.
      destruct (run hash eq t1 os) as [[t2 rs2]| | | |] eqn:R; try discriminate.
      split; [exact Logic.I|exact (IH _ _ _ _ I1 R)].
    - destruct (inv_bucket t h k I) as (b & Hb & Hi & Hbk & Hf).
      assert (Hne : b <> []).
      { intros ->. unfold HTremove in H. rewrite Hi in H. simpl in H.
        rewrite Hbk in H. simpl in H. discriminate. }
      assert (Hdef := proj2 (remove_defined_bucket t h k b I Hb) Hne).
      split; [exact Hdef|].
      destruct (remove_inv t h k I Hdef) as (t1 & E & I1 & _). rewrite E in H. simpl in H.
      destruct (run hash eq t1 os) as [[t2 rs2]| | | |] eqn:R; try discriminate.
      exact (IH _ _ _ _ I1 R).
    - rewrite (lookup_inv t h k I) in H. simpl in H.
      destruct (run hash eq t os) as [[t2 rs2]| | | |] eqn:R; try discriminate.
      split; [exact Logic.I|exact (IH _ _ _ _ (inv_lookup_op _ _ k I) R)].
    - destruct (run hash eq (HTclear t) os) as [[t2 rs2]| | | |] eqn:R; try discriminate.
      split; [exact Logic.I|exact (IH _ _ _ _ (clear_inv _ _ I) R)].
  Qed.

  Theorem map_refinement (os : list hop) :
    all_removes_defined eq hash n [] os ->
    exists t, run hash eq (HTnew n) os = Val (t, spec_outs eq [] os).
  Proof.
    intros Hd. destruct (run_refines os _ _ inv_new Hd) as (t & H & _). exists t. exact H.
  Qed.

  Lemma run_app : forall (xs : list hop) t ys,
    run hash eq t (xs ++ ys) =
    let! (t1, r1) := run hash eq t xs in
    let! (t2, r2) := run hash eq t1 ys in Val (t2, r1 ++ r2).
  Proof.
    induction xs as [|o xs IH]; intros t ys; simpl.
    - destruct (run hash eq t ys) as [[t2 rs2]| | | |]; reflexivity.
    - destruct (step hash eq t o) as [[t1 r1]| | | |]; simpl; try reflexivity.
      rewrite IH. destruct (run hash eq t1 xs) as [[t2 r2]| | | |]; simpl; try reflexivity.
      destruct (run hash eq t2 ys) as [[t3 r3]| | | |]; reflexivity.
  Qed.

  Theorem remove_undefined (os : list hop) k t rs :
    run hash eq (HTnew n) os = Val (t, rs) ->
    (run hash eq t [OpRemove k] = Undef <-> ~ remove_defined eq hash n (rev os) k).
  Proof.
    intros H. assert (Hd := run_val_defined _ _ _ _ _ inv_new H).
    destruct (run_refines os _ _ inv_new Hd) as (t' & H' & I & _).
    rewrite H in H'. injection H' as <- _. rewrite app_nil_r in I.
    simpl. split.
    - intros Hu Hdef. destruct (remove_inv t _ k I Hdef) as (t1 & E & _).
      rewrite E in Hu. discriminate.
    - intros Hnd. rewrite (remove_undef t _ k I Hnd). reflexivity.
  Qed.

  (* ----- contents ----- *)

  Lemma distinct_app a b :
    distinct (a ++ b) <->
    distinct a /\ distinct b /\ (forall x y, In x a -> In y b -> eq (fst x) (fst y) = false).
  Proof.
    induction a as [|[k v] a IH]; simpl.
    - split; [intros H; repeat split; auto; intros x y []|tauto].
    - rewrite IH. split.
      + intros (H1 & H2 & H3 & H4). repeat split; auto.
        * intros e He. apply H1. apply in_or_app. auto.
        * intros x y [<-|Hx] Hy; [apply H1; apply in_or_app; auto|auto].
      + intros ((H1 & H2) & H3 & H4). repeat split; auto.
        intros e He. apply in_app_or in He. destruct He as [He|He]; [auto|].
        exact (H4 (k, v) e (or_introl eq_refl) He).
  Qed.

  Lemma in_concat_nth {A} (l : list (list A)) e :
    In e (concat l) <-> exists i (b : list A), nth_error l i = Some b /\ In e b.
  Proof.
    rewrite in_concat. split.
    - intros (b & Hb & He). apply In_nth_error in Hb. destruct Hb as [i Hi]. eauto.
    - intros (i & b & Hb & He). exists b. split; [exact (nth_error_In _ _ Hb)|exact He].
  Qed.

  Lemma distinct_concat (l : list (list (entry K V))) (off : nat) :
    (forall i b, nth_error l i = Some b -> distinct b) ->
    (forall i b e, nth_error l i = Some b -> In e b -> idx (fst e) = off + i) ->
    distinct (concat l).
  Proof.
    revert off. induction l as [|b l IH]; intros off Hd Hh; simpl; [exact Logic.I|].
    apply distinct_app. split; [exact (Hd 0 b eq_refl)|]. split.
    - apply (IH (S off)).
      + intros i. exact (Hd (S i)).
      + intros i b0 e Hb He. rewrite (Hh (S i) b0 e Hb He). lia.
    - intros x y Hx Hy. apply in_concat_nth in Hy. destruct Hy as (i & b0 & Hb0 & Hy).
      assert (E1 := Hh 0 b x eq_refl Hx). assert (E2 := Hh (S i) b0 y Hb0 Hy).
      destruct (eq (fst x) (fst y)) eqn:E; [|reflexivity].
      apply idx_eq in E. lia.
  Qed.

  Lemma distinct_keys l : distinct l -> keys_distinct eq l.
  Proof.
    induction l as [|[k v] l IH]; intros Hd i j a b Ha Hb E.
    - destruct i; discriminate.
    - destruct Hd as [Hd Hd']. destruct i as [|i], j as [|j]; simpl in Ha, Hb.
      + reflexivity.
      + injection Ha as <-. apply nth_error_In in Hb. specialize (Hd _ Hb).
        simpl in *. congruence.
      + injection Hb as <-. apply nth_error_In in Ha. specialize (Hd _ Ha).
        simpl in *. rewrite eq_comm in E. congruence.
      + f_equal. exact (IH Hd' i j a b Ha Hb E).
  Qed.

  Lemma find_concat t h : Inv t h ->
    distinct (concat (entries t)) /\
    forall k, chain_find (concat (entries t)) k = latest eq h k.
  Proof.
    intros I. assert (Hd : distinct (concat (entries t))).
    { apply (distinct_concat _ 0).
      - exact (inv_distinct _ _ I).
      - exact (inv_hash _ _ I). }
    split; [exact Hd|]. intros k. rewrite <- (inv_find _ _ I).
    destruct (inv_bucket t h k I) as (b & Hb & _ & _ & Hf).
    unfold find. rewrite Hb.
    destruct (chain_find b k) as [v|] eqn:E.
    - destruct (chain_find_some_in _ _ _ E) as (k' & Hin & Ek).
      apply (chain_find_in _ _ _ k' Hd); [|exact Ek].
      apply in_concat_nth. eauto.
    - apply chain_find_none. intros e He. apply in_concat_nth in He.
      destruct He as (i & b0 & Hb0 & He).
      destruct (eq (fst e) k) eqn:Ek; [|reflexivity].
      assert (Hi := inv_hash _ _ I _ _ _ Hb0 He). rewrite (idx_eq _ _ Ek) in Hi.
      subst i. rewrite Hb in Hb0. injection Hb0 as <-.
      rewrite (proj1 (chain_find_none b k) E e He) in Ek. discriminate.
  Qed.

  Lemma contents_listed t h : Inv t h -> lists_contents eq h (concat (entries t)).
  Proof.
    intros I. destruct (find_concat t h I) as [Hd Hf]. split; [exact (distinct_keys _ Hd)|].
    intros k v. rewrite <- Hf. split.
    - apply chain_find_some_in.
    - intros (k' & Hin & E). exact (chain_find_in _ _ _ _ Hd Hin E).
  Qed.

  (* ----- iteration ----- *)

  Definition iter_rest (t : table) (o : option (@iter K V)) : list (entry K V) :=
    match o with
    | None => []
    | Some it => it_entry it :: it_chain it ++
                 concat (skipn (S (it_element it)) (entries t))
    end.

  Lemma first_from_rest (t : table) : forall bs i,
    bs = skipn i (entries t) ->
    iter_rest t (first_from i bs) = concat bs.
  Proof.
    induction bs as [|b bs IH]; intros i Hs; simpl; [reflexivity|].
    assert (Hs' : bs = skipn (S i) (entries t)).
    { clear IH. revert Hs. generalize (entries t). induction i as [|i IHi]; intros l Hs.
      - simpl in Hs. rewrite <- Hs. reflexivity.
      - destruct l as [|x l]; [simpl in Hs; discriminate|]. simpl in Hs.
        rewrite (IHi l Hs). destruct l; reflexivity. }
    destruct b as [|e c].
    - rewrite (IH (S i) Hs'). reflexivity.
    - cbn [iter_rest it_entry it_chain it_element]. rewrite <- Hs'. reflexivity.
  Qed.

  Lemma next_rest (t : table) (it : @iter K V) :
    iter_rest t (HTiterateNext t it) =
    it_chain it ++ concat (skipn (S (it_element it)) (entries t)).
  Proof.
    unfold HTiterateNext. destruct (it_chain it) as [|e c].
    - rewrite first_from_rest by reflexivity. reflexivity.
    - reflexivity.
  Qed.

  Lemma iter_loop_rest (t : table) : forall fuel it,
    length (iter_rest t it) <= fuel ->
    iter_loop fuel t it = Val (iter_rest t it).
  Proof.
    induction fuel as [|fuel IH]; intros [it|] Hl; cbn [iter_loop]; try reflexivity.
    - simpl in Hl. lia.
    - rewrite IH.
      + cbn [bind]. rewrite next_rest. reflexivity.
      + rewrite next_rest. simpl in Hl. simpl. lia.
  Qed.

  Lemma iterate_all_concat (t : table) fuel :
    elements t = length (concat (entries t)) ->
    length (concat (entries t)) <= fuel ->
    iterate_all fuel t = Val (concat (entries t)).
  Proof.
    intros He Hf. unfold iterate_all, HTiterate.
    assert (Hr := first_from_rest t (entries t) 0 eq_refl).
    destruct (elements t) as [|m] eqn:Em.
    - simpl. destruct fuel; simpl;
        (destruct (concat (entries t)); [reflexivity|simpl in He; discriminate]).
    - destruct (first_from 0 (entries t)) as [it|] eqn:E.
      + simpl bind. rewrite iter_loop_rest; rewrite Hr; [reflexivity|exact Hf].
      + simpl in Hr. rewrite <- Hr in He. simpl in He. discriminate.
  Qed.

  (* ----- copies ----- *)

  Lemma latest_inserts l h k :
    latest eq (rev (map (fun e => OpInsert (fst e) (snd e)) l) ++ h) k =
    match chain_find (rev l) k with Some v => Some v | None => latest eq h k end.
  Proof.
    revert h. induction l as [|e l IH] using rev_ind; intros h; simpl; [reflexivity|].
    rewrite map_app, !rev_app_distr. simpl. destruct e as [k' v']. simpl.
    destruct (eq k' k); [reflexivity|]. apply IH.
  Qed.

  Lemma insert_all_run : forall l t h, Inv t h ->
    exists t', insert_all hash eq t l = Val t' /\
      Inv t' (rev (map (fun e => OpInsert (fst e) (snd e)) l) ++ h).
  Proof.
    induction l as [|[k v] l IH]; intros t h I; simpl.
    - exists t. auto.
    - destruct (insert_inv t h k v I) as (t1 & -> & I1 & _). simpl.
      destruct (IH t1 _ I1) as (t2 & H2 & I2). exists t2. split; [exact H2|].
      rewrite <- app_assoc. exact I2.
  Qed.

  Lemma distinct_rev_find l k : distinct l -> chain_find (rev l) k = chain_find l k.
  Proof.
    intros Hd. assert (Hr : distinct (rev l)).
    { induction l as [|[k0 v0] l IH]; simpl; [exact Logic.I|]. destruct Hd as [Hd Hd'].
      apply distinct_app. split; [exact (IH Hd')|]. split; [simpl; split; [intros e []|exact Logic.I]|].
      intros x y Hx [<-|[]]. apply in_rev in Hx. simpl. rewrite eq_comm. apply Hd. exact Hx. }
    destruct (chain_find l k) as [v|] eqn:E.
    - destruct (chain_find_some_in _ _ _ E) as (k' & Hin & Ek).
      apply (chain_find_in _ _ _ k' Hr); [|exact Ek]. apply in_rev in Hin. exact Hin.
    - apply chain_find_none. intros e He. apply in_rev in He.
      exact (proj1 (chain_find_none l k) E e He).
  Qed.

  Lemma chain_find_map kc vc l k :
    (forall a, eq (kc a) a = true) ->
    chain_find (map (fun e => (kc (fst e), vc (snd e))) l) k = option_map vc (chain_find l k).
  Proof.
    intros Hk. induction l as [|[k' v'] l IH]; simpl; [reflexivity|].
    rewrite (eq_cong _ _ _ (Hk k')). destruct (eq k' k); [reflexivity|exact IH].
  Qed.

  Lemma distinct_map kc vc l :
    (forall a, eq (kc a) a = true) ->
    distinct l -> distinct (map (fun e => (kc (fst e), vc (snd e))) l).
  Proof.
    intros Hk. induction l as [|[k' v'] l IH]; simpl; [auto|]. intros [Hd Hd'].
    split; [|exact (IH Hd')]. intros e He. apply in_map_iff in He.
    destruct He as (e' & <- & He'). simpl.
    rewrite (eq_cong _ _ _ (Hk k')), eq_comm, (eq_cong _ _ _ (Hk (fst e'))), eq_comm.
    exact (Hd e' He').
  Qed.

  Lemma deep_copy_inv kc vc t h fuel : Inv t h ->
    (forall a, eq (kc a) a = true) ->
    elements t = length (concat (entries t)) -> elements t <= fuel ->
    exists t' h', HTdeep_copy hash eq kc vc fuel t = Val t' /\ Inv t' h' /\
      forall k, latest eq h' k = option_map vc (latest eq h k).
  Proof.
    intros I Hk He Hfu. unfold HTdeep_copy.
    rewrite iterate_all_concat by (rewrite ?He in *; lia). cbn [bind].
    unfold size. rewrite (inv_size _ _ I).
    set (l := map _ _).
    destruct (insert_all_run l _ _ inv_new) as (t' & Ht' & I').
    exists t'. eexists. split; [exact Ht'|]. split; [exact I'|].
    intros k. rewrite latest_inserts. simpl.
    destruct (find_concat t h I) as [Hd Hf].
    rewrite distinct_rev_find by (unfold l; apply distinct_map; assumption).
    unfold l. rewrite chain_find_map by exact Hk. rewrite Hf.
    destruct (latest eq h k); reflexivity.
  Qed.

  (* ----- map and fold ----- *)

  Lemma chain_map_calls {S} (f : S -> K -> ptr V -> S * ptr V) b s :
    chain_map f s b = calls f s b.
  Proof.
    revert s. induction b as [|[k v] b IH]; intros s; simpl; [reflexivity|].
    destruct (f s k v) as [s1 v1]. rewrite IH. reflexivity.
  Qed.

  Lemma calls_app {S} (f : S -> K -> ptr V -> S * ptr V) a b s :
    calls f s (a ++ b) =
    let (s1, a1) := calls f s a in let (s2, b2) := calls f s1 b in (s2, a1 ++ b2).
  Proof.
    revert s. induction a as [|[k v] a IH]; intros s; simpl.
    - destruct (calls f s b); reflexivity.
    - destruct (f s k v) as [s1 v1]. rewrite IH.
      destruct (calls f s1 a) as [s2 a2]. destruct (calls f s2 b) as [s3 b3]. reflexivity.
  Qed.

  Lemma calls_keys {S} (f : S -> K -> ptr V -> S * ptr V) l s s' l' :
    calls f s l = (s', l') -> map fst l' = map fst l.
  Proof.
    revert s s' l'. induction l as [|[k v] l IH]; simpl; intros s s' l' H.
    - injection H as <- <-. reflexivity.
    - destruct (f s k v) as [s1 v1]. destruct (calls f s1 l) as [s2 l2] eqn:E.
      injection H as <- <-. simpl. f_equal. exact (IH _ _ _ E).
  Qed.

  Lemma buckets_map_concat {S} (f : S -> K -> ptr V -> S * ptr V) bs s s' bs' :
    buckets_map f s bs = (s', bs') ->
    calls f s (concat bs) = (s', concat bs') /\
    map (map fst) bs' = map (map fst) bs.
  Proof.
    revert s s' bs'. induction bs as [|b bs IH]; simpl; intros s s' bs' H.
    - injection H as <- <-. auto.
    - rewrite chain_map_calls in H. destruct (calls f s b) as [s1 b1] eqn:E1.
      destruct (buckets_map f s1 bs) as [s2 bs2] eqn:E2. injection H as <- <-.
      destruct (IH _ _ _ E2) as [H1 H2]. split.
      + rewrite calls_app, E1, H1. reflexivity.
      + simpl. rewrite H2, (calls_keys _ _ _ _ _ E1). reflexivity.
  Qed.

  Lemma distinct_keys_only a b : map fst a = map fst b -> distinct b -> distinct a.
  Proof.
    revert b. induction a as [|[k v] a IH]; intros [|[k2 v2] b]; simpl; try discriminate; auto.
    intros [= <- H] [Hd Hd']. split; [|exact (IH _ H Hd')].
    intros e He. apply (in_map fst) in He. rewrite H in He.
    apply in_map_iff in He. destruct He as (e' & <- & He'). auto.
  Qed.

  Lemma nth_error_map_fst (bs bs' : list (list (entry K V))) i b' :
    map (map fst) bs' = map (map fst) bs -> nth_error bs' i = Some b' ->
    exists b, nth_error bs i = Some b /\ map fst b' = map fst b.
  Proof.
    intros H Hb. assert (Hm := map_nth_error (map fst) _ _ Hb). rewrite H in Hm.
    destruct (nth_error bs i) as [b|] eqn:E.
    - rewrite (map_nth_error (map fst) _ _ E) in Hm. injection Hm as Hm. eauto.
    - apply nth_error_None in E. assert (nth_error (map (map fst) bs) i = None).
      { apply nth_error_None. rewrite map_length. exact E. }
      congruence.
  Qed.

  (** The table after a map call represents the entries with their new values. *)
  Lemma map_inv {S} (f : S -> K -> ptr V -> S * ptr V) t h s s' t' : Inv t h ->
    HTmapWithDataAndKey f t s = (s', t') ->
    let es := concat (entries t) in
    calls f s es = (s', concat (entries t')) /\
    elements t' = elements t /\
    exists h', Inv t' h'.
  Proof.
    intros I H. unfold HTmapWithDataAndKey in H.
    destruct (buckets_map f s (entries t)) as [s1 bs] eqn:E. injection H as <- <-.
    destruct (buckets_map_concat _ _ _ _ _ E) as [H1 H2]. simpl.
    split; [exact H1|]. split; [reflexivity|].
    (* rebuild an invariant for some history that inserts the new entries *)
    exists (rev (map (fun e => OpInsert (fst e) (snd e)) (concat bs))).
    assert (Hdist : forall i b, nth_error bs i = Some b -> distinct b).
    { intros i b Hb. destruct (nth_error_map_fst _ _ _ _ H2 Hb) as (b0 & Hb0 & Hk).
      exact (distinct_keys_only _ _ Hk (inv_distinct _ _ I _ _ Hb0)). }
    assert (Hhash : forall i b e, nth_error bs i = Some b -> In e b -> idx (fst e) = i).
    { intros i b e Hb He. destruct (nth_error_map_fst _ _ _ _ H2 Hb) as (b0 & Hb0 & Hk).
      apply (in_map fst) in He. rewrite Hk in He. apply in_map_iff in He.
      destruct He as (e' & <- & He'). exact (inv_hash _ _ I _ _ _ Hb0 He'). }
    assert (Hlen : length bs = n).
    { rewrite <- (inv_size _ _ I). apply (f_equal (@length _)) in H2.
      rewrite !map_length in H2. exact H2. }
    assert (Hcd : distinct (concat bs)) by (apply (distinct_concat _ 0); assumption).
    split; cbn [entries elements]; auto.
    - intros k. rewrite <- (app_nil_r (rev _)). rewrite latest_inserts. simpl.
      rewrite distinct_rev_find by exact Hcd.
      unfold find. cbn [entries].
      destruct (nth_error bs (idx k)) as [b|] eqn:Eb.
      + destruct (chain_find b k) as [v|] eqn:Ef.
        * destruct (chain_find_some_in _ _ _ Ef) as (k' & Hin & Ek).
          rewrite (chain_find_in _ _ v k' Hcd); auto. apply in_concat_nth. eauto.
        * destruct (chain_find (concat bs) k) as [v|] eqn:Ec; [|reflexivity].
          exfalso. destruct (chain_find_some_in _ _ _ Ec) as (k' & Hin & Ek).
          apply in_concat_nth in Hin. destruct Hin as (i & b0 & Hb0 & Hin).
          assert (Hi := Hhash _ _ _ Hb0 Hin). cbn [fst] in Hi. rewrite (idx_eq _ _ Ek) in Hi.
          rewrite <- Hi in Hb0.
          assert (Hq : Some b = Some b0) by exact (eq_trans (eq_sym Eb) Hb0).
          injection Hq as <-.
          assert (X := proj1 (chain_find_none _ _) Ef _ Hin). simpl in X. congruence.
      + apply nth_error_None in Eb. assert (Hx := idx_lt k). lia.
    - assert (Hc := inv_count _ _ I).
      assert (length (concat bs) = length (concat (entries t))).
      { apply calls_keys in H1. apply (f_equal (@length _)) in H1.
        rewrite !map_length in H1. exact H1. }
      lia.
  Qed.

  Lemma fold_concat {A} (f : A -> ptr V -> A) (t : table) acc :
    HTfold f t acc = fold_left f (map snd (concat (entries t))) acc.
  Proof.
    unfold HTfold. generalize acc. induction (entries t) as [|b bs IH]; intros a; simpl; [reflexivity|].
    rewrite IH, map_app, fold_left_app. f_equal.
    clear IH. revert a. induction b as [|e b IHb]; intros a; simpl; auto.
  Qed.

  (* ----- packaged statements ----- *)

  Definition reaches (os : list hop) (t : table) : Prop :=
    exists rs, run hash eq (HTnew n) os = Val (t, rs).

  Lemma reaches_inv os t : reaches os t ->
    Inv t (rev os) /\ (no_clear os -> elements t = length (concat (entries t))).
  Proof.
    intros [rs H]. assert (Hd := run_val_defined _ _ _ _ _ inv_new H).
    destruct (run_refines os _ _ inv_new Hd) as (t' & H' & I & E).
    rewrite H in H'. injection H' as <- _. rewrite app_nil_r in I.
    split; [exact I|]. intros Hc. apply E; [exact Hc|]. simpl.
    clear. induction n; simpl; auto.
  Qed.

  Theorem count_correct os t : reaches os t -> no_clear os ->
    exists l, lists_contents eq (rev os) l /\ HTelementCount t = length l.
  Proof.
    intros H Hc. destruct (reaches_inv os t H) as [I E].
    exists (concat (entries t)). split; [exact (contents_listed t _ I)|exact (E Hc)].
  Qed.

  Theorem iterate_correct os t fuel : reaches os t -> no_clear os ->
    HTelementCount t <= fuel ->
    exists l, iterate_all fuel t = Val l /\ lists_contents eq (rev os) l.
  Proof.
    intros H Hc Hf. destruct (reaches_inv os t H) as [I E]. specialize (E Hc).
    exists (concat (entries t)). split; [|exact (contents_listed t _ I)].
    apply iterate_all_concat; [exact E|]. unfold HTelementCount in Hf. lia.
  Qed.

  Theorem deep_copy_correct os t fuel kc vc : reaches os t -> no_clear os ->
    (forall a, eq (kc a) a = true) -> HTelementCount t <= fuel ->
    exists t', HTdeep_copy hash eq kc vc fuel t = Val t' /\
      (forall k, HTlookup hash eq t' k =
                 Val (match latest eq (rev os) k with Some v => vc v | None => None end)).
  Proof.
    intros H Hc Hk Hf. destruct (reaches_inv os t H) as [I E]. specialize (E Hc).
    destruct (deep_copy_inv kc vc t _ fuel I Hk E Hf) as (t' & h' & Ht' & I' & Hl).
    exists t'. split; [exact Ht'|].
    intros k. rewrite (lookup_inv _ _ k I'), Hl.
    destruct (latest eq (rev os) k); reflexivity.
  Qed.

  Theorem map_correct {S} (f : S -> K -> ptr V -> S * ptr V) os t s s' t' :
    reaches os t -> HTmapWithDataAndKey f t s = (s', t') ->
    exists l l', lists_contents eq (rev os) l /\
      calls f s l = (s', l') /\
      HTelementCount t' = HTelementCount t /\
      (forall k v, In (k, v) l' -> HTlookup hash eq t' k = Val v) /\
      (forall k, latest eq (rev os) k = None -> HTlookup hash eq t' k = Val None).
  Proof.
    intros H Hm. destruct (reaches_inv os t H) as [I _].
    destruct (map_inv f t _ s s' t' I Hm) as (H1 & H2 & h' & I').
    exists (concat (entries t)), (concat (entries t')).
    split; [exact (contents_listed t _ I)|]. split; [exact H1|]. split; [exact H2|].
    destruct (find_concat t' h' I') as [Hd' Hf']. split.
    - intros k v Hin. rewrite (lookup_inv _ _ k I'), <- Hf'.
      rewrite (chain_find_in _ _ _ k Hd' Hin (refl k)). reflexivity.
    - intros k Hk. rewrite (lookup_inv _ _ k I'), <- Hf'.
      destruct (find_concat t _ I) as [Hd Hf]. rewrite <- Hf in Hk.
      assert (Hnone : chain_find (concat (entries t')) k = None).
      { apply chain_find_none. intros e He. apply (in_map fst) in He.
        rewrite (calls_keys _ _ _ _ _ H1) in He. apply in_map_iff in He.
        destruct He as (e' & <- & He'). exact (proj1 (chain_find_none _ _) Hk e' He'). }
      rewrite Hnone. reflexivity.
  Qed.

  Theorem fold_correct {A} (f : A -> ptr V -> A) os t acc : reaches os t ->
    exists l, lists_contents eq (rev os) l /\ HTfold f t acc = fold_left f (map snd l) acc.
  Proof.
    intros H. destruct (reaches_inv os t H) as [I _].
    exists (concat (entries t)). split; [exact (contents_listed t _ I)|]. apply fold_concat.
  Qed.
End Proof.
