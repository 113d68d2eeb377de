(** What an iterator comes past while the table changes. *)

From Coq Require Import List NArith Arith Lia Bool.
From Verif Require Import Base.Outcome Base.Heap Palm.HashTableModel Palm.HashTableSpec
  Palm.HashTableProof Palm.TableMemoryModel Palm.TableMemorySpec Palm.TableMemoryChains
  Palm.TableMemoryTables Palm.TableMemoryOps Palm.TableMemoryIters Palm.TableMemoryProof.
Import ListNotations.
Local Open Scope outcome_scope.

Section Walk.
  Context {K V : Type}.
  Variable hash : K -> N.
  Variable eq : K -> K -> bool.
  Hypothesis GK : good_key hash eq.
  Notation table := (htable K V).
  Notation world := (@world K V).
  Notation wf := (@wf K V hash eq).
  Notation row := (list (entry K V)).

  Lemma Val_inj {A} (a b : A) : Val a = Val b -> a = b.
  Proof. congruence. Qed.

  Definition has (q : K) (l : row) : bool := existsb (fun e : entry K V => eq q (fst e)) l.

  Lemma has_app q (l m : row) : has q (l ++ m) = has q l || has q m.
  Proof. apply existsb_app. Qed.
  Lemma has_false q (l : row) : has q l = false <-> forall e, In e l -> eq q (fst e) = false.
  Proof.
    unfold has. rewrite <- not_true_iff_false, existsb_exists. split.
    - intros H e I. apply not_true_iff_false. intros E. apply H. now exists e.
    - intros H (e & I & E). rewrite (H e I) in E. discriminate.
  Qed.
  Lemma eq_swap a b : eq a b = eq b a.
  Proof.
    destruct (eq a b) eqn:E1, (eq b a) eqn:E2; try reflexivity.
    - now rewrite (gk_sym _ _ GK _ _ E1) in E2.
    - now rewrite (gk_sym _ _ GK _ _ E2) in E1.
  Qed.
  Lemma eq_same a b c : eq a b = true -> eq a c = eq b c.
  Proof.
    intros E. destruct (eq a c) eqn:E1, (eq b c) eqn:E2; try reflexivity.
    - rewrite (gk_trans _ _ GK b a c) in E2; [discriminate|exact (gk_sym _ _ GK _ _ E)|exact E1].
    - now rewrite (gk_trans _ _ GK a b c E E2) in E1.
  Qed.

  Lemma distinct_app_inv (l m : row) : distinct eq (l ++ m) ->
    distinct eq m /\ forall e f, In e l -> In f m -> eq (fst e) (fst f) = false.
  Proof.
    induction l as [|[k v] l IH]; cbn [app]; intros D.
    - split; [exact D|]. intros e f [].
    - destruct D as [D1 D2]. destruct (IH D2) as [Dm X]. split; [exact Dm|].
      intros e f [<-|I] J; [|now apply X]. cbn [fst]. apply D1. apply in_or_app. now right.
  Qed.

  (** Behind the key [k] of a list without repetitions. *)
  Lemma after_split k (l r : row) : after eq k l = Some r ->
    exists p e, l = p ++ e :: r /\ eq (fst e) k = true /\ forall f, In f p -> eq (fst f) k = false.
  Proof.
    induction l as [|[k' v'] l IH]; cbn [after]; [discriminate|]. destruct (eq k' k) eqn:E.
    - intros H. injection H as <-. exists [], (k', v'). split; [reflexivity|]. split; [exact E|]. intros f [].
    - intros H. destruct (IH H) as (p & e & -> & Ee & Np). exists ((k', v') :: p), e.
      split; [reflexivity|]. split; [exact Ee|]. intros f [<-|I]; [exact E|]. now apply Np.
  Qed.

  (** An entry in the middle comes or goes: whether [q] is behind [k] stays. *)
  Lemma after_insert k q (a b : row) e r :
    distinct eq (a ++ e :: b) -> after eq k (a ++ b) = Some r -> eq q (fst e) = false ->
    exists r', after eq k (a ++ e :: b) = Some r' /\ has q r' = has q r.
  Proof.
    intros D A Nq. revert D A. induction a as [|[k' v'] a IH]; cbn [app after].
    - intros D A. destruct e as [k0 v0]. cbn [fst] in Nq. cbn [after]. destruct D as [D1 _].
      destruct (eq k0 k) eqn:E.
      + exfalso. destruct (after_split _ _ _ A) as (p & f & -> & Ef & _).
        assert (X := D1 f ltac:(apply in_or_app; right; now left)).
        rewrite (eq_same k0 k (fst f) E), eq_swap, Ef in X. discriminate.
      + exists r. now split.
    - intros [D1 D2] A. destruct (eq k' k).
      + injection A as <-. exists (a ++ e :: b). split; [reflexivity|]. rewrite !has_app. cbn [has existsb].
        now rewrite Nq.
      + exact (IH D2 A).
  Qed.
  Lemma after_remove k q (a b : row) e r :
    distinct eq (a ++ e :: b) -> after eq k (a ++ e :: b) = Some r -> eq q (fst e) = false ->
    eq (fst e) k = false ->
    exists r', after eq k (a ++ b) = Some r' /\ has q r' = has q r.
  Proof.
    intros D A Nq Nk. revert D A. induction a as [|[k' v'] a IH]; cbn [app after].
    - intros D A. destruct e as [k0 v0]. cbn [fst after] in *. rewrite Nk in A. exists r. now split.
    - intros [D1 D2] A. destruct (eq k' k).
      + injection A as <-. exists (a ++ b). split; [reflexivity|]. rewrite !has_app. cbn [has existsb].
        now rewrite Nq.
      + exact (IH D2 A).
  Qed.
  (** The keys stay the same. *)
  Lemma after_keys k q : forall l l' r, map fst l = map fst l' -> after eq k l = Some r ->
    exists r', after eq k l' = Some r' /\ has q r' = has q r.
  Proof.
    induction l as [|[k1 v1] l IH]; intros [|[k2 v2] l'] r E A; try discriminate.
    cbn [map fst] in E. injection E as <- E. cbn [after] in *. destruct (eq k1 k).
    - injection A as <-. exists l'. split; [reflexivity|]. clear IH. revert l' E.
      induction l as [|[k3 v3] l IH]; intros [|[k4 v4] l'] E; try discriminate; [reflexivity|].
      cbn in E. injection E as <- E. cbn [has existsb fst]. f_equal. exact (IH l' E).
    - exact (IH _ _ E A).
  Qed.
  Lemma has_keys q : forall l l' : row, map fst l = map fst l' -> has q l = has q l'.
  Proof.
    induction l as [|[k3 v3] l IH]; intros [|[k4 v4] l'] E; try discriminate; [reflexivity|].
    cbn in E. injection E as <- E. cbn [has existsb fst]. f_equal. exact (IH l' E).
  Qed.

  (** What insertion and removal do to the contents. *)
  Lemma concat_set {A} i (b b' : list A) : forall l, nth_error l i = Some b ->
    exists p s, concat l = p ++ b ++ s /\ concat (set_nth i b' l) = p ++ b' ++ s.
  Proof.
    induction i as [|i IH]; intros [|x l] E; try discriminate; cbn in E.
    - injection E as ->. exists [], (concat l). split; reflexivity.
    - destruct (IH l E) as (p & s & E1 & E2). exists (x ++ p), s. cbn [concat set_nth].
      rewrite E1, E2, <- !app_assoc. split; reflexivity.
  Qed.
  Lemma chain_insert_keys k v : forall b : row,
    let (b', fresh) := chain_insert eq b k v in
    if fresh then b' = b ++ [(k, v)] else map fst b' = map fst b.
  Proof.
    induction b as [|[k' v'] b IH]; cbn [chain_insert]; [reflexivity|]. destruct (eq k' k); [reflexivity|].
    destruct (chain_insert eq b k v) as [r f]. destruct f; cbn; now rewrite IH.
  Qed.
  Lemma insert_contents (t t' : table) k v r : HashTableModel.HTinsert hash eq t k v = Val (t', r) ->
    map fst (contents t') = map fst (contents t) \/
    exists a b, contents t = a ++ b /\ contents t' = a ++ (k, v) :: b.
  Proof.
    unfold HashTableModel.HTinsert. destruct (HashTableModel.index hash t k) as [i| | | |]; try discriminate.
    cbn [bind]. unfold bucket. destruct (nth_error (entries t) i) as [b|] eqn:Eb; [|discriminate]. cbn [bind].
    assert (X := chain_insert_keys k v b). destruct (chain_insert eq b k v) as [b' f].
    intros H. apply Val_inj in H. apply pair_equal_spec in H. destruct H as [<- _]. unfold contents. cbn [entries].
    destruct (concat_set i b b' (entries t) Eb) as (p & s & E1 & E2). rewrite E1, E2. destruct f.
    - right. subst b'. exists (p ++ b), s. rewrite <- !app_assoc. split; reflexivity.
    - left. rewrite !map_app. f_equal. f_equal. exact X.
  Qed.
  Lemma chain_remove_keys k : forall b : row,
    match chain_remove eq b k with
    | (b', Some v) => exists a c k', b = a ++ (k', v) :: c /\ b' = a ++ c /\ eq k' k = true
    | (b', None) => b' = b
    end.
  Proof.
    induction b as [|[k' v'] b IH]; cbn [chain_remove]; [reflexivity|]. destruct (eq k' k) eqn:E.
    - exists [], b, k'. auto.
    - destruct (chain_remove eq b k) as [r [v|]].
      + destruct IH as (a & c & k2 & -> & -> & E2). exists ((k', v') :: a), c, k2. auto.
      + now subst.
  Qed.
  Lemma remove_contents (t t' : table) k r : HashTableModel.HTremove hash eq t k = Val (t', r) ->
    contents t' = contents t \/
    exists a e b, contents t = a ++ e :: b /\ contents t' = a ++ b /\ eq (fst e) k = true.
  Proof.
    unfold HashTableModel.HTremove. destruct (HashTableModel.index hash t k) as [i| | | |]; try discriminate.
    cbn [bind]. unfold bucket. destruct (nth_error (entries t) i) as [b|] eqn:Eb; [|discriminate]. cbn [bind].
    destruct b as [|[k0 v0] b]; [discriminate|]. destruct (eq k0 k) eqn:E0.
    - intros H. apply Val_inj in H. apply pair_equal_spec in H. destruct H as [<- _]. right. unfold contents. cbn [entries].
      destruct (concat_set (A := entry K V) i _ b (entries t) Eb) as (p & s & E1 & E2). rewrite E1, E2.
      exists p, (k0, v0), (b ++ s). auto.
    - assert (X := chain_remove_keys k b). destruct (chain_remove eq b k) as [b1 [v|]].
      + intros H. apply Val_inj in H. apply pair_equal_spec in H. destruct H as [<- _]. right.
        destruct (concat_set (A := entry K V) i _ ((k0, v0) :: b1) (entries t) Eb) as (p & s & E1 & E2).
        destruct X as (a & c & k' & -> & -> & E'). exists (p ++ (k0, v0) :: a), (k', v), (c ++ s).
        split; [|split; [|exact E']].
        * etransitivity; [exact E1|]. cbn [app]. rewrite <- !app_assoc. cbn [app]. reflexivity.
        * etransitivity; [exact E2|]. cbn [app]. rewrite <- !app_assoc. cbn [app]. reflexivity.
      + intros H. apply Val_inj in H. apply pair_equal_spec in H. destruct H as [<- _]. now left.
  Qed.
  Lemma mapped_keys f (t : table) : map fst (contents (mapped f t)) = map fst (contents t).
  Proof.
    unfold contents, mapped. cbn [entries]. induction (entries t) as [|b bs IH]; [reflexivity|].
    cbn [map concat]. etransitivity; [apply map_app|]. etransitivity; [|symmetry; apply map_app].
    apply f_equal2; [|exact IH]. etransitivity; [apply map_map|]. reflexivity.
  Qed.

  (** Iterator [j] on table [x] with key [q] in it: [q] is still to come
      ([n = 0]) or was there once ([n = 1]); at the end it was there. *)
  Definition still (x j : nat) (q : K) (n : nat) (w : world) : Prop :=
    exists t, nth_error (w_tables w) x = Some (Some t) /\ has q (contents t) = true /\
      match nth_error (w_iters w) j with
      | Some (IAt y k) => y = x /\ exists r, after eq k (contents t) = Some r /\
                          (if has q r then n = 0 else n = 1)
      | Some ILost => True
      | Some IGone => n = 1
      | None => False
      end.

  (** Every table is well formed. *)
  Definition tidy (w : world) : Prop := forall x t, nth_error (w_tables w) x = Some (Some t) -> wf t.
  Lemma related_tidy h0 w s : related hash eq h0 w s -> tidy w.
  Proof.
    intros (own & ly & G) x t E. destruct (g_table _ _ _ _ _ _ _ G x t E) as (a & _ & W & _). exact W.
  Qed.

  Lemma still_changed x j q n (w : world) y t t' gone :
    still x j q n w -> nth_error (w_tables w) y = Some (Some t) ->
    (y = x -> has q (contents t) = true -> has q (contents t') = true) ->
    (y = x -> has q (contents t) = true -> forall k r, gone k = false -> after eq k (contents t) = Some r ->
       exists r', after eq k (contents t') = Some r' /\ has q r' = has q r) ->
    still x j q n (mk_world (set_table w y (Some t')) (lose y gone (w_iters w))).
  Proof.
    intros (t0 & Et & H & P) Ey Hh Ha. unfold still. cbn [w_tables w_iters]. unfold set_table.
    rewrite nth_lose. destruct (Nat.eq_dec y x) as [->|Ne].
    - rewrite Et in Ey. injection Ey as <-. exists t'. split; [exact (nth_set_same x (Some t') _ _ Et)|].
      split; [exact (Hh Logic.eq_refl H)|]. destruct (nth_error (w_iters w) j) as [[z k| |]|]; cbn [option_map]; auto.
      destruct P as (-> & r & A & C). rewrite Nat.eqb_refl. destruct (gone k) eqn:Eg; [exact I|].
      split; [reflexivity|]. destruct (Ha Logic.eq_refl H k r Eg A) as (r' & A' & E'). exists r'. now rewrite E'.
    - exists t0. rewrite set_nth_other by exact Ne. split; [exact Et|]. split; [exact H|].
      destruct (nth_error (w_iters w) j) as [[z k| |]|]; cbn [option_map]; auto.
      destruct P as (-> & P). destruct (Nat.eqb_spec y x); [contradiction|]. now split.
  Qed.

  Lemma still_other x j q n (w : world) ts its :
    still x j q n w -> (forall t, nth_error (w_tables w) x = Some (Some t) -> nth_error ts x = Some (Some t)) ->
    (forall i, nth_error (w_iters w) j = Some i -> nth_error its j = Some i) ->
    still x j q n (mk_world ts its).
  Proof.
    intros (t & Et & H & P) Ht Hi. exists t. cbn [w_tables w_iters]. split; [now apply Ht|]. split; [exact H|].
    destruct (nth_error (w_iters w) j) as [i|] eqn:E; [|contradiction]. now rewrite (Hi i Logic.eq_refl).
  Qed.

  (** How often the iterator comes to [q] in one step. *)
  Definition come (j : nat) (q : K) (w' : world) (c : @call K V) : nat :=
    length (filter (eq q) (match c with
                           | CNext j' => if Nat.eqb j' j then here j w' else []
                           | _ => []
                           end)).

  Lemma still_step x j q n w c w' r :
    tidy w -> tidy w' -> does hash eq w c = Val (w', r) -> keeps eq x q j c -> still x j q n w ->
    still x j q (n + come j q w' c) w'.
  Proof.
    intros T T' E Kc S.
    assert (Z : forall m, m = 0 -> n + m = n) by (intros; lia).
    assert (Tw : forall y t, the_table w y = Val t -> nth_error (w_tables w) y = Some (Some t)).
    { intros y t. exact (the_table_val w y t). }
    assert (Up : forall y k v t t' b, nth_error (w_tables w) y = Some (Some t) -> nth_error (w_tables w') y = Some (Some t') ->
              HashTableModel.HTinsert hash eq t k v = Val (t', b) ->
              still x j q n (mk_world (set_table w y (Some t')) (w_iters w))).
    { intros y k v t t' b Ey Ey' Ei. rewrite <- (lose_none y (w_iters w)).
      assert (D := contents_distinct hash eq GK t' (T' y t' Ey')).
      apply (still_changed x j q n w y t t' (fun _ => false) S Ey).
      - intros _ H. destruct (insert_contents t t' k v b Ei) as [X|(a & c' & X & X')].
        + now rewrite (has_keys q _ _ X).
        + rewrite X' , has_app. rewrite X, has_app in H. cbn [has existsb fst].
          apply orb_true_iff in H. destruct H as [H|H]; [now rewrite H|]. unfold has in H. rewrite H.
          now rewrite !orb_true_r.
      - intros _ H k0 r0 _ A. destruct (insert_contents t t' k v b Ei) as [X|(a & c' & X & X')].
        + apply (after_keys k0 q (contents t) _ r0); [now symmetry|exact A].
        + rewrite X in A, H. rewrite X' in *. destruct (eq q k) eqn:Eq.
          * exfalso. apply not_false_iff_true in H. apply H. apply has_false. intros e I.
            rewrite (eq_same q k (fst e) Eq). apply in_app_or in I. destruct I as [I|I].
            -- rewrite eq_swap. destruct (distinct_app_inv _ _ D) as [_ X2].
               apply (X2 e (k, v) I). now left.
            -- destruct (distinct_app_inv _ _ D) as [[D1 _] _]. exact (D1 e I).
          * exact (after_insert k0 q a c' (k, v) r0 D A Eq). }
    destruct c; cbn [does] in E; cbn [come filter length] in *; rewrite ?Nat.add_0_r.
    - (* new *)
      apply Val_inj in E. apply pair_equal_spec in E. destruct E as [<- _].
      apply (still_other x j q n w _ _ S); [|auto]. intros t Et. now apply nth_snoc_old.
    - (* insert *)
      destruct (the_table w x0) as [t| | | |] eqn:Et; try discriminate. cbn [bind] in E.
      destruct (HashTableModel.HTinsert hash eq t k v) as [[t' b]| | | |] eqn:Ei; try discriminate. cbn [bind] in E.
      apply Val_inj in E. apply pair_equal_spec in E. destruct E as [<- _].
      apply (Up x0 k v t t' b (Tw _ _ Et)); [|exact Ei].
      exact (nth_set_same x0 (Some t') _ _ (Tw _ _ Et)).
    - (* remove *)
      destruct (the_table w x0) as [t| | | |] eqn:Et; try discriminate. cbn [bind] in E.
      destruct (HashTableModel.HTremove hash eq t k) as [[t' b]| | | |] eqn:Ei; try discriminate. cbn [bind] in E.
      apply Val_inj in E. apply pair_equal_spec in E. destruct E as [<- _]. cbn [keeps] in Kc.
      assert (D := contents_distinct hash eq GK t (T x0 t (Tw _ _ Et))).
      apply (still_changed x j q n w x0 t t' _ S (Tw _ _ Et)).
      + intros Ex H. destruct (remove_contents t t' k b Ei) as [X|(a & e & c & X & X' & Ee)]; [now rewrite X|].
        rewrite X' , has_app. rewrite X, has_app in H. cbn [has existsb] in H.
        assert (Nq : eq q (fst e) = false).
        { rewrite eq_swap, (eq_same (fst e) k q Ee), eq_swap. exact (Kc Ex). }
        rewrite Nq in H. exact H.
      + intros Ex H k0 r0 Eg A. destruct (remove_contents t t' k b Ei) as [X|(a & e & c & X & X' & Ee)].
        * rewrite X. exists r0. now split.
        * rewrite X in A, D. rewrite X'. apply (after_remove k0 q a c e r0 D A).
          -- rewrite eq_swap, (eq_same (fst e) k q Ee), eq_swap. exact (Kc Ex).
          -- rewrite (eq_same (fst e) k k0 Ee), eq_swap. exact Eg.
    - (* lookup *)
      destruct (the_table w x0) as [t| | | |]; try discriminate. cbn [bind] in E.
      destruct (HashTableModel.HTlookup hash eq t k); try discriminate. cbn [bind] in E.
      apply Val_inj in E. apply pair_equal_spec in E. destruct E as [<- _]. exact S.
    - (* clear *)
      destruct (the_table w x0) as [t| | | |] eqn:Et; try discriminate. cbn [bind] in E.
      apply Val_inj in E. apply pair_equal_spec in E. destruct E as [<- _]. cbn [keeps] in Kc.
      apply (still_changed x j q n w x0 t _ _ S (Tw _ _ Et)); intros; contradiction.
    - (* delete *)
      destruct (the_table w x0) as [t| | | |] eqn:Et; try discriminate. cbn [bind] in E.
      apply Val_inj in E. apply pair_equal_spec in E. destruct E as [<- _]. cbn [keeps] in Kc.
      destruct S as (t0 & Et0 & H & P). exists t0. cbn [w_tables w_iters]. unfold set_table.
      rewrite set_nth_other by exact Kc. split; [exact Et0|]. split; [exact H|]. rewrite nth_lose.
      destruct (nth_error (w_iters w) j) as [[z k| |]|]; cbn [option_map]; auto.
      destruct P as (-> & P). destruct (Nat.eqb_spec x0 x); [contradiction|]. now split.
    - (* count *)
      destruct (the_table w x0) as [t| | | |]; try discriminate. cbn [bind] in E.
      apply Val_inj in E. apply pair_equal_spec in E. destruct E as [<- _]. exact S.
    - (* map *)
      destruct (the_table w x0) as [t| | | |] eqn:Et; try discriminate. cbn [bind] in E.
      apply Val_inj in E. apply pair_equal_spec in E. destruct E as [<- _].
      rewrite <- (lose_none x0 (w_iters w)). apply (still_changed x j q n w x0 t _ _ S (Tw _ _ Et)).
      + intros _ H. rewrite <- H. apply has_keys. apply mapped_keys.
      + intros _ _ k r0 _ A. apply (after_keys k q (contents t) _ r0); [|exact A]. symmetry. apply mapped_keys.
    - (* fold *)
      destruct (the_table w x0) as [t| | | |]; try discriminate. cbn [bind] in E.
      apply Val_inj in E. apply pair_equal_spec in E. destruct E as [<- _]. exact S.
    - (* copy *)
      destruct (the_table w x0) as [t| | | |]; try discriminate. cbn [bind] in E.
      destruct (copied hash eq kc vc t); try discriminate. cbn [bind] in E.
      apply Val_inj in E. apply pair_equal_spec in E. destruct E as [<- _].
      apply (still_other x j q n w _ _ S); [|auto]. intros u Eu. now apply nth_snoc_old.
    - (* iterate *)
      destruct (the_table w x0) as [t| | | |]; try discriminate. cbn [bind] in E.
      destruct (first_key t) as [[k|]| | | |]; try discriminate; cbn [bind] in E;
        apply Val_inj in E; apply pair_equal_spec in E; destruct E as [<- _];
        (apply (still_other x j q n w _ _ S); [auto|]; intros i Ei; now apply nth_snoc_old).
    - (* next *)
      destruct (the_place w j0) as [[y k]| | | |] eqn:Ej; try discriminate. cbn [bind] in E.
      destruct (the_table w y) as [t| | | |] eqn:Et; try discriminate. cbn [bind] in E.
      apply the_place_val in Ej. apply Tw in Et.
      destruct (Nat.eqb_spec j0 j) as [->|Ne].
      + destruct S as (t0 & Et0 & H & P). rewrite Ej in P. destruct P as (-> & r0 & A & C).
        rewrite Et0 in Et. injection Et as <-. rewrite A in E.
        assert (D := contents_distinct hash eq GK t0 (T x t0 Et0)).
        destruct (after_split k _ _ A) as (p & e & Ec & Ee & Np).
        destruct r0 as [|[k' v'] r0]; apply Val_inj in E; apply pair_equal_spec in E; destruct E as [<- _];
          exists t0; cbn [w_tables w_iters here]; unfold here; cbn [w_tables w_iters];
          rewrite (nth_set_same j _ _ _ Ej); (split; [exact Et0|]; split; [exact H|]).
        * cbn [filter length]. cbn in C. lia.
        * split; [reflexivity|].
          assert (Sp : contents t0 = (p ++ [e]) ++ (k', v') :: r0) by (rewrite Ec, <- app_assoc; reflexivity).
          rewrite Sp in D |- *. destruct (contents_at hash eq GK _ _ _ _ D) as [A' _]. exists r0. split; [exact A'|].
          destruct (distinct_app_inv _ _ D) as [[D1 _] _]. cbn [filter].
          cbn [has existsb fst] in C. destruct (eq q k') eqn:Eq; cbn [orb length] in *.
          -- subst n. assert (F : has q r0 = false).
             { apply has_false. intros f I. rewrite (eq_same q k' (fst f) Eq). exact (D1 f I). }
             rewrite F. lia.
          -- unfold has in *. destruct (existsb _ r0); lia.
      + cbn [filter length]. rewrite Nat.add_0_r.
        destruct (after eq k (contents t)) as [[|[k' v'] r0]|]; try discriminate;
          apply Val_inj in E; apply pair_equal_spec in E; destruct E as [<- _];
          (apply (still_other x j q n w _ _ S); [auto|]; intros i Ei; now rewrite set_nth_other).
    - (* key *)
      destruct (the_place w j0) as [[y k]| | | |]; try discriminate. cbn [bind] in E.
      apply Val_inj in E. apply pair_equal_spec in E. destruct E as [<- _]. exact S.
    - (* value *)
      destruct (the_place w j0) as [[y k]| | | |]; try discriminate. cbn [bind] in E.
      destruct (the_table w y) as [t| | | |]; try discriminate. cbn [bind] in E.
      destruct (HashTableModel.HTlookup hash eq t k); try discriminate. cbn [bind] in E.
      apply Val_inj in E. apply pair_equal_spec in E. destruct E as [<- _]. exact S.
    - (* set *)
      destruct (the_place w j0) as [[y k]| | | |]; try discriminate. cbn [bind] in E.
      destruct (the_table w y) as [t| | | |] eqn:Et; try discriminate. cbn [bind] in E.
      destruct (HashTableModel.HTinsert hash eq t k v) as [[t' b]| | | |] eqn:Ei; try discriminate. cbn [bind] in E.
      apply Val_inj in E. apply pair_equal_spec in E. destruct E as [<- _].
      apply (Up y k v t t' b (Tw _ _ Et)); [|exact Ei].
      exact (nth_set_same y (Some t') _ _ (Tw _ _ Et)).
    - (* cancel *)
      cbn [keeps] in Kc.
      destruct (nth_error (w_iters w) j0) as [[y k| |]|]; try discriminate;
        apply Val_inj in E; apply pair_equal_spec in E; destruct E as [<- _];
        (apply (still_other x j q n w _ _ S); [auto|]; intros i Ei; now rewrite set_nth_other).
  Qed.

  (** Start of an iteration. *)
  Lemma still_start x q (w w1 : world) t : tidy w -> the_table w x = Val t -> has q (contents t) = true ->
    does hash eq w (CIterate x) = Val (w1, AMore true) ->
    still x (length (w_iters w)) q (length (filter (eq q) (here (length (w_iters w)) w1))) w1.
  Proof.
    intros T Et H E. cbn [does] in E. rewrite Et in E. cbn [bind] in E. apply the_table_val in Et.
    assert (D := contents_distinct hash eq GK t (T x t Et)).
    unfold first_key in E. destruct (elements t) as [|n]; [discriminate|].
    destruct (contents t) as [|[k v] l] eqn:Ec; [discriminate|].
    cbn [bind] in E. apply Val_inj in E. apply pair_equal_spec in E. destruct E as [<- _].
    exists t. split; [exact Et|]. rewrite Ec. split; [exact H|]. unfold here. cbn [w_tables w_iters]. rewrite nth_snoc_new.
    split; [reflexivity|]. cbn [after]. rewrite (gk_refl _ _ GK). exists l. split; [reflexivity|].
    destruct D as [D1 _]. cbn [has existsb fst] in H. cbn [filter]. destruct (eq q k) eqn:Eq; cbn [orb length] in *.
    - assert (F : has q l = false).
      { apply has_false. intros f I. rewrite (eq_same q k (fst f) Eq). exact (D1 f I). }
      now rewrite F.
    - unfold has. now rewrite H.
  Qed.

  Lemma still_history x j q : forall cs n w w' rs h0 s,
    related hash eq h0 w s -> history hash eq w cs = Val (w', rs) -> Forall (keeps eq x q j) cs ->
    still x j q n w -> still x j q (n + length (filter (eq q) (stood hash eq j w cs))) w'.
  Proof.
    induction cs as [|c cs IH]; intros n w w' rs h0 s R E F S; cbn [history stood] in *.
    - apply Val_inj in E. apply pair_equal_spec in E. destruct E as [<- _]. cbn. now rewrite Nat.add_0_r.
    - assert (St := step_right hash eq GK unused unused_free h0 w s c R).
      destruct (does hash eq w c) as [[w1 r]| | | |] eqn:Ed; try discriminate. cbn [bind] in E.
      destruct St as (s1 & _ & R1). apply Forall_cons_iff in F. destruct F as [Fc F].
      destruct (history hash eq w1 cs) as [[w2 rs2]| | | |] eqn:Eh; try discriminate. cbn [bind] in E.
      apply Val_inj in E. apply pair_equal_spec in E. destruct E as [<- _].
      assert (S1 := still_step x j q n w c w1 r (related_tidy _ _ _ R) (related_tidy _ _ _ R1) Ed Fc S).
      assert (S2 := IH _ w1 w2 rs2 h0 s1 R1 Eh F S1).
      rewrite filter_app, app_length, Nat.add_assoc. exact S2.
  Qed.

  (** A key that stays in the table is passed exactly once. *)
  Theorem passed_once cs0 (w : world) rs0 x t q w1 cs w2 rs :
    history hash eq nothing cs0 = Val (w, rs0) -> the_table w x = Val t -> stored eq q t ->
    does hash eq w (CIterate x) = Val (w1, AMore true) ->
    history hash eq w1 cs = Val (w2, rs) -> Forall (keeps eq x q (length (w_iters w))) cs ->
    nth_error (w_iters w2) (length (w_iters w)) = Some IGone ->
    exists k, filter (eq q) (here (length (w_iters w)) w1 ++ stood hash eq (length (w_iters w)) w1 cs) = [k].
  Proof.
    intros E0 Et (e & Ie & Eq) Ei Eh F G. set (j := length (w_iters w)) in *.
    assert (R0 := history_right hash eq GK unused unused_free [] cs0 nothing _ (start_related hash eq [])).
    rewrite E0 in R0. destruct R0 as (s & _ & R).
    assert (St := step_right hash eq GK unused unused_free [] w s (CIterate x) R).
    rewrite Ei in St. destruct St as (s1 & _ & R1).
    assert (H : has q (contents t) = true) by (apply existsb_exists; now exists e).
    assert (S := still_start x q w w1 t (related_tidy _ _ _ R) Et H Ei). fold j in S.
    assert (S2 := still_history x j q cs _ w1 w2 rs [] s1 R1 Eh F S).
    destruct S2 as (t2 & _ & _ & P). rewrite G in P. rewrite <- app_length, <- filter_app in P.
    revert P. generalize (filter (eq q) (here j w1 ++ stood hash eq j w1 cs)).
    intros [|k [|k' l]] P; try discriminate. now exists k.
  Qed.
End Walk.
