(** Histories of calls in memory do what histories of calls on lists do. *)

From Coq Require Import List NArith Arith Lia Bool.
From Verif Require Import Base.Outcome Base.Heap Palm.HashTableModel Palm.HashTableSpec
  Palm.HashTableProof Palm.TableMemoryModel Palm.TableMemorySpec Palm.TableMemoryChains
  Palm.TableMemoryTables Palm.TableMemoryOps Palm.TableMemoryIters.
Import ListNotations.
Local Open Scope outcome_scope.

Local Ltac no_abort :=
  unfold HashTableModel.index, bucket, bind;
  repeat match goal with
  | |- context [match ?x with _ => _ end] =>
      lazymatch x with
      | context [match _ with _ => _ end] => fail
      | _ => destruct x; try discriminate
      end
  end.

Section Proof.
  Context {K V : Type}.
  Variable hash : K -> N.
  Variable eq : K -> K -> bool.
  Hypothesis GK : good_key hash eq.
  Notation memory := (@memory K V).
  Notation table := (htable K V).
  Notation world := (@world K V).
  Notation process := (@process K V).
  Variable alloc : memory -> addr.
  Hypothesis alloc_free : forall h, lookup h (alloc h) = None.
  Notation wf := (@wf K V hash eq).

  (** Whose block an address is: that of a table ([inl]), of an iterator
      ([inr]), or neither. *)
  Definition owner : Type := addr -> option (nat + nat).

  Record owned (h0 h : memory) (own : owner) : Prop := {
    o_alloc : forall y o, own y = Some o -> lookup h y <> None;
    o_old : forall y, lookup h0 y <> None -> lookup h y = lookup h0 y /\ own y = None;
    o_new : forall y, own y = None -> lookup h0 y = None -> lookup h y = None
  }.

  (** The blocks [F] of [z] become the blocks [F']. *)
  Record passed (own own' : owner) (h h' : memory) (z : nat + nat) (F' : list addr) : Prop := {
    s_other : forall y o, o <> z -> (own' y = Some o <-> own y = Some o);
    s_mine : forall y, own' y = Some z <-> In y F';
    s_kept : forall y o, o <> z -> own y = Some o -> lookup h' y = lookup h y
  }.

  Lemma pass h0 h own h' z F F' :
    owned h0 h own -> (forall y, own y = Some z <-> In y F) -> moves h F h' F' ->
    (forall y, In y F' -> lookup h' y <> None) ->
    exists own', owned h0 h' own' /\ passed own own' h h' z F'.
  Proof.
    intros [Oa Oo On] Z [A B] Al.
    set (own' := fun y => if in_dec N.eq_dec y F' then Some z
                          else if in_dec N.eq_dec y F then None else own y).
    assert (X : forall y o, own y = Some o -> o <> z -> ~ In y F /\ lookup h' y = lookup h y /\ ~ In y F').
    { intros y o E Ne. assert (Ny : ~ In y F) by (rewrite <- Z, E; congruence).
      split; [exact Ny|]. apply A; [exact Ny|]. exact (Oa y o E). }
    exists own'. split; [split|split].
    - intros y o. unfold own'. destruct (in_dec N.eq_dec y F') as [I|Ni]; [auto|].
      destruct (in_dec N.eq_dec y F) as [I|Ni']; [discriminate|]. intros E.
      destruct (A y Ni' (Oa y o E)) as [E' _]. rewrite E'. exact (Oa y o E).
    - intros y L. destruct (Oo y L) as [E En].
      assert (Ny : ~ In y F) by (rewrite <- Z, En; discriminate).
      assert (L' : lookup h y <> None) by congruence.
      destruct (A y Ny L') as [E' Ny']. split; [congruence|]. unfold own'.
      destruct (in_dec N.eq_dec y F'); [contradiction|].
      destruct (in_dec N.eq_dec y F); [contradiction|exact En].
    - intros y. unfold own'. destruct (in_dec N.eq_dec y F') as [I|Ni]; [discriminate|].
      intros E L. apply B; [exact Ni|]. destruct (in_dec N.eq_dec y F) as [I|Ni']; [now left|]. right. auto.
    - intros y o Ne. unfold own'. split.
      + destruct (in_dec N.eq_dec y F') as [I|Ni]; [congruence|].
        destruct (in_dec N.eq_dec y F) as [I|Ni']; [discriminate|auto].
      + intros E. destruct (X y o E Ne) as (N1 & _ & N2).
        destruct (in_dec N.eq_dec y F'); [contradiction|].
        destruct (in_dec N.eq_dec y F); [contradiction|exact E].
    - intros y. unfold own'. destruct (in_dec N.eq_dec y F') as [I|Ni]; [tauto|].
      destruct (in_dec N.eq_dec y F) as [I|Ni']; split; intros E; try contradiction; try discriminate.
      exfalso. apply Ni'. now apply Z.
    - intros y o Ne E. exact (proj1 (proj2 (X y o E Ne))).
  Qed.

  Definition layout : Type := nat -> addr * list (list addr).
  Definition feet (ly : layout) (a : addr) (x : nat) : list addr := foot a (fst (ly x)) (snd (ly x)).

  Definition table_ok (h : memory) (own : owner) (ly : layout) (a : addr) (x : nat) (t : table) : Prop :=
    wf t /\ rep h a (fst (ly x)) (snd (ly x)) t /\ forall y, own y = Some (inl x) <-> In y (feet ly a x).

  Definition block_ok (own : owner) (j : nat) (q : option pointer) : Prop :=
    exists p, q = Some (Some p) /\ forall y, own y = Some (inr j) <-> y = p.

  Definition place_ok (h : memory) (own : owner) (ly : layout) (ts : list (option table))
             (ads : list addr) (j : nat) (i : @place K) (q : option pointer) : Prop :=
    match i with
    | IGone => forall y, own y <> Some (inr j)
    | ILost => block_ok own j q
    | IAt x k => block_ok own j q /\
        exists p a t el e, q = Some (Some p) /\ nth_error ts x = Some (Some t) /\
          nth_error ads x = Some a /\ lookup h p = Some (BIter a el (Some e)) /\
          spot (snd (ly x)) (entries t) el e k
    end.

  Record rel (h0 : memory) (w : world) (s : process) (own : owner) (ly : layout) : Prop := {
    g_tlen : length (w_tables w) = length (p_tables s);
    g_ilen : length (w_iters w) = length (p_iters s);
    g_table : forall x t, nth_error (w_tables w) x = Some (Some t) ->
      exists a, nth_error (p_tables s) x = Some a /\ table_ok (p_memory s) own ly a x t;
    g_dead : forall y x, own y = Some (inl x) -> exists t, nth_error (w_tables w) x = Some (Some t);
    g_iter : forall j i, nth_error (w_iters w) j = Some i ->
      place_ok (p_memory s) own ly (w_tables w) (p_tables s) j i (nth_error (p_iters s) j);
    g_range : forall y j, own y = Some (inr j) -> j < length (w_iters w);
    g_owned : owned h0 (p_memory s) own
  }.

  Lemma table_kept h own ly a x t h' own' z F' :
    table_ok h own ly a x t -> passed own own' h h' z F' -> z <> inl x -> table_ok h' own' ly a x t.
  Proof.
    intros (W & R & O) [So _ Sk] Ne. split; [exact W|]. split.
    - apply (rep_ext h); [|exact R]. intros y I. apply (Sk y (inl x)); [congruence|]. now apply O.
    - intros y. rewrite (So y (inl x)) by congruence. apply O.
  Qed.
  Lemma block_kept own j q own' h h' z F' :
    block_ok own j q -> passed own own' h h' z F' -> z <> inr j -> block_ok own' j q.
  Proof.
    intros (p & E & O) [So _ _] Ne. exists p. split; [exact E|]. intros y.
    rewrite (So y (inr j)) by congruence. apply O.
  Qed.
  Lemma gone_kept own (j : nat) own' (h h' : memory) z F' :
    (forall y, own y <> Some (inr j)) -> passed own own' h h' z F' -> z <> inr j ->
    forall y, own' y <> Some (inr j).
  Proof. intros G [So _ _] Ne y E. apply (G y). apply (So y (inr j)); [congruence|exact E]. Qed.

  Lemma nth_set_same {A} i (x : A) l y : nth_error l i = Some y -> nth_error (set_nth i x l) i = Some x.
  Proof. intros E. apply set_nth_same. apply nth_error_Some. congruence. Qed.
  Lemma nth_lose x gone (l : list (@place K)) j :
    nth_error (lose x gone l) j =
    option_map (fun i => match i with
                         | IAt y k => if Nat.eqb x y then if gone k then ILost else i else i
                         | _ => i
                         end) (nth_error l j).
  Proof. unfold lose. apply nth_error_map. Qed.
  Lemma lose_length x gone (l : list (@place K)) : length (lose x gone l) = length l.
  Proof. apply map_length. Qed.
  Lemma lose_none x (l : list (@place K)) : lose x (fun _ => false) l = l.
  Proof.
    unfold lose. rewrite <- (map_id l) at 2. apply map_ext. intros [y k| |]; try reflexivity.
    now destruct (Nat.eqb x y).
  Qed.

  (** A table changes, or is deleted. *)
  Lemma rel_changed h0 w s own ly x t a h' t' gone :
    rel h0 w s own ly -> nth_error (w_tables w) x = Some (Some t) -> nth_error (p_tables s) x = Some a ->
    changed (p_memory s) a (fst (ly x)) (snd (ly x)) t h' t' gone -> wf t' ->
    exists own' ly', rel h0 (mk_world (set_table w x (Some t')) (lose x gone (w_iters w)))
                         (with_memory s h') own' ly'.
  Proof.
    intros [Gt Gi Gx Gd Gp Gr Go] Et Ea (al' & R' & M & Sp) W'.
    destruct (Gx x t Et) as (a' & Ea' & W & R & O). rewrite Ea in Ea'. injection Ea' as <-.
    destruct (pass h0 (p_memory s) own h' (inl x) (feet ly a x) (foot a (fst (ly x)) al') Go O M)
      as (own' & Go' & P). { exact (rep_alloc _ _ _ _ _ R'). }
    set (ly' := fun y => if Nat.eqb y x then (fst (ly x), al') else ly y).
    assert (Lx : ly' x = (fst (ly x), al')) by (unfold ly'; now rewrite Nat.eqb_refl).
    assert (Ly : forall y, y <> x -> ly' y = ly y).
    { intros y Ne. unfold ly'. destruct (Nat.eqb_spec y x); [contradiction|reflexivity]. }
    exists own', ly'. split; cbn [w_tables w_iters with_memory p_memory p_tables p_iters].
    - unfold set_table. now rewrite set_nth_length.
    - now rewrite lose_length.
    - intros y u E. unfold set_table in E. destruct (Nat.eq_dec x y) as [<-|Ne].
      + rewrite (nth_set_same x (Some t') _ _ Et) in E. injection E as <-.
        exists a. split; [exact Ea|]. unfold table_ok, feet. rewrite Lx. cbn [fst snd].
        split; [exact W'|]. split; [exact R'|]. exact (s_mine _ _ _ _ _ _ P).
      + rewrite set_nth_other in E by exact Ne. destruct (Gx y u E) as (b & Eb & T).
        exists b. split; [exact Eb|]. unfold table_ok, feet. rewrite (Ly y) by congruence.
        apply (table_kept (p_memory s) own ly b y u h' own' (inl x) _ T P). congruence.
    - intros y v E. unfold set_table. destruct (Nat.eq_dec x v) as [<-|Ne].
      + exists t'. exact (nth_set_same x (Some t') _ _ Et).
      + rewrite set_nth_other by exact Ne. apply (Gd y). apply (s_other _ _ _ _ _ _ P); [congruence|exact E].
    - intros j i E. rewrite nth_lose in E. destruct (nth_error (w_iters w) j) as [i0|] eqn:Ei; [|discriminate].
      cbn [option_map] in E. injection E as <-. specialize (Gp j i0 Ei).
      destruct i0 as [y k| |]; cbn [place_ok] in *.
      + destruct Gp as (B & p & b & u & el & e & Eq & Eu & Eb & Lp & S).
        assert (B' := block_kept own j _ own' _ _ _ _ B P ltac:(discriminate)).
        destruct (Nat.eqb_spec x y) as [<-|Ne].
        * rewrite Et in Eu. injection Eu as <-. destruct (gone k) eqn:Eg; [exact B'|].
          split; [exact B'|]. exists p, b, t', el, e. split; [exact Eq|]. split.
          { unfold set_table. exact (nth_set_same x (Some t') _ _ Et). }
          split; [exact Eb|]. split.
          { destruct B as (p0 & Ep0 & Bo). rewrite Eq in Ep0. injection Ep0 as <-.
            rewrite (s_kept _ _ _ _ _ _ P p (inr j)); [exact Lp|discriminate|]. now apply Bo. }
          rewrite Lx. cbn [snd]. exact (Sp el e k S Eg).
        * split; [exact B'|]. exists p, b, u, el, e. split; [exact Eq|]. split.
          { unfold set_table. now rewrite set_nth_other. }
          split; [exact Eb|]. split.
          { destruct B as (p0 & Ep0 & Bo). rewrite Eq in Ep0. injection Ep0 as <-.
            rewrite (s_kept _ _ _ _ _ _ P p (inr j)); [exact Lp|discriminate|]. now apply Bo. }
          rewrite Ly by congruence. exact S.
      + exact (block_kept own j _ own' _ _ _ _ Gp P ltac:(discriminate)).
      + exact (gone_kept own j own' _ _ _ _ Gp P ltac:(discriminate)).
    - intros y j E. rewrite lose_length. apply (Gr y). apply (s_other _ _ _ _ _ _ P); [discriminate|exact E].
    - exact Go'.
  Qed.

  Lemma rel_deleted h0 w s own ly x t a h' :
    rel h0 w s own ly -> nth_error (w_tables w) x = Some (Some t) -> nth_error (p_tables s) x = Some a ->
    moves (p_memory s) (feet ly a x) h' [] ->
    exists own', rel h0 (mk_world (set_table w x None) (lose x (fun _ => true) (w_iters w)))
                     (with_memory s h') own' ly.
  Proof.
    intros [Gt Gi Gx Gd Gp Gr Go] Et Ea M.
    destruct (Gx x t Et) as (a' & Ea' & W & R & O). rewrite Ea in Ea'. injection Ea' as <-.
    destruct (pass h0 (p_memory s) own h' (inl x) (feet ly a x) [] Go O M) as (own' & Go' & P).
    { intros y []. }
    exists own'. split; cbn [w_tables w_iters with_memory p_memory p_tables p_iters].
    - unfold set_table. now rewrite set_nth_length.
    - now rewrite lose_length.
    - intros y u E. unfold set_table in E. destruct (Nat.eq_dec x y) as [<-|Ne].
      + rewrite (nth_set_same x None _ _ Et) in E. discriminate.
      + rewrite set_nth_other in E by exact Ne. destruct (Gx y u E) as (b & Eb & T).
        exists b. split; [exact Eb|].
        apply (table_kept (p_memory s) own ly b y u h' own' (inl x) _ T P). congruence.
    - intros y v E. unfold set_table. destruct (Nat.eq_dec x v) as [<-|Ne].
      + exfalso. apply (s_mine _ _ _ _ _ _ P) in E. destruct E.
      + rewrite set_nth_other by exact Ne. apply (Gd y). apply (s_other _ _ _ _ _ _ P); [congruence|exact E].
    - intros j i E. rewrite nth_lose in E. destruct (nth_error (w_iters w) j) as [i0|] eqn:Ei; [|discriminate].
      cbn [option_map] in E. injection E as <-. specialize (Gp j i0 Ei).
      destruct i0 as [y k| |]; cbn [place_ok] in *.
      + destruct Gp as (B & p & b & u & el & e & Eq & Eu & Eb & Lp & S).
        assert (B' := block_kept own j _ own' _ _ _ _ B P ltac:(discriminate)).
        destruct (Nat.eqb_spec x y) as [<-|Ne]; [exact B'|].
        split; [exact B'|]. exists p, b, u, el, e. split; [exact Eq|]. split.
        { unfold set_table. now rewrite set_nth_other. }
        split; [exact Eb|]. split; [|exact S].
        destruct B as (p0 & Ep0 & Bo). rewrite Eq in Ep0. injection Ep0 as <-.
        rewrite (s_kept _ _ _ _ _ _ P p (inr j)); [exact Lp|discriminate|]. now apply Bo.
      + exact (block_kept own j _ own' _ _ _ _ Gp P ltac:(discriminate)).
      + exact (gone_kept own j own' _ _ _ _ Gp P ltac:(discriminate)).
    - intros y j E. rewrite lose_length. apply (Gr y). apply (s_other _ _ _ _ _ _ P); [discriminate|exact E].
    - exact Go'.
  Qed.

  Lemma nth_snoc {A} (l : list A) x i y : nth_error (l ++ [x]) i = Some y ->
    nth_error l i = Some y \/ i = length l /\ y = x.
  Proof.
    intros E. destruct (Nat.lt_ge_cases i (length l)) as [L|L].
    - rewrite nth_error_app1 in E by exact L. now left.
    - rewrite nth_error_app2 in E by exact L. destruct (i - length l) eqn:D; cbn in E.
      + right. injection E as <-. split; [lia|reflexivity].
      + now destruct n.
  Qed.
  Lemma nth_snoc_old {A} (l : list A) x i y : nth_error l i = Some y -> nth_error (l ++ [x]) i = Some y.
  Proof. intros E. rewrite nth_error_app1; [exact E|]. apply nth_error_Some. congruence. Qed.
  Lemma nth_snoc_new {A} (l : list A) x : nth_error (l ++ [x]) (length l) = Some x.
  Proof. rewrite nth_error_app2 by lia. now rewrite Nat.sub_diag. Qed.

  (** A new table. *)
  Lemma rel_new h0 w s own ly h' a arr al t :
    rel h0 w s own ly -> moves (p_memory s) [] h' (foot a arr al) -> rep h' a arr al t -> wf t ->
    exists own' ly', rel h0 (mk_world (w_tables w ++ [Some t]) (w_iters w))
                         (mk_process h' (p_tables s ++ [a]) (p_iters s)) own' ly'.
  Proof.
    intros [Gt Gi Gx Gd Gp Gr Go] M R W. set (x := length (w_tables w)).
    assert (O : forall y, own y = Some (inl x) <-> In y []).
    { intros y. split; [|intros []]. intros E. destruct (Gd y x E) as (t0 & Et).
      assert (x < length (w_tables w)) by (apply nth_error_Some; congruence). unfold x in *. lia. }
    destruct (pass h0 (p_memory s) own h' (inl x) [] (foot a arr al) Go O M) as (own' & Go' & P).
    { exact (rep_alloc _ _ _ _ _ R). }
    set (ly' := fun y => if Nat.eqb y x then (arr, al) else ly y).
    assert (Lx : ly' x = (arr, al)) by (unfold ly'; now rewrite Nat.eqb_refl).
    assert (Ly : forall y, y < x -> ly' y = ly y).
    { intros y Ne. unfold ly'. destruct (Nat.eqb_spec y x); [lia|reflexivity]. }
    exists own', ly'. split; cbn [w_tables w_iters p_memory p_tables p_iters].
    - rewrite !app_length. cbn. lia.
    - exact Gi.
    - intros y u E. apply nth_snoc in E. destruct E as [E|[-> E]].
      + destruct (Gx y u E) as (b & Eb & T). exists b. split; [now apply nth_snoc_old|].
        assert (Ne : y < x) by (apply nth_error_Some; congruence).
        unfold table_ok, feet. rewrite (Ly y) by exact Ne.
        apply (table_kept (p_memory s) own ly b y u h' own' (inl x) _ T P). intros Q. injection Q. lia.
      + injection E as <-. exists a. fold x. split.
        { unfold x. rewrite Gt. apply nth_snoc_new. }
        unfold table_ok, feet. rewrite Lx. cbn [fst snd].
        split; [exact W|]. split; [exact R|]. exact (s_mine _ _ _ _ _ _ P).
    - intros y v E. destruct (Nat.eq_dec v x) as [->|Ne].
      + exists t. apply nth_snoc_new.
      + destruct (Gd y v) as (t0 & E0).
        { apply (s_other _ _ _ _ _ _ P); [congruence|exact E]. }
        exists t0. now apply nth_snoc_old.
    - intros j i E. specialize (Gp j i E). destruct i as [y k| |]; cbn [place_ok] in *.
      + destruct Gp as (B & p & b & u & el & e & Eq & Eu & Eb & Lp & S).
        split; [exact (block_kept own j _ own' _ _ _ _ B P ltac:(discriminate))|].
        assert (Ne : y < x) by (apply nth_error_Some; congruence).
        exists p, b, u, el, e. split; [exact Eq|]. split; [now apply nth_snoc_old|].
        split; [now apply nth_snoc_old|]. split.
        * destruct B as (p0 & Ep0 & Bo). rewrite Eq in Ep0. injection Ep0 as <-.
          rewrite (s_kept _ _ _ _ _ _ P p (inr j)); [exact Lp|discriminate|]. now apply Bo.
        * rewrite Ly by exact Ne. exact S.
      + exact (block_kept own j _ own' _ _ _ _ Gp P ltac:(discriminate)).
      + exact (gone_kept own j own' _ _ _ _ Gp P ltac:(discriminate)).
    - intros y j E. apply (Gr y). apply (s_other _ _ _ _ _ _ P); [discriminate|exact E].
    - exact Go'.
  Qed.

  (** Places of the other iterators when iterator [j] changes. *)
  Lemma place_kept h own ly ts ads j' i q own' h' j F' :
    place_ok h own ly ts ads j' i q -> passed own own' h h' (inr j) F' -> j' <> j ->
    place_ok h' own' ly ts ads j' i q.
  Proof.
    intros Gp P Ne. assert (Z : @inr nat nat j <> inr j') by congruence.
    destruct i as [y k| |]; cbn [place_ok] in *.
    - destruct Gp as (B & p & b & u & el & e & Eq & Eu & Eb & Lp & S).
      split; [exact (block_kept own j' _ own' _ _ _ _ B P Z)|].
      exists p, b, u, el, e. split; [exact Eq|]. split; [exact Eu|]. split; [exact Eb|]. split; [|exact S].
      destruct B as (p0 & Ep0 & Bo). rewrite Eq in Ep0. injection Ep0 as <-.
      rewrite (s_kept _ _ _ _ _ _ P p (inr j')); [exact Lp|congruence|]. now apply Bo.
    - exact (block_kept own j' _ own' _ _ _ _ Gp P Z).
    - exact (gone_kept own j' own' _ _ _ _ Gp P Z).
  Qed.

  (** A new iterator. *)
  Lemma rel_iterate h0 w s own ly x t a it el e k h' :
    rel h0 w s own ly -> nth_error (w_tables w) x = Some (Some t) -> nth_error (p_tables s) x = Some a ->
    lookup (p_memory s) it = None -> spot (snd (ly x)) (entries t) el e k ->
    lookup h' it = Some (BIter a el (Some e)) ->
    (forall y, y <> it -> lookup h' y = lookup (p_memory s) y) ->
    exists own', rel h0 (mk_world (w_tables w) (w_iters w ++ [IAt x k]))
                     (mk_process h' (p_tables s) (p_iters s ++ [Some it])) own' ly.
  Proof.
    intros [Gt Gi Gx Gd Gp Gr Go] Et Ea Li S Li' Out. set (j := length (w_iters w)).
    assert (O : forall y, own y = Some (inr j) <-> In y []).
    { intros y. split; [|intros []]. intros E. specialize (Gr y j E). unfold j in Gr. lia. }
    destruct (pass h0 (p_memory s) own h' (inr j) [] [it] Go O) as (own' & Go' & P).
    { split.
      - intros y _ L. assert (y <> it) by congruence. split; [now apply Out|]. intros [X|[]]. congruence.
      - intros y Ny [[]|E]. rewrite Out; [exact E|]. intros ->. apply Ny. now left. }
    { intros y [<-|[]]. congruence. }
    exists own'. split; cbn [w_tables w_iters p_memory p_tables p_iters].
    - exact Gt.
    - rewrite !app_length. cbn. lia.
    - intros y u E. destruct (Gx y u E) as (b & Eb & T). exists b. split; [exact Eb|].
      apply (table_kept (p_memory s) own ly b y u h' own' (inr j) _ T P). discriminate.
    - intros y v E. apply (Gd y). apply (s_other _ _ _ _ _ _ P); [discriminate|exact E].
    - intros j' i E. apply nth_snoc in E. destruct E as [E|[-> ->]].
      + assert (Lj : j' < j) by (apply nth_error_Some; congruence).
        assert (Q := place_kept _ _ _ _ _ _ _ _ _ _ _ _ (Gp j' i E) P ltac:(lia)).
        replace (nth_error (p_iters s ++ [Some it]) j') with (nth_error (p_iters s) j'); [exact Q|].
        rewrite nth_error_app1; [reflexivity|]. rewrite <- Gi. exact Lj.
      + fold j. assert (B : block_ok own' j (nth_error (p_iters s ++ [Some it]) j)).
        { exists it. split; [unfold j; rewrite Gi; apply nth_snoc_new|]. intros y.
          rewrite (s_mine _ _ _ _ _ _ P). cbn. intuition congruence. }
        cbn [place_ok]. split; [exact B|]. exists it, a, t, el, e.
        split; [unfold j; rewrite Gi; apply nth_snoc_new|]. auto.
    - intros y j' E. rewrite app_length. cbn. destruct (Nat.eq_dec j' j) as [->|Ne]; [unfold j; lia|].
      assert (X : own y = Some (inr j')) by (apply (s_other _ _ _ _ _ _ P); [congruence|exact E]).
      specialize (Gr y j' X). lia.
    - exact Go'.
  Qed.

  (** No iterator was made. *)
  Lemma rel_null h0 w s own ly : rel h0 w s own ly ->
    rel h0 (mk_world (w_tables w) (w_iters w ++ [IGone]))
        (mk_process (p_memory s) (p_tables s) (p_iters s ++ [None])) own ly.
  Proof.
    intros [Gt Gi Gx Gd Gp Gr Go]. split; cbn [w_tables w_iters p_memory p_tables p_iters]; auto.
    - rewrite !app_length. cbn. lia.
    - intros j i E. apply nth_snoc in E. destruct E as [E|[-> ->]].
      + assert (Lj : j < length (w_iters w)) by (apply nth_error_Some; congruence).
        rewrite nth_error_app1 by lia. exact (Gp j i E).
      + cbn [place_ok]. intros y E. specialize (Gr y _ E). lia.
    - intros y j E. rewrite app_length. specialize (Gr y j E). lia.
  Qed.

  (** Iterator [j] moves. *)
  Lemma rel_moved h0 w s own ly j p i0 x t a el e k h' :
    rel h0 w s own ly -> nth_error (w_iters w) j = Some i0 -> block_ok own j (nth_error (p_iters s) j) ->
    nth_error (p_iters s) j = Some (Some p) ->
    nth_error (w_tables w) x = Some (Some t) -> nth_error (p_tables s) x = Some a ->
    spot (snd (ly x)) (entries t) el e k -> h' = store (p_memory s) p (BIter a el (Some e)) ->
    exists own', rel h0 (mk_world (w_tables w) (set_nth j (IAt x k) (w_iters w)))
                     (mk_process h' (p_tables s) (set_nth j (Some p) (p_iters s))) own' ly.
  Proof.
    intros [Gt Gi Gx Gd Gp Gr Go] Ej B Ep Et Ea S ->.
    destruct B as (p0 & E0 & O). rewrite Ep in E0. injection E0 as <-.
    assert (O' : forall y, own y = Some (inr j) <-> In y [p]).
    { intros y. rewrite O. cbn. intuition congruence. }
    destruct (pass h0 (p_memory s) own (store (p_memory s) p (BIter a el (Some e))) (inr j) [p] [p] Go O') as (own' & Go' & P).
    { apply moves_write; [now left|]. intros y [<-|[]]. apply (o_alloc _ _ _ Go p (inr j)). now apply O. }
    { intros y [<-|[]]. rewrite lookup_store, N.eqb_refl. discriminate. }
    exists own'. split; cbn [w_tables w_iters p_memory p_tables p_iters].
    - exact Gt.
    - now rewrite !set_nth_length.
    - intros y u E. destruct (Gx y u E) as (b & Eb & T). exists b. split; [exact Eb|].
      apply (table_kept (p_memory s) own ly b y u _ own' (inr j) _ T P). discriminate.
    - intros y v E. apply (Gd y). apply (s_other _ _ _ _ _ _ P); [discriminate|exact E].
    - intros j' i E. destruct (Nat.eq_dec j j') as [<-|Ne].
      + rewrite (nth_set_same j _ _ _ Ej) in E. injection E as <-.
        rewrite (nth_set_same j _ _ _ Ep). cbn [place_ok].
        split.
        * exists p. split; [reflexivity|]. intros y. rewrite (s_mine _ _ _ _ _ _ P). cbn. intuition congruence.
        * exists p, a, t, el, e. rewrite lookup_store, N.eqb_refl. auto 10.
      + rewrite set_nth_other in E by exact Ne. rewrite set_nth_other by exact Ne.
        exact (place_kept _ _ _ _ _ _ _ _ _ _ _ _ (Gp j' i E) P ltac:(congruence)).
    - intros y j' E. rewrite set_nth_length. destruct (Nat.eq_dec j' j) as [->|Ne].
      + apply nth_error_Some. congruence.
      + apply (Gr y). apply (s_other _ _ _ _ _ _ P); [congruence|exact E].
    - exact Go'.
  Qed.

  (** Iterator [j] is freed. *)
  Lemma rel_freed h0 w s own ly j p i0 :
    rel h0 w s own ly -> nth_error (w_iters w) j = Some i0 -> block_ok own j (nth_error (p_iters s) j) ->
    nth_error (p_iters s) j = Some (Some p) ->
    exists own', rel h0 (mk_world (w_tables w) (set_nth j IGone (w_iters w)))
                     (mk_process (remove (p_memory s) p) (p_tables s) (set_nth j None (p_iters s))) own' ly.
  Proof.
    intros [Gt Gi Gx Gd Gp Gr Go] Ej B Ep.
    destruct B as (p0 & E0 & O). rewrite Ep in E0. injection E0 as <-.
    assert (O' : forall y, own y = Some (inr j) <-> In y [p]).
    { intros y. rewrite O. cbn. intuition congruence. }
    destruct (pass h0 (p_memory s) own (remove (p_memory s) p) (inr j) [p] [] Go O') as (own' & Go' & P).
    { apply moves_free; [intros []|intros y []]. }
    { intros y []. }
    exists own'. split; cbn [w_tables w_iters p_memory p_tables p_iters].
    - exact Gt.
    - now rewrite !set_nth_length.
    - intros y u E. destruct (Gx y u E) as (b & Eb & T). exists b. split; [exact Eb|].
      apply (table_kept (p_memory s) own ly b y u _ own' (inr j) _ T P). discriminate.
    - intros y v E. apply (Gd y). apply (s_other _ _ _ _ _ _ P); [discriminate|exact E].
    - intros j' i E. destruct (Nat.eq_dec j j') as [<-|Ne].
      + rewrite (nth_set_same j _ _ _ Ej) in E. injection E as <-. cbn [place_ok].
        intros y X. apply (s_mine _ _ _ _ _ _ P) in X. destruct X.
      + rewrite set_nth_other in E by exact Ne. rewrite set_nth_other by exact Ne.
        exact (place_kept _ _ _ _ _ _ _ _ _ _ _ _ (Gp j' i E) P ltac:(congruence)).
    - intros y j' E. rewrite set_nth_length. destruct (Nat.eq_dec j' j) as [->|Ne].
      + apply nth_error_Some. congruence.
      + apply (Gr y). apply (s_other _ _ _ _ _ _ P); [congruence|exact E].
    - exact Go'.
  Qed.

  Definition related (h0 : memory) (w : world) (s : process) : Prop := exists own ly, rel h0 w s own ly.

  Lemma the_table_val (w : world) x t : the_table w x = Val t -> nth_error (w_tables w) x = Some (Some t).
  Proof. unfold the_table. destruct (nth_error _ _) as [[u|]|]; try discriminate. congruence. Qed.
  Lemma the_place_val (w : world) j x k : the_place w j = Val (x, k) -> nth_error (w_iters w) j = Some (IAt x k).
  Proof. unfold the_place. destruct (nth_error _ _) as [[y q| |]|]; try discriminate. congruence. Qed.

  Lemma insert_no_abort (t : table) k v : HashTableModel.HTinsert hash eq t k v <> Aborted.
  Proof. unfold HashTableModel.HTinsert. no_abort. Qed.
  Lemma remove_no_abort (t : table) k : HashTableModel.HTremove hash eq t k <> Aborted.
  Proof. unfold HashTableModel.HTremove. no_abort. Qed.
  Lemma lookup_no_abort (t : table) k : HashTableModel.HTlookup hash eq t k <> Aborted.
  Proof. unfold HashTableModel.HTlookup. no_abort. Qed.

  (** One call. *)
  Theorem step_right h0 w s c : related h0 w s ->
    match does hash eq w c with
    | Val (w', r) => exists s', exec hash eq alloc s c = Val (s', r) /\ related h0 w' s'
    | Aborted => exec hash eq alloc s c = Aborted
    | _ => True
    end.
  Proof.
    intros (own & ly & G).
    assert (Tb : forall x t, the_table w x = Val t ->
              exists a, nth_error (w_tables w) x = Some (Some t) /\ nth_error (p_tables s) x = Some a /\
                table_of s x = Val a /\ wf t /\ rep (p_memory s) a (fst (ly x)) (snd (ly x)) t).
    { intros x t E. apply the_table_val in E. destruct (g_table _ _ _ _ _ G x t E) as (a & Ea & W & R & _).
      exists a. unfold table_of. rewrite Ea. auto 10. }
    assert (Nab : forall x, the_table w x <> Aborted).
    { intros x. unfold the_table. now destruct (nth_error _ _) as [[u|]|]. }
    assert (It : forall j x k, the_place w j = Val (x, k) ->
              nth_error (w_iters w) j = Some (IAt x k) /\
              block_ok own j (nth_error (p_iters s) j) /\
              exists p a t el e, nth_error (p_iters s) j = Some (Some p) /\ iter_of s j = Val p /\
                nth_error (w_tables w) x = Some (Some t) /\ nth_error (p_tables s) x = Some a /\
                lookup (p_memory s) p = Some (BIter a el (Some e)) /\
                spot (snd (ly x)) (entries t) el e k /\ the_table w x = Val t).
    { intros j x k E. apply the_place_val in E. split; [exact E|].
      destruct (g_iter _ _ _ _ _ G j _ E) as (B & p & a & t & el & e & Eq & Et & Ea & Lp & S).
      split; [exact B|]. exists p, a, t, el, e. unfold iter_of, the_table. rewrite Eq, Et. auto 10. }
    assert (Nabi : forall j, the_place w j <> Aborted).
    { intros j. unfold the_place. now destruct (nth_error _ _) as [[u q| |]|]. }
    destruct c; cbn [does exec].
    - (* new *)
      destruct (new_right alloc alloc_free (p_memory s) n) as (h' & arr & E & R & M).
      destruct (HTnew alloc (p_memory s) n) as [h1 a]. cbn [fst snd] in *. subst h1.
      eexists. split; [reflexivity|].
      destruct (rel_new _ _ _ _ _ _ _ _ _ _ G M R (wf_new hash eq n)) as (own' & ly' & G'). now exists own', ly'.
    - (* insert *)
      destruct (the_table w x) as [t| | | |] eqn:Et; cbn [bind]; try exact I; [|now destruct (Nab x)].
      destruct (Tb x t Et) as (a & Ex & Ea & Ta & W & R). rewrite Ta. cbn [bind].
      destruct (HashTableModel.HTinsert hash eq t k v) as [[t' r]| | | |] eqn:Ei; cbn [bind]; try exact I.
      + destruct (insert_right hash eq GK alloc alloc_free _ _ _ _ _ _ _ _ _ R W Ei) as (W' & h' & E & C).
        rewrite E. cbn [bind]. eexists. split; [reflexivity|].
        destruct (rel_changed _ _ _ _ _ _ _ _ _ _ _ G Ex Ea C W') as (own' & ly' & G').
        rewrite lose_none in G'. now exists own', ly'.
      + now destruct (insert_no_abort _ _ _ Ei).
    - (* remove *)
      destruct (the_table w x) as [t| | | |] eqn:Et; cbn [bind]; try exact I; [|now destruct (Nab x)].
      destruct (Tb x t Et) as (a & Ex & Ea & Ta & W & R). rewrite Ta. cbn [bind].
      destruct (HashTableModel.HTremove hash eq t k) as [[t' r]| | | |] eqn:Ei; cbn [bind]; try exact I.
      + destruct (remove_right hash eq GK _ _ _ _ _ _ _ _ R W Ei) as (W' & h' & E & C).
        rewrite E. cbn [bind]. eexists. split; [reflexivity|].
        destruct (rel_changed _ _ _ _ _ _ _ _ _ _ _ G Ex Ea C W') as (own' & ly' & G'). now exists own', ly'.
      + now destruct (remove_no_abort _ _ Ei).
    - (* lookup *)
      destruct (the_table w x) as [t| | | |] eqn:Et; cbn [bind]; try exact I; [|now destruct (Nab x)].
      destruct (Tb x t Et) as (a & Ex & Ea & Ta & W & R). rewrite Ta. cbn [bind].
      destruct (HashTableModel.HTlookup hash eq t k) as [v| | | |] eqn:Ei; cbn [bind]; try exact I.
      + rewrite (lookup_right hash eq _ _ _ _ _ _ _ R Ei). cbn [bind]. exists s. split; [reflexivity|].
        now exists own, ly.
      + now destruct (lookup_no_abort _ _ Ei).
    - (* clear *)
      destruct (the_table w x) as [t| | | |] eqn:Et; cbn [bind]; try exact I; [|now destruct (Nab x)].
      destruct (Tb x t Et) as (a & Ex & Ea & Ta & W & R). rewrite Ta. cbn [bind].
      destruct (clear_right _ _ _ _ _ R) as (h' & E & C). rewrite E. cbn [bind]. eexists. split; [reflexivity|].
      destruct (rel_changed _ _ _ _ _ _ _ _ _ _ _ G Ex Ea C (wf_clear hash eq t)) as (own' & ly' & G').
      now exists own', ly'.
    - (* delete *)
      destruct (the_table w x) as [t| | | |] eqn:Et; cbn [bind]; try exact I; [|now destruct (Nab x)].
      destruct (Tb x t Et) as (a & Ex & Ea & Ta & W & R). rewrite Ta. cbn [bind].
      destruct (delete_right _ _ _ _ _ R) as (h' & E & M). rewrite E. cbn [bind]. eexists. split; [reflexivity|].
      destruct (rel_deleted _ _ _ _ _ _ _ _ _ G Ex Ea M) as (own' & G'). now exists own', ly.
    - (* count *)
      destruct (the_table w x) as [t| | | |] eqn:Et; cbn [bind]; try exact I; [|now destruct (Nab x)].
      destruct (Tb x t Et) as (a & Ex & Ea & Ta & W & R). rewrite Ta. cbn [bind].
      rewrite (count_right _ _ _ _ _ R). cbn [bind]. exists s. split; [reflexivity|]. now exists own, ly.
    - (* map *)
      destruct (the_table w x) as [t| | | |] eqn:Et; cbn [bind]; try exact I; [|now destruct (Nab x)].
      destruct (Tb x t Et) as (a & Ex & Ea & Ta & W & R). rewrite Ta. cbn [bind].
      destruct (map_right eq f _ _ _ _ _ R) as (h' & E & C). rewrite E. cbn [bind]. eexists. split; [reflexivity|].
      destruct (rel_changed _ _ _ _ _ _ _ _ _ _ _ G Ex Ea C (wf_mapped hash eq f t W)) as (own' & ly' & G').
      rewrite lose_none in G'. now exists own', ly'.
    - (* fold *)
      destruct (the_table w x) as [t| | | |] eqn:Et; cbn [bind]; try exact I; [|now destruct (Nab x)].
      destruct (Tb x t Et) as (a & Ex & Ea & Ta & W & R). rewrite Ta. cbn [bind].
      rewrite (fold_right_ _ _ _ _ _ R). cbn [bind]. exists s. split; [reflexivity|]. now exists own, ly.
    - (* copy *)
      destruct (the_table w x) as [t| | | |] eqn:Et; cbn [bind]; try exact I; [|now destruct (Nab x)].
      destruct (Tb x t Et) as (a & Ex & Ea & Ta & W & R). rewrite Ta. cbn [bind].
      assert (C := copy_right hash eq GK alloc alloc_free kc vc _ _ _ _ _ R W).
      destruct (copied hash eq kc vc t) as [t'| | | |]; cbn [bind]; try exact I.
      + destruct C as (h' & a2 & arr2 & al2 & E & R' & W' & M). rewrite E. cbn [bind].
        eexists. split; [reflexivity|].
        destruct (rel_new _ _ _ _ _ _ _ _ _ _ G M R' W') as (own' & ly' & G'). now exists own', ly'.
      + now rewrite C.
    - (* iterate *)
      destruct (the_table w x) as [t| | | |] eqn:Et; cbn [bind]; try exact I; [|now destruct (Nab x)].
      destruct (Tb x t Et) as (a & Ex & Ea & Ta & W & R). rewrite Ta. cbn [bind].
      assert (C := iterate_right alloc alloc_free _ _ _ _ _ R).
      destruct (first_key t) as [[k|]| | | |]; cbn [bind]; try exact I.
      + destruct C as (it & i & e & E & Li & S). rewrite E. cbn [bind is_some].
        eexists. split; [reflexivity|].
        destruct (rel_iterate _ _ _ _ _ _ _ _ _ _ _ _
                    (store (store (p_memory s) it (BIter a 0 None)) it (BIter a i (Some e))) G Ex Ea Li S)
          as (own' & G').
        * now rewrite lookup_store, N.eqb_refl.
        * intros y Ny. rewrite !lookup_store. destruct (N.eqb_spec y it); [contradiction|reflexivity].
        * now exists own', ly.
      + rewrite C. cbn [bind is_some]. eexists. split; [reflexivity|]. exists own, ly. exact (rel_null _ _ _ _ _ G).
      + now rewrite C.
    - (* next *)
      destruct (the_place w j) as [[x k]| | | |] eqn:Ej; cbn [bind]; try exact I; [|now destruct (Nabi j)].
      destruct (It j x k Ej) as (Ei & B & p & a & t & el & e & Ep & Ip & Ex & Ea & Lp & S & Et).
      rewrite Et, Ip. cbn [bind]. destruct (Tb x t Et) as (a' & _ & Ea' & _ & W & R).
      rewrite Ea in Ea'. injection Ea' as <-.
      destruct (after eq k (contents t)) as [l|] eqn:Ef; [|exact I].
      assert (N := next_right hash eq GK _ _ _ _ _ _ _ _ _ _ R W Lp S Ef).
      destruct l as [|[k' v'] l].
      + rewrite N. cbn [bind is_some]. eexists. split; [reflexivity|].
        destruct (rel_freed _ _ _ _ _ _ _ _ G Ei B Ep) as (own' & G'). now exists own', ly.
      + destruct N as (i' & e' & N & S'). rewrite N. cbn [bind is_some]. eexists. split; [reflexivity|].
        destruct (rel_moved _ _ _ _ _ _ _ _ _ _ _ _ _ _ _ G Ei B Ep Ex Ea S' Logic.eq_refl) as (own' & G').
        now exists own', ly.
    - (* key *)
      destruct (the_place w j) as [[x k]| | | |] eqn:Ej; cbn [bind]; try exact I; [|now destruct (Nabi j)].
      destruct (It j x k Ej) as (Ei & B & p & a & t & el & e & Ep & Ip & Ex & Ea & Lp & S & Et).
      rewrite Ip. cbn [bind]. destruct (Tb x t Et) as (a' & _ & Ea' & _ & W & R).
      destruct (spot_facts hash eq GK _ _ _ _ _ _ _ _ R W S) as (v & nx & l2 & b1 & b2 & bs1 & bs2 & Le & _).
      unfold HTiterKey. rewrite (current_at _ _ _ _ _ Lp). cbn [bind].
      rewrite (read_entry_at _ _ _ _ _ Le). cbn [bind]. exists s. split; [reflexivity|]. now exists own, ly.
    - (* value *)
      destruct (the_place w j) as [[x k]| | | |] eqn:Ej; cbn [bind]; try exact I; [|now destruct (Nabi j)].
      destruct (It j x k Ej) as (Ei & B & p & a & t & el & e & Ep & Ip & Ex & Ea & Lp & S & Et).
      rewrite Et, Ip. cbn [bind]. destruct (Tb x t Et) as (a' & _ & Ea' & _ & W & R).
      destruct (spot_facts hash eq GK _ _ _ _ _ _ _ _ R W S)
        as (v & nx & l2 & b1 & b2 & bs1 & bs2 & Le & _ & _ & _ & _ & _ & Lk & _).
      rewrite Lk. unfold HTiterValue. rewrite (current_at _ _ _ _ _ Lp). cbn [bind].
      rewrite (read_entry_at _ _ _ _ _ Le). cbn [bind]. exists s. split; [reflexivity|]. now exists own, ly.
    - (* set *)
      destruct (the_place w j) as [[x k]| | | |] eqn:Ej; cbn [bind]; try exact I; [|now destruct (Nabi j)].
      destruct (It j x k Ej) as (Ei & B & p & a & t & el & e & Ep & Ip & Ex & Ea & Lp & S & Et).
      rewrite Et, Ip. cbn [bind]. destruct (Tb x t Et) as (a' & _ & Ea' & _ & W & R).
      rewrite Ea in Ea'. injection Ea' as <-.
      destruct (HashTableModel.HTinsert hash eq t k v) as [[t' r]| | | |] eqn:En; cbn [bind]; try exact I.
      + destruct (set_right hash eq GK alloc alloc_free _ _ _ _ _ _ _ _ _ _ _ R W S En) as (W' & h' & E & C).
        unfold HTiterSetValue. rewrite (current_at _ _ _ _ _ Lp). cbn [bind]. rewrite E. cbn [bind].
        eexists. split; [reflexivity|].
        destruct (rel_changed _ _ _ _ _ _ _ _ _ _ _ G Ex Ea C W') as (own' & ly' & G').
        rewrite lose_none in G'. now exists own', ly'.
      + now destruct (insert_no_abort _ _ _ En).
    - (* cancel *)
      assert (Free : forall i0, nth_error (w_iters w) j = Some i0 -> block_ok own j (nth_error (p_iters s) j) ->
        exists s', (let! i := iter_of s j in let! h := HTiterateCancel (p_memory s) i in
                    Val (mk_process h (p_tables s) (set_nth j None (p_iters s)), AUnit)) = Val (s', @AUnit K V) /\
                   related h0 (mk_world (w_tables w) (set_nth j IGone (w_iters w))) s').
      { intros i0 Ei B. assert (B' := B). destruct B' as (p & Ep & O). unfold iter_of. rewrite Ep. cbn [bind].
        assert (L : lookup (p_memory s) p <> None).
        { apply (o_alloc _ _ _ (g_owned _ _ _ _ _ G) p (inr j)). now apply O. }
        unfold HTiterateCancel, MEMfree. destruct (lookup (p_memory s) p); [|now destruct L]. cbn [bind].
        eexists. split; [reflexivity|].
        destruct (rel_freed _ _ _ _ _ _ _ _ G Ei B Ep) as (own' & G'). now exists own', ly. }
      destruct (nth_error (w_iters w) j) as [[x k| |]|] eqn:Ei; try exact I.
      + apply (Free _ Logic.eq_refl). exact (proj1 (g_iter _ _ _ _ _ G j _ Ei)).
      + apply (Free _ Logic.eq_refl). exact (g_iter _ _ _ _ _ G j _ Ei).
  Qed.

  Theorem history_right h0 : forall cs w s, related h0 w s ->
    match history hash eq w cs with
    | Val (w', rs) => exists s', execs hash eq alloc s cs = Val (s', rs) /\ related h0 w' s'
    | Aborted => execs hash eq alloc s cs = Aborted
    | _ => True
    end.
  Proof.
    induction cs as [|c cs IH]; intros w s G; cbn [history execs].
    - exists s. split; [reflexivity|exact G].
    - assert (St := step_right h0 w s c G).
      destruct (does hash eq w c) as [[w1 r]| | | |]; cbn [bind]; try exact I.
      + destruct St as (s1 & E & G1). rewrite E. cbn [bind]. specialize (IH w1 s1 G1).
        destruct (history hash eq w1 cs) as [[w2 rs]| | | |]; cbn [bind]; try exact I.
        * destruct IH as (s2 & E2 & G2). rewrite E2. cbn [bind]. exists s2. now split.
        * now rewrite IH.
      + now rewrite St.
  Qed.

  Lemma start_related h0 : related h0 nothing (mk_process h0 [] []).
  Proof.
    exists (fun _ => None), (fun _ => (0%N, [])). split; cbn; try discriminate; auto.
    - intros [|x] t E; discriminate E.
    - intros [|x] t E; discriminate E.
    - split; try discriminate; auto.
  Qed.

  Lemma released_memory h0 w s : related h0 w s -> all_released w ->
    forall y, lookup (p_memory s) y = lookup h0 y.
  Proof.
    intros (own & ly & G) [At Ai] y. destruct (g_owned _ _ _ _ _ G) as [Oa Oo On].
    assert (En : own y = None).
    { destruct (own y) as [[x|j]|] eqn:E; [| |reflexivity]; exfalso.
      - destruct (g_dead _ _ _ _ _ G y x E) as (t & Et). exact (At x t Et).
      - assert (L := g_range _ _ _ _ _ G y j E). apply nth_error_Some in L.
        destruct (nth_error (w_iters w) j) as [i|] eqn:Ei; [|now apply L].
        assert (P := g_iter _ _ _ _ _ G j i Ei). rewrite (Ai j i Ei) in P. exact (P y E). }
    destruct (lookup h0 y) as [b|] eqn:E0.
    - rewrite <- E0. apply Oo. congruence.
    - now apply On.
  Qed.

  (** The blocks of tables and iterators. *)
  Lemma table_blocks h0 w s own ly : rel h0 w s own ly -> forall ts n, (forall x, nth_error ts x = nth_error (w_tables w) (n + x)) ->
    exists F, NoDup F /\
      length F = list_sum (map (fun o => match o with Some t => 2 + length (contents t) | None => 0 end) ts) /\
      forall y, In y F <-> exists x, n <= x /\ own y = Some (inl x).
  Proof.
    intros G. induction ts as [|o ts IH]; intros n E.
    - exists []. split; [constructor|]. split; [reflexivity|]. intros y. split; [intros []|].
      intros (x & L & Ex). destruct (g_dead _ _ _ _ _ G y x Ex) as (t & Et).
      specialize (E (x - n)). replace (n + (x - n)) with x in E by lia. rewrite Et in E. now destruct (x - n).
    - destruct (IH (S n)) as (F & Nd & Lf & If). { intros x. specialize (E (S x)). cbn in E. rewrite E. f_equal. lia. }
      specialize (E 0). cbn in E. rewrite Nat.add_0_r in E. destruct o as [t|].
      + symmetry in E. destruct (g_table _ _ _ _ _ G n t E) as (a & _ & _ & R & O).
        exists (feet ly a n ++ F). split; [|split].
        * apply app_nodup; [exact (r_nodup _ _ _ _ _ R)|exact Nd|].
          intros y I1 I2. apply O in I1. apply If in I2. destruct I2 as (x & L & Ex).
          rewrite I1 in Ex. injection Ex. lia.
        * rewrite app_length, Lf. unfold feet, foot. cbn [length].
          rewrite <- (contents_length _ _ _ _ _ R). reflexivity.
        * intros y. rewrite in_app_iff, <- O, If. split.
          -- intros [Ey|(x & L & Ex)]; [now exists n|]. exists x. split; [lia|exact Ex].
          -- intros (x & L & Ex). destruct (Nat.eq_dec x n) as [->|Ne]; [now left|].
             right. exists x. split; [lia|exact Ex].
      + exists F. split; [exact Nd|]. split; [rewrite Lf; reflexivity|]. intros y. rewrite If. split.
        * intros (x & L & Ex). exists x. split; [lia|exact Ex].
        * intros (x & L & Ex). exists x. split; [|exact Ex]. destruct (Nat.eq_dec x n) as [->|Ne]; [|lia].
          destruct (g_dead _ _ _ _ _ G y n Ex) as (t & Et). congruence.
  Qed.

  Lemma iter_blocks h0 w s own ly : rel h0 w s own ly -> forall ps n, (forall x, nth_error ps x = nth_error (w_iters w) (n + x)) ->
    exists F, NoDup F /\
      length F = length (filter (fun i => match i with IGone => false | _ => true end) ps) /\
      forall y, In y F <-> exists j, n <= j /\ own y = Some (inr j).
  Proof.
    intros G. induction ps as [|o ps IH]; intros n E.
    - exists []. split; [constructor|]. split; [reflexivity|]. intros y. split; [intros []|].
      intros (x & L & Ex). assert (Lx := g_range _ _ _ _ _ G y x Ex). apply nth_error_Some in Lx.
      specialize (E (x - n)). replace (n + (x - n)) with x in E by lia. rewrite <- E in Lx. now destruct (x - n).
    - destruct (IH (S n)) as (F & Nd & Lf & If). { intros x. specialize (E (S x)). cbn in E. rewrite E. f_equal. lia. }
      specialize (E 0). cbn in E. rewrite Nat.add_0_r in E. symmetry in E.
      assert (P := g_iter _ _ _ _ _ G n o E).
      assert (X : block_ok own n (nth_error (p_iters s) n) -> exists F, NoDup F /\
        length F = S (length (filter (fun i => match i with IGone => false | _ => true end) ps)) /\
        forall y, In y F <-> exists j, n <= j /\ own y = Some (inr j)).
      { intros (p & _ & O). exists (p :: F). split; [|split].
        - constructor; [|exact Nd]. intros I. apply If in I. destruct I as (j & L & Ej).
          rewrite (proj2 (O p) Logic.eq_refl) in Ej. injection Ej. lia.
        - cbn [length]. now rewrite Lf.
        - intros y. cbn [In]. rewrite If. split.
          + intros [<-|(x & L & Ex)]; [exists n; split; [lia|now apply O]|]. exists x. split; [lia|exact Ex].
          + intros (x & L & Ex). destruct (Nat.eq_dec x n) as [->|Ne]; [left; symmetry; now apply O|].
            right. exists x. split; [lia|exact Ex]. }
      destruct o as [x k| |]; cbn [filter length].
      + apply X. exact (proj1 P).
      + apply X. exact P.
      + exists F. split; [exact Nd|]. split; [exact Lf|]. intros y. rewrite If. split.
        * intros (j & L & Ej). exists j. split; [lia|exact Ej].
        * intros (j & L & Ej). exists j. split; [|exact Ej]. destruct (Nat.eq_dec j n) as [->|Ne]; [|lia].
          now destruct (P y).
  Qed.

  Lemma memory_blocks h0 w s : related h0 w s ->
    (forall y, lookup h0 y <> None -> lookup (p_memory s) y = lookup h0 y) /\
    exists F, NoDup F /\ length F = blocks w /\
      forall y, In y F <-> lookup (p_memory s) y <> None /\ lookup h0 y = None.
  Proof.
    intros (own & ly & G). assert (Go := g_owned _ _ _ _ _ G). destruct Go as [Oa Oo On].
    split. { intros y L. now apply Oo. }
    destruct (table_blocks _ _ _ _ _ G (w_tables w) 0 ltac:(reflexivity)) as (F1 & N1 & L1 & I1).
    destruct (iter_blocks _ _ _ _ _ G (w_iters w) 0 ltac:(reflexivity)) as (F2 & N2 & L2 & I2).
    exists (F1 ++ F2). split; [|split].
    - apply app_nodup; [exact N1|exact N2|]. intros y Ia Ib.
      apply I1 in Ia. apply I2 in Ib. destruct Ia as (x & _ & Ex), Ib as (j & _ & Ej). congruence.
    - now rewrite app_length, L1, L2.
    - intros y. rewrite in_app_iff, I1, I2. split.
      + intros H. assert (X : exists o, own y = Some o) by (destruct H as [(x & _ & E)|(x & _ & E)]; eauto).
        destruct X as (o & Eo). split; [exact (Oa y o Eo)|]. destruct (lookup h0 y) eqn:E0; [|reflexivity].
        destruct (Oo y) as [_ En]; congruence.
      + intros [L E0]. destruct (own y) as [[x|j]|] eqn:Eo.
        * left. exists x. split; [lia|reflexivity].
        * right. exists j. split; [lia|reflexivity].
        * destruct L. now apply On.
  Qed.
End Proof.
