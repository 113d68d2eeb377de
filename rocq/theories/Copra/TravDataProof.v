(** The memory with frames and data structures does what the stack of
    traversals does. *)

From Coq Require Import List Arith NArith Bool Ascii Lia.
From Verif Require Import Base.Outcome Base.Heap Palm.StrModel Copra.TravModel Copra.TravDataModel Copra.TravDataSpec.
Import ListNotations.
Local Open Scope outcome_scope.

Local Arguments same_name : simpl never.

(** ** Fields *)
Section Fields.
  Context {V : Type}.
  Implicit Types r : list (cstring * V).
  Lemma get_initialised : forall r f, get_field (initialised r) f = option_map Some (get_field r f).
  Proof.
    intros r f. induction r as [|[g v] r IH]; [reflexivity|]. cbn. destruct (same_name g f); [reflexivity|exact IH].
  Qed.
  Lemma set_initialised : forall r f v, set_field (initialised r) f (Some v) = initialised (set_field r f v).
  Proof.
    intros r f v. induction r as [|[g u] r IH]; [reflexivity|]. cbn. destruct (same_name g f); [reflexivity|].
    cbn. f_equal. exact IH.
  Qed.
  Lemma get_field_in : forall X (r : list (cstring * X)) f, In f (map fst r) <-> get_field r f <> None.
  Proof.
    intros X r f. induction r as [|[g v] r IH]; cbn; [intuition congruence|].
    destruct (same_name g f) as [->|N]; [intuition congruence|]. rewrite IH. intuition congruence.
  Qed.
  Lemma set_field_names : forall X (r : list (cstring * X)) f v, map fst (set_field r f v) = map fst r.
  Proof.
    intros X r f v. induction r as [|[g u] r IH]; [reflexivity|]. cbn. destruct (same_name g f); [reflexivity|].
    cbn. now rewrite IH.
  Qed.
  Lemma get_field_unique : forall X (r : list (cstring * X)) f v, NoDup (map fst r) -> In (f, v) r -> get_field r f = Some v.
  Proof.
    intros X r f v. induction r as [|[g u] r IH]; intros N I; [destruct I|]. cbn in *. apply NoDup_cons_iff in N. destruct N as [N1 N2].
    destruct (same_name g f) as [->|Ne].
    - destruct I as [E|I]; [congruence|]. destruct N1. apply (in_map fst) in I. exact I.
    - destruct I as [E|I]; [congruence|]. now apply IH.
  Qed.
  (** Assigning the first field that has not been assigned *)
  Lemma get_next : forall r f v (fs : list (cstring * V)), NoDup (map fst r ++ f :: map fst fs) ->
    get_field (initialised r ++ (f, None) :: map (fun g => (fst g, None)) fs) f = Some None /\
    set_field (initialised r ++ (f, None) :: map (fun g => (fst g, None)) fs) f (Some v) =
    initialised (r ++ [(f, v)]) ++ map (fun g => (fst g, None)) fs.
  Proof.
    intros r f v fs. induction r as [|[g u] r IH]; intros N; cbn in *.
    - destruct (same_name f f); [split; reflexivity|congruence].
    - apply NoDup_cons_iff in N. destruct N as [N1 N2]. destruct (IH N2) as [I1 I2].
      destruct (same_name g f) as [->|Ne].
      + destruct N1. apply in_or_app. right. now left.
      + split; [exact I1|]. apply (f_equal (cons (g, Some u))). exact I2.
  Qed.
End Fields.

Section Data.
  Context {V : Type}.
  Variable fields : nat -> option (list (cstring * V)).
  Hypothesis names_distinct : forall trav fs, fields trav = Some fs -> NoDup (map fst fs).
  Variable malloc : nat -> heap (block V) -> addr.
  Hypothesis malloc_fresh : forall n h, lookup h (malloc n h) = None.
  Implicit Types (F : @traversals V) (ads : list (addr * option addr)).
  Notation proper := (proper fields).
  Notation holds := (holds fields).

  Lemma assign_defaults_spec : forall (fs r : list (cstring * V)) d (s : memory V), NoDup (map fst r ++ map fst fs) ->
    lookup (mem s) d = Some (BData (initialised r ++ map (fun g => (fst g, None)) fs)) ->
    exists s', assign_defaults d fs s = Val s' /\ current_traversal s' = current_traversal s /\
      forall x, lookup (mem s') x = if N.eqb x d then Some (BData (initialised (r ++ fs))) else lookup (mem s) x.
  Proof.
    induction fs as [|[f v] fs IH]; intros r d s N L.
    - exists s. split; [reflexivity|]. split; [reflexivity|]. intros x. cbn in L. rewrite !app_nil_r in *.
      destruct (N.eqb_spec x d) as [->|]; [exact L|reflexivity].
    - cbn in N. destruct (get_next r f v fs N) as [G1 G2]. cbn [map] in L. cbn [fst] in L.
      cbn [assign_defaults]. unfold c_store. rewrite L, G1, G2. cbn [bind].
      edestruct (IH (r ++ [(f, v)]) d) as [s' [E [C M]]].
      3:{ exists s'. split; [exact E|]. split; [rewrite C; reflexivity|]. intros x. rewrite M. cbn [mem].
          rewrite <- app_assoc. cbn [app]. destruct (N.eqb_spec x d) as [->|Ne]; [reflexivity|].
          rewrite lookup_store. apply N.eqb_neq in Ne. now rewrite Ne. }
      + rewrite map_app, <- app_assoc. exact N.
      + cbn [mem]. rewrite lookup_store, N.eqb_refl. reflexivity.
  Qed.

  (** ** Layouts *)
  Fixpoint level_addr (l : nat) ads : option addr :=
    match ads with
    | [] => None
    | x :: ads => if Nat.eqb l (length ads) then snd x else level_addr l ads
    end.
  Lemma level_addr_lt : forall ads l d, level_addr l ads = Some d -> l < length ads.
  Proof.
    induction ads as [|x ads IH]; intros l d E; cbn in *; [discriminate|].
    destruct (Nat.eqb_spec l (length ads)); [lia|]. apply IH in E. lia.
  Qed.
  Lemma level_addr_cons : forall x ads l d, level_addr l ads = Some d -> level_addr l (x :: ads) = Some d.
  Proof.
    intros x ads l d E. cbn. pose proof (level_addr_lt _ _ _ E). destruct (Nat.eqb_spec l (length ads)); [lia|exact E].
  Qed.

  Lemma proper_inv : forall a d ads ty r F, proper ((a, d) :: ads) ((ty, r) :: F) ->
    proper ads F /\
    ((d = None /\ r = None /\ fields ty = None) \/ (exists p q, d = Some p /\ r = Some q /\ fields ty <> None)).
  Proof.
    intros a d ads ty r F P. inversion P as [|x y l l' H1 H2]; subst. cbn in H1. split; [exact H2|]. destruct H1 as [I J].
    destruct d as [p|], r as [q|].
    - right. exists p, q. split; [reflexivity|]. split; [reflexivity|]. intros E. apply I in E. discriminate.
    - destruct J as [_ J]. discriminate (J eq_refl).
    - destruct J as [J _]. discriminate (J eq_refl).
    - left. split; [reflexivity|]. split; [reflexivity|]. now apply I.
  Qed.
  Lemma proper_length : forall ads F, proper ads F -> length ads = length F.
  Proof. intros ads F P. induction P; cbn; congruence. Qed.

  Lemma lookup_in : forall B (h : heap B) x b, lookup h x = Some b -> In x (map fst h).
  Proof.
    intros B h x b. induction h as [|[y c] h IH]; cbn; intros E; [discriminate|].
    destruct (N.eqb_spec y x); [now left|right; now apply IH].
  Qed.
  Lemma lookup_out : forall B (h : heap B) x, ~ In x (map fst h) -> lookup h x = None.
  Proof.
    intros B h x N. destruct (lookup h x) eqn:E; [|reflexivity]. destruct N. exact (lookup_in _ _ _ _ E).
  Qed.
  Lemma in_lookup : forall B (h : heap B) x, In x (map fst h) -> lookup h x <> None.
  Proof.
    intros B h x. induction h as [|[y c] h IH]; cbn; intros I; [destruct I|].
    destruct (N.eqb_spec y x) as [_|Ne]; [discriminate|]. apply IH. destruct I; [congruence|assumption].
  Qed.

  (** The data of a traversal is where the layout has it, *)
  Lemma level_data : forall ads F l d, proper ads F -> NoDup (map fst (layout ads F)) -> level_addr l ads = Some d ->
    exists r, nth_started l F = Some r /\ lookup (layout ads F) d = Some (BData (initialised r)).
  Proof.
    induction ads as [|[a o] ads IH]; intros F l d P N L; [discriminate|].
    destruct F as [|[ty r] F]; [inversion P|]. pose proof (proper_length _ _ P) as Len. cbn in Len.
    apply proper_inv in P. destruct P as [P C]. cbn [level_addr snd] in L. cbn [nth_started snd].
    replace (length F) with (length ads) by lia. destruct C as [[-> [-> E]]|[p [q [-> [-> E]]]]]; cbn [layout map fst] in N |- *.
    - apply NoDup_cons_iff in N. destruct N as [N1 N2]. destruct (Nat.eqb_spec l (length ads)); [discriminate|].
      destruct (IH F l d P N2 L) as [r [Er Lr]]. exists r. split; [exact Er|]. cbn [lookup].
      destruct (N.eqb_spec a d) as [->|]; [|exact Lr]. destruct N1. exact (lookup_in _ _ _ _ Lr).
    - apply NoDup_cons_iff in N. destruct N as [N1 N2]. apply NoDup_cons_iff in N2. destruct N2 as [N2 N3].
      destruct (Nat.eqb_spec l (length ads)) as [_|_].
      + injection L as <-. exists q. split; [reflexivity|]. cbn [lookup]. rewrite N.eqb_refl.
        destruct (N.eqb_spec a p) as [->|]; [|reflexivity]. destruct N1. now left.
      + destruct (IH F l d P N3 L) as [r [Er Lr]]. exists r. split; [exact Er|]. cbn [lookup].
        pose proof (lookup_in _ _ _ _ Lr) as I.
        destruct (N.eqb_spec a d) as [->|]; [destruct N1; now right|].
        destruct (N.eqb_spec p d) as [->|]; [now destruct N2|exact Lr].
  Qed.

  (** and writing it writes that place only. *)
  Lemma update_length : forall F l r, length (update l r F) = length F.
  Proof.
    induction F as [|x F IH]; intros l r; [reflexivity|]. cbn. destruct (Nat.eqb l (length F)); cbn; [reflexivity|now rewrite IH].
  Qed.
  Lemma update_types : forall F l r, map fst (update l r F) = map fst F.
  Proof.
    induction F as [|x F IH]; intros l r; [reflexivity|]. cbn. destruct (Nat.eqb l (length F)); cbn; [reflexivity|now rewrite IH].
  Qed.
  Lemma level_update : forall ads F l d r, proper ads F -> NoDup (map fst (layout ads F)) -> level_addr l ads = Some d ->
    proper ads (update l r F) /\
    map fst (layout ads (update l r F)) = map fst (layout ads F) /\
    forall x, lookup (layout ads (update l r F)) x = if N.eqb x d then Some (BData (initialised r)) else lookup (layout ads F) x.
  Proof.
    induction ads as [|[a o] ads IH]; intros F l d r' P N L; [discriminate|].
    destruct F as [|[ty r] F]; [inversion P|]. pose proof (proper_length _ _ P) as Len. cbn in Len.
    pose proof P as P0. apply proper_inv in P. destruct P as [P C]. cbn [level_addr snd] in L. cbn [update fst].
    replace (length F) with (length ads) by lia. destruct C as [[-> [-> E]]|[p [q [-> [-> E]]]]]; cbn [layout map fst] in N |- *.
    - apply NoDup_cons_iff in N. destruct N as [N1 N2]. destruct (Nat.eqb_spec l (length ads)); [discriminate|].
      destruct (IH F l d r' P N2 L) as [A [B C]]. cbn [layout map fst]. split; [|split].
      + inversion P0; subst. constructor; assumption.
      + now rewrite B.
      + intros x. cbn [lookup]. rewrite C. destruct (N.eqb_spec a x) as [->|]; [|reflexivity].
        destruct (N.eqb_spec x d) as [->|]; [|reflexivity]. destruct N1.
        destruct (level_data _ _ _ _ P N2 L) as [q [_ Lq]]. exact (lookup_in _ _ _ _ Lq).
    - apply NoDup_cons_iff in N. destruct N as [N1 N2]. apply NoDup_cons_iff in N2. destruct N2 as [N2 N3].
      destruct (Nat.eqb_spec l (length ads)) as [_|_].
      + injection L as <-. cbn [layout map fst]. split; [|split].
        * inversion P0 as [|? ? ? ? H1 H2]; subst. constructor; [|assumption]. cbn in *. intuition congruence.
        * reflexivity.
        * intros x. cbn [lookup]. destruct (N.eqb_spec a x) as [->|].
          -- destruct (N.eqb_spec x p) as [->|]; [|reflexivity]. destruct N1. now left.
          -- rewrite (N.eqb_sym x p). now destruct (N.eqb_spec p x).
      + destruct (IH F l d r' P N3 L) as [A [B C]]. cbn [layout map fst].
        destruct (level_data _ _ _ _ P N3 L) as [q' [_ Lq]]. apply lookup_in in Lq. split; [|split].
        * inversion P0; subst. constructor; assumption.
        * now rewrite B.
        * intros x. cbn [lookup]. rewrite C. destruct (N.eqb_spec a x) as [->|].
          { destruct (N.eqb_spec x d) as [->|]; [|reflexivity]. destruct N1. now right. }
          destruct (N.eqb_spec p x) as [->|]; [|reflexivity].
          destruct (N.eqb_spec x d) as [->|]; [|reflexivity]. now destruct N2.
  Qed.

  (** ** The operations *)
  Lemma sim_bind : forall X Y X' Y' (R : X -> Y -> Prop) (R' : X' -> Y' -> Prop) c a f g,
    sim R c a -> (forall x y, R x y -> sim R' (f x) (g y)) -> sim R' (bind c f) (bind a g).
  Proof. intros X Y X' Y' R R' c a f g S K. destruct c, a; cbn in *; try contradiction; auto. Qed.

  Variable h0 : heap (block V).
  (** The traversals with types [T] *)
  Definition rep ads (T : list nat) (s : memory V) F : Prop := holds h0 ads s F /\ map fst F = T.

  Lemma sim_current : forall ads T s F, rep ads T s F -> c_current s = s_current F.
  Proof.
    intros ads T s F [H _]. destruct H as [C P N A M]. unfold c_current. rewrite C.
    destruct ads as [|[a o] ads], F as [|[ty r] F]; try (exfalso; now inversion P); [reflexivity|]. cbn [top]. rewrite M.
    apply proper_inv in P. destruct P as [_ [[-> [-> _]]|[p [q [-> [-> _]]]]]]; cbn; rewrite N.eqb_refl; reflexivity.
  Qed.

  Lemma sim_enter : forall trav ads T s F, rep ads T s F ->
    exists x s', c_enter fields malloc trav s = Val s' /\ rep (x :: ads) (trav :: T) s' ((trav, fields trav) :: F).
  Proof.
    intros trav ads T s F [H ET]. destruct H as [C P N A M]. unfold c_enter.
    set (a := malloc (clock s) (mem s)). pose proof (malloc_fresh (clock s) (mem s)) as Fa. fold a in Fa.
    assert (Na : ~ In a (map fst (layout ads F))).
    { intros I. apply in_lookup in I. rewrite M in Fa. destruct (lookup (layout ads F) a); congruence. }
    assert (Za : lookup h0 a = None).
    { rewrite M in Fa. destruct (lookup (layout ads F) a); congruence. }
    destruct (fields trav) as [fs|] eqn:Ef.
    - set (h := Heap.store (mem s) a (BFrame (current_traversal s) trav None)).
      set (d := malloc (S (clock s)) h). pose proof (malloc_fresh (S (clock s)) h) as Fd. fold d in Fd.
      unfold h in Fd. rewrite lookup_store in Fd. destruct (N.eqb_spec d a) as [|Nda]; [discriminate|].
      assert (Nd : ~ In d (map fst (layout ads F))).
      { intros I. apply in_lookup in I. rewrite M in Fd. destruct (lookup (layout ads F) d); congruence. }
      assert (Zd : lookup h0 d = None).
      { rewrite M in Fd. destruct (lookup (layout ads F) d); congruence. }
      edestruct (assign_defaults_spec fs [] d) as [s' [E [C' M']]].
      3:{ exists (a, Some d), s'. split; [exact E|]. split; [|cbn; now rewrite ET]. constructor.
          - rewrite C'. reflexivity.
          - constructor; [|exact P]. cbn. rewrite Ef. intuition congruence.
          - cbn [layout map fst]. constructor; [|constructor; assumption]. intros [I|I]; [congruence|contradiction].
          - cbn [layout map fst]. intros x [<-|[<-|I]]; auto.
          - intros x. rewrite M'. cbn [mem layout lookup app]. rewrite C.
            destruct (N.eqb_spec x d) as [->|Nxd].
            + destruct (N.eqb_spec a d); [congruence|]. now rewrite N.eqb_refl.
            + unfold h. rewrite !lookup_store. rewrite (N.eqb_sym a x), (N.eqb_sym d x).
              destruct (N.eqb_spec x a); [reflexivity|]. destruct (N.eqb_spec x d); [congruence|]. apply M. }
      + cbn. exact (names_distinct _ _ Ef).
      + cbn [mem]. rewrite !lookup_store. destruct (N.eqb_spec d a); [congruence|]. now rewrite N.eqb_refl.
    - eexists (a, None), _. split; [reflexivity|]. split; [|cbn; now rewrite ET]. constructor.
      + reflexivity.
      + constructor; [|exact P]. cbn. rewrite Ef. intuition congruence.
      + cbn [layout map fst]. constructor; assumption.
      + cbn [layout map fst]. intros x [<-|I]; auto.
      + intros x. cbn [mem layout lookup]. rewrite lookup_store, (N.eqb_sym a x), C. destruct (N.eqb x a); [reflexivity|]. apply M.
  Qed.

  Lemma sim_data : forall trav ads T s F, rep ads T s F ->
    sim (fun d l => level_addr l ads = Some d) (c_data trav s) (s_data trav F).
  Proof.
    intros trav ads T s F [H ET]. destruct H as [C P N A M]. unfold c_data. rewrite C.
    destruct ads as [|[a o] ads], F as [|[ty r] F]; try (exfalso; now inversion P); [exact I|]. cbn [top]. rewrite M.
    pose proof (proper_length _ _ P) as Len. cbn in Len.
    apply proper_inv in P. destruct P as [_ [[-> [-> _]]|[p [q [-> [-> _]]]]]]; cbn; rewrite N.eqb_refl; [exact I|].
    destruct (Nat.eqb ty trav); [|exact I]. cbn. replace (length F) with (length ads) by lia. now rewrite Nat.eqb_refl.
  Qed.

  Lemma sim_load : forall d l f ads T s F, rep ads T s F -> level_addr l ads = Some d ->
    sim eq (c_load d f s) (s_load l f F).
  Proof.
    intros d l f ads T s F [H ET] L. destruct H as [C P N A M]. destruct (level_data _ _ _ _ P N L) as [r [Er Lr]].
    unfold c_load, s_load. rewrite M, Lr, Er, get_initialised. destruct (get_field r f); cbn; auto.
  Qed.

  Lemma sim_store : forall d l f v ads T s F, rep ads T s F -> level_addr l ads = Some d ->
    sim (rep ads T) (c_store d f v s) (s_store l f v F).
  Proof.
    intros d l f v ads T s F [H ET] L. destruct H as [C P N A M]. destruct (level_data _ _ _ _ P N L) as [r [Er Lr]].
    unfold c_store, s_store. rewrite M, Lr, Er, get_initialised. destruct (get_field r f) as [u|]; cbn; [|exact I].
    rewrite set_initialised. destruct (level_update ads F l d (set_field r f v) P N L) as [Q1 [Q2 Q3]].
    split; [|now rewrite update_types]. constructor; cbn [mem current_traversal].
    - exact C.
    - exact Q1.
    - now rewrite Q2.
    - now rewrite Q2.
    - intros x. rewrite lookup_store, Q3. destruct (N.eqb x d); [reflexivity|]. apply M.
  Qed.

  (** Popping: what is read first, and the memory afterwards *)
  Lemma sim_closing : forall ads T s F, rep ads T s F ->
    match ads, F with
    | [], [] => c_closing s = Aborted /\ s_closing F = Aborted
    | (a, o) :: ads, (ty, r) :: F => c_closing s = Val ((a, top ads), ty)
    | _, _ => False
    end.
  Proof.
    intros ads T s F [H ET]. destruct H as [C P N A M]. unfold c_closing. rewrite C.
    destruct ads as [|[a o] ads], F as [|[ty r] F]; try (exfalso; now inversion P); [auto|]. cbn [top]. rewrite M.
    apply proper_inv in P. destruct P as [_ [[-> [-> _]]|[p [q [-> [-> _]]]]]]; cbn; rewrite N.eqb_refl; reflexivity.
  Qed.

  Lemma sim_leave : forall a o ads ty T s r F, rep ((a, o) :: ads) (ty :: T) s ((ty, r) :: F) ->
    exists s', c_leave fields ((a, top ads), ty) s = Val s' /\ rep ads T s' F.
  Proof.
    intros a o ads ty T s r F [H ET]. destruct H as [C P N A M]. unfold c_leave. cbn [fst snd].
    cbn [map fst] in ET. injection ET as ET.
    apply proper_inv in P. destruct P as [P [[-> [-> E]]|[p [q [-> [-> E]]]]]].
    - rewrite E. cbn [bind]. rewrite C. cbn [top]. unfold MEMfree. rewrite M. cbn [layout lookup]. rewrite N.eqb_refl. cbn [bind].
      eexists. split; [reflexivity|]. split; [|exact ET]. cbn [layout map fst] in N, A. apply NoDup_cons_iff in N. destruct N as [N1 N2].
      constructor; cbn [mem current_traversal].
      + reflexivity.
      + exact P.
      + exact N2.
      + intros x I. apply A. now right.
      + intros x. rewrite lookup_remove, M. cbn [layout lookup]. rewrite (N.eqb_sym a x). destruct (N.eqb_spec x a) as [->|]; [|reflexivity].
        rewrite (lookup_out _ _ _ N1). rewrite A; [reflexivity|now left].
    - destruct (fields ty) as [fs|]; [|congruence]. rewrite M. cbn [layout lookup]. rewrite N.eqb_refl, Nat.eqb_refl.
      cbn [layout map fst] in N, A. apply NoDup_cons_iff in N. destruct N as [N1 N2]. apply NoDup_cons_iff in N2. destruct N2 as [N2 N3].
      unfold MEMfree at 1. rewrite M. cbn [layout lookup]. rewrite N.eqb_refl.
      destruct (N.eqb_spec a p) as [->|Nap]; [destruct N1; now left|]. cbn [bind current_traversal]. rewrite C. cbn [top].
      unfold MEMfree. cbn [mem]. rewrite lookup_remove. destruct (N.eqb_spec a p); [congruence|]. rewrite M. cbn [layout lookup].
      rewrite N.eqb_refl. cbn [bind]. eexists. split; [reflexivity|]. split; [|exact ET].
      constructor; cbn [mem current_traversal].
      + reflexivity.
      + exact P.
      + exact N3.
      + intros x I. apply A. right. now right.
      + intros x. rewrite !lookup_remove, M. cbn [layout lookup]. rewrite (N.eqb_sym a x), (N.eqb_sym p x).
        destruct (N.eqb_spec x a) as [->|].
        * rewrite lookup_out; [|intros I; apply N1; now right]. rewrite A; [reflexivity|now left].
        * destruct (N.eqb_spec x p) as [->|]; [|reflexivity].
          rewrite lookup_out by exact N2. rewrite A; [reflexivity|right; now left].
  Qed.

  (** ** Programs *)
  Context {A W : Type}.
  Variable vtable : nat -> nat -> entry.
  Variable user : nat -> W -> tree A -> prog A W V.
  Variable init fini : nat -> W -> prog A W V.
  Notation CM := (c_machine fields malloc).
  Notation SM := (s_machine fields).
  Notation cexec := (exec CM vtable user (c_has_data fields) init fini).
  Notation sexec := (exec SM vtable user (c_has_data fields) init fini).
  Notation cvisit := (visit CM vtable user (c_has_data fields) init fini).
  Notation svisit := (visit SM vtable user (c_has_data fields) init fini).
  Notation cpush := (TRAVpush CM vtable user (c_has_data fields) init fini).
  Notation spush := (TRAVpush SM vtable user (c_has_data fields) init fini).
  Notation cpop := (TRAVpop CM vtable user (c_has_data fields) init fini).
  Notation spop := (TRAVpop SM vtable user (c_has_data fields) init fini).

  Definition same_vars ads (ec : locals CM) (ea : locals SM) : Prop :=
    forall v, match ea v with None => ec v = None | Some l => exists d, level_addr l ads = Some d /\ ec v = Some d end.
  Definition same_result {X} ads T (c : memory V * W * X) (a : traversals * W * X) : Prop :=
    rep ads T (fst (fst c)) (fst (fst a)) /\ snd (fst c) = snd (fst a) /\ snd c = snd a.
  Definition same_world ads T (c : memory V * W) (a : traversals * W) : Prop := rep ads T (fst c) (fst a) /\ snd c = snd a.

  Lemma no_vars : forall ads, same_vars ads (no_locals CM) (no_locals SM).
  Proof. intros ads v. reflexivity. Qed.
  Lemma same_vars_cons : forall x ads ec ea, same_vars ads ec ea -> same_vars (x :: ads) ec ea.
  Proof.
    intros x ads ec ea H v. specialize (H v). destruct (ea v) as [l|]; [|exact H]. destruct H as [d [H1 H2]].
    exists d. split; [now apply level_addr_cons|exact H2].
  Qed.

  Lemma sim_opt : forall ads T vc va s F w (t : option (tree A)),
    (forall s F w t, rep ads T s F -> sim (same_result ads T) (vc s w t) (va F w t)) ->
    rep ads T s F -> sim (same_result ads T) (opt CM vc s w t) (opt SM va F w t).
  Proof.
    intros ads T vc va s F w [t|] H R; cbn; [now apply H|]. split; [exact R|]. split; reflexivity.
  Qed.
  Lemma sim_each : forall ads T vc va (kids : list (option (tree A))) s F w,
    (forall s F w t, rep ads T s F -> sim (same_result ads T) (vc s w t) (va F w t)) ->
    rep ads T s F -> sim (same_result ads T) (each CM vc s w kids) (each SM va F w kids).
  Proof.
    intros ads T vc va kids. induction kids as [|c kids IH]; intros s F w H R; cbn.
    - split; [exact R|]. split; reflexivity.
    - eapply sim_bind; [exact (sim_opt ads T vc va s F w c H R)|]. intros [[s1 w1] r1] [[F1 w1'] r1'] [R1 [E1 E2]]. cbn in *. subst w1' r1'.
      eapply sim_bind; [exact (IH s1 F1 w1 H R1)|]. intros [[s2 w2] r2] [[F2 w2'] r2'] [R2 [E3 E4]]. cbn in *. subst.
      split; [exact R2|]. split; reflexivity.
  Qed.
  Lemma sim_children : forall ads T vc va s F w (t : tree A),
    (forall s F w t, rep ads T s F -> sim (same_result ads T) (vc s w t) (va F w t)) ->
    rep ads T s F -> sim (same_result ads T) (children CM vc s w t) (children SM va F w t).
  Proof.
    intros ads T vc va s F w [ty a kids] H R. cbn.
    eapply sim_bind; [exact (sim_each ads T vc va kids s F w H R)|]. intros [[s2 w2] r2] [[F2 w2'] r2'] [R2 [E3 E4]]. cbn in *. subst.
    split; [exact R2|]. split; reflexivity.
  Qed.

  Lemma sim_run : forall n,
    (forall ads T s F ec ea p, rep ads T s F -> same_vars ads ec ea ->
       sim (same_result ads T) (cexec n ec s p) (sexec n ea F p)) /\
    (forall ads T s F w t, rep ads T s F -> sim (same_result ads T) (cvisit n s w t) (svisit n F w t)) /\
    (forall ads T s F trav w, rep ads T s F ->
       sim (fun c a => exists x, same_world (x :: ads) (trav :: T) c a) (cpush n trav s w) (spush n trav F w)) /\
    (forall x ads ty T s F w, rep (x :: ads) (ty :: T) s F -> sim (same_world ads T) (cpop n s w) (spop n F w)).
  Proof.
    induction n as [|n [IE [IV [IP IQ]]]]; [repeat split; intros; exact I|].
    assert (K : forall ads T ec ea k (x : memory V * W * option (tree A)) y, same_vars ads ec ea -> same_result ads T x y ->
      sim (same_result ads T) (cexec n ec (fst (fst x)) (k (snd (fst x)) (snd x)))
                              (sexec n ea (fst (fst y)) (k (snd (fst y)) (snd y)))).
    { intros ads T ec ea k x y E [R [E1 E2]]. rewrite E1, E2. now apply IE. }
    split; [|split; [|split]].
    - intros ads T s F ec ea p R E. destruct p as [w t|w t k|w t k|w t k|w trav t k|w trav body k|var trav k|var f k|var f v k]; cbn [exec].
      + split; [exact R|]. split; reflexivity.
      + destruct t as [t|]; [|exact I]. eapply sim_bind; [exact (IV ads T s F w t R)|]. intros x y H. now apply K.
      + eapply sim_bind; [exact (sim_opt ads T _ _ s F w t (IV ads T) R)|]. intros x y H. now apply K.
      + destruct t as [t|]; [|exact I]. eapply sim_bind; [exact (sim_children ads T _ _ s F w t (IV ads T) R)|]. intros x y H. now apply K.
      + eapply sim_bind; [exact (IP ads T s F trav w R)|]. intros [s1 w1] [F1 w1'] [x [R1 E1]]. cbn [fst snd] in *. subst w1'.
        eapply sim_bind; [exact (sim_opt _ _ _ _ s1 F1 w1 t (IV _ _) R1)|]. intros [[s2 w2] r2] [[F2 w2'] r2'] [R2 [E2 E3]]. cbn [fst snd] in *. subst w2' r2'.
        eapply sim_bind; [exact (IQ _ _ _ _ s2 F2 w2 R2)|]. intros [s3 w3] [F3 w3'] [R3 E4]. cbn [fst snd] in *. subst w3'. now apply IE.
      + eapply sim_bind; [exact (IP ads T s F trav w R)|]. intros [s1 w1] [F1 w1'] [x [R1 E1]]. cbn [fst snd] in *. subst w1'.
        eapply sim_bind; [exact (IE _ _ s1 F1 ec ea (body w1) R1 (same_vars_cons x ads ec ea E))|].
        intros [[s2 w2] r2] [[F2 w2'] r2'] [R2 [E2 E3]]. cbn [fst snd] in *. subst w2' r2'.
        eapply sim_bind; [exact (IQ _ _ _ _ s2 F2 w2 R2)|]. intros [s3 w3] [F3 w3'] [R3 E4]. cbn [fst snd] in *. subst w3'. now apply IE.
      + eapply sim_bind; [exact (sim_data trav ads T s F R)|]. intros d l L. apply IE; [exact R|].
        intros v. unfold assign. destruct (Nat.eqb v var); [exists d; split; [exact L|reflexivity]|]. exact (E v).
      + specialize (E var) as Ev. destruct (ea var) as [l|] eqn:Ea.
        * destruct Ev as [d [L ->]]. eapply sim_bind; [exact (sim_load d l f ads T s F R L)|]. intros v ? <-. now apply IE.
        * rewrite Ev. exact I.
      + specialize (E var) as Ev. destruct (ea var) as [l|] eqn:Ea.
        * destruct Ev as [d [L ->]]. eapply sim_bind; [exact (sim_store d l f v ads T s F R L)|]. intros s' F' R'. now apply IE.
        * rewrite Ev. exact I.
    - intros ads T s F w t R. cbn [visit]. cbn [current c_machine s_machine]. rewrite (sim_current ads T s F R).
      destruct (s_current F) as [trav| | | |]; cbn [bind]; try exact I.
      destruct (vtable trav (node_type t)).
      + apply IE; [exact R|apply no_vars].
      + exact (sim_children ads T _ _ s F w t (IV ads T) R).
      + split; [exact R|]. split; reflexivity.
      + exact I.
    - intros ads T s F trav w R. cbn [TRAVpush]. cbn [enter c_machine s_machine].
      destruct (sim_enter trav ads T s F R) as [x [s' [E R']]]. rewrite E. unfold s_enter. cbn [bind].
      destruct (c_has_data fields trav).
      + eapply sim_bind; [exact (IE _ _ _ _ _ _ (init trav w) R' (no_vars _))|]. intros r r' [R1 [E1 E2]]. exists x. split; assumption.
      + exists x. split; [exact R'|reflexivity].
    - intros x ads ty T s F w R. cbn [TRAVpop]. cbn [closing c_machine s_machine].
      pose proof (sim_closing _ _ _ _ R) as C. destruct x as [a o]. destruct F as [|[ty' r] F]; [destruct C|]. rewrite C.
      cbn [s_closing bind snd fst].
      assert (ty' = ty) as -> by (destruct R as [_ ET]; cbn in ET; congruence).
      assert (Q : sim (same_world ((a, o) :: ads) (ty :: T))
        (if c_has_data fields ty then map_outcome fst (cexec n (no_locals CM) s (fini ty w)) else Val (s, w))
        (if c_has_data fields ty then map_outcome fst (sexec n (no_locals SM) ((ty, r) :: F) (fini ty w)) else Val ((ty, r) :: F, w))).
      { destruct (c_has_data fields ty).
        - eapply sim_bind; [exact (IE _ _ _ _ _ _ (fini ty w) R (no_vars _))|]. intros q q' [R1 [E1 E2]]. split; assumption.
        - split; [exact R|reflexivity]. }
      eapply sim_bind; [exact Q|]. intros [s1 w1] [F1 w1'] [R1 E1]. cbn [fst snd] in *. subst w1'.
      cbn [leave c_machine s_machine]. unfold s_leave. cbn [bind].
      destruct F1 as [|[ty1 r1] F1].
      { destruct R1 as [_ ET]. discriminate ET. }
      assert (ty1 = ty) as -> by (destruct R1 as [_ ET]; cbn in ET; congruence).
      destruct (sim_leave _ _ _ _ _ _ _ _ R1) as [s2 [E2 R2]]. rewrite E2. cbn [bind tl]. split; [exact R2|reflexivity].
  Qed.
End Data.
