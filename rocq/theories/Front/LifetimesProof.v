(** Proofs about the numbering of actions and the targets of lifetimes. *)

From Coq Require Import List Ascii NArith Bool Lia Arith.
From Verif Require Import Base.Outcome Palm.StrModel Front.Syntax Front.SymbolTableModel
  Front.SymbolTableSpec Front.SymbolTableProof Front.CheckExistanceSpec
  Front.LifetimesModel Front.LifetimesSpec.
Import ListNotations.
Local Open Scope outcome_scope.
Local Open Scope N_scope.

(** ** Plans *)

Section PlanInd.
  Variable P : plan -> Prop.
  Hypothesis H : forall d l, Forall P l -> P (Plan d l).
  Fixpoint plan_ind' (p : plan) : P p :=
    let 'Plan d l := p in
    H d l ((fix go (l : list plan) : Forall P l :=
              match l with
              | [] => Forall_nil P
              | q :: l => Forall_cons q (plan_ind' q) (go l)
              end) l).
End PlanInd.

Fixpoint sizes (l : list plan) : N :=
  match l with [] => 0 | q :: l => plan_size q + sizes l end.

Lemma plan_size_eq : forall d l, plan_size (Plan d l) = 1 + sizes l.
Proof.
  reflexivity.
Qed.

Lemma plan_size_pos : forall p, 1 <= plan_size p.
Proof. intros [d l]. rewrite plan_size_eq. lia. Qed.

Fixpoint numl (n : N) (l : list plan) : list (N * plan) :=
  match l with [] => [] | q :: l => numbered n q ++ numl (n + plan_size q) l end.

Lemma numbered_eq : forall n d l, numbered n (Plan d l) = (n, Plan d l) :: numl (n + 1) l.
Proof.
  reflexivity.
Qed.

Lemma inside_eq : forall n d l, inside (n, Plan d l) = numl (n + 1) l.
Proof. intros. unfold inside. cbn [fst snd]. now rewrite numbered_eq. Qed.

Fixpoint depth (p : plan) : nat :=
  let 'Plan _ l := p in S (fold_right (fun q n => Nat.max (depth q) n) O l).
Fixpoint depths (l : list plan) : nat :=
  match l with [] => O | q :: l => Nat.max (depth q) (depths l) end.
Lemma depth_eq : forall d l, depth (Plan d l) = S (depths l).
Proof.
  reflexivity.
Qed.

(** The writes of assignIdToAction for the actions inside an action. *)
Fixpoint entries (n : N) (q : plan) : id_table :=
  let 'Plan d l := q in
  match d with
  | DPhase p =>
      (fix go (k : nat) (n : N) (l : list plan) : id_table :=
         match l with
         | [] => []
         | q :: l => (key_of p k, n) :: entries n q ++ go (S k) (n + plan_size q) l
         end) O (n + 1) l
  | _ => []
  end.
Fixpoint entl (p : iphase) (k : nat) (n : N) (l : list plan) : id_table :=
  match l with
  | [] => []
  | q :: l => (key_of p k, n) :: entries n q ++ entl p (S k) (n + plan_size q) l
  end.
Lemma entries_phase : forall n p l, entries n (Plan (DPhase p) l) = entl p O (n + 1) l.
Proof.
  intros n p l. cbn [entries]. generalize (n + 1). generalize O. clear n.
  induction l as [|q l IH]; intros k n; [reflexivity|]. cbn [entl]. now rewrite IH.
Qed.
Lemma entries_other : forall n d l, (forall p, d <> DPhase p) -> entries n (Plan d l) = [].
Proof. intros n [p| | | | | ] l H; cbn; try reflexivity. now destruct (H p). Qed.

(** ** Numbers *)

Section Walk.
  Variable a : ast.
  Variable ste : list (ident * decl).
  Hypothesis lookup : forall id d, STlookup ste id = Some d <-> names a id d.

  Lemma AITA_list : forall fuel
    (IH : forall p l t n, Forall2 (unfolds a) (ph_actions p) l -> (depths l < fuel)%nat ->
       AITAphase ste fuel p (t, n) = Val (rev (entl p O n l) ++ t, n + sizes l)),
    forall p refs l k t n, Forall2 (unfolds a) refs l -> (depths l <= fuel)%nat ->
    AITAiactions ste (AITAphase ste fuel) p k refs (t, n) =
      Val (rev (entl p k n l) ++ t, n + sizes l).
  Proof.
    intros fuel IH p refs l k t n F. revert k t n.
    induction F as [|r q refs l U F IHF]; intros k t n D.
    { cbn. now rewrite N.add_0_r. }
    cbn [depths] in D. cbn [AITAiactions fst snd entl sizes].
    destruct U as [r p' l' Nm F'|r d Nm Nd].
    - apply lookup in Nm. rewrite Nm. rewrite depth_eq in D.
      rewrite (IH p' l' _ _ F') by lia. cbn [bind].
      rewrite IHF by lia. f_equal. f_equal.
      + rewrite entries_phase. cbn [rev].
        rewrite plan_size_eq. rewrite !rev_app_distr, <- !app_assoc. cbn [app].
        replace (n + 1 + sizes l') with (n + (1 + sizes l')) by lia. reflexivity.
      + rewrite plan_size_eq. lia.
    - apply lookup in Nm. rewrite Nm.
      assert (E : forall X, match d with
                 | DPhase q => let! s := AITAphase ste fuel q ((key_of p k, n) :: t, n + 1) in
                               AITAiactions ste (AITAphase ste fuel) p (S k) refs s
                 | _ => X end = X).
      { intros X. destruct d as [q| | | | |]; try reflexivity. now destruct (Nd q). }
      rewrite E, IHF by lia. rewrite entries_other by exact Nd.
      rewrite plan_size_eq. cbn [sizes app rev]. rewrite <- app_assoc.
      cbn [app]. rewrite !N.add_0_r. f_equal. f_equal. lia.
  Qed.

  Lemma AITA_phase : forall fuel p l t n, Forall2 (unfolds a) (ph_actions p) l ->
    (depths l < fuel)%nat ->
    AITAphase ste fuel p (t, n) = Val (rev (entl p O n l) ++ t, n + sizes l).
  Proof.
    induction fuel as [|fuel IH]; intros p l t n F D; [lia|].
    cbn [AITAphase]. apply AITA_list; auto. lia.
  Qed.

  (** ** Looking for a name *)

  Lemma CompareID_iff : forall i j, CompareID (Some i) (Some j) = true <-> ID_LWR i = ID_LWR j.
  Proof. intros i j. cbn [CompareID]. apply STReq_lwr. Qed.

  Lemma called_iff : forall x e, called x e = true <->
    match plan_decl (snd e) with DPhase _ | DTraversal _ | DPass _ => True | _ => False end /\
    exists k, In k (names_of (plan_decl (snd e))) /\ ID_LWR k = ID_LWR x.
  Proof.
    intros x e. unfold called.
    assert (E : forall l, existsb (fun k => if list_eq_dec ascii_dec (ID_LWR k) (ID_LWR x) then true else false) l
              = true <-> exists k, In k l /\ ID_LWR k = ID_LWR x).
    { intros l. rewrite existsb_exists. split; intros (k & I & H); exists k; split; auto.
      - now destruct (list_eq_dec ascii_dec (ID_LWR k) (ID_LWR x)).
      - now destruct (list_eq_dec ascii_dec (ID_LWR k) (ID_LWR x)). }
    destruct (plan_decl (snd e)) as [p|p|p|p|p|p]; try rewrite E; try tauto; split; easy.
  Qed.

  Lemma CompareID_called : forall (i : ident) (u : option ident) x,
    CompareID (Some i) (Some x) || CompareID u (Some x) = true <->
    exists k, In k (i :: opt u) /\ ID_LWR k = ID_LWR x.
  Proof.
    intros i u x. rewrite orb_true_iff, CompareID_iff. split.
    - intros [H|H].
      + exists i. cbn. auto.
      + destruct u as [u|]; [|easy]. apply CompareID_iff in H. exists u. cbn. auto.
    - intros (k & [->|I] & H); [now left|]. right.
      destruct u as [u|]; cbn in I; [|easy]. destruct I as [->|[]]. now apply CompareID_iff.
  Qed.

  Lemma bool_of_iff : forall b c : bool, (b = true <-> c = true) -> b = c.
  Proof. intros [] [] H; auto; [symmetry|]; apply H; auto. Qed.

  Lemma called_phase : forall x n p l, called x (n, Plan (DPhase p) l) =
    CompareID (Some (ph_name p)) (Some x) || CompareID (ph_uid p) (Some x).
  Proof.
    intros. apply bool_of_iff. rewrite called_iff, CompareID_called.
    cbn [snd plan_decl names_of]. tauto.
  Qed.

  (** What is found, compared with the numbered tree. *)
  Definition agrees (whole : id_table) (r : option found) (e : option (N * plan)) : Prop :=
    match r, e with
    | None, None => True
    | Some (key, d), Some (m, q) =>
        d = plan_decl q /\ In (key, m) whole /\ incl (entries m q) whole /\
        (forall p, d = DPhase p -> Forall2 (unfolds a) (ph_actions p) (plan_inner q)) /\
        ((forall p, d <> DPhase p) -> plan_inner q = []) /\ (exists id, names a id d)
    | _, _ => False
    end.

  Lemma find_app : forall A (f : A -> bool) l m,
    find f (l ++ m) = match find f l with Some x => Some x | None => find f m end.
  Proof. induction l as [|x l IH]; intros m; [easy|]. cbn. destruct (f x); auto. Qed.

  Lemma agrees_incl : forall w w' r e, incl w w' -> agrees w r e -> agrees w' r e.
  Proof.
    intros w w' [[k d]|] [[m q]|] I H; cbn in *; try easy.
    destruct H as (H1 & H2 & H3 & H4 & H5 & H6). split; [exact H1|].
    split; [auto|]. split; [|auto]. intros y Hy. auto.
  Qed.

  Lemma found_depth : forall x l n m q, find (called x) (numl n l) = Some (m, q) ->
    (depth q <= depths l)%nat.
  Proof.
    assert (K : forall p n m q, In (m, q) (numbered n p) -> (depth q <= depth p)%nat).
    { intros p. induction p as [d l IH] using plan_ind'. intros n m q.
      rewrite numbered_eq, depth_eq. intros [E|E]; [injection E as <- <-; rewrite depth_eq; lia|].
      revert E. generalize (n + 1). clear n. induction IH as [|p l Hp Hl IHl]; intros n; cbn [numl depths].
      - easy.
      - rewrite in_app_iff. intros [E|E].
        + apply Hp in E. lia.
        + apply IHl in E. lia. }
    intros x l n m q E. apply find_some in E. destruct E as [E _]. revert n E.
    induction l as [|p l IH]; intros n; cbn [numl depths]; [easy|].
    rewrite in_app_iff. intros [E|E].
    - apply K in E. lia.
    - apply IH in E. lia.
  Qed.

  Lemma MITL_list : forall fuel x
    (IH : forall p l n, Forall2 (unfolds a) (ph_actions p) l -> (depths l < fuel)%nat ->
       exists r, MITLphase ste fuel x p = Val r /\
         agrees (entl p O n l) r (find (called x) (numl n l))),
    forall p refs l k n, Forall2 (unfolds a) refs l -> (depths l <= fuel)%nat ->
    exists r, MITLiactions ste (MITLphase ste fuel x) x p k refs = Val r /\
      agrees (entl p k n l) r (find (called x) (numl n l)).
  Proof.
    intros fuel x IH p refs l k n F. revert k n.
    induction F as [|r q refs l U F IHF]; intros k n D.
    { exists None. cbn. auto. }
    cbn [depths] in D. cbn [MITLiactions entl numl].
    rewrite find_app.
    destruct U as [r p' l' Nm F'|r d Nm Nd].
    - apply lookup in Nm. rewrite Nm. rewrite depth_eq in D.
      rewrite numbered_eq. cbn [find]. rewrite called_phase.
      destruct (CompareID (Some (ph_name p')) (Some x) || CompareID (ph_uid p') (Some x)) eqn:C.
      + exists (Some (key_of p k, DPhase p')). split; [reflexivity|]. cbn [agrees plan_decl].
        split; [reflexivity|]. split; [now left|]. split; [|split; [|split]].
        * intros y Hy. right. apply in_app_iff. now left.
        * intros p0 E0. injection E0 as <-. exact F'.
        * intros C'. now destruct (C' p').
        * exists r. now apply lookup.
      + destruct (IH p' l' (n + 1) F') as (r1 & E1 & A1); [lia|]. rewrite E1. cbn [bind].
        destruct r1 as [[key d]|].
        * exists (Some (key, d)). split; [reflexivity|].
          destruct (find (called x) (numl (n + 1) l')) as [[m q]|]; [|easy].
          apply (agrees_incl _ _ _ _) with (2 := A1).
          rewrite entries_phase. intros y Hy. right. apply in_app_iff. now left.
        * destruct (find (called x) (numl (n + 1) l')) as [[m q]|]; [easy|].
          destruct (IHF (S k) (n + plan_size (Plan (DPhase p') l'))) as (r2 & E2 & A2); [lia|].
          exists r2. split; [exact E2|].
          apply (agrees_incl _ _ _ _) with (2 := A2).
          intros y Hy. right. apply in_app_iff. now right.
    - apply lookup in Nm. rewrite Nm. rewrite numbered_eq. cbn [numl find].
      destruct (IHF (S k) (n + plan_size (Plan d []))) as (r2 & E2 & A2); [lia|].
      assert (Agr : agrees ((key_of p k, n) :: entries n (Plan d []) ++ entl p (S k) (n + plan_size (Plan d [])) l)
                      r2 (find (called x) (numl (n + plan_size (Plan d [])) l))).
      { apply (agrees_incl _ _ _ _) with (2 := A2).
        intros y Hy. right. apply in_app_iff. now right. }
      assert (Hit : agrees ((key_of p k, n) :: entries n (Plan d []) ++ entl p (S k) (n + plan_size (Plan d [])) l)
                      (Some (key_of p k, d)) (Some (n, Plan d []))).
      { cbn [agrees plan_decl]. split; [reflexivity|]. split; [now left|].
        split; [|split; [|split]].
        - rewrite entries_other by exact Nd. easy.
        - intros p0 E0. now destruct (Nd p0).
        - reflexivity.
        - exists r. now apply lookup. }
      assert (Cl : called x (n, Plan d []) = true <->
        match d with DPhase _ | DTraversal _ | DPass _ => True | _ => False end /\
        exists k, In k (names_of d) /\ ID_LWR k = ID_LWR x) by apply (called_iff x (n, Plan d [])).
      destruct d as [q|q|q|q|q|q].
      + now destruct (Nd q).
      + assert (C : called x (n, Plan (DTraversal q) []) =
                    CompareID (Some (tv_name q)) (Some x) || CompareID (tv_uid q) (Some x)).
        { apply bool_of_iff. rewrite Cl, CompareID_called. cbn [names_of]. tauto. }
        rewrite C. destruct (_ || _); [eexists; split; [reflexivity|exact Hit]|].
        exists r2. auto.
      + assert (C : called x (n, Plan (DPass q) []) =
                    CompareID (Some (ps_name q)) (Some x) || CompareID (ps_uid q) (Some x)).
        { apply bool_of_iff. rewrite Cl, CompareID_called. cbn [names_of]. tauto. }
        rewrite C. destruct (_ || _); [eexists; split; [reflexivity|exact Hit]|].
        exists r2. auto.
      + assert (C : called x (n, Plan (DNode q) []) = false) by reflexivity.
        rewrite C. exists r2. auto.
      + assert (C : called x (n, Plan (DNodeset q) []) = false) by reflexivity.
        rewrite C. exists r2. auto.
      + assert (C : called x (n, Plan (DEnum q) []) = false) by reflexivity.
        rewrite C. exists r2. auto.
  Qed.

  Lemma MITL_phase : forall fuel x p l n, Forall2 (unfolds a) (ph_actions p) l ->
    (depths l < fuel)%nat ->
    exists r, MITLphase ste fuel x p = Val r /\
      agrees (entl p O n l) r (find (called x) (numl n l)).
  Proof.
    induction fuel as [|fuel IH]; intros x p l n F D; [lia|].
    cbn [MITLphase]. apply MITL_list; auto. lia.
  Qed.

  (** ** Paths *)

  (** [Exited] and [Val None] both end in an error. *)
  Definition agrees_out (whole : id_table) (r : outcome (option found)) (e : option (N * plan)) : Prop :=
    match e with
    | Some _ => exists f, r = Val (Some f) /\ agrees whole (Some f) e
    | None => r = Val None \/ r = Exited
    end.

  Lemma MITL_next : forall fuel whole path key m q,
    (depth q <= fuel)%nat ->
    agrees whole (Some (key, plan_decl q)) (Some (m, q)) ->
    (forall p, plan_decl q <> DPhase p) -> plan_inner q = [] ->
    agrees_out whole (MITLid_next ste fuel path (key, plan_decl q)) (denotes path (m, q)).
  Proof.
    intros fuel whole path key m [d l] D Ag Nd L. cbn [plan_inner plan_decl] in *. subst l.
    destruct path as [|x path].
    - cbn [MITLid_next denotes]. exists (key, d). auto.
    - cbn [MITLid_next denotes snd]. rewrite inside_eq. cbn [numl find].
      right. destruct d as [p| | | | |]; try reflexivity. now destruct (Nd p).
  Qed.

  Lemma decl_phase : forall d, (exists p, d = DPhase p) \/ (forall p, d <> DPhase p).
  Proof. intros [p| | | | |]; [left; eauto|right..]; intros; discriminate. Qed.

  Lemma MITL_path : forall path fuel p l m whole,
    Forall2 (unfolds a) (ph_actions p) l -> (depths l < fuel)%nat ->
    incl (entl p O (m + 1) l) whole ->
    forall x,
    agrees_out whole
      (let! f := MITLphase ste fuel x p in
       match f with Some f => MITLid_next ste fuel path f | None => Val None end)
      (denotes (x :: path) (m, Plan (DPhase p) l)).
  Proof.
    induction path as [|y path IH]; intros fuel p l m whole F D I x;
      destruct (MITL_phase fuel x p l (m + 1) F D) as (r & E & A); rewrite E;
      cbn [bind denotes]; rewrite inside_eq;
      destruct (find (called x) (numl (m + 1) l)) as [[m' q]|] eqn:Fd;
      (destruct r as [[key d]|]; [|try easy]); try (cbn in A; easy); try (now left).
    - cbn [denotes MITLid_next]. exists (key, d). split; [reflexivity|]. eapply agrees_incl; eauto.
    - assert (Dq := found_depth _ _ _ _ _ Fd).
      assert (Ai := A). destruct A as (-> & Ik & Ie & Fq & Pi & _).
      destruct (decl_phase (plan_decl q)) as [(p' & Ep)|Nd].
      + destruct q as [d' l']. cbn [plan_decl plan_inner] in *. subst d'.
        cbn [MITLid_next snd].
        apply (IH fuel p' l' m' whole (Fq p' eq_refl)).
        * rewrite depth_eq in Dq. lia.
        * rewrite entries_phase in Ie. intros z Hz. apply I, Ie, Hz.
      + apply (MITL_next fuel whole (y :: path)); [lia| |exact Nd|].
        * eapply agrees_incl; eauto.
        * now apply Pi.
  Qed.
End Walk.

(** ** No phase twice *)

Lemma key_eqb_iff : forall k k', key_eqb k k' = true <-> k = k'.
Proof.
  intros [n i] [n' i']. unfold key_eqb. cbn [fst snd].
  rewrite andb_true_iff, Nat.eqb_eq, STReq_lwr. split.
  - intros [-> ->]. reflexivity.
  - intros E. injection E as -> ->. auto.
Qed.

Lemma table_lookup : forall (t : id_table) k n, NoDup (map fst t) -> In (k, n) t ->
  IACTIONS_ACTION_ID t k = n.
Proof.
  induction t as [|[k' n'] t IH]; intros k n Nd I; [easy|].
  cbn [IACTIONS_ACTION_ID]. cbn [map fst] in Nd. inversion Nd as [|? ? Nk Nt]; subst.
  destruct (key_eqb k' k) eqn:E.
  - apply key_eqb_iff in E. subst k'. destruct I as [I|I]; [congruence|].
    exfalso. apply Nk. apply in_map_iff. exists (k, n). auto.
  - destruct I as [I|I]; [|auto]. injection I as -> ->.
    assert (C : key_eqb k k = true) by now apply key_eqb_iff. congruence.
Qed.

Fixpoint phs (p : plan) : list ident :=
  let 'Plan d l := p in
  (match d with DPhase q => [ph_name q] | _ => [] end) ++ flat_map phs l.

Lemma phases_in_eq : forall p, phases_in p = phs p.
Proof.
  intros p. unfold phases_in. generalize 1.
  induction p as [d l IH] using plan_ind'. intros n. rewrite numbered_eq. cbn [flat_map snd plan_decl phs].
  f_equal. generalize (n + 1). clear n. induction IH as [|p l Hp Hl IHl]; intros n; [easy|].
  cbn [numl flat_map]. rewrite flat_map_app, Hp, IHl. reflexivity.
Qed.

Lemma entries_phase_names : forall p n k, In k (map fst (entries n p)) ->
  In (fst k) (map ID_LWR (phs p)).
Proof.
  intros p. induction p as [d l IH] using plan_ind'. intros n k.
  destruct (decl_phase d) as [(q & ->)|Nd]; [|now rewrite entries_other].
  rewrite entries_phase. cbn [phs]. rewrite map_app, in_app_iff. cbn [map In].
  generalize O. generalize (n + 1). clear n.
  induction IH as [|p l Hp Hl IHl]; intros n i; cbn [entl map]; [easy|].
  rewrite map_app. cbn [In flat_map]. rewrite map_app, !in_app_iff. intros [E|[E|E]].
  - subst k. left. left. reflexivity.
  - right. left. now apply Hp in E.
  - apply IHl in E. tauto.
Qed.

Lemma NoDup_app_iff : forall A (l m : list A),
  NoDup (l ++ m) <-> NoDup l /\ NoDup m /\ (forall x, In x l -> ~ In x m).
Proof.
  induction l as [|x l IH]; intros m; cbn [app].
  - split; [intros H; repeat split; auto; constructor|tauto].
  - split.
    + intros H. inversion H as [|? ? N1 N2]; subst. apply IH in N2. destruct N2 as (N2 & N3 & N4).
      rewrite in_app_iff in N1. split; [constructor; tauto|]. split; [exact N3|].
      intros y [<-|I]; auto.
    + intros (H1 & H2 & H3). inversion H1 as [|? ? N1 N2]; subst. constructor.
      * rewrite in_app_iff. intros [I|I]; [auto|]. apply (H3 x); cbn; auto.
      * apply IH. split; [exact N2|]. split; [exact H2|]. intros y I. apply H3. cbn. auto.
Qed.

Lemma entries_distinct : forall p n, NoDup (map ID_LWR (phs p)) -> NoDup (map fst (entries n p)).
Proof.
  intros p. induction p as [d l IH] using plan_ind'. intros n.
  destruct (decl_phase d) as [(q & ->)|Nd]; [|rewrite entries_other by auto; constructor].
  rewrite entries_phase. cbn [phs]. rewrite map_app. cbn [map app]. intros D.
  inversion D as [|? ? N1 N2]; subst. clear D. generalize (n + 1). clear n.
  (* keys of the phase itself that are still to come *)
  assert (K : forall l n i k, In k (map fst (entl q i n l)) ->
              (exists j, k = key_of q j /\ (i <= j)%nat) \/ In (fst k) (map ID_LWR (flat_map phs l))).
  { clear. induction l as [|p l IH]; intros n i k; cbn [entl map flat_map fst]; [easy|].
    rewrite map_app. cbn [In]. rewrite map_app, !in_app_iff. intros [E|[E|E]].
    - left. exists i. auto.
    - right. left. now apply entries_phase_names in E.
    - apply IH in E. destruct E as [(j & -> & L)|E]; [left; exists j; split; [auto|lia]|tauto]. }
  generalize O. induction IH as [|p l Hp Hl IHl]; intros i n; cbn [entl map flat_map]; [constructor|].
  cbn [flat_map] in N1, N2. rewrite map_app in N1, N2. rewrite in_app_iff in N1.
  apply NoDup_app_iff in N2. destruct N2 as (N2 & N3 & N4).
  rewrite map_app. constructor.
  - rewrite in_app_iff. intros [E|E].
    + apply entries_phase_names in E. auto.
    + apply K in E. destruct E as [(j & E & L)|E]; [|auto].
      unfold key_of in E. injection E as E. lia.
  - apply NoDup_app_iff. split; [auto|]. split; [apply IHl; tauto|].
    intros k E1 E2. apply entries_phase_names in E1. apply K in E2.
    destruct E2 as [(j & -> & L)|E2].
    + apply N1. now left.
    + now apply (N4 (fst k)).
Qed.

(** The last action of a phase. *)
Lemma entl_last : forall p l k n q, In (key_of p (k + length l), n + sizes l) (entl p k n (l ++ [q])).
Proof.
  induction l as [|r l IH]; intros k n q; cbn [length sizes app entl].
  - left. f_equal; [f_equal; lia|lia].
  - right. apply in_app_iff. right.
    replace (k + S (length l))%nat with (S k + length l)%nat by lia.
    replace (n + (plan_size r + sizes l)) with (n + plan_size r + sizes l) by lia. apply IH.
Qed.

Lemma sizes_app : forall l m, sizes (l ++ m) = sizes l + sizes m.
Proof. induction l as [|p l IH]; intros m; cbn [app sizes]; [lia|]. rewrite IH. lia. Qed.

Lemma Forall2_len : forall A B (R : A -> B -> Prop) l m, Forall2 R l m -> length l = length m.
Proof. intros A B R l m F. induction F; cbn; auto. Qed.

(** ** The whole pass *)

(** The start phase is written before the other phases. *)
Definition start_first (a : ast) : Prop :=
  exists pre st, a_phases a = pre ++ [st] /\ ph_is_start st = true.

Section Whole.
  Variable a : ast.
  Variable ste : list (ident * decl).
  Hypothesis lookup : forall id d, STlookup ste id = Some d <-> names a id d.
  Hypothesis one_start : (length (filter ph_is_start (a_phases a)) <= 1)%nat.
  Hypothesis nonempty : forall p, In p (a_phases a) -> ph_actions p <> [].
  Variable whole : plan.
  Hypothesis comp : compiler a whole.
  Hypothesis first : start_first a.
  Hypothesis once : used_once whole.

  Lemma only_start : exists st l, whole = Plan (DPhase st) l /\ Forall2 (unfolds a) (ph_actions st) l /\
    AST_START_PHASE a = Some st /\ from_start (a_phases a) = [st].
  Proof.
    destruct comp as [p l I S F]. destruct first as (pre & st & E & S').
    exists p, l. split; [reflexivity|]. split; [exact F|].
    unfold AST_START_PHASE. rewrite E in one_start, I |- *. clear - one_start I S S'.
    rewrite filter_app, app_length in one_start. cbn [filter] in one_start. rewrite S' in one_start.
    cbn [length] in one_start.
    assert (Z : filter ph_is_start pre = []) by (destruct (filter ph_is_start pre); [auto|cbn in *; lia]).
    assert (Z' : forall q, In q pre -> ph_is_start q = false).
    { intros q Hq. destruct (ph_is_start q) eqn:Eq; [|auto].
      assert (C : In q (filter ph_is_start pre)) by (apply filter_In; auto). now rewrite Z in C. }
    assert (p = st) as ->.
    { apply in_app_iff in I. destruct I as [I|[I|[]]]; [|auto]. rewrite (Z' p I) in S. discriminate. }
    clear - Z' S'. induction pre as [|q pre IH]; cbn [app find from_start].
    - rewrite S'. auto.
    - rewrite (Z' q) by (cbn; auto). apply IH. intros q' H. apply Z'. cbn. auto.
  Qed.

  Lemma AITA_whole : forall fuel, (depth whole <= fuel)%nat ->
    AITAast ste fuel a = Val (rev (entries 1 whole)).
  Proof.
    intros fuel D. destruct only_start as (st & l & -> & F & E1 & E2).
    unfold AITAast. rewrite E1, E2. cbn [AITAphases]. rewrite depth_eq in D.
    assert (E := AITA_phase a ste lookup fuel st l [] 2 F ltac:(lia)). unfold id_table in *. rewrite E.
    cbn [bind fst]. rewrite app_nil_r, entries_phase. reflexivity.
  Qed.

  Lemma whole_table : forall k n, In (k, n) (entries 1 whole) ->
    IACTIONS_ACTION_ID (rev (entries 1 whole)) k = n.
  Proof.
    intros k n I. apply table_lookup.
    - rewrite map_rev. apply NoDup_rev. apply entries_distinct. rewrite <- phases_in_eq. exact once.
    - now apply -> in_rev.
  Qed.

  Definition start_of (w : plan) : iphase :=
    match plan_decl w with DPhase p => p | _ => mk_phase [] None None [] false false end.

  (** One end of a range. *)
  Lemma range_right : forall fuel r, (depth whole <= fuel)%nat -> lr_target r <> [] ->
    let res := MITLlifetime_range ste fuel (start_of whole) (rev (entries 1 whole)) r in
    match denotes (lr_target r) (1, whole) with
    | None => res = Exited
    | Some (m, q) => exists x, res = Val x /\
        mr_inclusive x = lr_inclusive r /\ mr_action_id x = m /\
        (ends_plainly q -> mr_next_action_id x = m + plan_size q)
    end.
  Proof.
    intros fuel r D Ne res. destruct only_start as (st & l & Ew & F & E1 & E2).
    assert (Es : start_of whole = st) by (rewrite Ew; reflexivity).
    unfold res, MITLlifetime_range, MITLid. rewrite Es. clear res Es.
    destruct (lr_target r) as [|x path]; [easy|]. clear Ne.
    assert (P : agrees_out a (entries 1 whole)
      (let! f := MITLphase ste fuel x st in
       match f with Some f => MITLid_next ste fuel path f | None => Val None end)
      (denotes (x :: path) (1, whole))).
    { rewrite Ew in D |- *. rewrite depth_eq in D.
      apply (MITL_path a ste lookup path fuel st l 1 _ F); [lia|].
      rewrite entries_phase. apply incl_refl. }
    unfold agrees_out in P.
    destruct (denotes (x :: path) (1, whole)) as [[m q]|].
    - destruct P as (f & E & A). rewrite E. cbn [bind].
      destruct f as [key d]. destruct A as (-> & Ik & Ie & Fq & Pi & id0 & Nm).
      destruct (decl_phase (plan_decl q)) as [(p' & Ep)|Nd].
      + rewrite Ep. specialize (Fq p' Ep). destruct q as [d' l']. cbn [plan_decl plan_inner] in *. subst d'.
        assert (Nn : ph_actions p' <> []).
        { apply nonempty.
          assert (K : In (DPhase p') (declarations a)).
          { apply Nm. }
          unfold declarations in K. rewrite !in_app_iff, !in_map_iff in K.
          destruct K as [K|K]; [destruct K as (p0 & K1 & K2); injection K1 as <-; exact K2|].
          repeat (destruct K as [K|K]; [destruct K as (p0 & K1 & K2); discriminate|]).
          destruct K as (p0 & K1 & K2); discriminate. }
        destruct (ph_actions p') as [|r0 rs] eqn:Ea; [easy|]. rewrite <- Ea in *.
        eexists. split; [reflexivity|]. cbn [mr_inclusive mr_action_id mr_next_action_id].
        split; [reflexivity|]. split; [now apply whole_table|].
        intros Pl. apply Forall2_len in Fq. rewrite Fq.
        destruct (exists_last (l := l')) as (l0 & q0 & El).
        { intros ->. rewrite Ea in Fq. discriminate. }
        subst l'. rewrite app_length. cbn [length].
        replace (Nat.pred (length l0 + 1)) with (0 + length l0)%nat by lia.
        rewrite (whole_table _ (m + 1 + sizes l0)).
        * rewrite plan_size_eq, sizes_app. cbn [sizes].
          assert (Q : plan_inner q0 = []).
          { apply Pl. cbn [plan_inner]. rewrite map_app. cbn [map]. now rewrite last_last. }
          destruct q0 as [d0 l00]. cbn [plan_inner] in Q. subst l00. rewrite plan_size_eq. cbn [sizes]. lia.
        * apply Ie. rewrite entries_phase. apply entl_last.
      + assert (Sz : plan_inner q = [] -> plan_size q = 1).
        { destruct q as [d0 l0]. cbn [plan_inner]. intros ->. rewrite plan_size_eq. reflexivity. }
        assert (Y : exists x0, match plan_decl q with
            | DPhase q0 => match ph_actions q0 with [] => Undef | _ :: _ =>
                 Val (mk_mrange (lr_inclusive r) (IACTIONS_ACTION_ID (rev (entries 1 whole)) key)
                    (IACTIONS_ACTION_ID (rev (entries 1 whole)) (key_of q0 (Nat.pred (length (ph_actions q0)))) + 1)) end
            | _ => Val (mk_mrange (lr_inclusive r) (IACTIONS_ACTION_ID (rev (entries 1 whole)) key)
                     (IACTIONS_ACTION_ID (rev (entries 1 whole)) key + 1)) end = Val x0 /\
            x0 = mk_mrange (lr_inclusive r) (IACTIONS_ACTION_ID (rev (entries 1 whole)) key)
                     (IACTIONS_ACTION_ID (rev (entries 1 whole)) key + 1)).
        { destruct (plan_decl q) as [p0| | | | |]; try (eexists; split; reflexivity). now destruct (Nd p0). }
        destruct Y as (x0 & Y1 & Y2). exists x0. split; [exact Y1|]. subst x0.
        cbn [mr_inclusive mr_action_id mr_next_action_id].
        rewrite (whole_table _ _ Ik). split; [reflexivity|]. split; [reflexivity|].
        intros _. rewrite Sz; [reflexivity|]. now apply Pi.
    - destruct P as [P|P]; rewrite P; reflexivity.
  Qed.
End Whole.
