(** If no production is circular, the attributes of every tree can be
    computed in some order. *)

From Coq Require Import List Bool Arith Lia.
From Verif Require Import Sched.GraphModel Sched.GraphSpec.
Import ListNotations.

(** ** Orders *)
Section Topological.
  Context {X : Type}.
  Variable X_dec : forall x y : X, {x = y} + {x <> y}.
  Variable R : X -> X -> Prop.
  Hypothesis R_dec : forall x y, {R x y} + {~ R x y}.

  Inductive plus : X -> X -> Prop :=
  | plus_one : forall x y, R x y -> plus x y
  | plus_step : forall x y z, R x y -> plus y z -> plus x z.
  Lemma plus_trans : forall x y z, plus x y -> plus y z -> plus x z.
  Proof. induction 1; intros H1; [eapply plus_step; eauto|eapply plus_step; eauto]. Qed.

  (** Either something in [l] has no predecessor in [l], or there is a chain
      of any length. *)
  Lemma minimal : forall l, l <> [] -> (forall x, In x l -> ~ plus x x) ->
    exists x, In x l /\ forall y, In y l -> ~ R y x.
  Proof.
    intros l Ne Ac. destruct (in_dec Nat.eq_dec 1 [1]) as [_|[]]; [|left; reflexivity].
    assert (D : forall x, {y | In y l /\ R y x} + {forall y, In y l -> ~ R y x}).
    { intros x. clear Ne Ac. induction l as [|z l IH]; [right; intros y []|].
      destruct (R_dec z x) as [Rz|Nz]; [left; exists z; split; [left; reflexivity|exact Rz]|].
      destruct IH as [(y & I & Ry)|No]; [left; exists y; split; [right; exact I|exact Ry]|].
      right. intros y [<-|I]; auto. }
    destruct l as [|x0 l0] eqn:El; [congruence|]. rewrite <- El in *.
    (* walk back through predecessors, remembering where we have been *)
    assert (W : forall n seen x, length l <= length seen + n -> NoDup seen -> In x l ->
      (forall s, In s seen -> In s l /\ plus x s) -> exists y, In y l /\ forall z, In z l -> ~ R z y).
    { induction n as [|n IH]; intros seen x Ln Nd Ix Hs.
      - exfalso. assert (Nx : ~ In x seen) by (intros J; apply (Ac x Ix), Hs, J).
        assert (K : length (x :: seen) <= length l).
        { apply NoDup_incl_length; [constructor; assumption|]. intros z [<-|J]; [exact Ix|apply Hs, J]. }
        cbn [length] in K. lia.
      - destruct (D x) as [(y & Iy & Ry)|No]; [|exists x; auto].
        apply (IH (x :: seen) y).
        + cbn [length]. lia.
        + constructor; [intros J; apply (Ac x Ix), Hs, J|exact Nd].
        + exact Iy.
        + intros s [<-|J]; [split; [exact Ix|apply plus_one; exact Ry]|].
          split; [apply Hs, J|]. eapply plus_step; [exact Ry|apply Hs, J]. }
    assert (I0 : In x0 l) by (rewrite El; left; reflexivity).
    destruct (W (length l) [] x0) as (y & Iy & No); cbn; auto; [constructor|intros s []|].
    exists y. auto.
  Qed.

  Theorem topological : forall n l, length l = n -> NoDup l -> (forall x, In x l -> ~ plus x x) ->
    exists o, NoDup o /\ (forall x, In x o <-> In x l) /\
      forall x y, In x l -> In y l -> R x y -> precedes o x y.
  Proof.
    induction n as [|n IH]; intros l Ln Nd Ac.
    - destruct l; [|discriminate Ln]. exists []. split; [constructor|split; [tauto|intros x y []]].
    - assert (Ne : l <> []) by (destruct l; [discriminate Ln|discriminate]).
      destruct (minimal l Ne Ac) as (m & Im & Mm).
      destruct (in_split _ _ Im) as (l1 & l2 & El). subst l.
      assert (Nd' := NoDup_remove_1 _ _ _ Nd). assert (Nm := NoDup_remove_2 _ _ _ Nd).
      destruct (IH (l1 ++ l2)) as (o & No & Io & Ro).
      + rewrite app_length in *. cbn [length] in Ln. lia.
      + exact Nd'.
      + intros x I. apply Ac. rewrite in_app_iff in *. cbn [In]. tauto.
      + exists (m :: o). split; [constructor; [rewrite Io; exact Nm|exact No]|]. split.
        * intros x. cbn [In]. rewrite Io, !in_app_iff. cbn [In]. tauto.
        * intros x y Ix Iy Rxy. destruct (X_dec y m) as [->|Ny]; [destruct (Mm x Ix Rxy)|].
          assert (Iy' : In y (l1 ++ l2)) by (rewrite in_app_iff in *; cbn [In] in Iy; intuition congruence).
          destruct (X_dec x m) as [->|Nx].
          -- apply Io in Iy'. destruct (in_split _ _ Iy') as (o1 & o2 & ->). exists [], o1, o2. reflexivity.
          -- assert (Ix' : In x (l1 ++ l2)) by (rewrite in_app_iff in *; cbn [In] in Ix; intuition congruence).
             destruct (Ro x y Ix' Iy' Rxy) as (o1 & o2 & o3 & ->). exists (m :: o1), o2, o3. reflexivity.
  Qed.
End Topological.

(** ** Trees *)
Section Trees.
  Context {O A T : Type}.
  Variable O_dec : forall x y : O, {x = y} + {x <> y}.
  Variable A_dec : forall x y : A, {x = y} + {x <> y}.
  Variable get_node_type : O -> T.
  Variable ps : list (production O A).
  Hypothesis Gp : forall p, In p ps -> good_production p.
  Hypothesis Ac : ~ circular get_node_type ps.

  Notation depends_on := (depends_on get_node_type ps).
  Notation good_tree := (good_tree get_node_type ps).

  Variable t : tree O A.
  Hypothesis Gt : good_tree t.
  Hypothesis Dt : deterministic t.

  Lemma at_production : forall t q p, good_tree t -> at_address t q p -> In p ps.
  Proof.
    intros t0 q p G H. induction H as [p kids|p kids c t' q p' I _ IH];
      inversion G as [p0 k0 Ip Hk]; subst; [assumption|].
    apply IH. apply (Hk _ _ I).
  Qed.

  (** A node and the node above it. *)
  Lemma at_parent : forall t q c m, good_tree t -> at_address t (q ++ [c]) m ->
    exists p, at_address t q p /\ In c (p_kids p) /\ get_node_type c = get_node_type (p_root m).
  Proof.
    intros t0 q. revert t0. induction q as [|d q IH]; intros t0 c m G H; cbn [app] in H.
    - inversion H as [|p kids c' t' q' p' I K]; subst. inversion K; subst.
      inversion G as [p0 k0 Ip Hk]; subst. destruct (Hk _ _ I) as (Ic & Ty & _).
      exists p. split; [constructor|split; [exact Ic|exact Ty]].
    - inversion H as [|p kids c' t' q' p' I K]; subst. inversion G as [p0 k0 Ip Hk]; subst.
      destruct (Hk _ _ I) as (Ic & Ty & G'). destruct (IH t' c m G' K) as (p' & K' & R).
      exists p'. split; [exact (at_kid _ _ _ _ _ _ I K')|exact R].
  Qed.

  (** [u] is an attribute in the production [p] at [q]. *)
  Definition local (q : list O) (p : production O A) (u : instance O A) : Prop :=
    exists x, In x (p_vertices p) /\ occurs q p x u.

  Lemma instance_dec : forall u v : instance O A, {u = v} + {u <> v}.
  Proof. intros [q a] [r b]. destruct (list_eq_dec O_dec q r), (A_dec a b); (left; congruence) || (right; congruence). Qed.

  Lemma occurs_dec : forall (q : list O) (p : production O A) x u, {occurs q p x u} + {~ occurs q p x u}.
  Proof.
    intros q p [o a] u. destruct (O_dec o (p_root p)) as [->|No].
    - destruct (instance_dec u (q, a)) as [->|Nu]; [left; constructor|].
      destruct (in_dec O_dec (p_root p) (p_kids p)) as [I|N].
      + destruct (instance_dec u (q ++ [p_root p], a)) as [->|Nu']; [left; constructor; exact I|].
        right. intros H. inversion H; subst; congruence.
      + right. intros H. inversion H; subst; congruence.
    - destruct (in_dec O_dec o (p_kids p)) as [I|N].
      + destruct (instance_dec u (q ++ [o], a)) as [->|Nu']; [left; constructor; exact I|].
        right. intros H. inversion H; subst; congruence.
      + right. intros H. inversion H; subst; congruence.
  Qed.

  Lemma local_dec : forall q p u, {local q p u} + {~ local q p u}.
  Proof.
    intros q p u.
    assert (D : forall l, {x | In x l /\ occurs q p x u} + {forall x, In x l -> ~ occurs q p x u}).
    { induction l as [|z l IH]; [right; intros x []|].
      destruct (occurs_dec q p z u) as [H|N]; [left; exists z; split; [left; reflexivity|exact H]|].
      destruct IH as [(y & I & H)|No]; [left; exists y; split; [right; exact I|exact H]|].
      right. intros y [<-|I]; auto. }
    destruct (D (p_vertices p)) as [(x & I & H)|No]; [left; exists x; auto|].
    right. intros (x & I & H). exact (No x I H).
  Qed.

  Lemma snoc_inj : forall (q r : list O) c d, q ++ [c] = r ++ [d] -> q = r /\ c = d.
  Proof. intros. apply app_inj_tail. assumption. Qed.
  Lemma snoc_self : forall (q : list O) c, q ++ [c] <> q.
  Proof. intros q c E. apply (f_equal (@length _)) in E. rewrite app_length in E. cbn in E. lia. Qed.

  Lemma occurs_inj : forall (q : list O) (p : production O A) x y u, good_production p -> occurs q p x u -> occurs q p y u -> x = y.
  Proof.
    intros q p x y u G Hx Hy. inversion Hx; subst; inversion Hy; subst; auto.
    - exfalso. eapply snoc_self. eassumption.
    - exfalso. eapply snoc_self. symmetry. eassumption.
    - apply snoc_inj in H0. destruct H0 as [_ ->]. reflexivity.
  Qed.

  Lemma occurs_cases : forall (q : list O) (p : production O A) x v, occurs q p x v ->
    (x = (p_root p, snd v) /\ fst v = q) \/ exists c, In c (p_kids p) /\ x = (c, snd v) /\ fst v = q ++ [c].
  Proof. intros q p x v H. inversion H; subst; cbn [fst snd]; eauto. Qed.

  Lemma local_address : forall q p u, local q p u -> fst u = q \/ exists c, In c (p_kids p) /\ fst u = q ++ [c].
  Proof. intros q p u (x & _ & H). inversion H; subst; cbn [fst]; eauto. Qed.

  Notation Reads := (reads t).

  (** The part of the tree on the other side of an occurrence of the
      production at [q]: below a child, or everything that is not below [q]. *)
  Section Side.
  Variable q : list O.
  Variable p : production O A.
  Hypothesis Hp : at_address t q p.

  Definition below (r r' : list O) : Prop := exists s, r' = r ++ s.
  Inductive neighbour : (list O -> Prop) -> list O -> O -> (production O A -> O) -> Prop :=
  | n_child : forall c, In c (p_kids p) -> neighbour (below (q ++ [c])) (q ++ [c]) c (@p_root O A)
  | n_parent : forall q0 c, q = q0 ++ [c] -> neighbour (fun r => ~ below q r) q0 (p_root p) (fun _ => c).

  Lemma side_start : forall r m u, at_address t r m -> r <> q -> local r m u -> local q p u ->
    exists S o f, neighbour S r o f /\ S r.
  Proof.
    intros r m u Hm Nr Lm Lp. apply local_address in Lm. apply local_address in Lp.
    destruct Lp as [Ep|(c & Ic & Ep)]; destruct Lm as [Em|(d & Id & Em)]; rewrite Ep in Em.
    - congruence.
    - exists (fun r => ~ below q r), (p_root p), (fun _ => d). split; [apply (n_parent r d); exact Em|].
      intros (s & E). rewrite E in Em. rewrite <- app_assoc in Em.
      apply (f_equal (@length _)) in Em. rewrite !app_length in Em. cbn in Em. lia.
    - subst r. exists (below (q ++ [c])), c, (@p_root O A). split; [constructor; exact Ic|]. exists []. rewrite app_nil_r. reflexivity.
    - apply snoc_inj in Em. destruct Em as [-> _]. congruence.
  Qed.

  (** Leaving an attribute that does not belong to [p], one stays on that side. *)
  Lemma side_stay : forall S r o f, neighbour S r o f -> forall r1 m1 v r2 m2,
    at_address t r1 m1 -> at_address t r2 m2 -> S r1 -> local r1 m1 v -> ~ local q p v -> local r2 m2 v -> S r2.
  Proof.
    intros S r o f N r1 m1 v r2 m2 H1 H2 S1 L1 Np L2.
    assert (K : local r2 m2 v -> r2 = q -> False).
    { intros L ->. apply Np. rewrite (Dt q p m2 Hp H2). exact L. }
    assert (A1 := local_address _ _ _ L1). assert (A2 := local_address _ _ _ L2).
    destruct N as [c Ic|q0 c Eq].
    - destruct S1 as (s & ->).
      assert (P : exists s', fst v = (q ++ [c]) ++ s').
      { destruct A1 as [->|(d & _ & ->)]; [exists s; reflexivity|exists (s ++ [d]); apply app_assoc_reverse]. }
      destruct P as (s' & Es). destruct A2 as [A2|(d & _ & A2)].
      + exists s'. congruence.
      + rewrite Es in A2. destruct s' as [|e s'' _] using rev_ind.
        * rewrite app_nil_r in A2. apply snoc_inj in A2. destruct A2 as [E _]. destruct (K L2 (eq_sym E)).
        * rewrite app_assoc in A2. apply snoc_inj in A2. destruct A2 as [<- _]. exists s''. reflexivity.
    - intros (s & ->).
      assert (P : exists s', fst v = q ++ s' /\ (s' = [] -> q ++ s = q)).
      { destruct A2 as [->|(d & _ & ->)].
        - exists s. split; [reflexivity|]. intros ->. apply app_nil_r.
        - exists (s ++ [d]). split; [apply app_assoc_reverse|]. destruct s; discriminate. }
      destruct P as (s' & Es & Z). destruct A1 as [A1|(d & _ & A1)].
      + apply S1. exists s'. congruence.
      + rewrite Es in A1. destruct s' as [|e s'' _] using rev_ind.
        * apply (K L2). apply Z. reflexivity.
        * rewrite app_assoc in A1. apply snoc_inj in A1. destruct A1 as [<- _]. apply S1. exists s''. reflexivity.
  Qed.

  (** One returns through the occurrence through which one left. *)
  Lemma side_return : forall S r o f, neighbour S r o f -> forall r1 m1 v,
    at_address t r1 m1 -> S r1 -> local r1 m1 v -> local q p v ->
    r1 = r /\ exists a, In (o, a) (p_vertices p) /\ In (f m1, a) (p_vertices m1) /\
      get_node_type (f m1) = get_node_type o /\ occurs q p (o, a) v /\ occurs r1 m1 (f m1, a) v.
  Proof.
    intros S r o f N r1 m1 v H1 S1 (x1 & I1 & O1) (x & I & O0).
    assert (C0 := occurs_cases _ _ _ _ O0). assert (C1 := occurs_cases _ _ _ _ O1).
    destruct N as [c Ic|q0 c Eq].
    - destruct S1 as (s & ->).
      assert (P : fst v = q ++ [c] /\ x = (c, snd v)).
      { destruct C0 as [[-> E0]|(d & Id & -> & E0)], C1 as [[-> E1]|(e & Ie & -> & E1)]; rewrite E0 in E1; rewrite <- !app_assoc in E1.
        - exfalso. apply (f_equal (@length _)) in E1. rewrite !app_length in E1. cbn in E1. lia.
        - exfalso. apply (f_equal (@length _)) in E1. rewrite !app_length in E1. cbn in E1. lia.
        - apply app_inv_head in E1. injection E1 as -> E. auto.
        - apply app_inv_head in E1. injection E1 as -> E. auto. }
      destruct P as [P ->].
      destruct C1 as [[-> E1]|(e & Ie & -> & E1)]; rewrite P in E1.
      2:{ exfalso. rewrite <- app_assoc in E1. apply (f_equal (@length _)) in E1. rewrite !app_length in E1. cbn in E1. lia. }
      rewrite <- (app_nil_r (q ++ [c])) in E1 at 1. apply app_inv_head in E1. subst s. rewrite app_nil_r in *.
      split; [reflexivity|]. exists (snd v).
      destruct (at_parent _ _ _ _ Gt H1) as (p' & H' & _ & Ty).
      split; [exact I|split; [exact I1|split; [congruence|split; [exact O0|exact O1]]]].
    - assert (P : r1 = q0 /\ x1 = (c, snd v) /\ x = (p_root p, snd v)).
      { destruct C1 as [[-> E1]|(e & Ie & -> & E1)].
        - exfalso. apply S1. rewrite <- E1. destruct C0 as [[_ ->]|(d & _ & _ & ->)];
            [exists []; rewrite app_nil_r; reflexivity|eexists; reflexivity].
        - destruct C0 as [[-> E0]|(d & Id & -> & E0)]; rewrite E1 in E0.
          + rewrite Eq in E0. apply snoc_inj in E0. destruct E0 as [-> ->]. auto.
          + apply snoc_inj in E0. destruct E0 as [-> _]. exfalso. apply S1. exists []. rewrite app_nil_r. reflexivity. }
      destruct P as (-> & -> & ->). split; [reflexivity|]. exists (snd v).
      assert (Hp' := Hp). rewrite Eq in Hp'. destruct (at_parent _ _ _ _ Gt Hp') as (p' & H' & _ & Ty).
      split; [exact I|split; [exact I1|split; [exact Ty|split; [exact O0|exact O1]]]].
  Qed.

  (** The other side of [p]: follow the rules until the first attribute of [p]. *)
  Inductive path : nat -> instance O A -> instance O A -> Prop :=
  | path_one : forall u v, Reads u v -> path 1 u v
  | path_more : forall n u v w, Reads u v -> path n v w -> path (S n) u w.

  Lemma follow : forall S r o f, neighbour S r o f -> forall n u y, path n u y ->
    (forall r1 m1, at_address t r1 m1 -> local r1 m1 u -> S r1) -> local q p y ->
    exists j w r1 m1, j <= n /\ path j u w /\ local q p w /\ at_address t r1 m1 /\ S r1 /\ local r1 m1 w /\
      (w = y \/ exists j', j' < n /\ path j' w y).
  Proof.
    intros S r o f N n u y H. induction H as [u v R|n u v y R P IH]; intros Su Ly.
    - destruct R as [r1 m1 x z H1 D Ox Oz].
      assert (G1 : good_production m1) by (apply Gp; exact (at_production _ _ _ Gt H1)).
      destruct (gp_deps _ G1 _ _ D) as [Ix Iz].
      exists 1, v, r1, m1. split; [lia|]. split; [constructor; econstructor; eassumption|]. split; [exact Ly|].
      split; [exact H1|]. split; [apply (Su _ _ H1); exists x; auto|]. split; [exists z; auto|left; reflexivity].
    - assert (R' := R). destruct R as [r1 m1 x z H1 D Ox Oz].
      assert (G1 : good_production m1) by (apply Gp; exact (at_production _ _ _ Gt H1)).
      destruct (gp_deps _ G1 _ _ D) as [Ix Iz].
      assert (S1 : S r1) by (apply (Su _ _ H1); exists x; auto).
      assert (L1 : local r1 m1 v) by (exists z; auto).
      destruct (local_dec q p v) as [Lv|Nv].
      + exists 1, v, r1, m1. split; [lia|]. split; [constructor; exact R'|]. repeat (split; [assumption|]).
        right. exists n. split; [lia|exact P].
      + destruct IH as (j & w & r2 & m2 & Lj & Pj & Lw & H2 & S2 & L2 & E).
        * intros r2 m2 H2 L2. exact (side_stay _ _ _ _ N _ _ _ _ _ H1 H2 S1 L1 Nv L2).
        * exact Ly.
        * exists (Datatypes.S j), w, r2, m2. split; [lia|]. split; [eapply path_more; eassumption|].
          repeat (split; [assumption|]). destruct E as [E|(j' & Lj' & P')]; [left; exact E|].
          right. exists j'. split; [lia|exact P'].
  Qed.
  End Side.

  Lemma reads_path : forall n u v, path n u v -> plus Reads u v.
  Proof. intros n u v H. induction H; [apply plus_one; assumption|eapply plus_step; eassumption]. Qed.
  Lemma path_reads : forall u v, plus Reads u v -> exists n, path n u v.
  Proof.
    intros u v H. induction H as [u v R|u v w R _ (n & P)]; [exists 1; constructor; exact R|].
    exists (S n). eapply path_more; eassumption.
  Qed.
  Lemma path_positive : forall n u v, path n u v -> 1 <= n.
  Proof. intros n u v H. destruct H; lia. Qed.

  (** A chain of rules between two attributes of one production is a
      dependency of that production. *)
  Theorem path_depends : forall n q p x y u v, at_address t q p ->
    In x (p_vertices p) -> In y (p_vertices p) -> occurs q p x u -> occurs q p y v ->
    path n u v -> depends_on p x y.
  Proof.
    induction n as [n IH] using lt_wf_ind. intros q p x y u v Hp Ix Iy Ox Oy P.
    assert (Ip : In p ps) by exact (at_production _ _ _ Gt Hp). assert (G := Gp p Ip).
    (* the first rule *)
    assert (F : exists z, Reads u z /\ (n = 1 /\ z = v \/ exists k, n = S k /\ path k z v)).
    { inversion P; subst; [exists v; auto|eauto 7]. }
    destruct F as (z & R & F). destruct R as [r m x1 z1 Hm D Ox1 Oz1].
    assert (Im : In m ps) by exact (at_production _ _ _ Gt Hm). assert (Gm := Gp m Im).
    destruct (gp_deps _ Gm _ _ D) as [Ix1 Iz1].
    assert (Dm : depends_on m x1 z1) by (apply dep_direct; assumption).
    assert (Lu : local q p u) by (exists x; auto).
    assert (Lv : local q p v) by (exists y; auto).
    destruct (list_eq_dec O_dec r q) as [->|Nr].
    - (* a rule of [p] *)
      rewrite <- (Dt _ _ _ Hp Hm) in *. rewrite (occurs_inj _ _ _ _ _ G Ox Ox1).
      destruct F as [[_ ->]|(k & -> & Pk)].
      + rewrite (occurs_inj _ _ _ _ _ G Oy Oz1). exact Dm.
      + eapply dep_trans; [exact Dm|]. eapply (IH k); [lia|exact Hp|exact Iz1|exact Iy|exact Oz1|exact Oy|exact Pk].
    - (* a rule on the other side of an occurrence *)
      assert (Lmu : local r m u) by (exists x1; auto). assert (Lmz : local r m z) by (exists z1; auto).
      destruct (side_start q p Hp r m u Hm Nr Lmu Lu) as (S & o & f & N & Sr).
      assert (Ret := side_return q p Hp S r o f N).
      destruct (Ret r m u Hm Sr Lmu Lu) as (_ & a & Ia & Iam & Ty & Oa & Oam).
      assert (x = (o, a)) as -> by exact (occurs_inj _ _ _ _ _ G Ox Oa).
      assert (x1 = (f m, a)) as -> by exact (occurs_inj _ _ _ _ _ Gm Ox1 Oam).
      (* coming back at [w], from [m] *)
      assert (Back : forall w b, In (o, b) (p_vertices p) -> In (f m, b) (p_vertices m) ->
        depends_on m (f m, a) (f m, b) -> occurs q p (o, b) w ->
        (w = v \/ exists j', j' < n /\ path j' w v) -> depends_on p (o, a) y).
      { intros w b Ib Ibm Db Ob E.
        assert (Dp : depends_on p (o, a) (o, b)).
        { apply (dep_induced get_node_type ps p m o (f m) a b); auto. }
        destruct E as [->|(j' & Lj & P')].
        - rewrite (occurs_inj _ _ _ _ _ G Oy Ob). exact Dp.
        - eapply dep_trans; [exact Dp|]. eapply (IH j'); [exact Lj|exact Hp|exact Ib|exact Iy|exact Ob|exact Oy|exact P']. }
      destruct (local_dec q p z) as [Lz|Nz].
      + destruct (Ret r m z Hm Sr Lmz Lz) as (_ & b & Ib & Ibm & _ & Ob & Obm).
        apply (Back z b Ib Ibm); [|exact Ob|].
        * rewrite (occurs_inj _ _ _ _ _ Gm Oz1 Obm) in Dm. exact Dm.
        * destruct F as [[_ ->]|(k & -> & Pk)]; [left; reflexivity|right; exists k; split; [lia|exact Pk]].
      + destruct F as [[_ ->]|(k & -> & Pk)]; [destruct (Nz Lv)|].
        destruct (follow q p Hp S r o f N k z v Pk) as (j & w & r1 & m1 & Lj & Pj & Lw & H1 & S1 & L1 & E).
        * intros r2 m2 H2 L2. exact (side_stay q p Hp S r o f N _ _ _ _ _ Hm H2 Sr Lmz Nz L2).
        * exact Lv.
        * destruct (Ret r1 m1 w H1 S1 L1 Lw) as (-> & b & Ib & Ibm & _ & Ob & Obm).
          assert (m1 = m) as -> by exact (Dt _ _ _ H1 Hm).
          apply (Back w b Ib Ibm); [|exact Ob|].
          -- eapply dep_trans; [exact Dm|].
             eapply (IH j); [lia|exact Hm|exact Iz1|exact Ibm|exact Oz1|exact Obm|exact Pj].
          -- destruct E as [->|(j' & Lj' & P')]; [left; reflexivity|right; exists j'; split; [lia|exact P']].
  Qed.

  Theorem no_cycle_in_tree : forall u, ~ plus Reads u u.
  Proof.
    intros u H. apply path_reads in H. destruct H as (n & P).
    assert (F : exists z, Reads u z) by (inversion P; subst; eauto). destruct F as (z & [r m x z1 Hm D Ox Oz]).
    assert (Im : In m ps) by exact (at_production _ _ _ Gt Hm).
    destruct (gp_deps _ (Gp m Im) _ _ D) as [Ix _].
    apply Ac. exists m, x. exact (path_depends n r m x x u u Hm Ix Ix Ox Ox P).
  Qed.

  (** *** The attributes of a tree can be listed *)
  Fixpoint addresses (t : tree O A) : list (list O * production O A) :=
    match t with
    | Tree p kids => ([], p) :: flat_map (fun ct => map (fun qp => (fst ct :: fst qp, snd qp)) (addresses (snd ct))) kids
    end.
  Lemma addresses_sound : forall t q p, at_address t q p -> In (q, p) (addresses t).
  Proof.
    intros t0 q p H. induction H as [p kids|p kids c t' q p' I _ IH]; cbn [addresses]; [left; reflexivity|].
    right. apply in_flat_map. exists (c, t'). split; [exact I|]. cbn [fst snd].
    apply in_map_iff. exists (q, p'). auto.
  Qed.
  Lemma addresses_complete : forall q t p, In (q, p) (addresses t) -> at_address t q p.
  Proof.
    induction q as [|c q IH]; intros [p0 kids] p H; cbn [addresses] in H; destruct H as [E|H].
    - injection E as <-. constructor.
    - exfalso. apply in_flat_map in H. destruct H as (ct & _ & H). apply in_map_iff in H.
      destruct H as (qp & E & _). discriminate E.
    - discriminate E.
    - apply in_flat_map in H. destruct H as ((c', t') & I & H). cbn [fst snd] in H. apply in_map_iff in H.
      destruct H as ((q', p') & E & H). cbn [fst snd] in E. injection E as -> -> ->.
      econstructor; [exact I|]. apply IH. exact H.
  Qed.

  Definition here (q : list O) (p : production O A) (x : O * A) : instance O A :=
    (if O_dec (fst x) (p_root p) then q else q ++ [fst x], snd x).
  Lemma here_occurs : forall q p x, good_production p -> In x (p_vertices p) -> occurs q p x (here q p x).
  Proof.
    intros q p [o a] G I. unfold here. cbn [fst snd]. destruct (O_dec o (p_root p)) as [->|N]; [constructor|].
    destruct (gp_vertices _ G _ I) as [E|K]; [destruct (N (eq_sym E))|]. constructor. exact K.
  Qed.
  Lemma occurs_here : forall q p x u, good_production p -> occurs q p x u -> u = here q p x.
  Proof.
    intros q p x u G H. unfold here. inversion H; subst; cbn [fst snd].
    - destruct (O_dec (p_root p) (p_root p)); [reflexivity|congruence].
    - destruct (O_dec c (p_root p)) as [->|N]; [destruct (gp_root _ G H0)|reflexivity].
  Qed.

  Definition attributes_of_tree : list (instance O A) :=
    flat_map (fun qp => map (here (fst qp) (snd qp)) (p_vertices (snd qp))) (addresses t).
  Lemma attributes_listed : forall u, In u attributes_of_tree <-> is_attribute t u.
  Proof.
    intros u. unfold attributes_of_tree, is_attribute. rewrite in_flat_map. split.
    - intros ((q & p) & I & H). apply addresses_complete in I. cbn [fst snd] in H. apply in_map_iff in H.
      destruct H as (x & <- & Ix). exists q, p, x. split; [exact I|split; [exact Ix|]].
      apply here_occurs; [apply Gp; exact (at_production _ _ _ Gt I)|exact Ix].
    - intros (q & p & x & H & Ix & Ox). exists (q, p). split; [apply addresses_sound; exact H|].
      cbn [fst snd]. apply in_map_iff. exists x. split; [|exact Ix]. symmetry.
      apply occurs_here; [apply Gp; exact (at_production _ _ _ Gt H)|exact Ox].
  Qed.

  Definition rules_of_tree : list (instance O A * instance O A) :=
    flat_map (fun qp => map (fun xy => (here (fst qp) (snd qp) (fst xy), here (fst qp) (snd qp) (snd xy)))
                          (p_deps (snd qp))) (addresses t).
  Lemma rules_listed : forall u v, In (u, v) rules_of_tree <-> Reads u v.
  Proof.
    intros u v. unfold rules_of_tree. rewrite in_flat_map. split.
    - intros ((q & p) & I & H). apply addresses_complete in I. cbn [fst snd] in H. apply in_map_iff in H.
      destruct H as ((x & y) & E & Ix). injection E as <- <-. cbn [fst snd].
      assert (G := Gp p (at_production _ _ _ Gt I)). destruct (gp_deps _ G _ _ Ix).
      econstructor; [exact I|exact Ix|apply here_occurs; assumption|apply here_occurs; assumption].
    - intros [q p x y H D Ox Oy]. exists (q, p). split; [apply addresses_sound; exact H|].
      assert (G := Gp p (at_production _ _ _ Gt H)).
      cbn [fst snd]. apply in_map_iff. exists (x, y). split; [|exact D]. cbn [fst snd].
      rewrite (occurs_here _ _ _ _ G Ox), (occurs_here _ _ _ _ G Oy). reflexivity.
  Qed.
  Lemma reads_dec : forall u v, {Reads u v} + {~ Reads u v}.
  Proof.
    intros u v. assert (D : forall a b : instance O A * instance O A, {a = b} + {a <> b}).
    { intros [a b] [c d]. destruct (instance_dec a c), (instance_dec b d); (left; congruence) || (right; congruence). }
    destruct (in_dec D (u, v) rules_of_tree) as [I|N]; [left|right]; rewrite <- rules_listed; assumption.
  Qed.

  Theorem order_exists : exists l, evaluation_order t l.
  Proof.
    destruct (topological instance_dec (reads t) reads_dec _ (nodup instance_dec attributes_of_tree) eq_refl)
      as (l & Nl & Il & Rl).
    - apply NoDup_nodup.
    - intros u _. apply no_cycle_in_tree.
    - exists l. split; [exact Nl|]. split; [intros u; rewrite Il, nodup_In; apply attributes_listed|].
      intros u v R. assert (R' := R). destruct R' as [q p x y H D Ox Oy].
      assert (G := Gp p (at_production _ _ _ Gt H)). destruct (gp_deps _ G _ _ D) as [Ix Iy].
      apply Rl; [apply nodup_In, attributes_listed; exists q, p, x; auto|
                 apply nodup_In, attributes_listed; exists q, p, y; auto|exact R].
  Qed.
End Trees.
