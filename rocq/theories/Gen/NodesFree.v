(** Proofs about CCNfree. *)

From Coq Require Import List Ascii NArith ZArith Bool Lia.
From Verif Require Import Base.Outcome Base.Heap Palm.StrModel Front.Syntax
  Gen.NodesModel Gen.NodesSpec Gen.NodesProof Gen.NodesCopy.
Import ListNotations.
Local Open Scope outcome_scope.

Lemma shrunk_refl : forall h, shrunk h h [].
Proof. intros h. split; [auto|intros x []]. Qed.
Lemma shrunk_trans : forall h h1 h2 f1 f2, shrunk h h1 f1 -> shrunk h1 h2 f2 -> shrunk h h2 (f1 ++ f2).
Proof.
  intros h h1 h2 f1 f2 [A1 A2] [B1 B2]. split.
  - intros x N. rewrite B1, A1; auto; intros I; apply N; apply in_or_app; auto.
  - intros x I. destruct (in_dec N.eq_dec x f2) as [J|J]; [auto|]. rewrite B1 by exact J.
    apply in_app_or in I. destruct I; [auto|contradiction].
Qed.
Lemma shrunk_remove : forall h x, shrunk h (remove h x) [x].
Proof.
  intros h x. split.
  - intros y N. rewrite lookup_remove. destruct (N.eqb_spec y x) as [->|]; [|reflexivity]. exfalso. apply N. now left.
  - intros y [<-|[]]. rewrite lookup_remove. now rewrite N.eqb_refl.
Qed.

Lemma disjoint_app : forall (l1 l2 : list addr), NoDup (l1 ++ l2) ->
  NoDup l1 /\ NoDup l2 /\ (forall x, In x l1 -> In x l2 -> False).
Proof.
  induction l1 as [|a l1 IH]; intros l2 H; [repeat split; [constructor|exact H|auto]|].
  cbn [app] in H. inversion H as [|? ? N1 N2]; subst. destruct (IH l2 N2) as (A & B & C). repeat split.
  - constructor; [|exact A]. intros I. apply N1. apply in_or_app. now left.
  - exact B.
  - intros x [<-|I] J; [apply N1; apply in_or_app; now right|eauto].
Qed.

Lemma free_text : forall h v s fp, rep_text h v s fp -> exists h', MEMfree v h = Val h' /\ shrunk h h' fp.
Proof.
  intros h v s fp [|a t E].
  - exists h. split; [reflexivity|apply shrunk_refl].
  - exists (remove h a). cbn [MEMfree]. rewrite E. split; [reflexivity|apply shrunk_remove].
Qed.

(** Everything but the block at [d] and the blocks [fp] is left alone. *)
Definition shrunk_but (d : addr) (h h' : nheap) (fp : list addr) : Prop :=
  (forall x, ~ In x fp -> x <> d -> lookup h' x = lookup h x) /\ (forall x, In x fp -> lookup h' x = None).

Lemma set_nth_middle : forall A (l1 l2 : list (cstring * A)) n v w,
  set_nth (length l1) w (l1 ++ (n, v) :: l2) = l1 ++ (n, w) :: l2.
Proof. induction l1 as [|[m x] l1 IH]; intros l2 n v w; cbn; [reflexivity|]. now rewrite IH. Qed.
Lemma nth_error_middle : forall A (l1 l2 : list A) x, nth_error (l1 ++ x :: l2) (length l1) = Some x.
Proof. induction l1 as [|y l1 IH]; intros l2 x; cbn; [reflexivity|]. apply IH. Qed.

(** The blocks of a tree are allocated. *)
Lemma owned_text : forall h v s fp, rep_text h v s fp -> forall x, In x fp -> lookup h x <> None.
Proof. intros h v s fp [|b t Es] x J; [destruct J|]. destruct J as [<-|[]]. congruence. Qed.
Lemma owned_attributes : forall h ats fs cs fps, rep_attributes h ats fs cs fps -> forall x, In x fps -> lookup h x <> None.
Proof.
  intros h ats fs cs fps A x J. induction A as [|b ats f fs c cs fp fps R1 R2 IH]; [destruct J|].
  apply in_app_or in J. destruct J as [J|J]; [|auto].
  destruct R1 as [v s fp _ _ Rt| | | |]; try destruct J. eapply owned_text; eassumption.
Qed.
Lemma owned_both : forall nodes h,
  (forall a t fp, rep nodes h a t fp -> forall x, In x fp -> lookup h x <> None) /\
  (forall cs kvs ts fps, rep_kids nodes h cs kvs ts fps -> forall x, In x fps -> lookup h x <> None).
Proof.
  intros nodes h. apply rep_both.
  - intros a nd c file pos kids attrs ffp kfp afp dfp kvs fs I E T Nn Lp Tf D K IHK A x J.
    cbn [In] in J. rewrite !in_app_iff in J. destruct J as [<-|[J|[J|[J|J]]]].
    + congruence.
    + destruct D; [destruct J|]. destruct J as [<-|[]]. congruence.
    + eapply owned_text; eassumption.
    + auto.
    + eapply owned_attributes; eassumption.
  - intros x [].
  - auto.
  - intros c cs a t fp kvs ts fps R IHR K IHK x J. apply in_app_or in J. destruct J; auto.
Qed.

Fixpoint height_copied (t : rtree) : height (copied t) = height t.
Proof.
  destruct t as [ty file pos kids attrs]. cbn [copied height]. f_equal. f_equal. rewrite map_map.
  induction kids as [|[k|] kids IH]; cbn [map option_map]; [reflexivity| |]; f_equal; auto.
Qed.

(** Nothing happens for NULL. *)
Lemma start_null : forall malloc trav h, standard malloc ->
  ok malloc (TRAVstart malloc trav NULL h) (fun r => fst r = NULL /\ forall x, lookup (snd r) x = lookup h x).
Proof.
  intros malloc trav h S. unfold TRAVstart.
  eapply ok_bind; [apply (alloc_ok malloc S)|]. intros [s h1] [Fs E1]. cbn [fst snd] in *. subst h1.
  cbn [TRAVopt NULL bind fst snd MEMfree]. rewrite lookup_store_same. cbn [bind ok fst snd]. split; [reflexivity|].
  intros x. rewrite lookup_remove. destruct (N.eqb_spec x s) as [->|Nx]; [now rewrite Fs|]. now apply lookup_store_other.
Qed.

Section Free.
  Variable nodes : list inode.
  Hypothesis distinct_nodes : NoDup (map (fun nd => ID_LWR (nd_name nd)) nodes).
  Hypothesis members : Forall distinct_members nodes.
  Hypothesis compiles : Forall free_compiles nodes.

  Lemma free_strings_right : forall h ats fsr cs fps, rep_attributes h ats fsr cs fps ->
    forall hc nd arg d ks pre, data_at hc nd arg d ks (pre ++ fsr) ->
      same_on fps h hc -> NoDup fps -> ~ In arg fps -> ~ In d fps ->
      NoDup (map fst pre ++ map (fun a => ID_LWR (at_name a)) ats) ->
      (forall a, In a ats -> at_type a = AT_string -> is_ag a = false) ->
      exists h', free_strings nd arg ats hc = Val h' /\ shrunk hc h' fps.
  Proof.
    intros h ats fsr cs fps R. induction R as [|a ats f fsr c cs fp fps R1 R2 IH];
      intros hc nd arg d ks pre D S Nf Na Nd Nn G.
    - exists hc. split; [reflexivity|apply shrunk_refl].
    - cbn [map] in Nn. assert (Np : ~ In (ID_LWR (at_name a)) (map fst pre)) by (eapply nodup_middle; exact Nn).
      apply same_on_app in S. destruct S as [S1 S2]. apply disjoint_app in Nf. destruct Nf as (Nf1 & Nf2 & Dj).
      assert (Hr : exists hc1, free_strings nd arg (a :: ats) hc = free_strings nd arg ats hc1 /\ shrunk hc hc1 fp).
      { cbn [free_strings].
        assert (at_type a = AT_string \/ at_type a <> AT_string) as [Et|Et] by (destruct (at_type a); auto; right; discriminate).
        - rewrite Et. assert (Ag := G a (or_introl eq_refl) Et).
          inversion R1 as [v1 s1 fp1 X1 X2 X3|p1 X1 X2|z1 X1 X2 X3|v1 X1|v1 X1]; subst; try congruence.
          rewrite (read_attribute_at hc nd arg d pre _ v1 fsr ks D Np). cbn [bind].
          destruct (free_text hc v1 s1 fp (rep_text_frame _ _ _ _ _ X3 S1)) as (hc1 & -> & Sh). cbn [bind]. eauto.
        - exists hc. split; [destruct (at_type a); try reflexivity; congruence|].
          inversion R1 as [v1 s1 fp1 X1 X2 X3|p1 X1 X2|z1 X1 X2 X3|v1 X1|v1 X1]; subst; try congruence; apply shrunk_refl. }
      destruct Hr as (hc1 & -> & Sh).
      assert (Nx : ~ In arg fp /\ ~ In d fp) by (split; intros I; [apply Na|apply Nd]; apply in_or_app; now left).
      destruct (IH hc1 nd arg d ks (pre ++ [(ID_LWR (at_name a), f)])) as (h' & E & Sh').
      + rewrite <- app_assoc. eapply data_at_same; [exact D| |]; apply (proj1 Sh); tauto.
      + intros x I. rewrite (proj1 Sh); [auto|]. intros J. eauto.
      + exact Nf2.
      + intros I. apply Na. apply in_or_app. now right.
      + intros I. apply Nd. apply in_or_app. now right.
      + rewrite map_app, <- app_assoc. exact Nn.
      + intros y I. apply G. now right.
      + exists h'. split; [exact E|]. eapply shrunk_trans; eassumption.
  Qed.

  Definition frees_tree (h : nheap) (a : addr) (t : rtree) (fp : list addr) : Prop :=
    forall fuel hc, height t <= fuel -> same_on fp h hc -> NoDup fp ->
      exists h', DEL nodes fuel a hc = Val (NULL, h') /\ shrunk hc h' fp.

  Definition frees_kids (h : nheap) (kvs : list (cstring * value)) (ts : list (option rtree)) (fps : list addr) : Prop :=
    forall fuel hc arg d c done fs, heights ts <= fuel -> same_on fps h hc -> NoDup fps ->
      lookup hc arg = Some (BNode c) -> children c = Ptr (Some d) ->
      lookup hc d = Some (BData (done ++ kvs) fs) -> ~ In arg fps -> ~ In d fps -> arg <> d ->
      exists h' kvs', TRAVchildren (DEL nodes fuel) arg (seq (length done) (length kvs)) hc = Val h' /\
        lookup h' d = Some (BData kvs' fs) /\ shrunk_but d hc h' fps.

  Lemma in_rep : forall h a t fp, rep nodes h a t fp -> In a fp.
  Proof. intros h a t fp []. now left. Qed.

  Lemma free_both : forall h,
    (forall a t fp, rep nodes h a t fp -> frees_tree h a t fp) /\
    (forall cs kvs ts fps, rep_kids nodes h cs kvs ts fps -> frees_kids h kvs ts fps).
  Proof.
    intros h. apply rep_both.
    - intros a nd c file pos kids attrs ffp kfp afp dfp kvs fs I E T Nn Lp Tf D K IHK A fuel hc Hf S Nf.
      destruct fuel as [|fuel]; [cbn in Hf; lia|]. cbn [height] in Hf.
      assert (Hk : heights kids <= fuel) by (unfold heights; lia). clear Hf.
      change (a :: dfp ++ ffp ++ kfp ++ afp) with ([a] ++ dfp ++ ffp ++ kfp ++ afp) in S, Nf.
      apply same_on_app in S. destruct S as [Sa S]. apply same_on_app in S. destruct S as [Sd S].
      apply same_on_app in S. destruct S as [Sf S]. apply same_on_app in S. destruct S as [Sk Saa].
      apply disjoint_app in Nf. destruct Nf as (_ & Nf & Ja).
      apply disjoint_app in Nf. destruct Nf as (_ & Nf & Jd).
      apply disjoint_app in Nf. destruct Nf as (Nff & Nf & Jf).
      apply disjoint_app in Nf. destruct Nf as (Nfk & Nfa & Jk).
      assert (Ea : lookup hc a = Some (BNode c)) by (rewrite (Sa a (or_introl eq_refl)); exact E).
      assert (Dm : distinct_members nd) by (rewrite Forall_forall in members; auto).
      assert (Fc : free_compiles nd) by (rewrite Forall_forall in compiles; auto).
      assert (Oa : ~ In a dfp /\ ~ In a ffp /\ ~ In a kfp /\ ~ In a afp).
      { repeat split; intros J; apply (Ja a (or_introl eq_refl)); mem. }
      cbn [DEL]. unfold dispatch. unfold read_cell at 1. rewrite Ea. cbn [bind].
      rewrite T, (find_node_in nodes distinct_nodes nd I). unfold free_node.
      (* the children *)
      assert (Hch : exists h1, (match nd_children nd with
          | [] => Val hc
          | _ => let! c := read_cell a hc in TRAVchildren (DEL nodes fuel) a (seq 0 (num_children c)) hc
          end) = Val h1 /\
          (forall x, ~ In x kfp -> ~ In x dfp -> lookup h1 x = lookup hc x) /\
          (forall x, In x kfp -> lookup h1 x = None) /\
          (forall d ks, dfp = [d] -> lookup hc d = Some (BData ks fs) -> exists ks', lookup h1 d = Some (BData ks' fs))).
      { destruct (nd_children nd) as [|c0 cs0] eqn:Ec.
        - inversion K; subst. exists hc. split; [reflexivity|]. split; [auto|]. split; [intros x []|]. eauto.
        - unfold read_cell. rewrite Ea. cbn [bind].
          inversion D as [nd0 c1 Yc Ya Yd Ych Ek Ef Ed|nd0 c1 ks0 fs0 d Yne Yd Yl Ych Ek Ef Ed]; subst; [congruence|].
          rewrite Ec in Ych.
          assert (Od : ~ In d kfp) by (intros J; apply (Jd d (or_introl eq_refl)); mem).
          destruct (IHK fuel hc a d c [] fs Hk Sk Nfk Ea Ych) as (h1 & kvs' & E1 & L1 & [B1 B2]); try tauto.
          { rewrite Sd by now left. exact Yl. }
          { intros ->. apply (proj1 Oa). now left. }
          destruct (kids_length _ _ _ _ _ _ K) as [Kl1 Kl2]. apply (f_equal (@length _)) in Kl2. rewrite !map_length in Kl2.
          exists h1. split; [|split; [|split]].
          + rewrite Nn, Kl1, <- Kl2. exact E1.
          + intros x N1 N2. apply B1; [exact N1|]. intros ->. apply N2. now left.
          + exact B2.
          + intros d1 ks [= <-] _. eauto. }
      destruct Hch as (h1 & -> & A1 & A2 & A3). cbn [bind].
      assert (Ea1 : lookup h1 a = Some (BNode c)) by (rewrite A1 by tauto; exact Ea).
      (* the strings *)
      assert (Hst : exists h2, free_strings nd a (nd_attributes nd) h1 = Val h2 /\ shrunk h1 h2 afp).
      { inversion D as [nd0 c1 Yc Ya Yd Ych Ek Ef Ed|nd0 c1 ks0 fs0 d Yne Yd Yl Ych Ek Ef Ed]; subst.
        - rewrite Ya in *. inversion A; subst. exists h1. split; [reflexivity|apply shrunk_refl].
        - assert (Od : ~ In d afp) by (intros J; apply (Jd d (or_introl eq_refl)); mem).
          destruct (A3 d kvs eq_refl) as (ks' & L1); [rewrite (Sd d (or_introl eq_refl)); exact Yl|].
          apply (free_strings_right h _ _ _ _ A h1 nd a d ks' []).
          + exists c. split; [exact Ea1|]. split; [exact T|]. split; [exact Yd|]. split; [exact L1|].
            intros ->. apply (proj1 Oa). now left.
          + intros x J. rewrite A1; [apply Saa, J| |].
            * intros J'. eauto.
            * intros [<-|[]]. contradiction.
          + exact Nfa.
          + tauto.
          + exact Od.
          + cbn [map app]. apply distinct_attributes, Dm.
          + exact Fc. }
      destruct Hst as (h2 & -> & Sh2). cbn [bind].
      assert (Ea2 : lookup h2 a = Some (BNode c)) by (rewrite (proj1 Sh2) by tauto; exact Ea1).
      unfold read_cell. rewrite Ea2. cbn [bind].
      (* the file name *)
      destruct (free_text h2 (filename c) file ffp) as (h3 & -> & Sh3).
      { eapply rep_text_frame; [exact Tf|]. intros x J.
        assert (~ In x kfp) by (intros J'; apply (Jf x J); mem).
        assert (~ In x afp) by (intros J'; apply (Jf x J); mem).
        assert (~ In x dfp) by (intros J'; apply (Jd x J'); mem).
        rewrite (proj1 Sh2) by assumption. rewrite A1 by assumption. apply Sf, J. }
      cbn [bind].
      assert (Ea3 : lookup h3 a = Some (BNode c)) by (rewrite (proj1 Sh3) by tauto; exact Ea2).
      (* the data *)
      assert (Hd : exists h4, MEMfree (data c) h3 = Val h4 /\ shrunk h3 h4 dfp).
      { inversion D as [nd0 c1 Yc Ya Yd Ych Ek Ef Ed|nd0 c1 ks0 fs0 d Yne Yd Yl Ych Ek Ef Ed]; subst.
        - rewrite Yd. exists h3. split; [reflexivity|apply shrunk_refl].
        - destruct (A3 d kvs eq_refl) as (ks' & L1); [rewrite (Sd d (or_introl eq_refl)); exact Yl|].
          assert (lookup h3 d = Some (BData ks' fs)) as L3.
          { rewrite (proj1 Sh3) by (intros J; apply (Jd d (or_introl eq_refl)); mem).
            rewrite (proj1 Sh2) by (intros J; apply (Jd d (or_introl eq_refl)); mem). exact L1. }
          rewrite Yd. cbn [MEMfree]. rewrite L3. eexists. split; [reflexivity|apply shrunk_remove]. }
      destruct Hd as (h4 & -> & Sh4). cbn [bind].
      assert (Ea4 : lookup h4 a = Some (BNode c)) by (rewrite (proj1 Sh4) by tauto; exact Ea3).
      cbn [MEMfree]. rewrite Ea4. cbn [bind]. eexists. split; [reflexivity|].
      assert (Sh := shrunk_trans _ _ _ _ _ Sh2 (shrunk_trans _ _ _ _ _ Sh3 (shrunk_trans _ _ _ _ _ Sh4 (shrunk_remove h4 a)))).
      split.
      + intros x N. rewrite (proj1 Sh) by (intros J; apply N; mem). apply A1; intros J; apply N; mem.
      + intros x J. destruct (in_dec N.eq_dec x (afp ++ ffp ++ dfp ++ [a])) as [J'|J']; [apply (proj2 Sh), J'|].
        rewrite (proj1 Sh) by exact J'. apply A2. mem.
    - intros fuel hc arg d c done fs Hf S Nf Ea Ec Ed Na Nd Nad. cbn [length seq TRAVchildren].
      exists hc, done. split; [reflexivity|]. split; [rewrite app_nil_r in Ed; exact Ed|]. split; [auto|intros x []].
    - intros c cs kvs ts fps K IHK fuel hc arg d cc done fs Hf S Nf Ea Ec Ed Na Nd Nad.
      assert (Hf1 : heights ts <= fuel).
      { unfold heights in *. cbn [map list_max fold_right] in Hf. change (fold_right Nat.max 0) with list_max in Hf. lia. }
      cbn [length seq TRAVchildren]. unfold child_array, read_cell. rewrite Ea. cbn [bind]. rewrite Ec, Ed. cbn [bind fst snd].
      rewrite nth_error_middle. cbn [TRAVopt bind fst snd]. rewrite Ea. cbn [bind]. rewrite Ec, Ed. cbn [bind fst snd].
      rewrite set_nth_middle.
      set (hc2 := store hc d _).
      assert (Ch := changed_store hc d (BData (done ++ (ID_LWR (ch_name c), NULL) :: kvs) fs)). fold hc2 in Ch.
      destruct (IHK fuel hc2 arg d cc (done ++ [(ID_LWR (ch_name c), NULL)]) fs Hf1) as (h' & kvs' & E' & L' & [B1 B2]).
      + intros x J. rewrite (proj2 Ch); [apply S, J|]. intros ->. contradiction.
      + exact Nf.
      + rewrite (proj2 Ch) by exact Nad. exact Ea.
      + exact Ec.
      + rewrite <- app_assoc. apply (proj1 Ch).
      + exact Na.
      + exact Nd.
      + exact Nad.
      + rewrite app_length, Nat.add_comm in E'. cbn [length Nat.add] in E'.
        exists h', kvs'. split; [exact E'|]. split; [exact L'|]. split; [|exact B2].
        intros x N1 N2. rewrite B1 by assumption. apply (proj2 Ch), N2.
    - intros c cs a t fp kvs ts fps R IHR K IHK fuel hc arg d cc done fs Hf S Nf Ea Ec Ed Na Nd Nad.
      assert (Hf1 : height t <= fuel /\ heights ts <= fuel).
      { unfold heights in *. cbn [map list_max fold_right] in Hf. change (fold_right Nat.max 0) with list_max in Hf. lia. }
      apply same_on_app in S. destruct S as [S1 S2]. apply disjoint_app in Nf. destruct Nf as (Nf1 & Nf2 & Dj).
      assert (Oa : ~ In arg fp /\ ~ In arg fps) by (split; intros J; apply Na; mem).
      assert (Od : ~ In d fp /\ ~ In d fps) by (split; intros J; apply Nd; mem).
      cbn [length seq TRAVchildren]. unfold child_array, read_cell. rewrite Ea. cbn [bind]. rewrite Ec, Ed. cbn [bind fst snd].
      rewrite nth_error_middle. cbn [TRAVopt].
      destruct (IHR fuel hc (proj1 Hf1) S1 Nf1) as (h1 & -> & Sh1). cbn [bind fst snd].
      rewrite (proj1 Sh1) by tauto. rewrite Ea. cbn [bind]. rewrite Ec. rewrite (proj1 Sh1) by tauto. rewrite Ed. cbn [bind fst snd].
      rewrite set_nth_middle.
      set (hc2 := store h1 d _).
      assert (Ch := changed_store h1 d (BData (done ++ (ID_LWR (ch_name c), NULL) :: kvs) fs)). fold hc2 in Ch.
      destruct (IHK fuel hc2 arg d cc (done ++ [(ID_LWR (ch_name c), NULL)]) fs (proj2 Hf1)) as (h' & kvs' & E' & L' & [B1 B2]).
      + intros x J. rewrite (proj2 Ch) by (intros ->; tauto). rewrite (proj1 Sh1) by (intros J'; eauto). apply S2, J.
      + exact Nf2.
      + rewrite (proj2 Ch) by exact Nad. rewrite (proj1 Sh1) by tauto. exact Ea.
      + exact Ec.
      + rewrite <- app_assoc. apply (proj1 Ch).
      + tauto.
      + tauto.
      + exact Nad.
      + rewrite app_length, Nat.add_comm in E'. cbn [length Nat.add] in E'.
        exists h', kvs'. split; [exact E'|]. split; [exact L'|]. split.
        * intros x N1 N2. rewrite B1 by (try exact N2; intros J; apply N1; mem). rewrite (proj2 Ch) by exact N2.
          apply (proj1 Sh1). intros J. apply N1. mem.
        * intros x J. destruct (in_dec N.eq_dec x fps) as [J'|J']; [auto|].
          assert (In x fp) as J1 by mem.
          assert (x <> d) as Nx by (intros ->; tauto).
          rewrite B1 by assumption. rewrite (proj2 Ch) by exact Nx. apply (proj2 Sh1), J1.
  Qed.

  Variable malloc : nheap -> option addr.
  Hypothesis std : standard malloc.
  Lemma free_right : forall h a t fp, rep nodes h a t fp -> NoDup fp -> forall fuel, height t <= fuel ->
    ok malloc (CCNfree malloc nodes fuel (Ptr (Some a)) h) (fun r => fst r = NULL /\ shrunk h (snd r) fp).
  Proof.
    intros h a t fp R Nf fuel Hf. unfold CCNfree, TRAVstart.
    eapply ok_bind; [apply (alloc_ok malloc std)|]. intros [s h1] [Fs E1]. cbn [fst snd] in *. subst h1. cbn [TRAVopt].
    assert (Own : forall x, In x fp -> lookup h x <> None) by (apply (proj1 (owned_both nodes h) a t fp R)).
    assert (Ns : ~ In s fp) by (intros J; apply (Own s J), Fs).
    destruct (proj1 (free_both h) a t fp R fuel (store h s BTrav) Hf) as (h2 & -> & Sh2).
    { intros x J. apply lookup_store_other. intros ->. contradiction. }
    { exact Nf. }
    cbn [bind fst snd MEMfree]. rewrite (proj1 Sh2 s Ns), lookup_store_same. cbn [bind ok fst snd].
    split; [reflexivity|]. split.
    - intros x J. rewrite lookup_remove. destruct (N.eqb_spec x s) as [->|Nx]; [now rewrite Fs|].
      rewrite (proj1 Sh2) by exact J. now apply lookup_store_other.
    - intros x J. rewrite lookup_remove. destruct (N.eqb_spec x s); [reflexivity|apply (proj2 Sh2), J].
  Qed.
End Free.
