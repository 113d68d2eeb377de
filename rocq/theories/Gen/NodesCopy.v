(** Proofs about CCNcopy. *)

From Coq Require Import List Ascii NArith ZArith Bool Lia.
From Verif Require Import Base.Outcome Base.Heap Palm.StrModel Front.Syntax Gen.NodesModel Gen.NodesSpec Gen.NodesProof.
Import ListNotations.
Local Open Scope outcome_scope.

Scheme rep_mind := Minimality for rep Sort Prop
  with rep_kids_mind := Minimality for rep_kids Sort Prop.
Combined Scheme rep_both from rep_mind, rep_kids_mind.

(** Only the blocks of a tree matter. *)
Definition same_on (fp : list addr) (h h' : nheap) : Prop := forall x, In x fp -> lookup h' x = lookup h x.
Lemma same_on_app : forall f1 f2 h h', same_on (f1 ++ f2) h h' -> same_on f1 h h' /\ same_on f2 h h'.
Proof. intros f1 f2 h h' S. split; intros x I; apply S; apply in_or_app; auto. Qed.
Lemma rep_text_frame : forall h h' v s fp, rep_text h v s fp -> same_on fp h h' -> rep_text h' v s fp.
Proof. intros h h' v s fp [|a t E] S; constructor. rewrite S by now left. exact E. Qed.
Lemma rep_attribute_frame : forall h h' a f c fp, rep_attribute h a f c fp -> same_on fp h h' -> rep_attribute h' a f c fp.
Proof.
  intros h h' a f c fp H S.
  destruct H; [apply rep_text_attribute; auto; eapply rep_text_frame; eassumption
              |now apply rep_link_attribute|now apply rep_number_attribute|now apply rep_unset|now apply rep_set].
Qed.
Lemma rep_attributes_frame : forall h h' ats fs cs fp, rep_attributes h ats fs cs fp -> same_on fp h h' ->
  rep_attributes h' ats fs cs fp.
Proof.
  intros h h' ats fs cs fp R. induction R as [|a ats f fs c cs fp fps R1 R2 IH]; intros S; constructor;
    apply same_on_app in S; destruct S as [S1 S2]; [eapply rep_attribute_frame; eassumption|auto].
Qed.
Lemma rep_data_frame : forall h h' nd c ks fs fp, rep_data h nd c ks fs fp -> same_on fp h h' -> rep_data h' nd c ks fs fp.
Proof.
  intros h h' nd c ks fs fp R S. destruct R; [now apply no_data|]. apply some_data; auto.
  rewrite S by now left. assumption.
Qed.
Lemma rep_frame_both : forall nodes h h',
  (forall a t fp, rep nodes h a t fp -> same_on fp h h' -> rep nodes h' a t fp) /\
  (forall cs kvs ts fps, rep_kids nodes h cs kvs ts fps -> same_on fps h h' -> rep_kids nodes h' cs kvs ts fps).
Proof.
  intros nodes h h'. apply rep_both.
  - intros a nd c file pos kids attrs ffp kfp afp dfp kvs fs I E T Nn L Tf D K IHK A S.
    change (a :: dfp ++ ffp ++ kfp ++ afp) with ([a] ++ dfp ++ ffp ++ kfp ++ afp) in S.
    apply same_on_app in S. destruct S as [Sa S]. apply same_on_app in S. destruct S as [Sd S].
    apply same_on_app in S. destruct S as [Sf S]. apply same_on_app in S. destruct S as [Sk S].
    apply (rep_node nodes h' a nd c file pos kids attrs ffp kfp afp dfp kvs fs); auto.
    + rewrite Sa by now left. exact E.
    + eapply rep_text_frame; eassumption.
    + eapply rep_data_frame; eassumption.
    + eapply rep_attributes_frame; eassumption.
  - intros S. constructor.
  - intros c cs kvs ts fps K IHK S. constructor. auto.
  - intros c cs a t fp kvs ts fps R IHR K IHK S. apply same_on_app in S. destruct S. constructor; auto.
Qed.
Lemma rep_frame : forall nodes h h' a t fp, rep nodes h a t fp -> same_on fp h h' -> rep nodes h' a t fp.
Proof. intros nodes h h'. apply (proj1 (rep_frame_both nodes h h')). Qed.
Lemma rep_kids_frame : forall nodes h h' cs kvs ts fps, rep_kids nodes h cs kvs ts fps -> same_on fps h h' ->
  rep_kids nodes h' cs kvs ts fps.
Proof. intros nodes h h'. apply (proj2 (rep_frame_both nodes h h')). Qed.

(** [hc] has everything that [h] has. *)
Definition agrees (h hc : nheap) : Prop := forall x, lookup h x <> None -> lookup hc x = lookup h x.
Lemma agrees_some : forall h hc x b, agrees h hc -> lookup h x = Some b -> lookup hc x = Some b.
Proof. intros h hc x b A E. rewrite A; [exact E|congruence]. Qed.
Lemma agrees_refl : forall h, agrees h h.
Proof. intros h x _. reflexivity. Qed.
Lemma agrees_grown : forall h hc h' fp, agrees h hc -> grown hc h' fp -> agrees h h'.
Proof.
  intros h hc h' fp A [G1 G2] x N. destruct (in_dec N.eq_dec x fp) as [I|I].
  - destruct (G2 x I) as [F _]. rewrite A in F by exact N. contradiction.
  - rewrite G1 by exact I. auto.
Qed.
Lemma agrees_changed : forall h hc h' d b, agrees h hc -> lookup h d = None -> changed hc h' d b -> agrees h h'.
Proof. intros h hc h' d b A F [C1 C2] x N. rewrite C2; [auto|]. intros ->. contradiction. Qed.
Lemma data_at_agrees : forall h hc nd a d ks fs, data_at h nd a d ks fs -> agrees h hc -> data_at hc nd a d ks fs.
Proof.
  intros h hc nd a d ks fs (c & E & T & D & L & N) A. exists c.
  split; [eapply agrees_some; eassumption|]. split; [exact T|]. split; [exact D|]. split; [|exact N].
  eapply agrees_some; eassumption.
Qed.
Lemma data_at_same : forall h h' nd a d ks fs, data_at h nd a d ks fs ->
  lookup h' a = lookup h a -> lookup h' d = lookup h d -> data_at h' nd a d ks fs.
Proof. intros h h' nd a d ks fs (c & E & T & D & L & N) Ea Ed. exists c. rewrite Ea, Ed. auto. Qed.

Ltac mem := repeat (progress (cbn [app In] in *; rewrite ?in_app_iff in *)); tauto.

Section Copy.
  Variable malloc : nheap -> option addr.
  Hypothesis std : standard malloc.
  Variable nodes : list inode.
  Hypothesis distinct_nodes : NoDup (map (fun nd => ID_LWR (nd_name nd)) nodes).
  Hypothesis members : Forall distinct_members nodes.
  Hypothesis compiles : Forall constructor_compiles nodes.

  Lemma find_node_in : forall nd, In nd nodes -> find_node nodes (ID_LWR (nd_name nd)) = Some nd.
  Proof.
    intros nd I. unfold find_node. clear members compiles. induction nodes as [|x l IH]; [destruct I|].
    cbn [find]. inversion distinct_nodes as [|? ? Nx Nl]; subst. destruct I as [->|I].
    - now rewrite name_eqb_refl.
    - rewrite name_eqb_neq; [apply IH; assumption|]. intros E. apply Nx. rewrite E.
      apply (in_map (fun nd => ID_LWR (nd_name nd)) l nd I).
  Qed.

  (** New blocks [fp], and the block at [d] may have changed. *)
  Definition grown_but (d : addr) (h h' : nheap) (fp : list addr) : Prop :=
    (forall x, ~ In x fp -> x <> d -> lookup h' x = lookup h x) /\
    (forall x, In x fp -> lookup h x = None /\ lookup h' x <> None).

  Lemma STRcpy_right : forall h hc v s fp, rep_text h v s fp -> agrees h hc ->
    ok malloc (STRcpy malloc v hc) (fun r => exists fp', grown hc (snd r) fp' /\ NoDup fp' /\ rep_text (snd r) (fst r) s fp').
  Proof.
    intros h hc v s fp R A. destruct R as [|a t E].
    - cbn. exists []. split; [apply grown_refl|]. split; [constructor|constructor].
    - cbn [STRcpy]. rewrite (agrees_some _ _ _ _ A E).
      eapply ok_bind; [apply (alloc_ok malloc std)|]. intros [x h1] [F ->]. cbn [ok fst snd].
      exists [x]. split; [now apply grown_alloc|]. split; [constructor; [intros []|constructor]|].
      constructor. apply lookup_store_same.
  Qed.

  Definition copies_tree (h : nheap) (a : addr) (t : rtree) : Prop :=
    forall fuel hc, height t <= fuel -> agrees h hc ->
      ok malloc (CPY malloc nodes fuel a hc) (fun r => exists a' fp',
        fst r = Ptr (Some a') /\ grown hc (snd r) fp' /\ NoDup fp' /\ rep nodes (snd r) a' (copied t) fp').

  Definition heights (ts : list (option rtree)) : nat :=
    list_max (map (fun k => match k with None => 0 | Some t => height t end) ts).

  Definition copies_kids (h : nheap) (cs : list child) (kvs : list (cstring * value)) (ts : list (option rtree)) : Prop :=
    forall fuel hc nd arg darg prea fsa new d pre fs g,
      heights ts <= fuel -> agrees h hc ->
      data_at h nd arg darg (prea ++ kvs) fsa ->
      data_at hc nd new d (pre ++ map (fun c => (ID_LWR (ch_name c), g c)) cs) fs ->
      lookup h new = None -> lookup h d = None ->
      map fst pre = map fst prea ->
      NoDup (map fst prea ++ map (fun c => ID_LWR (ch_name c)) cs) ->
      ok malloc (copy_children (CPY malloc nodes fuel) nd new arg cs hc) (fun h' => exists kvs' fps',
        grown_but d hc h' fps' /\ NoDup fps' /\
        lookup h' d = Some (BData (pre ++ kvs') fs) /\
        rep_kids nodes h' cs kvs' (map (option_map copied) ts) fps').

  Lemma copy_attributes_right : forall h ats fsr cs fps, rep_attributes h ats fsr cs fps ->
    forall hc nd arg darg ksa prea new d ks pre g, agrees h hc ->
      data_at h nd arg darg ksa (prea ++ fsr) ->
      data_at hc nd new d ks (pre ++ map (fun a => (ID_LWR (at_name a), g a)) ats) ->
      lookup h new = None -> lookup h d = None ->
      map fst pre = map fst prea ->
      NoDup (map fst prea ++ map (fun a => ID_LWR (at_name a)) ats) ->
      (forall a, In a ats -> if is_ag a then exists v, g a = Evaluated (Some false) v else exists v, g a = Classic v) ->
      ok malloc (copy_attributes malloc nd new arg ats hc) (fun h' => exists fsr' fps',
        grown_but d hc h' fps' /\ NoDup fps' /\
        lookup h' d = Some (BData ks (pre ++ fsr')) /\
        rep_attributes h' ats fsr' (map copied_content cs) fps').
  Proof.
    intros h ats fsr cs fps R. induction R as [|a ats f fsr c cs fp fps R1 R2 IH];
      intros hc nd arg darg ksa prea new d ks pre g Ag Da Dn Fn Fd Ep Nd G.
    - cbn. exists [], []. split; [split; [auto|intros x []]|]. split; [constructor|]. split; [|constructor].
      destruct Dn as (? & _ & _ & _ & L & _). exact L.
    - cbn [map] in Dn, Nd.
      assert (Np : ~ In (ID_LWR (at_name a)) (map fst prea)) by (eapply nodup_middle; exact Nd).
      assert (Np' : ~ In (ID_LWR (at_name a)) (map fst pre)) by (rewrite Ep; exact Np).
      assert (Ga := G a (or_introl eq_refl)). cbn [copy_attributes].
      destruct (is_ag a) eqn:Iag.
      + (* not copied *)
        destruct Ga as (v0 & Ev0).
        assert (copied_content c = Not_evaluated) as Ecc by (inversion R1; subst; try congruence; reflexivity).
        eapply ok_impl.
        { apply (IH hc nd arg darg ksa (prea ++ [(ID_LWR (at_name a), f)]) new d ks (pre ++ [(ID_LWR (at_name a), g a)]) g Ag).
          - rewrite <- app_assoc. exact Da.
          - rewrite <- app_assoc. exact Dn.
          - exact Fn.
          - exact Fd.
          - rewrite !map_app, Ep. reflexivity.
          - rewrite map_app, <- app_assoc. exact Nd.
          - intros y I. apply G. now right. }
        intros h' (fsr' & fps' & Gb & Nf & L & Rr). exists ((ID_LWR (at_name a), g a) :: fsr'), fps'.
        split; [exact Gb|]. split; [exact Nf|]. split; [rewrite <- app_assoc in L; exact L|].
        cbn [map]. rewrite Ecc. change fps' with ([] ++ fps'). constructor; [|exact Rr].
        rewrite Ev0. now apply rep_unset.
      + destruct Ga as (v0 & Ev0). rewrite Ev0 in Dn.
        assert (exists v, f = Classic v /\ copied_content c = c) as (v & -> & Ecc)
          by (inversion R1; subst; try congruence; eauto).
        rewrite (read_attribute_at hc nd arg darg prea (ID_LWR (at_name a)) v fsr ksa); [|eapply data_at_agrees; eassumption|exact Np].
        cbn [bind].
        assert (ok malloc (match at_type a with AT_string => STRcpy malloc v hc | _ => Val (v, hc) end)
          (fun r => exists fp', grown hc (snd r) fp' /\ NoDup fp' /\ rep_attribute (snd r) a (Classic (fst r)) c fp')) as Hs.
        { assert (at_type a = AT_string \/ at_type a <> AT_string) as [Et|Et] by (destruct (at_type a); auto; right; discriminate).
          - rewrite Et. inversion R1 as [v1 s1 fp1 X1 X2 X3|p1 X1 X2|z1 X1 X2 X3|v1 X1|v1 X1]; subst; try congruence.
            eapply ok_impl; [eapply STRcpy_right; eassumption|].
            intros r (fp' & Gr & Nf & Rt). exists fp'. split; [exact Gr|]. split; [exact Nf|]. now apply rep_text_attribute.
          - replace (match at_type a with AT_string => STRcpy malloc v hc | _ => Val (v, hc) end) with (Val (v, hc))
              by (destruct (at_type a); try reflexivity; congruence).
            cbn [ok fst snd]. exists []. split; [apply grown_refl|]. split; [constructor|].
            inversion R1 as [v1 s1 fp1 X1 X2 X3|p1 X1 X2|z1 X1 X2 X3|v1 X1|v1 X1]; subst; try congruence;
              [now apply rep_link_attribute|now apply rep_number_attribute]. }
        eapply ok_bind; [exact Hs|]. intros [w hc1] (fp' & Gr & Nf & Ra). cbn [fst snd] in *.
        assert (Own : forall x, lookup hc x <> None -> lookup hc1 x = lookup hc x).
        { intros x X. apply (proj1 Gr). intros I. destruct (proj2 Gr x I). contradiction. }
        assert (Dn1 : data_at hc1 nd new d ks (pre ++ (ID_LWR (at_name a), Classic v0) ::
                        map (fun a => (ID_LWR (at_name a), g a)) ats)).
        { eapply data_at_same; [exact Dn| |]; apply Own; destruct Dn as (cc & E1 & _ & _ & E2 & _); congruence. }
        erewrite write_attribute_at by eassumption. cbn [bind].
        set (hc2 := store hc1 d _).
        assert (Ch : changed hc1 hc2 d (BData ks (pre ++ (ID_LWR (at_name a), Classic w) ::
                        map (fun a => (ID_LWR (at_name a), g a)) ats))) by apply changed_store.
        assert (Ag2 : agrees h hc2) by exact (agrees_changed _ _ _ _ _ (agrees_grown _ _ _ _ Ag Gr) Fd Ch).
        eapply ok_impl.
        { apply (IH hc2 nd arg darg ksa (prea ++ [(ID_LWR (at_name a), Classic v)]) new d ks
                   (pre ++ [(ID_LWR (at_name a), Classic w)]) g Ag2).
          - rewrite <- app_assoc. exact Da.
          - rewrite <- app_assoc. eapply data_at_changed; eassumption.
          - exact Fn.
          - exact Fd.
          - rewrite !map_app, Ep. reflexivity.
          - rewrite map_app, <- app_assoc. exact Nd.
          - intros y I. apply G. now right. }
        intros h' (fsr' & fps' & (Gb1 & Gb2) & Nf' & L & Rr).
        assert (Fpd : ~ In d fp').
        { intros I. destruct (proj2 Gr d I) as [X _]. destruct Dn as (cc & _ & _ & _ & E2 & _). congruence. }
        assert (Keep : forall x, In x fp' -> lookup h' x = lookup hc1 x /\ ~ In x fps').
        { intros x I. destruct (proj2 Gr x I) as [X Y].
          assert (x <> d) as Nx by (intros ->; contradiction).
          assert (lookup hc2 x = lookup hc1 x) as E2 by (apply (proj2 Ch); exact Nx).
          assert (~ In x fps') as Nin by (intros J; destruct (Gb2 x J) as [Z _]; congruence).
          split; [rewrite (Gb1 x Nin Nx); exact E2|exact Nin]. }
        exists ((ID_LWR (at_name a), Classic w) :: fsr'), (fp' ++ fps'). split; [|split; [|split]].
        * split.
          -- intros x N1 N2. rewrite Gb1 by (try exact N2; intros I; apply N1; apply in_or_app; now right).
             rewrite (proj2 Ch) by exact N2. apply (proj1 Gr). intros I. apply N1. apply in_or_app. now left.
          -- intros x I. destruct (in_dec N.eq_dec x fp') as [I1|I1].
             ++ destruct (proj2 Gr x I1) as [X Y]. split; [exact X|]. rewrite (proj1 (Keep x I1)). exact Y.
             ++ apply in_app_or in I. destruct I as [I|I]; [contradiction|]. destruct (Gb2 x I) as [X Y]. split; [|exact Y].
                assert (x <> d) as Nx by (intros ->; unfold hc2 in X; rewrite lookup_store_same in X; discriminate).
                rewrite (proj2 Ch) in X by exact Nx. rewrite (proj1 Gr) in X by exact I1. exact X.
        * clear - Nf Nf' Keep. induction Nf as [|x l Nx Nl IHl]; [exact Nf'|]. cbn [app]. constructor.
          -- intros I. apply in_app_or in I. destruct I as [I|I]; [contradiction|]. exact (proj2 (Keep x (or_introl eq_refl)) I).
          -- apply IHl. intros y I. apply Keep. now right.
        * rewrite <- app_assoc in L. exact L.
        * cbn [map]. rewrite Ecc. constructor; [|exact Rr].
          eapply rep_attribute_frame; [exact Ra|]. intros x I. apply Keep, I.
  Qed.

  Lemma default_args_length : forall nd, length (default_args nd) = length (params (gen_constructor nd)).
  Proof. intros nd. unfold default_args, gen_constructor. cbn [params]. now rewrite !app_length, !map_length. Qed.

  Lemma kids_length : forall h cs kvs ts fps, rep_kids nodes h cs kvs ts fps ->
    length ts = length cs /\ map fst kvs = map (fun c => ID_LWR (ch_name c)) cs.
  Proof.
    intros h cs kvs ts fps H. revert cs kvs ts fps H.
    apply (rep_kids_mind nodes h (fun _ _ _ => True)
             (fun cs kvs ts fps => length ts = length cs /\ map fst kvs = map (fun c => ID_LWR (ch_name c)) cs));
      try (intros; exact I); cbn [length map fst].
    - auto.
    - intros c cs kvs ts fps _ [-> ->]. auto.
    - intros c cs a t fp kvs ts fps _ _ _ [-> ->]. auto.
  Qed.

  Lemma copy_both : forall h,
    (forall a t fp, rep nodes h a t fp -> copies_tree h a t) /\
    (forall cs kvs ts fps, rep_kids nodes h cs kvs ts fps -> copies_kids h cs kvs ts).
  Proof.
    intros h. apply rep_both.
    - intros a nd c file pos kids attrs ffp kfp afp dfp kvs fs I E T Nn Lp Tf D K IHK A fuel hc Hf Ag.
      destruct fuel as [|fuel]; [cbn in Hf; lia|]. cbn [height] in Hf.
      assert (Hk : heights kids <= fuel) by (unfold heights; lia). clear Hf.
      cbn [CPY]. unfold dispatch, read_cell. rewrite (agrees_some _ _ _ _ Ag E). cbn [bind].
      rewrite T, (find_node_in nd I).
      assert (Dm : distinct_members nd) by (rewrite Forall_forall in members; auto).
      assert (Cc : constructor_compiles nd) by (rewrite Forall_forall in compiles; auto).
      unfold copy_node.
      eapply ok_bind.
      { apply (construct_right malloc std nd (default_args nd) hc Cc Dm (default_args_length nd)). }
      intros [new h1] (dp & dfp' & G1 & N1 & L1 & D1). cbn [fst snd] in *.
      set (env := combine _ _) in *.
      assert (Ag1 : agrees h h1) by (eapply agrees_grown; eassumption).
      assert (Fnew : lookup hc new = None) by (apply (proj2 G1); now left).
      assert (Fnewh : lookup h new = None).
      { destruct (lookup h new) eqn:X; [|reflexivity]. rewrite (Ag new) in Fnew by congruence. congruence. }
      (* the common part *)
      unfold CopyBaseNode, read_cell. rewrite (agrees_some _ _ _ _ Ag1 E). cbn [bind].
      rewrite (write_cell_at _ _ _ _ L1). cbn [bind].
      set (c1 := set_loc (loc c) (built_cell nd dp)). set (h2 := store h1 new (BNode c1)).
      assert (C2 : changed h1 h2 new (BNode c1)) by apply changed_store.
      assert (G2 : grown hc h2 (new :: dfp')) by (eapply grown_write; [exact G1|now left|exact C2]).
      assert (Ag2 : agrees h h2) by exact (agrees_grown _ _ _ _ Ag G2).
      eapply ok_bind.
      { eapply ok_bind; [eapply STRcpy_right; eassumption|]. intros [fv h3] (ffp' & G3 & N3 & R3). cbn [fst snd] in *.
        assert (L3 : lookup h3 new = Some (BNode c1)).
        { rewrite (proj1 G3); [apply (proj1 C2)|]. intros J. destruct (proj2 G3 new J) as [X _]. rewrite (proj1 C2) in X. discriminate. }
        rewrite (write_cell_at _ _ _ _ L3). cbn [ok].
        instantiate (1 := fun h4 => exists fv ffp', grown hc h4 ((new :: dfp') ++ ffp') /\ NoDup ((new :: dfp') ++ ffp') /\
          lookup h4 new = Some (BNode (set_filename fv c1)) /\ rep_text h4 fv file ffp' /\ same_on dfp' h1 h4).
        assert (Gt := grown_trans _ _ _ _ _ G2 G3). assert (Nt := grown_disjoint _ _ _ _ _ G2 G3 N1 N3).
        exists fv, ffp'. split; [|split; [|split; [|split]]].
        - eapply grown_write; [exact Gt|now left|apply changed_store].
        - exact Nt.
        - apply lookup_store_same.
        - eapply rep_text_frame; [exact R3|]. intros x J. apply lookup_store_other. intros ->.
          cbn [app] in Nt. inversion Nt as [|? ? Nin _]; subst. apply Nin. apply in_or_app. now right.
        - intros x J. assert (x <> new) as Nx by (intros ->; inversion N1; contradiction).
          rewrite lookup_store_other by exact Nx. rewrite (proj1 G3).
          + apply (proj2 C2), Nx.
          + intros J'. destruct (proj2 G3 x J') as [X _]. destruct (proj2 G2 x (or_intror J)) as [_ Y]. contradiction. }
      intros h4 (fv & ffp' & G4 & N4 & L4 & R4 & S4). cbn [fst snd].
      set (c4 := set_filename fv c1) in *.
      assert (Ag4 : agrees h h4) by exact (agrees_grown _ _ _ _ Ag G4).
      inversion D1 as [nd0 c0 Xc Xa Xd Xch Ek Ef Ed|nd0 c0 ks0 fs0 d' Xne Xd Xl Xch Ek Ef Ed]; subst nd0 c0.
      + (* a node without members *)
        rewrite Xc in *. rewrite Xa in *. subst dfp'. cbn [copy_children copy_attributes bind ok fst snd app] in *.
        inversion K; subst. inversion A; subst.
        exists new, (new :: ffp'). split; [reflexivity|]. split; [exact G4|]. split; [exact N4|].
        cbn [copied map].
        replace (new :: ffp') with (new :: [] ++ ffp' ++ [] ++ []) by (cbn; now rewrite app_nil_r).
        apply (rep_node nodes h4 new nd c4 file (loc c) [] [] ffp' [] [] [] [] []); auto.
        * unfold c4, c1, set_filename, set_loc, built_cell. cbn. now rewrite Xc.
        * apply no_data; auto.
        * rewrite Xc. constructor.
        * rewrite Xa. constructor.
      + (* the general case *)
        subst ks0 fs0 dfp'.
        assert (Hdp : dp = Ptr (Some d')) by exact Xd. subst dp.
        assert (Nnd : new <> d') by (inversion N1 as [|? ? Nin _]; subst; intros ->; apply Nin; now left).
        assert (Ld4 : lookup h4 d' = Some (BData
            (map (fun c => (ID_LWR (ch_name c), child_value env c)) (nd_children nd))
            (map (fun a => (ID_LWR (at_name a), attribute_field env a)) (nd_attributes nd)))).
        { rewrite S4 by now left. exact Xl. }
        assert (Fd' : lookup h d' = None).
        { destruct (lookup h d') eqn:X; [|reflexivity]. destruct (proj2 G1 d' (or_intror (or_introl eq_refl))) as [Y _].
          rewrite (Ag d') in Y by congruence. congruence. }
        inversion D as [nd0 c0 Yc Ya Yd Ych Ek Ef Ed|nd0 c0 ks0 fs0 da Yne Yd Yl Ych Ek Ef Ed]; subst nd0 c0.
        { destruct Xne; contradiction. }
        subst ks0 fs0 dfp.
        assert (Nada : a <> da) by (intros ->; congruence).
        assert (Da : data_at h nd a da kvs fs) by (exists c; auto).
        assert (Dn4 : data_at h4 nd new d'
            (map (fun c => (ID_LWR (ch_name c), child_value env c)) (nd_children nd))
            (map (fun a => (ID_LWR (at_name a), attribute_field env a)) (nd_attributes nd))).
        { exists c4. split; [exact L4|]. split; [reflexivity|]. split; [reflexivity|]. split; [exact Ld4|exact Nnd]. }
        eapply ok_bind.
        { apply (IHK fuel h4 nd a da [] fs new d' [] (map (fun a => (ID_LWR (at_name a), attribute_field env a)) (nd_attributes nd))
                   (child_value env) Hk Ag4 Da Dn4 Fnewh Fd' eq_refl). cbn [map app]. apply distinct_children, Dm. }
        intros h5 (kvs' & kfp' & (Gb1 & Gb2) & N5 & L5 & R5). cbn [app] in L5.
        assert (In4 : forall x, In x ((new :: [d']) ++ ffp') -> lookup h4 x <> None) by (intros x J; apply (proj2 G4 x J)).
        assert (Out5 : forall x, In x ((new :: [d']) ++ ffp') -> ~ In x kfp').
        { intros x J J'. destruct (Gb2 x J') as [X _]. apply (In4 x J X). }
        assert (Ag5 : agrees h h5).
        { intros x X. assert (x <> d') by (intros ->; contradiction).
          rewrite Gb1; [auto| |assumption]. intros J. destruct (Gb2 x J) as [Y _]. rewrite (Ag4 x X) in Y. contradiction. }
        assert (L5n : lookup h5 new = Some (BNode c4)).
        { rewrite Gb1; [exact L4| |exact Nnd]. apply Out5. now left. }
        assert (Dn5 : data_at h5 nd new d' kvs' (map (fun a => (ID_LWR (at_name a), attribute_field env a)) (nd_attributes nd))).
        { exists c4. split; [exact L5n|]. split; [reflexivity|]. split; [reflexivity|]. split; [exact L5|exact Nnd]. }
        eapply ok_bind.
        { apply (copy_attributes_right h _ _ _ _ A h5 nd a da kvs [] new d' kvs' [] (attribute_field env) Ag5 Da Dn5 Fnewh Fd' eq_refl).
          - cbn [map app]. apply distinct_attributes, Dm.
          - intros x J. destruct Cc as (_ & _ & _ & Cag). specialize (Cag x J). unfold attribute_field.
            destruct (is_ag x); [rewrite Cag by reflexivity; eauto|]. destruct (at_in_constructor x); eauto. }
        intros h6 (fs' & afp' & (Gc1 & Gc2) & N6 & L6 & R6). cbn [app ok fst snd] in *.
        assert (Ld5 : lookup h5 d' <> None) by congruence.
        assert (Ld6 : lookup h6 d' <> None) by congruence.
        assert (Nkd : ~ In d' kfp') by (apply Out5; right; now left).
        assert (Nad : ~ In d' afp') by (intros J; destruct (Gc2 d' J) as [X _]; contradiction).
        assert (In5 : forall x, In x ((new :: [d']) ++ ffp' ++ kfp') -> lookup h5 x <> None).
        { intros x J. destruct (in_dec N.eq_dec x kfp') as [Jk|Jk]; [apply (Gb2 x Jk)|].
          destruct (N.eq_dec x d') as [->|Nx]; [exact Ld5|]. rewrite Gb1 by assumption.
          apply In4. mem. }
        assert (Out6 : forall x, In x ((new :: [d']) ++ ffp' ++ kfp') -> ~ In x afp').
        { intros x J J'. destruct (Gc2 x J') as [X _]. apply (In5 x J X). }
        assert (L6n : lookup h6 new = Some (BNode c4)).
        { rewrite Gc1; [exact L5n| |exact Nnd]. apply Out6. now left. }
        exists new, (new :: [d'] ++ ffp' ++ kfp' ++ afp'). split; [reflexivity|]. split; [|split].
        * split.
          -- intros x J. assert (x <> d') as Nx by (intros ->; apply J; right; now left).
             rewrite Gc1 by (try exact Nx; intros X; apply J; mem).
             rewrite Gb1 by (try exact Nx; intros X; apply J; mem).
             apply (proj1 G4). intros X. apply J. mem.
          -- intros x J. split.
             ++ destruct (in_dec N.eq_dec x ((new :: [d']) ++ ffp')) as [J1|J1]; [apply (proj2 G4 x J1)|].
                assert (x <> d') as Nx by (intros ->; apply J1; right; now left).
                assert (lookup h4 x = None) as F4.
                { destruct (in_dec N.eq_dec x kfp') as [Jk|Jk]; [apply (Gb2 x Jk)|].
                  assert (In x afp') as Ja by mem.
                  destruct (Gc2 x Ja) as [X _]. rewrite Gb1 in X by assumption. exact X. }
                rewrite (proj1 G4) in F4 by exact J1. exact F4.
             ++ destruct (in_dec N.eq_dec x afp') as [Ja|Ja]; [apply (Gc2 x Ja)|].
                destruct (N.eq_dec x d') as [->|Nx]; [exact Ld6|]. rewrite Gc1 by assumption.
                apply In5. mem.
        * replace (new :: [d'] ++ ffp' ++ kfp' ++ afp') with ((((new :: [d']) ++ ffp') ++ kfp') ++ afp')
            by (rewrite <- !app_assoc; reflexivity).
          assert (Nj : forall (l1 l2 : list addr), NoDup l1 -> NoDup l2 -> (forall x, In x l1 -> ~ In x l2) -> NoDup (l1 ++ l2)).
          { clear. induction 1 as [|x l Nx Nl IH]; intros N2 H; [exact N2|]. cbn [app]. constructor.
            - intros J. apply in_app_or in J. destruct J as [J|J]; [contradiction|]. exact (H x (or_introl eq_refl) J).
            - apply IH; [exact N2|]. intros y J. apply H. now right. }
          apply Nj; [apply Nj; auto| exact N6|]. intros x J. apply Out6. rewrite <- app_assoc in J. exact J.
        * cbn [copied].
          apply (rep_node nodes h6 new nd c4 file pos (map (option_map copied) kids) (map copied_content attrs)
                   ffp' kfp' afp' [d'] kvs' fs'); auto.
          -- unfold c4, c1, set_filename, set_loc, built_cell. cbn [num_children].
             rewrite map_length. symmetry. eapply kids_length; eassumption.
          -- eapply rep_text_frame; [exact R4|]. intros x J.
             assert (In x ((new :: [d']) ++ ffp')) as J4 by (apply in_or_app; now right).
             assert (x <> d') as Nx.
             { intros ->. clear - N4 J. cbn in N4. inversion N4 as [|? ? _ Nt]; subst. inversion Nt; contradiction. }
             rewrite Gc1 by (try exact Nx; apply Out6; mem).
             rewrite Gb1 by (try exact Nx; apply Out5; exact J4). reflexivity.
          -- eapply some_data; [exact Xne|reflexivity|exact L6|exact Xch].
          -- eapply rep_kids_frame; [exact R5|]. intros x J. apply Gc1.
             ++ apply Out6. mem.
             ++ intros ->. contradiction.
    - intros fuel hc nd arg darg prea fsa new d pre fs g Hf Ag Da Dn Fn Fd Ep Nd. cbn.
      exists [], []. split; [split; [auto|intros x []]|]. split; [constructor|]. split; [|constructor].
      destruct Dn as (? & _ & _ & _ & L & _). exact L.
    - intros c cs kvs ts fps K IHK fuel hc nd arg darg prea fsa new d pre fs g Hf Ag Da Dn Fn Fd Ep Nd.
      cbn [map] in Dn, Nd.
      assert (Np : ~ In (ID_LWR (ch_name c)) (map fst prea)) by (eapply nodup_middle; exact Nd).
      assert (Np' : ~ In (ID_LWR (ch_name c)) (map fst pre)) by (rewrite Ep; exact Np).
      cbn [copy_children].
      rewrite (read_child_at hc nd arg darg prea (ID_LWR (ch_name c)) (Ptr None) kvs fsa); [|eapply data_at_agrees; eassumption|exact Np].
      cbn [bind TRAVopt fst snd]. erewrite write_child_at by eassumption. cbn [bind].
      set (hc2 := store hc d _).
      assert (Ch : changed hc hc2 d (BData (pre ++ (ID_LWR (ch_name c), NULL) ::
                      map (fun c => (ID_LWR (ch_name c), g c)) cs) fs)) by apply changed_store.
      assert (Ag2 : agrees h hc2) by (eapply agrees_changed; eassumption).
      eapply ok_impl.
      { apply (IHK fuel hc2 nd arg darg (prea ++ [(ID_LWR (ch_name c), Ptr None)]) fsa new d
                 (pre ++ [(ID_LWR (ch_name c), NULL)]) fs g).
        - unfold heights in *. cbn [map list_max fold_right] in Hf. change (fold_right Nat.max 0) with list_max in Hf. lia.
        - exact Ag2.
        - rewrite <- app_assoc. exact Da.
        - rewrite <- app_assoc. eapply data_at_changed; eassumption.
        - exact Fn.
        - exact Fd.
        - rewrite !map_app, Ep. reflexivity.
        - rewrite map_app, <- app_assoc. exact Nd. }
      intros h' (kvs' & fps' & (Gb1 & Gb2) & Nf' & L & Rr).
      exists ((ID_LWR (ch_name c), NULL) :: kvs'), fps'. split; [|split; [|split]].
      + split.
        * intros x N1 N2. rewrite Gb1 by assumption. apply (proj2 Ch), N2.
        * intros x J. destruct (Gb2 x J) as [X Y]. split; [|exact Y].
          assert (x <> d) as Nx by (intros ->; unfold hc2 in X; rewrite lookup_store_same in X; discriminate).
          rewrite (proj2 Ch) in X by exact Nx. exact X.
      + exact Nf'.
      + rewrite <- app_assoc in L. exact L.
      + cbn [map option_map]. constructor. exact Rr.
    - intros c cs a t fp kvs ts fps R IHR K IHK fuel hc nd arg darg prea fsa new d pre fs g Hf Ag Da Dn Fn Fd Ep Nd.
      cbn [map] in Dn, Nd.
      assert (Hf1 : height t <= fuel /\ heights ts <= fuel).
      { unfold heights in *. cbn [map list_max fold_right] in Hf. change (fold_right Nat.max 0) with list_max in Hf. lia. }
      assert (Np : ~ In (ID_LWR (ch_name c)) (map fst prea)) by (eapply nodup_middle; exact Nd).
      assert (Np' : ~ In (ID_LWR (ch_name c)) (map fst pre)) by (rewrite Ep; exact Np).
      cbn [copy_children].
      rewrite (read_child_at hc nd arg darg prea (ID_LWR (ch_name c)) (Ptr (Some a)) kvs fsa); [|eapply data_at_agrees; eassumption|exact Np].
      cbn [bind TRAVopt].
      eapply ok_bind; [exact (IHR fuel hc (proj1 Hf1) Ag)|].
      intros [v hc1] (a' & fp' & Ev & Gr & Nf & Ra). cbn [fst snd] in *. subst v.
      assert (Own : forall x, lookup hc x <> None -> lookup hc1 x = lookup hc x).
      { intros x X. apply (proj1 Gr). intros J. destruct (proj2 Gr x J). contradiction. }
      assert (Dn1 : data_at hc1 nd new d (pre ++ (ID_LWR (ch_name c), g c) ::
                      map (fun c => (ID_LWR (ch_name c), g c)) cs) fs).
      { eapply data_at_same; [exact Dn| |]; apply Own; destruct Dn as (cc & E1 & _ & _ & E2 & _); congruence. }
      erewrite write_child_at by eassumption. cbn [bind].
      set (hc2 := store hc1 d _).
      assert (Ch : changed hc1 hc2 d (BData (pre ++ (ID_LWR (ch_name c), Ptr (Some a')) ::
                      map (fun c => (ID_LWR (ch_name c), g c)) cs) fs)) by apply changed_store.
      assert (Ag2 : agrees h hc2) by exact (agrees_changed _ _ _ _ _ (agrees_grown _ _ _ _ Ag Gr) Fd Ch).
      eapply ok_impl.
      { apply (IHK fuel hc2 nd arg darg (prea ++ [(ID_LWR (ch_name c), Ptr (Some a))]) fsa new d
                 (pre ++ [(ID_LWR (ch_name c), Ptr (Some a'))]) fs g).
        - exact (proj2 Hf1).
        - exact Ag2.
        - rewrite <- app_assoc. exact Da.
        - rewrite <- app_assoc. eapply data_at_changed; eassumption.
        - exact Fn.
        - exact Fd.
        - rewrite !map_app, Ep. reflexivity.
        - rewrite map_app, <- app_assoc. exact Nd. }
      intros h' (kvs' & fps' & (Gb1 & Gb2) & Nf' & L & Rr).
      assert (Fpd : ~ In d fp').
      { intros J. destruct (proj2 Gr d J) as [X _]. destruct Dn as (cc & _ & _ & _ & E2 & _). congruence. }
      assert (Keep : forall x, In x fp' -> lookup h' x = lookup hc1 x /\ ~ In x fps').
      { intros x J. destruct (proj2 Gr x J) as [X Y].
        assert (x <> d) as Nx by (intros ->; contradiction).
        assert (lookup hc2 x = lookup hc1 x) as E2 by (apply (proj2 Ch); exact Nx).
        assert (~ In x fps') as Nin by (intros J'; destruct (Gb2 x J') as [Z _]; congruence).
        split; [rewrite (Gb1 x Nin Nx); exact E2|exact Nin]. }
      exists ((ID_LWR (ch_name c), Ptr (Some a')) :: kvs'), (fp' ++ fps'). split; [|split; [|split]].
      + split.
        * intros x N1 N2. rewrite Gb1 by (try exact N2; intros J; apply N1; apply in_or_app; now right).
          rewrite (proj2 Ch) by exact N2. apply (proj1 Gr). intros J. apply N1. apply in_or_app. now left.
        * intros x J. destruct (in_dec N.eq_dec x fp') as [I1|I1].
          -- destruct (proj2 Gr x I1) as [X Y]. split; [exact X|]. rewrite (proj1 (Keep x I1)). exact Y.
          -- apply in_app_or in J. destruct J as [J|J]; [contradiction|]. destruct (Gb2 x J) as [X Y]. split; [|exact Y].
             assert (x <> d) as Nx by (intros ->; unfold hc2 in X; rewrite lookup_store_same in X; discriminate).
             rewrite (proj2 Ch) in X by exact Nx. rewrite (proj1 Gr) in X by exact I1. exact X.
      + clear - Nf Nf' Keep. induction Nf as [|x l Nx Nl IHl]; [exact Nf'|]. cbn [app]. constructor.
        * intros J. apply in_app_or in J. destruct J as [J|J]; [contradiction|]. exact (proj2 (Keep x (or_introl eq_refl)) J).
        * apply IHl. intros y J. apply Keep. now right.
      + rewrite <- app_assoc in L. exact L.
      + cbn [map option_map]. constructor; [|exact Rr].
        eapply rep_frame; [exact Ra|]. intros x J. apply Keep, J.
  Qed.

  (** CCNcopy *)
  Lemma copy_right : forall h a t fp, rep nodes h a t fp -> forall fuel, height t <= fuel ->
    ok malloc (CCNcopy malloc nodes fuel (Ptr (Some a)) h) (fun r => exists a' fp',
      fst r = Ptr (Some a') /\ grown h (snd r) fp' /\ NoDup fp' /\ rep nodes (snd r) a' (copied t) fp').
  Proof.
    intros h a t fp R fuel Hf. unfold CCNcopy, TRAVstart.
    eapply ok_bind; [apply (alloc_ok malloc std)|]. intros [s h1] [Fs ->]. cbn [fst snd TRAVopt].
    assert (G1 := grown_alloc h s BTrav Fs).
    eapply ok_bind; [exact (proj1 (copy_both h) a t fp R fuel _ Hf (agrees_grown _ _ _ _ (agrees_refl h) G1))|].
    intros [v h2] (a' & fp' & Ev & G2 & N2 & R2). cbn [fst snd] in *. subst v.
    assert (Ns : ~ In s fp').
    { intros J. destruct (proj2 G2 s J) as [X _]. rewrite lookup_store_same in X. discriminate. }
    cbn [MEMfree]. rewrite (proj1 G2 s Ns), lookup_store_same. cbn [bind ok fst snd].
    exists a', fp'. split; [reflexivity|]. split; [|split; [exact N2|]].
    - split.
      + intros x J. rewrite lookup_remove. destruct (N.eqb_spec x s) as [->|Nx]; [now rewrite Fs|].
        rewrite (proj1 G2) by exact J. now apply lookup_store_other.
      + intros x J. assert (x <> s) as Nx by (intros ->; contradiction). destruct (proj2 G2 x J) as [X Y].
        rewrite lookup_store_other in X by exact Nx. split; [exact X|].
        rewrite lookup_remove. destruct (N.eqb_spec x s); [contradiction|exact Y].
    - eapply rep_frame; [exact R2|]. intros x J. rewrite lookup_remove.
      destruct (N.eqb_spec x s) as [->|]; [contradiction|reflexivity].
  Qed.
End Copy.
