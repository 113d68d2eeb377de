(** Commands and programs on trees in memory. *)

From Coq Require Import List Ascii NArith ZArith Bool Arith Lia Permutation.
From Verif Require Import Base.Outcome Base.Heap Palm.StrModel Front.Syntax Front.PropagateModel
  Gen.NodesModel Gen.NodesSpec Gen.NodesProof Gen.NodesCopy Gen.NodesFree Gen.NodesBuild Gen.NodesProps
  Gen.TravChildSpec Gen.AccessModel Gen.AccessSpec Gen.AccessMembers Gen.AccessProof
  Gen.LifecycleModel Gen.LifecycleSpec Gen.LifecycleProof Gen.LifecycleSteps.
Import ListNotations.
Local Open Scope outcome_scope.

Lemma nodup_both : forall A (l1 l2 : list A), NoDup l1 -> NoDup l2 -> (forall x, In x l1 -> ~ In x l2) -> NoDup (l1 ++ l2).
Proof.
  induction l1 as [|x l1 IH]; intros l2 N1 N2 D; [exact N2|]. inversion N1; subst. cbn [app]. constructor.
  - intros I. apply in_app_or in I. destruct I as [I|I]; [contradiction|]. exact (D x (or_introl eq_refl) I).
  - apply IH; auto. intros y I. apply D. right. exact I.
Qed.
Lemma grown_lookup : forall h0 h h' fps, grown h0 h fps -> (forall x, lookup h' x = lookup h x) -> grown h0 h' fps.
Proof. intros h0 h h' fps [A B] E. split; intros x I; rewrite E; auto. Qed.
Lemma grown_at : forall h0 h h' fps d, grown h0 h fps -> In d fps -> (forall x, x <> d -> lookup h' x = lookup h x) -> lookup h' d <> None ->
  grown h0 h' fps.
Proof.
  intros h0 h h' fps d [A B] I E N. split.
  - intros x J. rewrite E; [auto|]. intros ->. contradiction.
  - intros x J. destruct (N.eq_dec x d) as [->|X]; [split; [apply B, J|exact N]|]. rewrite E by exact X. auto.
Qed.
Lemma same_both : forall f1 f2 h h', same_on f1 h h' -> same_on f2 h h' -> same_on (f1 ++ f2) h h'.
Proof. intros f1 f2 h h' A B x I. apply in_app_or in I. destruct I; auto. Qed.

(** Values of arguments *)
Inductive rep_value (h : nheap) : value -> content -> list addr -> Prop :=
| value_number : forall z, rep_value h (Prim z) (Number z) []
| value_link : forall p, rep_value h (Ptr p) (Link p) []
| value_text : forall v s fp, rep_text h v s fp -> rep_value h v (Text s) fp.
Inductive rep_values (h : nheap) : list value -> list content -> list addr -> Prop :=
| values_nil : rep_values h [] [] []
| values_cons : forall v vs c cs fp fps, rep_value h v c fp -> rep_values h vs cs fps -> rep_values h (v :: vs) (c :: cs) (fp ++ fps).
Definition given_content (c : content) : Prop := match c with Number _ | Link _ | Text _ => True | _ => False end.

Lemma fits_given : forall x c, fits x c = true -> in_grammar x = false /\ given_content c.
Proof.
  intros x c E. unfold fits in E. apply andb_true_iff in E. destruct E as [G E]. split; [destruct (in_grammar x); [discriminate|reflexivity]|].
  destruct (at_type x), c; cbn; auto; discriminate.
Qed.
Lemma fits_rep : forall h x v c fp, fits x c = true -> rep_value h v c fp -> rep_attribute h x (Classic v) c fp.
Proof.
  intros h x v c fp E R. unfold fits in E. apply andb_true_iff in E. destruct E as [G E].
  assert (A : is_ag x = false) by (unfold is_ag; unfold in_grammar in G; destruct (at_is_inherited x || at_is_synthesized x); [discriminate|reflexivity]).
  destruct R as [z|p|v s fp R].
  - apply rep_number_attribute; [exact A|..]; intros T; rewrite T in E; discriminate.
  - apply rep_link_attribute; [exact A|]. destruct (at_type x); try discriminate; reflexivity.
  - apply rep_text_attribute; [exact A| |exact R]. destruct (at_type x); try discriminate; reflexivity.
Qed.
Lemma value_frame : forall h h' v c fp, rep_value h v c fp -> same_on fp h h' -> rep_value h' v c fp.
Proof. intros h h' v c fp R S. destruct R; constructor. eapply rep_text_frame; eassumption. Qed.
Lemma values_frame : forall h h' vs cs fp, rep_values h vs cs fp -> same_on fp h h' -> rep_values h' vs cs fp.
Proof. intros h h' vs cs fp R. induction R; intros S; constructor; apply same_on_app in S; destruct S; [eapply value_frame; eassumption|auto]. Qed.
Lemma value_owned : forall h v c fp x, rep_value h v c fp -> In x fp -> lookup h x <> None.
Proof. intros h v c fp x R I. destruct R; try destruct I. eapply owned_text; eassumption. Qed.

(** Arguments and members *)
Lemma fill_count : forall A B (inc : A -> bool) (other : A -> B) l args r, fill inc other l args = Some r ->
  length args = length (filter inc l) /\ length r = length l.
Proof.
  intros A B inc other. induction l as [|x l IH]; intros args r E; cbn [fill filter] in E.
  - destruct args; [|discriminate]. injection E as <-. auto.
  - cbn [filter]. destruct (inc x).
    + destruct args as [|b args]; [discriminate|]. destruct (fill inc other l args) as [r'|] eqn:F; [|discriminate]. injection E as <-.
      destruct (IH _ _ F). cbn. auto.
    + destruct (fill inc other l args) as [r'|] eqn:F; [|discriminate]. injection E as <-. destruct (IH _ _ F). cbn. auto.
Qed.
Lemma fill_kids : forall nodes h cs ks ks' kvals kfp more, fill ch_in_constructor (fun _ => None) cs ks = Some ks' -> rep_vars nodes h kvals ks kfp ->
  rep_kids nodes h cs (combine (map (fun c => ID_LWR (ch_name c)) cs) (given ch_in_constructor (fun _ v => v) (fun _ => Ptr None) cs (kvals ++ more))) ks' kfp.
Proof.
  intros nodes h. induction cs as [|c cs IH]; intros ks ks' kvals kfp more E R; cbn [fill] in E.
  - destruct ks; [|discriminate]. injection E as <-. inversion R; subst. constructor.
  - cbn [map given]. destruct (ch_in_constructor c).
    + destruct ks as [|k ks]; [discriminate|]. destruct (fill _ _ cs ks) as [r'|] eqn:F; [|discriminate]. injection E as <-.
      inversion R as [|v vs ? ? fp fps R1 R2]; subst. cbn [app hd tl combine]. specialize (IH _ _ _ _ more F R2).
      inversion R1; subst; cbn [app]; constructor; assumption.
    + destruct (fill _ _ cs ks) as [r'|] eqn:F; [|discriminate]. injection E as <-. cbn [combine]. constructor. eapply IH; eassumption.
Qed.
Lemma initially_rep : forall h x, rep_attribute h x (if in_grammar x then Evaluated (Some false) Raw else Classic (NodesSpec.zero (at_type x))) (initially x) [].
Proof.
  intros h x. unfold initially. destruct (in_grammar x) eqn:G; [apply rep_unset; exact G|].
  destruct (at_type x) eqn:T; cbn [NodesSpec.zero];
    solve [apply rep_number_attribute; [exact G|congruence|congruence]|apply rep_link_attribute; assumption|apply rep_text_attribute; [exact G|exact T|constructor]].
Qed.
Definition args_fit (ats : list attribute) (cs : list content) : bool :=
  forallb (fun p => negb (at_in_constructor (fst p)) || fits (fst p) (snd p)) (combine ats cs).
Lemma fill_given : forall ats args cs, fill at_in_constructor initially ats args = Some cs -> args_fit ats cs = true -> Forall given_content args.
Proof.
  induction ats as [|x ats IH]; intros args cs E F; cbn [fill] in E.
  - destruct args; [constructor|discriminate].
  - destruct (at_in_constructor x) eqn:C.
    + destruct args as [|b args]; [discriminate|]. destruct (fill _ _ ats args) as [r'|] eqn:Fl; [|discriminate]. injection E as <-.
      unfold args_fit in F. cbn [combine forallb fst snd] in F. apply andb_true_iff in F. destruct F as [F1 F2]. rewrite C in F1.
      constructor; [apply (fits_given x), F1|]. eapply IH; eassumption.
    + destruct (fill _ _ ats args) as [r'|] eqn:Fl; [|discriminate]. injection E as <-.
      unfold args_fit in F. cbn [combine forallb fst snd] in F. apply andb_true_iff in F. destruct F as [_ F2]. eapply IH; eassumption.
Qed.
Lemma fill_attributes : forall h ats args cs avals afp, fill at_in_constructor initially ats args = Some cs -> args_fit ats cs = true ->
  rep_values h avals args afp ->
  rep_attributes h ats (combine (map (fun a => ID_LWR (at_name a)) ats)
    (given at_in_constructor (fun _ v => Classic v)
       (fun a => if in_grammar a then Evaluated (Some false) Raw else Classic (NodesSpec.zero (at_type a))) ats avals)) cs afp.
Proof.
  intros h. induction ats as [|x ats IH]; intros args cs avals afp E F R; cbn [fill] in E.
  - destruct args; [|discriminate]. injection E as <-. inversion R; subst. constructor.
  - cbn [map given]. destruct (at_in_constructor x) eqn:C.
    + destruct args as [|b args]; [discriminate|]. destruct (fill _ _ ats args) as [r'|] eqn:Fl; [|discriminate]. injection E as <-.
      unfold args_fit in F. cbn [combine forallb fst snd] in F. apply andb_true_iff in F. destruct F as [F1 F2]. rewrite C in F1.
      inversion R as [|v vs ? ? fp fps R1 R2]; subst. cbn [hd tl combine]. constructor; [|eapply IH; eassumption]. eapply fits_rep; eassumption.
    + destruct (fill _ _ ats args) as [r'|] eqn:Fl; [|discriminate]. injection E as <-.
      unfold args_fit in F. cbn [combine forallb fst snd] in F. apply andb_true_iff in F. destruct F as [_ F2]. cbn [combine].
      change afp with ([] ++ afp). constructor; [apply initially_rep|eapply IH; eassumption].
Qed.
Lemma skipn_front : forall A (l1 l2 : list A) n, length l1 = n -> skipn n (l1 ++ l2) = l2.
Proof. intros A l1 l2 n <-. induction l1; [reflexivity|exact IHl1]. Qed.
Lemma vars_count : forall nodes h vs st fp, rep_vars nodes h vs st fp -> length vs = length st.
Proof. intros nodes h vs st fp R. induction R; cbn; auto. Qed.
Lemma values_count : forall h vs cs fp, rep_values h vs cs fp -> length vs = length cs.
Proof. intros h vs cs fp R. induction R; cbn; auto. Qed.

(** How deep the trees are *)
Definition deep (o : option rtree) : nat := match o with None => 0 | Some t => height t end.
Definition deepest (st : state) : nat := list_max (map deep st).
Lemma deepest_at : forall st k o, nth_error st k = Some o -> deep o <= deepest st.
Proof.
  unfold deepest. intros st k o E. apply nth_error_In in E. induction st as [|a st IH]; [destruct E|].
  change (list_max (map deep (a :: st))) with (Nat.max (deep a) (list_max (map deep st))).
  destruct E as [->|I]; [lia|]. specialize (IH I). lia.
Qed.

Section Run.
  Variable fa : ast.
  Hypothesis DA : distinct_accessors fa.
  Hypothesis DF : distinct_functions fa.
  Hypothesis good : good_nodes (a_nodes fa).
  Hypothesis freeable : Forall free_compiles (a_nodes fa).
  Variables (debug debug_ast : bool).
  Variable malloc : nheap -> option addr.
  Hypothesis std : standard malloc.
  Variable fuel : nat.
  Notation nodes := (a_nodes fa).

  Definition holds (h0 : nheap) (s : cstate) (st : state) : Prop :=
    exists fps, rep_vars nodes (snd s) (fst s) st fps /\ NoDup fps /\ grown h0 (snd s) fps.

  Lemma take_ok : forall h l vs st fps ks st', rep_vars nodes h vs st fps -> taken l st = Some (ks, st') ->
    exists kvals vs' kfp fps', take_all l vs = Val (kvals, vs') /\ rep_vars nodes h kvals ks kfp /\ rep_vars nodes h vs' st' fps' /\
      Permutation fps (kfp ++ fps').
  Proof.
    intros h. induction l as [|[v|] l IH]; intros vs st fps ks st' R E; cbn [taken take_all] in *.
    - injection E as <- <-. exists [], vs, [], fps. split; [reflexivity|]. split; [constructor|]. split; [exact R|apply Permutation_refl].
    - destruct (nth_error st v) as [t|] eqn:Ev; [|discriminate].
      destruct (taken l (set_at v None st)) as [[ks0 st0]|] eqn:Et; [|discriminate]. cbn [option_map fst snd] in E. injection E as <- <-.
      destruct (vars_split _ _ _ _ _ _ _ R Ev) as (x & xfp & rest & Ex & Rx & P & K).
      destruct (K h NULL None [] (rep_none _ _) (fun y _ => eq_refl)) as (fps1 & R1 & P1). cbn [app] in P1.
      destruct (IH _ _ _ _ _ R1 Et) as (kvals & vs' & kfp & fps' & Ek & Rk & Rv & P2).
      exists (x :: kvals), vs', (xfp ++ kfp), fps'. unfold var. rewrite Ex. cbn [bind]. rewrite Ek. cbn [bind fst snd].
      split; [reflexivity|]. split; [constructor; assumption|]. split; [exact Rv|]. rewrite P, <- app_assoc. apply Permutation_app_head.
      rewrite <- P1. exact P2.
    - destruct (taken l st) as [[ks0 st0]|] eqn:Et; [|discriminate]. cbn [option_map fst snd] in E. injection E as <- <-.
      destruct (IH _ _ _ _ _ R Et) as (kvals & vs' & kfp & fps' & Ek & Rk & Rv & P2).
      exists (NULL :: kvals), vs', kfp, fps'. rewrite Ek. cbn [bind fst snd]. split; [reflexivity|].
      split; [change kfp with ([] ++ kfp); constructor; [constructor|exact Rk]|]. split; [exact Rv|exact P2].
  Qed.
  Lemma make_ok : forall c h, given_content c ->
    ok malloc (make malloc c h) (fun r => exists fp, rep_value (snd r) (fst r) c fp /\ NoDup fp /\ grown h (snd r) fp).
  Proof.
    intros [z|p|[s|]| |v] h G; try contradiction; cbn [make].
    - exists []. split; [constructor|]. split; [constructor|apply grown_refl].
    - exists []. split; [constructor|]. split; [constructor|apply grown_refl].
    - eapply ok_bind; [apply (alloc_ok malloc std)|]. intros [x h1] [F ->]. cbn [ok fst snd]. exists [x].
      split; [constructor; constructor; apply lookup_store_same|]. split; [constructor; [intros []|constructor]|apply grown_alloc, F].
    - exists []. split; [constructor; constructor|]. split; [constructor|apply grown_refl].
  Qed.
  Lemma make_all_ok : forall l h, Forall given_content l ->
    ok malloc (make_all malloc l h) (fun r => exists fp, rep_values (snd r) (fst r) l fp /\ NoDup fp /\ grown h (snd r) fp).
  Proof.
    induction l as [|c l IH]; intros h G; cbn [make_all].
    - exists []. split; [constructor|]. split; [constructor|apply grown_refl].
    - inversion G as [|? ? G1 G2]; subst. eapply ok_bind; [apply make_ok, G1|]. intros [v h1] (fp & R & N & Gr). cbn [fst snd] in *.
      eapply ok_bind; [apply IH, G2|]. intros [vs h2] (fps & Rs & Ns & Grs). cbn [fst snd ok] in *. exists (fp ++ fps).
      assert (D : forall x, In x fp -> ~ In x fps).
      { intros x I J. destruct (proj2 Grs x J) as [X _]. exact (value_owned _ _ _ _ _ R I X). }
      split; [constructor; [|exact Rs]|split; [apply nodup_both; assumption|eapply grown_trans; eassumption]].
      eapply value_frame; [exact R|]. intros x I. apply (grown_same _ _ _ _ Grs). eapply value_owned; eassumption.
  Qed.

  Lemma new_ok : forall h0 n kids attrs vs h st ks st' ks' cs, holds h0 (vs, h) st -> In n nodes -> taken kids st = Some (ks, st') ->
    fill ch_in_constructor (fun _ => None) (nd_children n) ks = Some ks' ->
    fill at_in_constructor initially (nd_attributes n) attrs = Some cs -> args_fit (nd_attributes n) cs = true ->
    ok malloc (let! k := take_all kids vs in
               let! m := make_all malloc attrs h in
               let! r := construct malloc n (fst k ++ fst m) (snd m) in
               Val (snd k ++ [Ptr (Some (fst r))], snd r, @nil content))
      (fun r => holds h0 (fst r) (st' ++ [Some (RNode (ID_LWR (nd_name n)) None (mk_loc 0 0 0 0) ks' cs)]) /\ snd r = []).
  Proof.
    intros h0 n kids attrs vs h st ks st' ks' cs (fps & R & ND & G) I Et Ek Ea Ef. cbn [fst snd] in *.
    destruct (take_ok _ _ _ _ _ _ _ R Et) as (kvals & vs' & kfp & fps' & -> & Rk & Rv & P). cbn [bind fst snd].
    eapply ok_bind; [apply make_all_ok; eapply fill_given; eassumption|]. intros [avals h1] (afp & Ra & Na & Ga). cbn [fst snd] in *.
    assert (Kk : forall x, In x kfp -> lookup h x <> None) by (intros x J; exact (rep_vars_owned _ _ _ _ _ _ Rk J)).
    assert (Kv : forall x, In x fps' -> lookup h x <> None) by (intros x J; exact (rep_vars_owned _ _ _ _ _ _ Rv J)).
    assert (Rk1 : rep_vars nodes h1 kvals ks kfp).
    { eapply rep_vars_frame; [exact Rk|]. intros x J. apply (grown_same _ _ _ _ Ga), Kk, J. }
    assert (Rv1 : rep_vars nodes h1 vs' st' fps').
    { eapply rep_vars_frame; [exact Rv|]. intros x J. apply (grown_same _ _ _ _ Ga), Kv, J. }
    destruct (fill_count _ _ _ _ _ _ _ Ek) as [C1 C2]. destruct (fill_count _ _ _ _ _ _ _ Ea) as [C3 C4].
    assert (Lk := vars_count _ _ _ _ _ Rk1). assert (La := values_count _ _ _ _ Ra).
    assert (Rk2 : rep_kids nodes h1 (nd_children n) (new_children n (kvals ++ avals)) ks' kfp) by (eapply fill_kids; eassumption).
    assert (Ra2 : rep_attributes h1 (nd_attributes n) (new_attributes n (kvals ++ avals)) cs afp).
    { unfold new_attributes. rewrite skipn_front by congruence. eapply fill_attributes; eassumption. }
    destruct good as (Dn & Dm & U). rewrite Forall_forall in Dm, U.
    eapply ok_bind; [apply returns_val, (C25_constructor malloc n (kvals ++ avals) h1 std (Dm n I) (U n I))|].
    { rewrite app_length. unfold number_of_arguments. congruence. }
    intros [a h2] (c & dfp & Gc & Lc & T & Nc & Fn & Lo & Rd). cbn [fst snd ok] in *. split; [|reflexivity].
    assert (Nad : NoDup (a :: dfp)).
    { destruct Rd as [|? ? ? ? d ? ? Ld]; [constructor; [intros []|constructor]|].
      constructor; [|constructor; [intros []|constructor]]. intros [->|[]]. congruence. }
    assert (Out : forall x, lookup h1 x <> None -> lookup h2 x = lookup h1 x) by (intros x J; apply (grown_same _ _ _ _ Gc), J).
    assert (O1 : forall x, lookup h x <> None -> lookup h1 x <> None) by (intros x J; rewrite (grown_same _ _ _ _ Ga); assumption).
    assert (Oa : forall x, In x afp -> lookup h1 x <> None) by (intros x J; apply (proj2 Ga), J).
    assert (Rn : rep nodes h2 a (RNode (ID_LWR (nd_name n)) None (mk_loc 0 0 0 0) ks' cs) (a :: dfp ++ [] ++ kfp ++ afp)).
    { eapply rep_node; eauto.
      - congruence.
      - rewrite Fn. constructor.
      - eapply rep_kids_frame; [exact Rk2|]. intros x J. apply Out, O1, Kk, J.
      - eapply rep_attributes_frame; [exact Ra2|]. intros x J. apply Out, Oa, J. }
    exists (fps' ++ (a :: dfp ++ kfp ++ afp)). cbn [fst snd]. split; [|split].
    - apply vars_app; [|constructor; exact Rn]. eapply rep_vars_frame; [exact Rv1|]. intros x J. apply Out, O1, Kv, J.
    - assert (Pp : Permutation ((fps ++ afp) ++ (a :: dfp)) (fps' ++ (a :: dfp ++ kfp ++ afp))).
      { rewrite P. change (a :: dfp ++ kfp ++ afp) with ((a :: dfp) ++ kfp ++ afp).
        rewrite (Permutation_app_comm _ (a :: dfp)). rewrite (Permutation_app_comm kfp fps'), <- !app_assoc.
        rewrite !app_assoc. apply Permutation_app_tail, Permutation_app_tail, Permutation_app_comm. }
      eapply Permutation_NoDup; [exact Pp|]. apply nodup_both; [apply nodup_both; [exact ND|exact Na|]|exact Nad|].
      + intros x J J'. destruct (proj2 Ga x J') as [X _]. apply (rep_vars_owned _ _ _ _ _ _ R J), X.
      + intros x J J'. destruct (proj2 Gc x J') as [X _]. apply in_app_or in J. destruct J as [J|J]; [|exact (Oa x J X)].
        exact (O1 x (rep_vars_owned _ _ _ _ _ _ R J) X).
    - eapply grown_perm; [eapply grown_trans; [eapply grown_trans; [exact G|exact Ga]|exact Gc]|].
      rewrite P. change (a :: dfp ++ kfp ++ afp) with ((a :: dfp) ++ kfp ++ afp).
      rewrite (Permutation_app_comm _ (a :: dfp)). rewrite (Permutation_app_comm kfp fps'), <- !app_assoc.
      rewrite !app_assoc. apply Permutation_app_tail, Permutation_app_tail, Permutation_app_comm.
  Qed.

  Lemma copy_ok : forall h0 v vs h st t, holds h0 (vs, h) st -> nth_error st v = Some t -> deepest st <= fuel ->
    ok malloc (let! x := var vs v in let! r := CCNcopy malloc nodes fuel x h in Val (vs ++ [fst r], snd r, @nil content))
      (fun r => holds h0 (fst r) (st ++ [option_map copied t]) /\ snd r = []).
  Proof.
    intros h0 v vs h st t (fps & R & ND & G) Ev F. cbn [fst snd] in *.
    destruct (vars_split _ _ _ _ _ _ _ R Ev) as (x & xfp & rest & Ex & Rx & _ & _). unfold var. rewrite Ex. cbn [bind].
    assert (Fd := deepest_at _ _ _ Ev). destruct Rx as [|p t fp Rp].
    - eapply ok_bind; [apply returns_val, (C23_copy_null malloc nodes fuel h std)|]. intros [y h1] [-> E]. cbn [fst snd ok] in *. split; [|reflexivity].
      exists (fps ++ []). cbn [fst snd]. split; [apply vars_app; [|constructor]; eapply rep_vars_frame; [exact R|intros z _; apply E]|].
      rewrite app_nil_r. split; [exact ND|]. eapply grown_lookup; eassumption.
    - cbn [deep] in Fd. eapply ok_bind; [apply returns_val, (C23_copy malloc nodes h p t fp std good Rp fuel); lia|].
      intros [y h1] (a' & fp' & -> & R' & N' & G' & _ & _). cbn [fst snd ok] in *. split; [|reflexivity].
      exists (fps ++ fp'). cbn [fst snd option_map]. split; [|split].
      + apply vars_app; [|constructor; exact R']. eapply rep_vars_frame; [exact R|]. intros z J. apply (grown_same _ _ _ _ G'). eapply rep_vars_owned; eassumption.
      + apply nodup_both; try assumption. intros z J J'. destruct (proj2 G' z J') as [X _]. exact (rep_vars_owned _ _ _ _ _ _ R J X).
      + eapply grown_trans; eassumption.
  Qed.
  Lemma free_ok : forall h0 v vs h st t, holds h0 (vs, h) st -> nth_error st v = Some t -> deepest st <= fuel ->
    ok malloc (let! x := var vs v in let! r := CCNfree malloc nodes fuel x h in Val (set_at v (fst r) vs, snd r, @nil content))
      (fun r => holds h0 (fst r) (set_at v None st) /\ snd r = []).
  Proof.
    intros h0 v vs h st t (fps & R & ND & G) Ev F. cbn [fst snd] in *.
    destruct (vars_split _ _ _ _ _ _ _ R Ev) as (x & xfp & rest & Ex & Rx & P & K). unfold var. rewrite Ex. cbn [bind].
    assert (Fd := deepest_at _ _ _ Ev). assert (ND' := Permutation_NoDup P ND). destruct Rx as [|p t fp Rp].
    - eapply ok_bind; [apply returns_val, (C24_free_null malloc nodes fuel h std)|]. intros [y h1] [-> E]. cbn [fst snd ok] in *. split; [|reflexivity].
      destruct (K h1 NULL None [] (rep_none _ _) (fun z _ => E z)) as (fps1 & R1 & P1). exists fps1. cbn [fst snd]. split; [exact R1|].
      rewrite <- P in P1. split; [eapply Permutation_NoDup; [apply Permutation_sym, P1|exact ND]|].
      eapply grown_lookup; [|exact E]. eapply grown_perm; [exact G|apply Permutation_sym, P1].
    - cbn [deep] in Fd. eapply ok_bind; [apply returns_val, (C24_free_partial malloc nodes h p t fp std good freeable Rp (nodup_app_l _ _ _ ND') fuel); lia|].
      intros [y h1] [-> Sh]. cbn [fst snd ok] in *. split; [|reflexivity].
      assert (S : same_on rest h h1).
      { intros z J. apply (proj1 Sh). intros J'. exact (nodup_app_not _ _ _ z ND' J' J). }
      destruct (K h1 NULL None [] (rep_none _ _) S) as (fps1 & R1 & P1). cbn [app] in P1. exists fps1. cbn [fst snd]. split; [exact R1|].
      split; [eapply Permutation_NoDup; [apply Permutation_sym, P1|exact (nodup_app_r _ _ _ ND')]|].
      eapply grown_perm; [|apply Permutation_sym, P1]. eapply grown_shrunk; [|exact ND'|exact Sh]. eapply grown_perm; eassumption.
  Qed.

  Lemma location_other : forall R (g : rtree -> option (rtree * R)) n st st' r w o, fst n <> w -> at_location nodes g n st = Some (st', r) ->
    at_location nodes g n (set_at w o st) = Some (set_at w o st', r).
  Proof.
    intros R g [v path] st st' r w o N E. unfold at_location in *. cbn [fst snd] in *. rewrite nth_set_at_other by congruence.
    destruct (nth_error st v) as [[t|]|]; try discriminate. destruct (at_path nodes g path t) as [[t' r']|]; [|discriminate].
    cbn [option_map fst snd] in *. injection E as <- ->. rewrite set_at_swap by congruence. reflexivity.
  Qed.
  Lemma location_length : forall R (g : rtree -> option (rtree * R)) n st st' r, at_location nodes g n st = Some (st', r) -> length st' = length st.
  Proof.
    intros R g [v path] st st' r E. unfold at_location in E. cbn [fst snd] in *. destruct (nth_error st v) as [[t|]|]; try discriminate.
    destruct (at_path nodes g path t) as [[t' r']|]; [|discriminate]. cbn [option_map fst snd] in *. injection E as <- ->. apply set_at_length.
  Qed.
  Lemma exchange_ok : forall h0 n m w vs h st st' new old, holds h0 (vs, h) st -> fst n <> w -> nth_error st w = Some new ->
    at_location nodes (on_child nodes m (fun o => Some (new, o))) n st = Some (st', old) ->
    ok malloc (let! p := node_of fa debug debug_ast n (vs, h) in
               let! tmp := get fa debug debug_ast (accessor_of m) p h in
               let! x := var vs w in
               let! h := AccessModel.set fa debug debug_ast (accessor_of m) p x h in
               Val (set_at w tmp vs, h, @nil content))
      (fun r => holds h0 (fst r) (set_at w old st') /\ snd r = []).
  Proof.
    intros h0 n m w vs h st st' new old (fps & R & ND & G) Nw Ew E. cbn [fst snd] in *.
    destruct (vars_split _ _ _ _ _ _ _ R Ew) as (x & xfp & rest & Ex & Rx & P & K).
    destruct (K h NULL None [] (rep_none _ _) (fun z _ => eq_refl)) as (fps1 & R1 & P1). cbn [app] in P1.
    apply (location_other _ _ _ _ _ _ w None Nw) in E.
    destruct (location_focus fa DA DF good debug debug_ast _ _ _ _ _ _ _ _ _ R1 E) as (b & u & u' & fpu & restl & Eb & Ru & Eu & Pl & Kl).
    assert (Eb' : node_of fa debug debug_ast n (vs, h) = Val b).
    { rewrite <- Eb. unfold node_of, var. cbn [fst snd]. rewrite nth_set_at_other by (intros X; apply Nw; symmetry; exact X). reflexivity. }
    assert (ND1 := Permutation_NoDup P ND).
    assert (NDl : NoDup (fpu ++ restl)).
    { eapply Permutation_NoDup; [exact Pl|]. eapply Permutation_NoDup; [apply Permutation_sym, P1|exact (nodup_app_r _ _ _ ND1)]. }
    destruct (child_focus fa DA DF good debug debug_ast _ _ _ _ _ _ _ _ _ Ru Eu) as (v & o & o' & ofp & rest2 & Eg & Ro & Ef & P2 & _ & Kd).
    injection Ef as <- ->.
    destruct (Kd (nodup_app_l _ _ _ NDl)) as (d & Id & Kd'). destruct (Kd' x) as (h1 & Es & Eo & Ed & Kw). clear Kd Kd'.
    rewrite Eb'. cbn [bind]. rewrite Eg. cbn [bind]. unfold var. rewrite Ex. cbn [bind]. rewrite Es. cbn [bind ok fst snd]. split; [|reflexivity].
    (* all blocks: those of the variable, of the old child, of the rest of the node, of the rest of the tree and the other variables *)
    assert (NDa : NoDup (xfp ++ (ofp ++ rest2) ++ restl)).
    { eapply Permutation_NoDup; [|exact ND1]. apply Permutation_app_head. rewrite <- P1, Pl. apply Permutation_app_tail, P2. }
    assert (Nd : ~ In d xfp /\ ~ In d ofp /\ ~ In d restl).
    { split; [intros J; apply (nodup_app_not _ _ _ d NDa J); rewrite !in_app_iff; auto|].
      assert (N2 := nodup_app_r _ _ _ NDa). rewrite <- app_assoc in N2. split.
      - intros J. apply (nodup_app_not _ _ _ d N2 J). rewrite in_app_iff; auto.
      - intros J. exact (nodup_app_not _ _ _ d (nodup_app_r _ _ _ N2) Id J). }
    destruct Nd as (Nd1 & Nd2 & Nd3).
    assert (Sx : same_on xfp h h1) by (intros z J; apply Eo; intros ->; contradiction).
    assert (So : same_on ofp h h1) by (intros z J; apply Eo; intros ->; contradiction).
    assert (Sl : same_on restl h h1) by (intros z J; apply Eo; intros ->; contradiction).
    destruct (Kw xfp (rep_opt_frame _ _ _ _ _ _ Rx Sx)) as (fpu' & Ru' & Pu').
    destruct (Kl h1 fpu' Ru' Sl) as (fps2 & R2 & Pf2).
    assert (Ev2 : nth_error (set_at w None st') w = Some None).
    { destruct (nth_error st' w) as [y|] eqn:Y; [eapply nth_set_at_same, Y|]. exfalso.
      apply location_length in E. rewrite !set_at_length in E. apply nth_error_None in Y.
      assert (w < length st) by (apply nth_error_Some; congruence). lia. }
    destruct (vars_split _ _ _ _ _ _ _ R2 Ev2) as (y & yfp & rest3 & Ey & Ry & P3 & K3). inversion Ry; subst. cbn [app] in P3.
    destruct (K3 h1 v old ofp (rep_opt_frame _ _ _ _ _ _ Ro So) (fun z _ => eq_refl)) as (fps4 & R4 & P4).
    rewrite !set_at_set_at in R4. exists fps4. cbn [fst snd]. split; [exact R4|].
    assert (Pall : Permutation fps fps4).
    { rewrite P, P4, <- P1, Pl, P2, <- P3, Pf2, Pu'. rewrite <- !app_assoc. rewrite !app_assoc.
      apply Permutation_app_tail, Permutation_app_tail, Permutation_app_comm. }
    split; [eapply Permutation_NoDup; eassumption|].
    eapply (grown_at h0 h h1 fps4 d); [eapply grown_perm; eassumption| |exact Eo|exact Ed].
    eapply Permutation_in; [exact Pall|]. eapply Permutation_in; [apply Permutation_sym, P|].
    apply in_or_app. right. eapply Permutation_in; [exact P1|]. eapply Permutation_in; [apply Permutation_sym, Pl|].
    apply in_or_app. left. eapply Permutation_in; [apply Permutation_sym, P2|]. apply in_or_app. auto.
  Qed.

  Lemma free_text : forall h x v c ofp rest, rep_attribute h x (Classic v) c ofp -> NoDup (ofp ++ rest) -> at_type x = AT_string ->
    exists h2, MEMfree v h = Val h2 /\ shrunk h h2 ofp.
  Proof.
    intros h x v c ofp rest R N T. inversion R as [? s ? _ _ Rx|? _ T'|? _ T'| |]; subst; try congruence.
    destruct Rx as [|q s Lq]; cbn [MEMfree].
    - exists h. split; [reflexivity|]. split; [auto|intros z []].
    - rewrite Lq. exists (remove h q). split; [reflexivity|]. apply shrunk_remove.
  Qed.
  Lemma assign_ok : forall h0 n m c vs h st st', holds h0 (vs, h) st ->
    at_location nodes (on_attribute nodes m (fun x _ => if fits x c then Some (c, tt) else None)) n st = Some (st', tt) ->
    ok malloc (let! p := node_of fa debug debug_ast n (vs, h) in
               let! h := match c with
                         | Text _ => let! old := get fa debug debug_ast (accessor_of m) p h in MEMfree old h
                         | _ => Val h
                         end in
               let! r := make malloc c h in
               let! h := AccessModel.set fa debug debug_ast (accessor_of m) p (fst r) (snd r) in
               Val (vs, h, @nil content))
      (fun r => holds h0 (fst r) st' /\ snd r = []).
  Proof.
    intros h0 n m c vs h st st' (fps & R & ND & G) E. cbn [fst snd] in *.
    destruct (location_focus fa DA DF good debug debug_ast _ _ _ _ _ _ _ _ _ R E) as (b & u & u' & fpu & restl & -> & Ru & Eu & Pl & Kl). cbn [bind].
    assert (NDl := Permutation_NoDup Pl ND).
    destruct (attribute_focus fa DA DF good debug debug_ast _ _ _ _ _ _ _ _ _ Ru Eu) as (x & g & c0 & c' & ofp & rest & Ex & Ra & Ef & P & Kg & Ks).
    destruct (fits x c) eqn:Fi; [|discriminate]. injection Ef as <-. destruct (fits_given _ _ Fi) as [Gx Gc].
    destruct (Kg Gx) as (v & -> & Eg). destruct (Ks Gx (nodup_app_l _ _ _ NDl)) as (d & Id & Ks').
    assert (NDa : NoDup (ofp ++ rest ++ restl)).
    { rewrite app_assoc. eapply Permutation_NoDup; [|exact NDl]. apply Permutation_app_tail, P. }
    assert (Ga : grown h0 h (ofp ++ rest ++ restl)).
    { eapply grown_perm; [exact G|]. rewrite Pl, P, app_assoc. apply Permutation_refl. }
    eapply (ok_bind malloc _ _ _ _ (fun h2 => same_on (rest ++ restl) h h2 /\ grown h0 h2 (rest ++ restl))).
    { assert (Keep : at_type x <> AT_string -> same_on (rest ++ restl) h h /\ grown h0 h (rest ++ restl)).
      { intros T. split; [intros z _; reflexivity|]. assert (ofp = []) by (inversion Ra; subst; try reflexivity; congruence). subst ofp. exact Ga. }
      unfold fits in Fi. rewrite Gx in Fi. cbn [negb andb] in Fi.
      destruct c as [z|q|s| |w]; try contradiction; cbn [ok].
      - apply Keep. intros T. rewrite T in Fi. discriminate.
      - apply Keep. intros T. rewrite T in Fi. discriminate.
      - rewrite Eg. cbn [bind]. assert (T : at_type x = AT_string) by (destruct (at_type x); try discriminate; reflexivity).
        destruct (free_text _ _ _ _ _ _ Ra NDa T) as (h2 & -> & Sh). cbn [ok]. split; [|eapply grown_shrunk; eassumption].
        intros z J. apply (proj1 Sh). intros J'. exact (nodup_app_not _ _ _ z NDa J' J). }
    intros h2 [S2 G2]. eapply ok_bind; [apply make_ok, Gc|]. intros [w h3] (nfp & Rw & Nn & G3). cbn [fst snd] in *.
    assert (S3 : same_on (rest ++ restl) h h3).
    { intros z J. rewrite <- (S2 z J). apply (grown_same _ _ _ _ G3). apply (proj2 G2), J. }
    destruct (same_on_app _ _ _ _ S3) as [S4 S5].
    destruct (Ks' h3 w S4) as (h1 & Es & Eo & Ed & Kw). rewrite Es. cbn [bind ok fst snd]. split; [|reflexivity].
    assert (Dn : forall z, In z nfp -> ~ In z (rest ++ restl)).
    { intros z J J'. destruct (proj2 G3 z J) as [X _]. exact (proj2 (proj2 G2 z J') X). }
    assert (Rw1 : rep_attribute h1 x (Classic w) c nfp).
    { eapply fits_rep; [exact Fi|]. eapply value_frame; [exact Rw|]. intros z J. apply Eo. intros ->. apply (Dn d J). apply in_or_app. auto. }
    destruct (Kw nfp Rw1) as (fpu' & Ru' & Pu').
    assert (Sl : same_on restl h h1).
    { intros z J. rewrite Eo; [apply S5, J|]. intros ->. exact (nodup_app_not _ _ _ d (nodup_app_r _ _ _ NDa) Id J). }
    destruct (Kl h1 fpu' Ru' Sl) as (fps2 & R2 & Pf2). exists fps2. cbn [fst snd]. split; [exact R2|].
    assert (Pall : Permutation ((rest ++ restl) ++ nfp) fps2).
    { rewrite Pf2, Pu'. rewrite <- (app_assoc nfp). apply Permutation_app_comm. }
    split.
    - eapply Permutation_NoDup; [exact Pall|]. apply nodup_both; [exact (nodup_app_r _ _ _ NDa)|exact Nn|]. intros z J J'. exact (Dn z J' J).
    - eapply (grown_at h0 h3 h1 fps2 d); [eapply grown_perm; [eapply grown_trans; eassumption|exact Pall]| |exact Eo|exact Ed].
      eapply Permutation_in; [exact Pall|]. rewrite !in_app_iff. auto.
  Qed.

  Lemma seen_right : forall h x v c ofp, rep_attribute h x (Classic v) c ofp -> seen (at_type x) v h = Val c.
  Proof.
    intros h x v c ofp R. inversion R as [? s ? _ T Rx|? _ T|? _ T1 T2| |]; subst.
    - rewrite T. destruct Rx as [|q s Lq]; cbn [seen]; [reflexivity|]. rewrite Lq. reflexivity.
    - rewrite T. reflexivity.
    - destruct (at_type x); try congruence; reflexivity.
  Qed.
  Lemma read_ok : forall h0 n m vs h st st' o, holds h0 (vs, h) st ->
    at_location nodes (on_attribute nodes m (fun x c => if in_grammar x then None else Some (c, c))) n st = Some (st', o) ->
    ok malloc (let! p := node_of fa debug debug_ast n (vs, h) in
               let! v := get fa debug debug_ast (accessor_of m) p h in
               match the_attribute fa m with
               | None => Undef
               | Some x => let! c := seen (at_type x) v h in Val (vs, h, [c])
               end)
      (fun r => holds h0 (fst r) st /\ snd r = [o]).
  Proof.
    intros h0 n m vs h st st' o (fps & R & ND & G) E. cbn [fst snd] in *.
    destruct (location_focus fa DA DF good debug debug_ast _ _ _ _ _ _ _ _ _ R E) as (b & u & u' & fpu & restl & -> & Ru & Eu & Pl & Kl). cbn [bind].
    destruct (attribute_focus fa DA DF good debug debug_ast _ _ _ _ _ _ _ _ _ Ru Eu) as (x & g & c0 & c' & ofp & rest & Ex & Ra & Ef & P & Kg & _).
    destruct (in_grammar x) eqn:Gx; [discriminate|]. injection Ef as <- <-. destruct (Kg eq_refl) as (v & -> & Eg). rewrite Eg. cbn [bind]. rewrite Ex.
    rewrite (seen_right _ _ _ _ _ Ra). cbn [bind ok fst snd]. split; [|reflexivity]. exists fps. auto.
  Qed.

  Lemma command_ok : forall h0 c s st st' o, holds h0 s st -> meaning nodes c st = Some (st', o) -> deepest st <= fuel ->
    ok malloc (run_command fa debug debug_ast malloc fuel c s) (fun r => holds h0 (fst r) st' /\ snd r = o).
  Proof.
    intros h0 c [vs h] st st' o H E F. destruct c as [x kids attrs|v|v|n m w|n m c|n m]; cbn [meaning run_command] in *.
    - change (the_node fa x) with (node_called nodes x). destruct (node_called nodes x) as [n|] eqn:En; [|discriminate].
      destruct (taken kids st) as [[ks st1]|] eqn:Et; [|discriminate].
      destruct (fill _ _ _ ks) as [ks'|] eqn:Ek; [|discriminate]. destruct (fill _ _ _ attrs) as [cs|] eqn:Ea; [|discriminate].
      destruct (forallb _ _) eqn:Ef; [|discriminate]. injection E as <- <-. destruct (called_in _ _ _ En) as [I _]. eapply new_ok; eassumption.
    - destruct (nth_error st v) as [t|] eqn:Ev; [|discriminate]. cbn [option_map] in E. injection E as <- <-. apply copy_ok; assumption.
    - destruct (nth_error st v) as [t|] eqn:Ev; [|discriminate]. cbn [option_map] in E. injection E as <- <-. eapply free_ok; eassumption.
    - destruct (Nat.eqb (fst n) w) eqn:Nw; [discriminate|]. apply Nat.eqb_neq in Nw. destruct (nth_error st w) as [new|] eqn:Ew; [|discriminate].
      destruct (at_location _ _ n st) as [[st1 old]|] eqn:El; [|discriminate]. cbn [option_map fst snd] in E. injection E as <- <-.
      eapply exchange_ok; eassumption.
    - destruct (at_location _ _ n st) as [[st1 []]|] eqn:El; [|discriminate]. cbn [option_map fst snd] in E. injection E as <- <-.
      apply (assign_ok h0 n m c vs h st st1 H El).
    - destruct (at_location _ _ n st) as [[st1 c]|] eqn:El; [|discriminate]. cbn [option_map fst snd] in E. injection E as <- <-.
      eapply read_ok; eassumption.
  Qed.
End Run.

(** ** Programs *)
Fixpoint needed (nodes : list inode) (l : program) (st : state) : nat :=
  match l with
  | [] => 0
  | c :: l => Nat.max (deepest st) (match meaning nodes c st with Some (st, _) => needed nodes l st | None => 0 end)
  end.
Theorem program_ok : forall fa debug debug_ast malloc, distinct_accessors fa -> distinct_functions fa -> good_nodes (a_nodes fa) ->
  Forall free_compiles (a_nodes fa) -> standard malloc ->
  forall fuel h0 l s st st' o, holds fa h0 s st -> meanings (a_nodes fa) l st = Some (st', o) -> needed (a_nodes fa) l st <= fuel ->
  ok malloc (run_program fa debug debug_ast malloc fuel l s) (fun r => holds fa h0 (fst r) st' /\ snd r = o).
Proof.
  intros fa debug debug_ast malloc DA DF good fr std fuel h0. induction l as [|c l IH]; intros s st st' o H E F; cbn [meanings run_program needed] in *.
  - injection E as <- <-. cbn [ok fst snd]. auto.
  - destruct (meaning (a_nodes fa) c st) as [[st1 o1]|] eqn:Em; [|discriminate].
    destruct (meanings (a_nodes fa) l st1) as [[st2 o2]|] eqn:Es; [|discriminate]. cbn [option_map fst snd] in E. injection E as <- <-.
    eapply ok_bind; [eapply (command_ok fa DA DF good fr debug debug_ast malloc std fuel h0 c s st st1 o1 H Em); lia|].
    intros [s1 x1] [H1 E1]. cbn [fst snd] in *. subst x1.
    eapply ok_bind; [eapply IH; [exact H1|exact Es|lia]|]. intros [s2 x2] [H2 E2]. cbn [fst snd ok] in *. subst. auto.
Qed.
