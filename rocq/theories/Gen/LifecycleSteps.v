(** The accessors on nodes of a tree in memory, and the nodes at the end of a path. *)

From Coq Require Import List Ascii NArith ZArith Bool Lia Permutation.
From Verif Require Import Base.Outcome Base.Heap Palm.StrModel Front.Syntax Front.PropagateModel
  Gen.NodesModel Gen.NodesSpec Gen.NodesProof Gen.NodesCopy Gen.NodesFree Gen.NodesBuild Gen.NodesProps
  Gen.TravChildSpec Gen.AccessModel Gen.AccessSpec Gen.AccessMembers Gen.AccessProof
  Gen.LifecycleModel Gen.LifecycleSpec Gen.LifecycleProof.
Import ListNotations.

Lemma classic_grammar : forall x, is_classic x = negb (in_grammar x).
Proof. intros x. reflexivity. Qed.

Section Steps.
  Variable fa : ast.
  Hypothesis DA : distinct_accessors fa.
  Hypothesis DF : distinct_functions fa.
  Hypothesis good : good_nodes (a_nodes fa).
  Variables (debug debug_ast : bool).
  Notation nodes := (a_nodes fa).

  Lemma called_in : forall x n, node_called nodes x = Some n -> In n nodes /\ ID_LWR (nd_name n) = ID_LWR x.
  Proof. intros x n E. apply find_some in E. destruct E as [I E]. split; [exact I|]. apply name_eqb_true, E. Qed.
  Lemma one_node : forall n n', In n nodes -> In n' nodes -> ID_LWR (nd_name n) = ID_LWR (nd_name n') -> n = n'.
  Proof.
    destruct good as (N & _). intros n n' I I' E. revert N I I'. generalize nodes. induction l as [|m l IH]; intros N I I'; [destruct I|].
    cbn [map] in N. inversion N as [|? ? N1 N2]; subst. destruct I as [->|I], I' as [->|I']; auto; exfalso; apply N1.
    - rewrite E. apply in_map_iff. eauto.
    - rewrite <- E. apply in_map_iff. eauto.
  Qed.
  Lemma members_of : forall n, In n nodes ->
    NoDup (map (fun c => ID_LWR (ch_name c)) (nd_children n)) /\ NoDup (map (fun a => ID_LWR (at_name a)) (nd_attributes n)).
  Proof.
    intros n I. destruct good as (_ & M & _). rewrite Forall_forall in M. specialize (M n I).
    split; [eapply nodup_app_l|eapply nodup_app_r]; exact M.
  Qed.

  (** ** Children *)
  Lemma child_focus : forall R m (f : option rtree -> option (option rtree * R)) t t' r h p fp,
    rep nodes h p t fp -> on_child nodes m f t = Some (t', r) ->
    exists v o o' ofp rest, get fa debug debug_ast (accessor_of m) p h = Val v /\ rep_opt nodes h v o ofp /\ f o = Some (o', r) /\
      Permutation fp (ofp ++ rest) /\
      (forall h' nfp, rep_opt nodes h' v o' nfp -> same_on rest h h' ->
         exists fp', rep nodes h' p t' fp' /\ Permutation fp' (nfp ++ rest)) /\
      (NoDup fp -> exists d, In d rest /\
         forall w, exists h1, set fa debug debug_ast (accessor_of m) p w h = Val h1 /\
           (forall x, x <> d -> lookup h1 x = lookup h x) /\ lookup h1 d <> None /\
           forall nfp, rep_opt nodes h1 w o' nfp -> exists fp', rep nodes h1 p t' fp' /\ Permutation fp' (nfp ++ rest)).
  Proof.
    intros R m f t t' r h p fp Rt E. unfold on_child in E.
    inversion Rt as [a nd c file pos kids attrs ffp kfp afp dfp kvs fs I Lk T Nc Lo Rf Rd Rk Ra]; subst.
    destruct (node_called nodes (fst m)) as [n|] eqn:En; [|discriminate].
    destruct (name_eqb _ _) eqn:Et; [|discriminate]. apply name_eqb_true in Et. destruct (called_in _ _ En) as [In_ Nn].
    assert (nd = n) by (apply one_node; assumption). subst nd.
    destruct (index_of ch_name (snd m) (nd_children n)) as [k|] eqn:Ei; [|discriminate].
    destruct (index_found _ _ _ _ _ Ei) as (y & Ey & Ny).
    destruct (nth_error kids k) as [old|] eqn:Eo; [|discriminate].
    destruct (f old) as [[new r']|] eqn:Ef; [|discriminate]. cbn [option_map fst snd] in E. injection E as <- <-.
    assert (Iy := nth_error_In _ _ Ey).
    destruct (kids_split _ _ _ _ _ _ _ _ _ Rk (proj1 (members_of n In_)) Ey Eo) as (v & ofp & krest & Ea & Ro & Pk & K).
    inversion Rd as [? ? Z|? ? ? ? d Hd Dd Ld Hc]; subst; [rewrite Z in Ey; destruct k; discriminate|].
    assert (Ac : accessor_of m = accessor (nd_name n) (ch_name y)).
    { unfold accessor_of. apply accessor_id; [symmetry; exact Nn|symmetry; exact Ny]. }
    assert (Us : use fa debug debug_ast (accessor_of m) p h = Val (Lvalue (Child_slot d (ID_LWR (ch_name y))))).
    { rewrite Ac, use_node_child by assumption. eapply call_child; [|exact Ea]. split; [|exact Ld]. exists c. auto. }
    assert (Vw : v <> Raw) by (destruct Ro; discriminate).
    exists v, old, new, ofp, (p :: [d] ++ ffp ++ krest ++ afp).
    assert (Pf : forall g, Permutation (p :: [d] ++ ffp ++ (g ++ krest) ++ afp) (g ++ p :: [d] ++ ffp ++ krest ++ afp)).
    { intros g. cbn [app].
      change (Permutation ((p :: d :: ffp) ++ (g ++ krest) ++ afp) (g ++ (p :: d :: ffp) ++ krest ++ afp)).
      rewrite <- !app_assoc. rewrite !app_assoc. apply Permutation_app_tail, Permutation_app_tail, Permutation_app_comm. }
    split; [|split; [exact Ro|split; [exact Ef|split; [|split]]]].
    - unfold get. rewrite Us. cbn [bind]. rewrite Ld, Ea. destruct v; try reflexivity; congruence.
    - rewrite <- Pf. apply perm_skip. cbn [app]. apply perm_skip. apply Permutation_app_head, Permutation_app_tail, Pk.
    - intros h' nfp R' S. assert (Sl := fun x J => S x J).
      assert (Lp' : lookup h' p = Some (BNode c)) by (rewrite S by (now left); exact Lk).
      assert (Ld' : lookup h' d = Some (BData kvs fs)) by (rewrite S by (right; now left); exact Ld).
      assert (S1 : same_on ffp h h') by (intros x J; apply S; cbn [app In]; rewrite !in_app_iff; tauto).
      assert (S2 : same_on krest h h') by (intros x J; apply S; cbn [app In]; rewrite !in_app_iff; tauto).
      assert (S3 : same_on afp h h') by (intros x J; apply S; cbn [app In]; rewrite !in_app_iff; tauto).
      destruct (K h' v new nfp R' S2) as (kfp' & Rk' & Pk'). rewrite (update_same _ _ _ _ Ea) in Rk'.
      exists (p :: [d] ++ ffp ++ kfp' ++ afp). split.
      + eapply rep_node; try eassumption; [|reflexivity|eapply rep_text_frame; eassumption| |eapply rep_attributes_frame; eassumption].
        * rewrite set_at_length. exact Nc.
        * apply some_data; assumption.
      + rewrite <- Pf. apply perm_skip. cbn [app]. apply perm_skip. apply Permutation_app_head, Permutation_app_tail, Pk'.
    - intros ND. exists d. split; [right; now left|]. intros w.
      exists (store h d (BData (update (ID_LWR (ch_name y)) w kvs) fs)). split; [unfold set; rewrite Us; cbn [bind]; rewrite Ld, Ea; reflexivity|].
      split; [intros x N; apply lookup_store_other; exact N|]. split; [rewrite lookup_store_same; discriminate|]. intros nfp R'.
      set (h1 := store _ _ _) in *.
      assert (ND' : NoDup (p :: [d] ++ ffp ++ (ofp ++ krest) ++ afp)).
      { eapply Permutation_NoDup; [|exact ND]. apply perm_skip. cbn [app]. apply perm_skip. apply Permutation_app_head, Permutation_app_tail, Pk. }
      cbn [app] in ND'. inversion ND' as [|? ? Np ND2]; subst. inversion ND2 as [|? ? Nd ND3]; subst.
      assert (S1 : forall x, In x (ffp ++ (ofp ++ krest) ++ afp) -> lookup h1 x = lookup h x).
      { intros x J. apply lookup_store_other. intros ->. contradiction. }
      assert (S2 : same_on krest h h1).
      { intros x J. apply S1. apply in_or_app. right. apply in_or_app. left. apply in_or_app. auto. }
      destruct (K h1 w new nfp R' S2) as (kfp' & Rk' & Pk').
      exists (p :: [d] ++ ffp ++ kfp' ++ afp). split.
      + eapply (rep_node nodes h1 p n c); try eassumption.
        * unfold h1. rewrite lookup_store_other; [exact Lk|]. intros ->. apply Np. now left.
        * rewrite set_at_length. exact Nc.
        * reflexivity.
        * eapply rep_text_frame; [exact Rf|]. intros x J. apply S1. apply in_or_app. auto.
        * apply some_data; try assumption. unfold h1. apply lookup_store_same.
        * eapply rep_attributes_frame; [exact Ra|]. intros x J. apply S1. apply in_or_app. right. apply in_or_app. auto.
      + rewrite <- Pf. apply perm_skip. cbn [app]. apply perm_skip. apply Permutation_app_head, Permutation_app_tail, Pk'.
  Qed.

  (** ** Attributes *)
  Lemma find_index : forall A (name : A -> ident) x l k y, index_of name x l = Some k -> nth_error l k = Some y ->
    find (fun y => name_eqb (ID_LWR (name y)) (ID_LWR x)) l = Some y.
  Proof.
    intros A name x. induction l as [|z l IH]; intros k y E F; [discriminate|]. cbn [index_of find] in *. destruct (name_eqb _ _).
    - injection E as <-. injection F as ->. reflexivity.
    - destruct (index_of name x l) as [j|]; [|discriminate]. injection E as <-. exact (IH j y eq_refl F).
  Qed.
  Lemma attribute_focus : forall R m (f : attribute -> content -> option (content * R)) t t' r h p fp,
    rep nodes h p t fp -> on_attribute nodes m f t = Some (t', r) ->
    exists x g c c' ofp rest, the_attribute fa m = Some x /\ rep_attribute h x g c ofp /\ f x c = Some (c', r) /\
      Permutation fp (ofp ++ rest) /\
      (in_grammar x = false -> exists v, g = Classic v /\ get fa debug debug_ast (accessor_of m) p h = Val v) /\
      (in_grammar x = false -> NoDup fp -> exists d, In d rest /\
         forall h' w, same_on rest h h' -> exists h1, set fa debug debug_ast (accessor_of m) p w h' = Val h1 /\
           (forall x, x <> d -> lookup h1 x = lookup h' x) /\ lookup h1 d <> None /\
           forall nfp, rep_attribute h1 x (Classic w) c' nfp -> exists fp', rep nodes h1 p t' fp' /\ Permutation fp' (nfp ++ rest)).
  Proof.
    intros R m f t t' r h p fp Rt E. unfold on_attribute in E.
    inversion Rt as [a nd c file pos kids attrs ffp kfp afp dfp kvs fs I Lk T Nc Lo Rf Rd Rk Ra]; subst.
    destruct (node_called nodes (fst m)) as [n|] eqn:En; [|discriminate].
    destruct (name_eqb _ _) eqn:Et; [|discriminate]. apply name_eqb_true in Et. destruct (called_in _ _ En) as [In_ Nn].
    assert (nd = n) by (apply one_node; assumption). subst nd.
    destruct (index_of at_name (snd m) (nd_attributes n)) as [k|] eqn:Ei; [|discriminate].
    destruct (index_found _ _ _ _ _ Ei) as (y & Ey & Ny). rewrite Ey in E.
    destruct (nth_error attrs k) as [old|] eqn:Eo; [|discriminate].
    destruct (f y old) as [[new r']|] eqn:Ef; [|discriminate]. cbn [option_map fst snd] in E. injection E as <- <-.
    assert (Iy := nth_error_In _ _ Ey).
    destruct (attributes_split _ _ _ _ _ _ _ _ Ra (proj2 (members_of n In_)) Ey Eo) as (g & ofp & arest & Ea & Ro & Pk & K).
    inversion Rd as [? ? _ Z|? ? ? ? d Hd Dd Ld Hc]; subst; [rewrite Z in Ey; destruct k; discriminate|].
    assert (Ac : accessor_of m = accessor (nd_name n) (at_name y)).
    { unfold accessor_of. apply accessor_id; [symmetry; exact Nn|symmetry; exact Ny]. }
    assert (Us : in_grammar y = false -> exists v, g = Classic v /\ v <> Raw /\ forall h', lookup h' p = lookup h p -> lookup h' d = lookup h d ->
      use fa debug debug_ast (accessor_of m) p h' = Val (Lvalue (Attribute_field d (ID_LWR (at_name y))))).
    { intros G. assert (Gv : exists v, g = Classic v /\ v <> Raw).
      { change (is_ag y = false) in G. destruct Ro as [v s fp0 _ _ Rx|q|z|? X|? X]; [|eauto..|congruence|congruence]; eexists; split; try reflexivity; try discriminate.
        destruct Rx; discriminate. }
      destruct Gv as (v & -> & Nv). exists v. split; [reflexivity|]. split; [exact Nv|]. intros h' Lp' Ld'.
      rewrite Ac. destruct (use_node_attribute fa DA DF debug debug_ast h' n y p In_ Iy) as [-> _]. eapply call_classic; [|rewrite classic_grammar, G; reflexivity|exact Ea].
      split; [|rewrite Ld'; exact Ld]. exists c. rewrite Lp'. auto. }
    exists y, g, old, new, ofp, (p :: [d] ++ ffp ++ kfp ++ arest).
    assert (Pf : forall g, Permutation (p :: [d] ++ ffp ++ kfp ++ (g ++ arest)) (g ++ p :: [d] ++ ffp ++ kfp ++ arest)).
    { intros g0. cbn [app].
      change (Permutation ((p :: d :: ffp) ++ kfp ++ (g0 ++ arest)) (g0 ++ (p :: d :: ffp) ++ kfp ++ arest)).
      rewrite !app_assoc. apply Permutation_app_tail. rewrite <- !app_assoc. rewrite app_assoc. apply Permutation_app_comm. }
    split; [|split; [exact Ro|split; [exact Ef|split; [|split]]]].
    - unfold the_attribute, the_node. unfold node_called in En. rewrite En. eapply find_index; eassumption.
    - rewrite <- Pf. apply perm_skip. cbn [app]. apply perm_skip. apply Permutation_app_head, Permutation_app_head, Pk.
    - intros G. destruct (Us G) as (v & -> & Nv & U). exists v. split; [reflexivity|]. unfold get. rewrite U by reflexivity. cbn [bind].
      rewrite Ld, Ea. destruct v; try reflexivity; congruence.
    - intros G ND. destruct (Us G) as (v & -> & Nv & U). exists d. split; [right; now left|]. intros h' w S.
      assert (Lp' : lookup h' p = lookup h p) by (apply S; now left).
      assert (Ld' : lookup h' d = lookup h d) by (apply S; right; now left).
      exists (store h' d (BData kvs (update (ID_LWR (at_name y)) (Classic w) fs))). split.
      { unfold set. rewrite (U h' Lp' Ld'). cbn [bind]. rewrite Ld', Ld, Ea. reflexivity. }
      split; [intros x N; apply lookup_store_other; exact N|]. split; [rewrite lookup_store_same; discriminate|]. intros nfp R'.
      set (h1 := store _ _ _) in *.
      assert (ND' : NoDup (p :: [d] ++ ffp ++ kfp ++ (ofp ++ arest))).
      { eapply Permutation_NoDup; [|exact ND]. apply perm_skip. cbn [app]. apply perm_skip. apply Permutation_app_head, Permutation_app_head, Pk. }
      cbn [app] in ND'. inversion ND' as [|? ? Np ND2]; subst. inversion ND2 as [|? ? Nd ND3]; subst.
      assert (S1 : forall x, In x (ffp ++ kfp ++ arest) -> lookup h1 x = lookup h x).
      { intros x J. unfold h1. rewrite lookup_store_other; [apply S; right; right; exact J|]. intros ->. apply Nd.
        rewrite !in_app_iff in *. tauto. }
      assert (S2 : same_on arest h h1).
      { intros x J. apply S1. rewrite !in_app_iff. auto. }
      destruct (K h1 (Classic w) new nfp R' S2) as (afp' & Ra' & Pk').
      exists (p :: [d] ++ ffp ++ kfp ++ afp'). split.
      + eapply (rep_node nodes h1 p n c); try eassumption.
        * unfold h1. rewrite lookup_store_other, Lp'; [exact Lk|]. intros ->. apply Np. now left.
        * reflexivity.
        * eapply rep_text_frame; [exact Rf|]. intros x J. apply S1. rewrite !in_app_iff. auto.
        * apply some_data; try assumption. unfold h1. apply lookup_store_same.
        * eapply rep_kids_frame; [exact Rk|]. intros x J. apply S1. rewrite !in_app_iff. auto.
      + rewrite <- Pf. apply perm_skip. cbn [app]. apply perm_skip. apply Permutation_app_head, Permutation_app_head, Pk'.
  Qed.

  (** ** Paths *)
  Lemma path_focus : forall R (g : rtree -> option (rtree * R)) path t t' r h p fp,
    rep nodes h p t fp -> at_path nodes g path t = Some (t', r) ->
    exists b u u' fpu rest, follow fa debug debug_ast path (Ptr (Some p)) h = Val (Ptr (Some b)) /\
      rep nodes h b u fpu /\ g u = Some (u', r) /\ Permutation fp (fpu ++ rest) /\
      forall h' fpu', rep nodes h' b u' fpu' -> same_on rest h h' ->
        exists fp', rep nodes h' p t' fp' /\ Permutation fp' (fpu' ++ rest).
  Proof.
    intros R g path. induction path as [|m path IH]; intros t t' r h p fp Rt E.
    - exists p, t, t', fp, []. split; [reflexivity|]. split; [exact Rt|]. split; [exact E|]. split; [rewrite app_nil_r; apply Permutation_refl|].
      intros h' fpu' R' _. exists fpu'. split; [exact R'|]. rewrite app_nil_r. apply Permutation_refl.
    - cbn [at_path] in E. destruct (child_focus _ _ _ _ _ _ _ _ _ Rt E) as (v & o & o' & ofp & rest & Eg & Ro & Ef & P & K & _).
      destruct o as [u0|]; [|discriminate]. destruct (at_path nodes g path u0) as [[u0' r']|] eqn:Eu; [|discriminate].
      cbn [option_map fst snd] in Ef. injection Ef as <- ->. inversion Ro as [|q ? ? Rq]; subst.
      destruct (IH _ _ _ _ _ _ Rq Eu) as (b & u & u' & fpu & rest' & Ew & Ru & Eg' & P' & K').
      exists b, u, u', fpu, (rest' ++ rest). split.
      { cbn [follow pointer bind]. rewrite Eg. cbn [bind]. exact Ew. }
      split; [exact Ru|]. split; [exact Eg'|]. split.
      { rewrite P, P', app_assoc. apply Permutation_refl. }
      intros h' fpu' R' S. apply same_on_app in S. destruct S as [S1 S2]. destruct (K' h' fpu' R' S1) as (fq & Rq' & Pq).
      destruct (K h' fq (rep_some _ _ _ _ _ Rq') S2) as (fp' & Rp & Pp). exists fp'. split; [exact Rp|]. rewrite Pp, Pq, app_assoc. apply Permutation_refl.
  Qed.
  Lemma location_focus : forall R (g : rtree -> option (rtree * R)) n st st' r h vs fps,
    rep_vars nodes h vs st fps -> at_location nodes g n st = Some (st', r) ->
    exists b u u' fpu rest, node_of fa debug debug_ast n (vs, h) = Val b /\
      rep nodes h b u fpu /\ g u = Some (u', r) /\ Permutation fps (fpu ++ rest) /\
      forall h' fpu', rep nodes h' b u' fpu' -> same_on rest h h' ->
        exists fps', rep_vars nodes h' vs st' fps' /\ Permutation fps' (fpu' ++ rest).
  Proof.
    intros R g [v path] st st' r h vs fps Rv E. unfold at_location in E. cbn [fst snd] in E.
    destruct (nth_error st v) as [[t|]|] eqn:Ev; try discriminate.
    destruct (at_path nodes g path t) as [[t' r']|] eqn:Ep; [|discriminate]. cbn [option_map fst snd] in E. injection E as <- ->.
    destruct (vars_split _ _ _ _ _ _ _ Rv Ev) as (x & xfp & rest & Ex & Rx & P & K). inversion Rx as [|p ? ? Rp]; subst.
    destruct (path_focus _ _ _ _ _ _ _ _ _ Rp Ep) as (b & u & u' & fpu & rest' & Ew & Ru & Eg & P' & K').
    exists b, u, u', fpu, (rest' ++ rest). split.
    { unfold node_of, var. cbn [fst snd]. rewrite Ex. cbn [bind]. rewrite Ew. reflexivity. }
    split; [exact Ru|]. split; [exact Eg|]. split; [rewrite P, P', app_assoc; apply Permutation_refl|].
    intros h' fpu' R' S. apply same_on_app in S. destruct S as [S1 S2]. destruct (K' h' fpu' R' S1) as (fq & Rq' & Pq).
    destruct (K h' (Ptr (Some p)) (Some t') fq (rep_some _ _ _ _ _ Rq') S2) as (fps' & Rv' & Pv).
    rewrite (set_at_same _ _ _ _ Ex) in Rv'. exists fps'. split; [exact Rv'|]. rewrite Pv, Pq, app_assoc. apply Permutation_refl.
  Qed.
End Steps.
