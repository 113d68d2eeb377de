(** Lemmas about TRAV<child>. *)

From Coq Require Import String.
From Coq Require Import List Ascii NArith Bool Arith Lia.
From Verif Require Import Base.Outcome Base.Heap Palm.StrModel Palm.StrProof Palm.HashTableModel
  Palm.HashTableSpec Palm.HashTableProof Palm.HashTableInst Front.Syntax
  Front.SymbolTableModel Front.SymbolTableSpec Front.SymbolTableProof Front.LifetimesProof
  Gen.NodesModel Gen.TablesProof Gen.TravChildModel Gen.TravChildSpec.
Import ListNotations.
Local Open Scope list_scope.
Local Open Scope outcome_scope.

Lemma name_eqb_iff : forall a b, name_eqb a b = true <-> a = b.
Proof. intros a b. unfold name_eqb. destruct (list_eq_dec ascii_dec a b); split; congruence. Qed.
Lemma key_eqb_iff : forall a b, key_eqb a b = true <-> a = b.
Proof. intros a b. unfold key_eqb. apply STReq_lwr. Qed.

(** ** Generation *)

(** The pairs (node type, child) with a child spelled [k], newest first. *)
Definition hits (ps : list (ident * ident)) (k : ident) : list ident :=
  rev (map fst (filter (fun e => name_eqb (snd e) k) ps)).
Definition pairs (nds : list inode) : list (ident * ident) :=
  flat_map (fun nd => map (fun c => (nd_name nd, ch_name c)) (nd_children nd)) nds.

Section Table.
  Variable n : nat.
  Hypothesis Hn : n > 0.
  Let Inv := @Inv cstring (list ident) StringHash key_eqb n.

  Definition listed (ps : list (ident * ident)) (k : ident) : option (ptr (list ident)) :=
    match hits ps k with [] => None | l => Some (Some l) end.

  Definition good (t : id_table) (ps : list (ident * ident)) : Prop :=
    exists h, Inv t h /\ forall k, latest key_eqb h k = listed ps k.

  Lemma hits_snoc : forall ps x c k,
    hits (ps ++ [(x, c)]) k = if name_eqb c k then x :: hits ps k else hits ps k.
  Proof.
    intros. unfold hits. rewrite filter_app, map_app, rev_app_distr. cbn [filter snd].
    destruct (name_eqb c k); reflexivity.
  Qed.

  Lemma child_step : forall t ps nd c, good t ps ->
    exists t', DGT_Fchild nd c t = Val t' /\ good t' (ps ++ [(nd_name nd, ch_name c)]).
  Proof.
    intros t ps nd c (h & I & L). unfold DGT_Fchild.
    rewrite (lookup_inv StringHash key_eqb n Hn t h (ch_name c) I). cbn [bind].
    set (v := Some (nd_name nd :: _)).
    destruct (insert_inv StringHash key_eqb string_keys_good n Hn t h (ch_name c) v I) as (t' & E & I' & _).
    rewrite E. cbn [bind fst]. exists t'. split; [reflexivity|].
    exists (OpInsert (ch_name c) v :: h). split; [exact I'|]. intros k. cbn [latest].
    unfold listed. rewrite hits_snoc. unfold name_eqb.
    destruct (list_eq_dec ascii_dec (ch_name c) k) as [Ek|Nk].
    - subst k. rewrite (proj2 (key_eqb_iff _ _) eq_refl). unfold v. rewrite L. unfold listed.
      destruct (hits ps (ch_name c)); reflexivity.
    - destruct (key_eqb (ch_name c) k) eqn:Q; [apply key_eqb_iff in Q; congruence|].
      rewrite L. reflexivity.
  Qed.

  Lemma children_steps : forall nd cs t ps, good t ps ->
    exists t', DGT_Fchildren nd cs t = Val t' /\
      good t' (ps ++ map (fun c => (nd_name nd, ch_name c)) cs).
  Proof.
    intros nd. induction cs as [|c cs IH]; intros t ps G; cbn [DGT_Fchildren map].
    - exists t. rewrite app_nil_r. auto.
    - destruct (child_step t ps nd c G) as (t1 & -> & G1). cbn [bind].
      destruct (IH t1 _ G1) as (t2 & -> & G2). exists t2. rewrite <- app_assoc in G2. auto.
  Qed.

  Lemma nodes_steps : forall nds t ps, good t ps ->
    exists t', DGT_Finodes nds t = Val t' /\ good t' (ps ++ pairs nds).
  Proof.
    induction nds as [|nd nds IH]; intros t ps G; cbn [DGT_Finodes].
    - exists t. unfold pairs. cbn. rewrite app_nil_r. auto.
    - destruct (children_steps nd (nd_children nd) t ps G) as (t1 & -> & G1). cbn [bind].
      destruct (IH t1 _ G1) as (t2 & -> & G2). exists t2. rewrite <- app_assoc in G2. auto.
  Qed.

  Lemma new_good : good (HTnew n) [].
  Proof. exists []. split; [exact (inv_new StringHash key_eqb n)|]. reflexivity. Qed.

  Lemma source_calls : forall l out r, calls MapChildrenSource out l = r ->
    fst r = out ++ map (fun e => mk_tf (fst e) (match snd e with Some l => l | None => [] end)) l.
  Proof.
    induction l as [|[k v] l IH]; intros out r E; cbn [calls MapChildrenSource] in E.
    - subst r. cbn. rewrite app_nil_r. reflexivity.
    - destruct (calls MapChildrenSource (out ++ [mk_tf k match v with Some l => l | None => [] end]) l) as [s2 l2] eqn:C.
      subst r. cbn [fst map snd]. specialize (IH _ _ C). cbn [fst] in IH. rewrite IH, <- app_assoc. reflexivity.
  Qed.

  Lemma functions : forall t ps, good t ps ->
    let fs := fst (HTmapWithDataAndKey MapChildrenSource t []) in
    NoDup (map tf_key fs) /\
    forall k l, (exists f, In f fs /\ tf_key f = k /\ tf_cases f = l) <-> hits ps k = l /\ l <> [].
  Proof.
    intros t ps (h & I & L) fs. unfold fs. clear fs.
    destruct (HTmapWithDataAndKey MapChildrenSource t []) as [s t'] eqn:M.
    destruct (map_inv StringHash key_eqb string_keys_good n Hn MapChildrenSource t h [] s t' I M) as (C & _ & _).
    assert (K := contents_listed StringHash key_eqb string_keys_good n Hn t h I).
    revert C K. generalize (concat (HashTableModel.entries t)). intros l C [Kd Kc].
    apply source_calls in C. cbn [fst app] in C |- *. subst s. split.
    - rewrite map_map. cbn [tf_key]. apply NoDup_nth_error. intros i j Li E.
      unfold HashTableModel.entry in *. rewrite map_length in Li. assert (Q := nth_error_map fst i l). assert (R := nth_error_map fst j l).
      destruct (nth_error l i) as [a|] eqn:Ai; [|apply nth_error_None in Ai; elim (Nat.lt_irrefl i); exact (Nat.lt_le_trans _ _ _ Li Ai)].
      assert (E' : nth_error (map fst l) i = nth_error (map fst l) j) by exact E.
      rewrite Q, R in E'. destruct (nth_error l j) as [b|] eqn:Bj; [|cbn in E'; discriminate E'].

      cbn in E'. injection E' as E'. apply (Kd i j a b Ai Bj). rewrite E'. apply key_eqb_iff. reflexivity.
    - intros k l0. split.
      + intros (f & If & <- & <-). apply in_map_iff in If. destruct If as ([k' v] & <- & Ik). cbn [tf_key tf_cases fst snd].
        assert (Lk : latest key_eqb h k' = Some v).
        { apply Kc. exists k'. split; [exact Ik|apply key_eqb_iff; reflexivity]. }
        rewrite L in Lk. unfold listed in Lk. destruct (hits ps k') as [|x xs]; [discriminate Lk|].
        injection Lk as <-. split; [reflexivity|discriminate].
      + intros [<- Ne]. assert (Lk : latest key_eqb h k = Some (Some (hits ps k))).
        { rewrite L. unfold listed. destruct (hits ps k); [congruence|reflexivity]. }
        apply Kc in Lk. destruct Lk as (k' & Ik & Ek). apply key_eqb_iff in Ek. subst k'.
        eexists. split; [apply in_map_iff; exists (k, Some (hits ps k)); split; [reflexivity|exact Ik]|].
        split; reflexivity.
  Qed.
End Table.

(** The node types that have a child spelled [k], as a list of names. *)
Definition has_child (a : ast) (k x : ident) : Prop :=
  exists nd c, In nd (a_nodes a) /\ In c (nd_children nd) /\ ch_name c = k /\ nd_name nd = x.

Lemma hits_in : forall a k x, In x (hits (pairs (a_nodes a)) k) <-> has_child a k x.
Proof.
  intros a k x. unfold hits. rewrite <- in_rev, in_map_iff. unfold pairs, has_child. split.
  - intros ([y c'] & <- & I). apply filter_In in I. destruct I as [I E]. apply name_eqb_iff in E.
    cbn [snd] in E. subst c'. apply in_flat_map in I. destruct I as (nd & In_ & I).
    apply in_map_iff in I. destruct I as (c & E & Ic). injection E as <- <-.
    exists nd, c. auto.
  - intros (nd & c & In_ & Ic & <- & <-). exists (nd_name nd, ch_name c). split; [reflexivity|].
    apply filter_In. split; [|apply name_eqb_iff; reflexivity].
    apply in_flat_map. exists nd. split; [exact In_|]. apply in_map_iff. exists c. auto.
Qed.

Theorem generated : forall a, exists fs, DGT_Fast a = Val fs /\
  NoDup (map tf_key fs) /\
  (forall k, (exists f, TRAV fs k = Some f) <-> exists x, has_child a k x) /\
  (forall k f, TRAV fs k = Some f -> tf_key f = k /\ tf_cases f = hits (pairs (a_nodes a)) k /\
     forall x, In x (tf_cases f) <-> has_child a k x).
Proof.
  intros a.
  assert (G : exists fs, DGT_Fast a = Val fs /\ NoDup (map tf_key fs) /\
     forall k l, (exists f, In f fs /\ tf_key f = k /\ tf_cases f = l) <->
                 hits (pairs (a_nodes a)) k = l /\ l <> []).
  { unfold DGT_Fast. destruct (a_nodes a) as [|nd nds] eqn:En.
    - eexists. split; [reflexivity|]. split; [constructor|]. intros k l. cbn. split.
      + intros (f & [] & _).
      + intros [<- N]. elim N. reflexivity.
    - set (n := List.length (nd :: nds)). assert (Hn : n > 0) by (unfold n; cbn; lia).
      destruct (nodes_steps n Hn (nd :: nds) _ _ (new_good n)) as (t & -> & Gd). cbn [bind].
      eexists. split; [reflexivity|]. exact (functions n Hn t _ Gd). }
  destruct G as (fs & E & Nd & H). exists fs. split; [exact E|split; [exact Nd|]].
  assert (T : forall k f, TRAV fs k = Some f -> In f fs /\ tf_key f = k).
  { intros k f Ef. unfold TRAV in Ef. apply find_some in Ef. destruct Ef as [I Q].
    apply name_eqb_iff in Q. auto. }
  assert (C : forall k f, TRAV fs k = Some f -> tf_cases f = hits (pairs (a_nodes a)) k /\ tf_cases f <> []).
  { intros k f Ef. destruct (T k f Ef) as [I <-]. destruct (proj1 (H (tf_key f) (tf_cases f))) as [<- N]; eauto. }
  split.
  - intros k. split.
    + intros (f & Ef). destruct (C k f Ef) as [Q N]. destruct (tf_cases f) as [|x l] eqn:Ec; [congruence|].
      exists x. apply hits_in. rewrite <- Q. left. reflexivity.
    + intros (x & Hx). apply hits_in in Hx.
      destruct (proj2 (H k (hits (pairs (a_nodes a)) k))) as (f & I & <- & _).
      { split; [reflexivity|]. intros Q. rewrite Q in Hx. destruct Hx. }
      exists f. unfold TRAV. assert (F := find_named _ tf_key fs f Nd I). exact F.
  - intros k f Ef. destruct (T k f Ef) as [_ K]. destruct (C k f Ef) as [Q _].
    split; [exact K|split; [exact Q|]]. intros x. rewrite Q. apply hits_in.
Qed.

(** ** Accessors *)

Lemma macros_names : forall a, map fst (macros a) = accessors a.
Proof.
  intros a. unfold macros, accessors. rewrite map_app. f_equal.
  - induction (a_nodes a) as [|nd nds IH]; [reflexivity|]. cbn [flat_map]. rewrite map_app, IH.
    f_equal. unfold node_macros. rewrite map_app, !map_map. reflexivity.
  - induction (a_nodesets a) as [|s l IH]; [reflexivity|]. cbn [flat_map]. rewrite map_app, IH.
    f_equal. unfold nodeset_macros. rewrite map_map. reflexivity.
Qed.

Lemma resolve_child : forall a nd c, distinct_accessors a -> In nd (a_nodes a) -> In c (nd_children nd) ->
  resolve a (macro_name (nd_name nd) (ch_name c)) = Some (TChild nd (ID_LWR (ch_name c))).
Proof.
  intros a nd c D In_ Ic. unfold resolve.
  set (e := (macro_name (nd_name nd) (ch_name c), TChild nd (ID_LWR (ch_name c)))).
  assert (F : List.find (fun x => name_eqb (fst x) (fst e)) (rev (macros a)) = Some e).
  { apply (find_named _ fst).
    - rewrite map_rev, macros_names. apply NoDup_rev. exact D.
    - apply in_rev. rewrite rev_involutive. unfold macros. apply in_app_iff. left.
      apply in_flat_map. exists nd. split; [exact In_|]. unfold node_macros. apply in_app_iff. left.
      apply in_map_iff. exists c. auto. }
  change (macro_name (nd_name nd) (ch_name c)) with (fst e). rewrite F. reflexivity.
Qed.

(** ** The call *)

Lemma assoc_update : forall A n (v : A) l, assoc n l <> None -> assoc n (update n v l) = Some v.
Proof.
  induction l as [|[x w] l IH]; cbn; intros N; [congruence|]. destruct (name_eqb x n) eqn:E; cbn; rewrite E.
  - reflexivity.
  - apply IH. exact N.
Qed.
Lemma assoc_update_other : forall A n m (v : A) l, m <> n -> assoc m (update n v l) = assoc m l.
Proof.
  induction l as [|[x w] l IH]; cbn; intros N; [reflexivity|]. destruct (name_eqb x n) eqn:E; cbn.
  - apply name_eqb_iff in E. subst x. destruct (name_eqb n m) eqn:Q; [apply name_eqb_iff in Q; congruence|reflexivity].
  - rewrite IH by exact N. reflexivity.
Qed.
Lemma update_names : forall A n (v : A) l, map fst (update n v l) = map fst l.
Proof. induction l as [|[x w] l IH]; cbn; [reflexivity|]. destruct (name_eqb x n); cbn; congruence. Qed.

Lemma store_slot : forall h d ks fs slot v, lookup h d = Some (BData ks fs) -> assoc slot ks <> None ->
  only_slot h (store h d (BData (update slot v ks) fs)) d slot v.
Proof.
  intros h d ks fs slot v L N. split.
  - intros x Nx. rewrite lookup_store. destruct (N.eqb_spec d x); [congruence|].
    try (destruct (N.eqb_spec x d)); congruence || reflexivity.
  - exists ks, (update slot v ks), fs. split; [exact L|]. split.
    + rewrite lookup_store, N.eqb_refl. reflexivity.
    + split; [apply update_names|split; [apply assoc_update; exact N|]].
      intros n Nn. apply assoc_update_other. exact Nn.
Qed.

Section Call.
  Variable debug left_first : bool.
  Variable a : ast.
  Hypothesis D : distinct_names (all_names a).
  Hypothesis A : distinct_accessors a.

  Lemma read_node : forall h nd p d ks fs, node_at h nd p d ks fs -> read_data nd p h = Val (d, (ks, fs)).
  Proof.
    intros h nd p d ks fs [(c & L & T & Dc) Ld]. unfold read_data, read_cell. rewrite L. cbn [bind].
    rewrite T. rewrite (proj2 (name_eqb_iff _ _) eq_refl), Dc, Ld. reflexivity.
  Qed.

  Lemma node_name_unique : forall n1 n2, In n1 (a_nodes a) -> In n2 (a_nodes a) ->
    ID_LWR (nd_name n1) = ID_LWR (nd_name n2) -> n1 = n2.
  Proof.
    intros n1 n2 I1 I2 E. assert (N := distinct_nodes a D). unfold distinct_names in N. rewrite map_map in N.
    exact (nth_unique _ _ (fun x => ID_LWR (nd_name x)) (a_nodes a) n1 n2 N I1 I2 E).
  Qed.

  Theorem call_child : forall fs nd c f, DGT_Fast a = Val fs -> In nd (a_nodes a) -> In c (nd_children nd) ->
    TRAV fs (ch_name c) = Some f ->
    forall trav h p d ks fs1 v v' h' ks' fs',
    node_at h nd p d ks fs1 -> assoc (ID_LWR (ch_name c)) ks = Some v ->
    TRAVopt trav v h = Val (v', h') ->
    node_at h' nd p d ks' fs' -> assoc (ID_LWR (ch_name c)) ks' <> None ->
    exists h2, call_trav debug left_first trav a f p h = Val (Ptr (Some p), h2) /\
      only_slot h' h2 d (ID_LWR (ch_name c)) v'.
  Proof.
    intros fs nd c f G In_ Ic Ef trav h p d ks fs1 v v' h' ks' fs' N1 Av Tr N2 Av'.
    destruct (generated a) as (fs0 & G' & _ & _ & H). rewrite G in G'. injection G' as <-.
    destruct (H _ _ Ef) as (Kf & _ & Cf).
    unfold call_trav. destruct N1 as [(cl & L & T & Dc) Ld] eqn:E1. clear E1.
    unfold read_cell. rewrite L. cbn [bind]. rewrite T.
    destruct (List.find (fun id => name_eqb (ID_LWR id) (ID_LWR (nd_name nd))) (tf_cases f)) as [id|] eqn:F.
    2:{ exfalso. assert (Q := find_none _ _ F (nd_name nd)).
        cbn beta in Q. rewrite (proj2 (name_eqb_iff _ _) eq_refl) in Q.
        discriminate Q. apply Cf. exists nd, c. auto. }
    apply find_some in F. destruct F as [Fi Fe]. apply name_eqb_iff in Fe.
    apply Cf in Fi. destruct Fi as (nd' & c' & I' & Ic' & Ec & <-).
    assert (nd' = nd) as -> by exact (node_name_unique nd' nd I' In_ Fe).
    rewrite Kf, (resolve_child a nd c A In_ Ic). unfold assign_child.
    rewrite (read_node h nd p d ks fs1 N1). cbn [bind fst].
    unfold read_child. rewrite (read_node h nd p d ks fs1 N1). cbn [bind fst snd]. rewrite Av. cbn [bind].
    rewrite Tr. cbn [bind fst snd].
    assert (Lk : lookup h' d = Some (BData ks' fs')) by exact (proj2 N2).
    destruct (assoc (ID_LWR (ch_name c)) ks') as [w|] eqn:Aw; [|congruence].
    exists (store h' d (BData (update (ID_LWR (ch_name c)) v' ks') fs')). split.
    - destruct left_first.
      + rewrite Lk, Aw. reflexivity.
      + unfold write_child. rewrite (read_node h' nd p d ks' fs' N2). cbn [bind fst snd]. rewrite Aw. reflexivity.
    - apply store_slot; [exact Lk|congruence].
  Qed.

  (** Called on a node without a child of that name. *)
  Theorem call_other : forall fs k f, DGT_Fast a = Val fs -> TRAV fs k = Some f ->
    forall nd trav h p c, In nd (a_nodes a) -> (forall c, In c (nd_children nd) -> ch_name c <> k) ->
    lookup h p = Some (BNode c) -> nodetype c = Some (ID_LWR (nd_name nd)) ->
    call_trav debug left_first trav a f p h = if debug then Aborted else Val (Ptr (Some p), h).
  Proof.
    intros fs k f G Ef nd trav h p c In_ No L T.
    destruct (generated a) as (fs0 & G' & _ & _ & H). rewrite G in G'. injection G' as <-.
    destruct (H _ _ Ef) as (Kf & _ & Cf).
    unfold call_trav, read_cell. rewrite L. cbn [bind]. rewrite T.
    destruct (List.find (fun id => name_eqb (ID_LWR id) (ID_LWR (nd_name nd))) (tf_cases f)) as [id|] eqn:F; [|reflexivity].
    apply find_some in F. destruct F as [Fi Fe]. apply name_eqb_iff in Fe.
    apply Cf in Fi. destruct Fi as (nd' & c' & I' & Ic' & Ec & <-).
    assert (nd' = nd) as -> by exact (node_name_unique nd' nd I' In_ Fe).
    elim (No c' Ic' Ec).
  Qed.
End Call.

(** ** When the accessors have different names *)

Definition no_underscore (x : ident) : Prop := ~ In "_"%char x.

Lemma upr_underscore : forall x, no_underscore x -> ~ In "_"%char (ID_UPR x).
Proof.
  intros x N I. unfold ID_UPR in I. apply in_map_iff in I. destruct I as (b & E & I).
  apply N. replace "_"%char with b; [exact I|].
  destruct b as [[] [] [] [] [] [] [] []]; vm_compute in E; congruence.
Qed.

Lemma split_first : forall (c : ascii) x x' y y', ~ In c x -> ~ In c x' ->
  x ++ [c] ++ y = x' ++ [c] ++ y' -> x = x' /\ y = y'.
Proof.
  intros c. induction x as [|b x IH]; intros [|b' x'] y y' N N' E; cbn [app] in E.
  - injection E as E. auto.
  - injection E as E1 E2. elim N'. left. symmetry. exact E1.
  - injection E as E1 E2. elim N. left. exact E1.
  - injection E as -> E. destruct (IH x' y y') as [-> ->]; auto.
    + intros I. apply N. right. exact I.
    + intros I. apply N'. right. exact I.
Qed.

Lemma accessor_parts : forall x y x' y', no_underscore x -> no_underscore x' ->
  accessor x y = accessor x' y' -> ID_LWR x = ID_LWR x' /\ ID_LWR y = ID_LWR y'.
Proof.
  intros x y x' y' N N' E. unfold accessor in E.
  apply split_first in E; [|apply upr_underscore; assumption..].
  destruct E. split; apply upr_lwr; assumption.
Qed.

(** The members of a declaration, with its name. *)
Definition members_of (a : ast) : list (ident * list ident) :=
  map (fun nd => (nd_name nd, map ch_name (nd_children nd) ++ map at_name (nd_attributes nd))) (a_nodes a) ++
  map (fun s => (ns_name s, map at_name (ns_attributes s))) (a_nodesets a).

Lemma accessors_eq : forall a, accessors a =
  flat_map (fun e => map (accessor (fst e)) (snd e)) (members_of a).
Proof.
  intros a. unfold accessors, members_of. rewrite flat_map_app, !flat_map_map. cbn [fst snd]. f_equal.
  - apply flat_map_ext. intros nd. rewrite map_app, !map_map. reflexivity.
  - apply flat_map_ext. intros s. rewrite map_map. reflexivity.
Qed.

Lemma flat_accessors : forall l : list (ident * list ident),
  (forall e, In e l -> no_underscore (fst e)) -> NoDup (map (fun e => ID_LWR (fst e)) l) ->
  (forall e, In e l -> distinct_names (snd e)) ->
  NoDup (flat_map (fun e => map (accessor (fst e)) (snd e)) l).
Proof.
  induction l as [|[x ys] l IH]; intros N Nx Ny; cbn [flat_map]; [constructor|].
  cbn [map fst snd] in *. inversion Nx as [|q q' N1 N2]; subst.
  apply NoDup_app_iff. split; [|split].
  - assert (K := Ny (x, ys) (or_introl eq_refl)). cbn [snd] in K. unfold distinct_names in K.
    revert K. apply (NoDup_map_iff _ _ _ ID_LWR (accessor x)). intros y y' _ _. split; intros E.
    + unfold accessor. f_equal. f_equal. apply upr_lwr. exact E.
    + apply accessor_parts in E; [apply E|..]; apply (N (x, ys)); left; reflexivity.
  - apply IH; auto.
    + intros e I. apply N. right. exact I.
    + intros e I. apply Ny. right. exact I.
  - intros z I J. apply in_map_iff in I. destruct I as (y & <- & I).
    apply in_flat_map in J. destruct J as ([x' ys'] & J & K). cbn [fst snd] in K. apply in_map_iff in K.
    destruct K as (y' & E & K). apply accessor_parts in E.
    + apply N1. apply in_map_iff. exists (x', ys'). split; [apply E|exact J].
    + apply (N (x', ys')). right. exact J.
    + apply (N (x, ys)). left. reflexivity.
Qed.

Theorem accessors_distinct : forall a, distinct_names (all_names a) -> distinct_members a ->
  (forall s, In s (a_nodesets a) -> distinct_names (map at_name (ns_attributes s))) ->
  (forall nd, In nd (a_nodes a) -> no_underscore (nd_name nd)) ->
  (forall s, In s (a_nodesets a) -> no_underscore (ns_name s)) ->
  distinct_accessors a.
Proof.
  intros a D M S Un Us. unfold distinct_accessors. rewrite accessors_eq. unfold members_of.
  apply flat_accessors.
  - intros e I. apply in_app_iff in I. rewrite !in_map_iff in I.
    destruct I as [(x & <- & I)|(x & <- & I)]; cbn [fst]; auto.
  - rewrite map_app, !map_map. cbn [fst].
    assert (K : distinct_names (flat_map (fun d => match d with DNode n => [nd_name n] | DNodeset s => [ns_name s] | _ => [] end) (declarations a))).
    { apply distinct_some; [exact D|]. intros []; cbn; auto using subl_none, subl_refl. }
    replace (flat_map _ (declarations a)) with (map nd_name (a_nodes a) ++ map ns_name (a_nodesets a)) in K.
    2:{ symmetry. selects. }
    unfold distinct_names in K. rewrite map_app, !map_map in K. exact K.
  - intros e I. apply in_app_iff in I. rewrite !in_map_iff in I.
    destruct I as [(x & <- & I)|(x & <- & I)]; cbn [snd]; auto.
    assert (K := M x I). unfold distinct_names in *. rewrite map_app in *.
    apply NoDup_app_iff in K. apply NoDup_app_iff. destruct K as (K1 & K2 & K3).
    split; [exact K2|split; [exact K1|]]. intros z Z1 Z2. exact (K3 z Z2 Z1).
Qed.

(** ** Correct C *)

Lemma pairs_in : forall nds x k, In (x, k) (pairs nds) ->
  exists nd c, In nd nds /\ In c (nd_children nd) /\ nd_name nd = x /\ ch_name c = k.
Proof.
  intros nds x k I. apply in_flat_map in I. destruct I as (nd & In_ & I). apply in_map_iff in I.
  destruct I as (c & E & Ic). injection E as <- <-. exists nd, c. auto.
Qed.

Lemma one_child : forall (x k : ident) cs, distinct_names (map ch_name cs) ->
  filter (fun e : ident * ident => name_eqb (snd e) k) (map (fun c => (x, ch_name c)) cs) = [] \/
  filter (fun e : ident * ident => name_eqb (snd e) k) (map (fun c => (x, ch_name c)) cs) = [(x, k)].
Proof.
  intros x k. induction cs as [|c cs IH]; intros N; [left; reflexivity|].
  unfold distinct_names in N. cbn [map] in N. inversion N as [|q q' N1 N2]; subst. cbn [map filter snd].
  destruct (name_eqb (ch_name c) k) eqn:E; [|apply IH; exact N2].
  right. apply name_eqb_iff in E. rewrite E. f_equal.
  destruct (filter _ _) as [|[y z] l] eqn:F; [reflexivity|]. exfalso.
  assert (I : In (y, z) (filter (fun e : ident * ident => name_eqb (snd e) k) (map (fun c => (x, ch_name c)) cs)))
    by (rewrite F; left; reflexivity).
  apply filter_In in I. destruct I as [I K]. apply name_eqb_iff in K. cbn [snd] in K. subst z.
  apply in_map_iff in I. destruct I as (c' & Q & I). injection Q as _ Q.
  apply N1. apply in_map. apply in_map_iff. exists c'. split; [congruence|exact I].
Qed.

Lemma hits_NoDup : forall nds k, distinct_names (map nd_name nds) ->
  (forall nd, In nd nds -> distinct_names (map ch_name (nd_children nd))) ->
  NoDup (map ID_UPR (hits (pairs nds) k)).
Proof.
  intros nds k N M. unfold hits. rewrite map_rev. apply NoDup_rev. rewrite map_map.
  induction nds as [|nd nds IH]; [constructor|].
  unfold distinct_names in N. cbn [map] in N. inversion N as [|q q' N1 N2]; subst.
  unfold pairs. cbn [flat_map]. fold (pairs nds). rewrite filter_app, map_app.
  assert (R : NoDup (map (fun x => ID_UPR (fst x)) (filter (fun e => name_eqb (snd e) k) (pairs nds)))).
  { apply IH; [exact N2|]. intros n I. apply M. right. exact I. }
  assert (F := one_child (nd_name nd) k (nd_children nd) (M nd (or_introl eq_refl))).
  unfold ident in *. destruct F as [-> | ->]; cbn [map app fst].
  - exact R.
  - constructor; [|exact R]. intros I. apply in_map_iff in I. destruct I as ([y z] & E & I). cbn [fst] in E.
    apply filter_In in I. destruct I as [I _]. apply pairs_in in I. destruct I as (nd' & c & I & _ & <- & _).
    apply N1. apply in_map_iff. exists (nd_name nd'). split; [apply upr_lwr; exact E|apply in_map; exact I].
Qed.

Lemma TRAV_in : forall fs f, NoDup (map tf_key fs) -> In f fs -> TRAV fs (tf_key f) = Some f.
Proof. intros fs f N I. exact (find_named _ tf_key fs f N I). Qed.

Theorem correct_C : forall a fs, distinct_names (all_names a) -> distinct_members a -> DGT_Fast a = Val fs ->
  (compiles fs <-> forall nd c, In nd (a_nodes a) -> In c (nd_children nd) -> ~ In (ch_name c) core_functions).
Proof.
  intros a fs D M G. destruct (generated a) as (fs0 & G' & Nd & Ex & H). rewrite G in G'. injection G' as <-.
  split.
  - intros (_ & C & _) nd c In_ Ic B. destruct (proj2 (Ex (ch_name c))) as (f & Ef).
    { exists (nd_name nd), nd, c. auto. }
    destruct (H _ _ Ef) as (K & _). unfold TRAV in Ef. apply find_some in Ef. destruct Ef as [If _].
    apply (C f If). rewrite K. exact B.
  - intros C. split; [exact Nd|split].
    + intros f If B. assert (Ef := TRAV_in fs f Nd If). destruct (proj1 (Ex (tf_key f))) as (x & nd & c & In_ & Ic & E & _).
      { exists f. exact Ef. }
      apply (C nd c In_ Ic). rewrite E. exact B.
    + intros f If. assert (Ef := TRAV_in fs f Nd If). destruct (H _ _ Ef) as (_ & -> & _).
      apply hits_NoDup; [apply distinct_nodes; exact D|].
      intros nd In_. assert (K := M nd In_). unfold distinct_names in *. rewrite map_app in K.
      apply NoDup_app_iff in K. apply K.
Qed.
