(** Proofs about accessors (C51). *)

From Coq Require Import String.
From Coq Require Import List Ascii NArith Bool Arith Lia.
From Verif Require Import Base.Outcome Base.Heap Palm.StrModel Front.Syntax Front.SetsModel Front.SetsSpec
  Front.SymbolTableSpec Front.SymbolTableProof Front.PropagateModel Front.PropagateSpec Front.NodesetPassesProof
  Front.ProductRulesProof Sched.FrontendModel
  Gen.NodesModel Gen.NodesProof Gen.TravChildSpec Gen.TravChildProof Gen.CompileSpec Gen.CompileVerdict Gen.CompileLegal
  Gen.AccessModel Gen.AccessSpec Gen.AccessMembers.
Import Front.SetsSpec.
Import ListNotations.
Local Open Scope list_scope.
Local Open Scope outcome_scope.

Lemma find_by_name : forall A (key : A -> cstring) l x, NoDup (map key l) -> In x l ->
  find (fun e => name_eqb (key e) (key x)) l = Some x.
Proof.
  intros A key. induction l as [|y l IH]; intros x N I; [destruct I|]. cbn [map] in N. apply NoDup_cons_iff in N.
  destruct N as [N1 N2]. cbn [find]. destruct I as [->|I]; [rewrite name_eqb_refl; reflexivity|].
  rewrite name_eqb_neq; [apply IH; assumption|]. intros E. apply N1. rewrite E. apply in_map, I.
Qed.
Lemma NoDup_rev_map : forall A B (f : A -> B) l, NoDup (map f l) -> NoDup (map f (rev l)).
Proof. intros A B f l N. rewrite map_rev. apply NoDup_rev, N. Qed.
Lemma NoDup_transfer : forall A B C (f : A -> B) (g : A -> C) l, NoDup (map f l) ->
  (forall x y, In x l -> In y l -> g x = g y -> f x = f y) -> NoDup (map g l).
Proof.
  intros A B C f g. induction l as [|x l IH]; intros N H; cbn [map] in *; constructor; apply NoDup_cons_iff in N; destruct N as [N1 N2].
  - intros I. apply in_map_iff in I. destruct I as (y & E & I). apply N1. rewrite (H x y); [apply in_map, I|left; reflexivity|right; exact I|auto].
  - apply IH; [exact N2|]. intros y z Iy Iz. apply H; right; assumption.
Qed.

Lemma computed_classic : forall x, computed x = negb (is_classic x).
Proof. intros x. unfold computed, is_classic. rewrite negb_involutive. reflexivity. Qed.

(** ** Names *)
Section Names.
  Variable fa : ast.

  Lemma macro_names : map m_name (DGNMast fa) = map (fun e => accessor (fst (fst e)) (snd (fst e))) (accessible fa).
  Proof.
    assert (F : forall x y, m_name (DGNMattribute x y) = accessor x (at_name y)).
    { intros x y. unfold DGNMattribute. destruct (is_classic y); reflexivity. }
    unfold DGNMast, accessible. rewrite !map_app, !map_flat_map. f_equal; apply flat_map_ext; intros n; rewrite ?map_app, !map_map; cbn [fst snd].
    - f_equal. apply map_ext. intros y. apply F.
    - apply map_ext. intros y. apply F.
  Qed.
  Lemma accessors_names : accessors fa = map (fun e => accessor (fst (fst e)) (snd (fst e))) (accessible fa).
  Proof.
    unfold accessors, accessible. rewrite !map_app, !map_flat_map. f_equal; apply flat_map_ext; intros n; rewrite ?map_app, !map_map; reflexivity.
  Qed.
  Lemma function_names : map f_name (functions fa) = map (fun e => str "CCNaccess_" ++ function_name e) (accessible fa).
  Proof.
    unfold functions, accessible. rewrite !map_app, !map_flat_map.
    f_equal; apply flat_map_ext; intros n; unfold DGNAFinode, DGNSAFinodeset; rewrite ?map_app, !map_map.
    - f_equal. apply map_ext. intros y. cbn. rewrite computed_classic. unfold access_name, readonly. destruct (is_classic y); reflexivity.
    - apply map_ext. intros y. cbn. rewrite computed_classic. unfold access_name, readonly. destruct (is_classic y); reflexivity.
  Qed.
  Lemma error_names : map e_name (error_functions fa) = map (fun e => str "CCNaccesserror_" ++ function_name e) (accessible fa).
  Proof.
    unfold error_functions, accessible. rewrite !map_app, !map_flat_map.
    f_equal; apply flat_map_ext; intros n; unfold DGNAFEinode, DGNSAFEinodeset; rewrite ?map_app, !map_map.
    - f_equal. apply map_ext. intros y. cbn. rewrite computed_classic. unfold error_name, readonly. destruct (is_classic y); reflexivity.
    - apply map_ext. intros y. cbn. rewrite computed_classic. unfold error_name, readonly. destruct (is_classic y); reflexivity.
  Qed.

  Hypothesis DA : distinct_accessors fa.
  Hypothesis DF : distinct_functions fa.

  Lemma macros_distinct : NoDup (map m_name (DGNMast fa)).
  Proof. rewrite macro_names, <- accessors_names. exact DA. Qed.
  Lemma prefixed_distinct : forall p, NoDup (map (fun e => str p ++ function_name e) (accessible fa)).
  Proof. intros p. eapply NoDup_transfer; [exact DF|]. intros x y _ _ E. apply app_inv_head in E. exact E. Qed.
  Lemma functions_distinct : NoDup (map f_name (functions fa)).
  Proof. rewrite function_names. apply prefixed_distinct. Qed.
  Lemma errors_distinct : NoDup (map e_name (error_functions fa)).
  Proof. rewrite error_names. apply prefixed_distinct. Qed.

  Lemma found_macro : forall m, In m (DGNMast fa) -> find_macro fa (m_name m) = Some m.
  Proof. intros m I. unfold find_macro. apply find_by_name; [apply NoDup_rev_map, macros_distinct|]. apply in_rev. rewrite rev_involutive. exact I. Qed.
  Lemma found_function : forall f, In f (functions fa) -> find_function fa (f_name f) = Some f.
  Proof. intros f I. apply find_by_name; [apply functions_distinct|exact I]. Qed.
  Lemma found_error : forall f, In f (error_functions fa) -> find_error fa (e_name f) = Some f.
  Proof. intros f I. apply find_by_name; [apply errors_distinct|exact I]. Qed.

  (** The macro, function and error function of a member. *)
  Lemma child_parts : forall n c, In n (a_nodes fa) -> In c (nd_children n) ->
    find_macro fa (accessor (nd_name n) (ch_name c)) = Some (DGNMchild n c) /\
    find_function fa (m_function (DGNMchild n c)) = Some (DGNAFchild n c) /\
    find_error fa (f_error (DGNAFchild n c)) = Some (mk_error (f_error (DGNAFchild n c)) false).
  Proof.
    intros n c In_ Ic. split; [|split].
    - apply (found_macro (DGNMchild n c)). apply in_or_app. left. apply in_flat_map. exists n. split; [exact In_|].
      apply in_or_app. left. apply in_map, Ic.
    - apply (found_function (DGNAFchild n c)). apply in_or_app. left. apply in_flat_map. exists n. split; [exact In_|].
      apply in_or_app. left. apply in_map, Ic.
    - apply (found_error (mk_error (f_error (DGNAFchild n c)) false)). apply in_or_app. left. apply in_flat_map. exists n. split; [exact In_|].
      apply in_or_app. left. apply in_map_iff. exists c. auto.
  Qed.
  Lemma macro_attribute : forall x y, m_name (DGNMattribute x y) = accessor x (at_name y) /\
    m_star (DGNMattribute x y) = is_classic y /\ m_function (DGNMattribute x y) = access_name (readonly y) x (at_name y).
  Proof. intros x y. unfold DGNMattribute, readonly. destruct (is_classic y); auto. Qed.
  Lemma attribute_parts : forall n y, In n (a_nodes fa) -> In y (nd_attributes n) ->
    find_macro fa (accessor (nd_name n) (at_name y)) = Some (DGNMattribute (nd_name n) y) /\
    find_function fa (m_function (DGNMattribute (nd_name n) y)) = Some (DGNAFattribute n y) /\
    find_error fa (f_error (DGNAFattribute n y)) = Some (mk_error (f_error (DGNAFattribute n y)) (negb (is_classic y))).
  Proof.
    intros n y In_ Iy. destruct (macro_attribute (nd_name n) y) as (M1 & M2 & M3). split; [|split].
    - rewrite <- M1. apply found_macro. apply in_or_app. left. apply in_flat_map. exists n. split; [exact In_|].
      apply in_or_app. right. apply in_map, Iy.
    - rewrite M3. apply (found_function (DGNAFattribute n y)). apply in_or_app. left. apply in_flat_map. exists n. split; [exact In_|].
      apply in_or_app. right. apply in_map, Iy.
    - apply (found_error (mk_error (f_error (DGNAFattribute n y)) (negb (is_classic y)))). apply in_or_app. left. apply in_flat_map.
      exists n. split; [exact In_|]. apply in_or_app. right. apply in_map_iff. exists y. auto.
  Qed.
  Lemma set_parts : forall m y, In m (a_nodesets fa) -> In y (ns_attributes m) ->
    find_macro fa (accessor (ns_name m) (at_name y)) = Some (DGNMattribute (ns_name m) y) /\
    find_function fa (m_function (DGNMattribute (ns_name m) y)) = Some (DGNSAFattribute m y) /\
    find_error fa (f_error (DGNSAFattribute m y)) = Some (mk_error (f_error (DGNSAFattribute m y)) false).
  Proof.
    intros m y Im Iy. destruct (macro_attribute (ns_name m) y) as (M1 & M2 & M3). split; [|split].
    - rewrite <- M1. apply found_macro. apply in_or_app. right. apply in_flat_map. exists m. split; [exact Im|apply in_map, Iy].
    - rewrite M3. apply (found_function (DGNSAFattribute m y)). apply in_or_app. right. apply in_flat_map. exists m. split; [exact Im|apply in_map, Iy].
    - apply (found_error (mk_error (f_error (DGNSAFattribute m y)) false)). apply in_or_app. right. apply in_flat_map. exists m.
      split; [exact Im|]. apply in_map_iff. exists y. auto.
  Qed.

  (** ** Node accessors *)
  Section Nodes.
    Variables (debug debug_ast : bool).
    Variable h : nheap.

    Lemma cell_at : forall n p d ks fs, node_at h n p d ks fs -> exists c,
      read_cell p h = Val c /\ nodetype c = Some (ID_LWR (nd_name n)) /\ data_of c (ID_LWR (nd_name n)) h = Val (d, (ks, fs)).
    Proof.
      intros n p d ks fs ((c & Lp & T & D) & Ld). exists c. unfold read_cell. rewrite Lp. split; [reflexivity|]. split; [exact T|].
      unfold data_of. rewrite T, name_eqb_refl, D, Ld. reflexivity.
    Qed.
    Lemma type_ok : forall f c x flag, nodetype c = Some x -> check_type fa debug debug_ast f c x flag = Val tt.
    Proof. intros f c x flag T. unfold check_type. rewrite T, name_eqb_refl. destruct debug; reflexivity. Qed.

    Lemma call_child : forall n c p d ks fs v, node_at h n p d ks fs -> assoc (ID_LWR (ch_name c)) ks = Some v ->
      call_node fa debug debug_ast (DGNAFchild n c) p h = Val (Lvalue (Child_slot d (ID_LWR (ch_name c)))).
    Proof.
      intros n c p d ks fs v N A. destruct (cell_at _ _ _ _ _ N) as (e & R & T & D). unfold call_node. rewrite R. cbn [bind f_body DGNAFchild].
      rewrite (type_ok _ _ _ _ T). cbn [bind]. rewrite D. cbn [bind fst snd]. rewrite A. reflexivity.
    Qed.
    Lemma call_classic : forall n y p d ks fs v, node_at h n p d ks fs -> is_classic y = true ->
      assoc (ID_LWR (at_name y)) fs = Some (Classic v) ->
      call_node fa debug debug_ast (DGNAFattribute n y) p h = Val (Lvalue (Attribute_field d (ID_LWR (at_name y)))).
    Proof.
      intros n c p d ks fs v N K A. destruct (cell_at _ _ _ _ _ N) as (e & R & T & D). unfold call_node. rewrite R. cbn [bind f_body DGNAFattribute].
      rewrite K. rewrite (type_ok _ _ _ _ T). cbn [bind]. rewrite D. cbn [bind fst snd]. rewrite A. reflexivity.
    Qed.
    Lemma call_computed : forall n y p d ks fs b v, In n (a_nodes fa) -> In y (nd_attributes n) ->
      node_at h n p d ks fs -> is_classic y = false -> assoc (ID_LWR (at_name y)) fs = Some (Evaluated (Some b) v) ->
      call_node fa debug debug_ast (DGNAFattribute n y) p h =
      if debug && debug_ast && negb b then Aborted else let! w := written v in Val (Rvalue w).
    Proof.
      intros n y p d ks fs b v In_ Iy N K A. destruct (cell_at _ _ _ _ _ N) as (e & R & T & D).
      destruct (attribute_parts n y In_ Iy) as (_ & _ & E). unfold call_node. rewrite R. cbn [bind].
      replace (f_body (DGNAFattribute n y)) with (Value_of (ID_LWR (nd_name n)) (ID_LWR (at_name y))) by (cbn; rewrite K; reflexivity).
      rewrite (type_ok _ _ _ _ T). cbn [bind]. rewrite D. cbn [bind fst snd]. rewrite A.
      unfold call_error. rewrite E, K. cbn [e_flag negb Bool.eqb].
      destruct debug, debug_ast, b; reflexivity.
    Qed.
    (** ... on another node *)
    Lemma call_child_other : forall n c p e, In n (a_nodes fa) -> In c (nd_children n) -> lookup h p = Some (BNode e) ->
      nodetype e <> Some (ID_LWR (nd_name n)) ->
      call_node fa debug debug_ast (DGNAFchild n c) p h = if debug && debug_ast then Aborted else Undef.
    Proof.
      intros n c p e In_ Ic Lp T. destruct (child_parts n c In_ Ic) as (_ & _ & E). unfold call_node, read_cell. rewrite Lp. cbn [bind f_body DGNAFchild].
      assert (F : match nodetype e with Some t => name_eqb t (ID_LWR (nd_name n)) | None => false end = false).
      { destruct (nodetype e) as [t|]; [|reflexivity]. apply name_eqb_neq. congruence. }
      unfold check_type, data_of, call_error. rewrite F. cbn [f_error DGNAFchild] in *. rewrite E. cbn [e_flag Bool.eqb].
      destruct debug, debug_ast; reflexivity.
    Qed.
    Lemma call_attribute_other : forall n y p e, In n (a_nodes fa) -> In y (nd_attributes n) -> lookup h p = Some (BNode e) ->
      nodetype e <> Some (ID_LWR (nd_name n)) ->
      call_node fa debug debug_ast (DGNAFattribute n y) p h = if debug && debug_ast then Aborted else Undef.
    Proof.
      intros n y p e In_ Iy Lp T. destruct (attribute_parts n y In_ Iy) as (_ & _ & E). unfold call_node, read_cell. rewrite Lp. cbn [bind f_body DGNAFattribute].
      assert (F : match nodetype e with Some t => name_eqb t (ID_LWR (nd_name n)) | None => false end = false).
      { destruct (nodetype e) as [t|]; [|reflexivity]. apply name_eqb_neq. congruence. }
      destruct (is_classic y) eqn:K; cbn [negb] in E; unfold check_type, data_of, call_error; rewrite F; rewrite E;
        cbn [e_flag Bool.eqb]; destruct debug, debug_ast; reflexivity.
    Qed.

    Lemma use_node_child : forall n c p, In n (a_nodes fa) -> In c (nd_children n) ->
      use fa debug debug_ast (accessor (nd_name n) (ch_name c)) p h = call_node fa debug debug_ast (DGNAFchild n c) p h.
    Proof. intros n c p In_ Ic. destruct (child_parts n c In_ Ic) as (M & F & _). unfold use. rewrite M, F. reflexivity. Qed.
    Lemma attribute_body : forall n y, f_body (DGNAFattribute n y) =
      (if is_classic y then Field_of else Value_of) (ID_LWR (nd_name n)) (ID_LWR (at_name y)).
    Proof. reflexivity. Qed.
    Lemma use_node_attribute : forall n y p, In n (a_nodes fa) -> In y (nd_attributes n) ->
      use fa debug debug_ast (accessor (nd_name n) (at_name y)) p h = call_node fa debug debug_ast (DGNAFattribute n y) p h /\
      use_node fa debug debug_ast (accessor (nd_name n) (at_name y)) p h = call_node fa debug debug_ast (DGNAFattribute n y) p h.
    Proof.
      intros n y p In_ Iy. destruct (attribute_parts n y In_ Iy) as (M & F & _). destruct (macro_attribute (nd_name n) y) as (_ & S & _).
      unfold use, use_node. rewrite M, F, S. cbn [f_pointer DGNAFattribute]. rewrite Bool.eqb_reflx. split; [|reflexivity].
      unfold call. rewrite attribute_body. destruct (is_classic y); reflexivity.
    Qed.
  End Nodes.

  (** ** Nodeset accessors *)
  Lemma cases_are : forall y l, DGNSAFsetliteral y l = map (fun r => (ID_LWR r, upper_name r (at_name y))) (listed l).
  Proof. intros y. induction l as [|r l1 IH1 l2 IH2]; [reflexivity|]. cbn [DGNSAFsetliteral listed map]. rewrite map_app, IH1, IH2. reflexivity. Qed.
  Lemma case_found : forall y l t, In t (map ID_LWR (listed l)) -> exists r, In r (listed l) /\ ID_LWR r = t /\
    find (fun e => name_eqb (fst e) t) (DGNSAFsetliteral y l) = Some (t, upper_name r (at_name y)).
  Proof.
    intros y l t I. rewrite cases_are. induction (listed l) as [|r rs IH]; [destruct I|]. cbn [map find fst].
    destruct (list_eq_dec ascii_dec (ID_LWR r) t) as [E|E].
    - exists r. split; [left; reflexivity|]. split; [exact E|]. rewrite <- E, name_eqb_refl. reflexivity.
    - rewrite (name_eqb_neq _ _ E). destruct I as [I|I]; [congruence|]. destruct (IH I) as (r' & H1 & H2 & H3). exists r'. split; [right; exact H1|auto].
  Qed.
  Lemma case_missing : forall y l t, ~ In t (map ID_LWR (listed l)) ->
    find (fun e => name_eqb (fst e) t) (DGNSAFsetliteral y l) = None.
  Proof.
    intros y l t N. rewrite cases_are. induction (listed l) as [|r rs IH]; [reflexivity|]. cbn [map find fst].
    rewrite name_eqb_neq; [apply IH; intros I; apply N; right; exact I|]. intros E. apply N. left. exact E.
  Qed.

  Lemma accessor_id : forall x x' y y', same_id x x' -> same_id y y' -> accessor x y = accessor x' y'.
  Proof.
    intros x x' y y' E F. unfold accessor. apply (proj1 (case_classes _ _)) in E, F. rewrite E, F. reflexivity.
  Qed.

  Section Sets.
    Variables (debug debug_ast : bool).
    Variable h : nheap.

    (** On a member with this attribute the nodeset accessor is the accessor of
        the member. *)
    Lemma use_set_member : forall m y n z p e, In m (a_nodesets fa) -> In y (ns_attributes m) ->
      In n (a_nodes fa) -> In z (nd_attributes n) -> alike y z -> In (ID_LWR (nd_name n)) (map ID_LWR (listed (members m))) ->
      lookup h p = Some (BNode e) -> nodetype e = Some (ID_LWR (nd_name n)) ->
      use fa debug debug_ast (accessor (ns_name m) (at_name y)) p h = call_node fa debug debug_ast (DGNAFattribute n z) p h.
    Proof.
      intros m y n z p e Im Iy In_ Iz A M Lp T. destruct (set_parts m y Im Iy) as (Fm & Ff & _).
      destruct (macro_attribute (ns_name m) y) as (_ & S & _).
      unfold use. rewrite Fm, Ff, S. cbn [f_pointer DGNSAFattribute]. rewrite Bool.eqb_reflx. unfold call. cbn [f_body DGNSAFattribute f_pointer].
      unfold read_cell at 1. rewrite Lp. cbn [bind]. rewrite T.
      destruct (case_found y (members m) _ M) as (r & Ir & Er & F). rewrite F. cbn [snd].
      assert (En : upper_name r (at_name y) = accessor (nd_name n) (at_name z)).
      { change (upper_name r (at_name y)) with (accessor r (at_name y)). apply accessor_id; [exact Er|].
        destruct A as ((N & _) & _). symmetry. exact N. }
      rewrite En. destruct (use_node_attribute debug debug_ast h n z p In_ Iz) as (_ & ->).
      assert (K := alike_classic _ _ A).
      destruct (call_node fa debug debug_ast (DGNAFattribute n z) p h) as [r0| | | |] eqn:Ec; try reflexivity. cbn [bind].
      unfold call_node in Ec. unfold read_cell in Ec. rewrite Lp in Ec. cbn [bind] in Ec. rewrite attribute_body in Ec. rewrite <- K.
      destruct (is_classic z).
      - destruct (check_type _ _ _ _ _ _ _) as [u| | | |]; try discriminate. cbn [bind] in Ec.
        destruct (data_of _ _ _) as [q| | | |]; try discriminate. cbn [bind] in Ec.
        destruct (assoc _ _) as [[v|b v]|]; try discriminate. injection Ec as <-. reflexivity.
      - destruct (check_type _ _ _ _ _ _ _) as [u| | | |]; try discriminate. cbn [bind] in Ec.
        destruct (data_of _ _ _) as [q| | | |]; try discriminate. cbn [bind] in Ec.
        destruct (assoc _ _) as [[v|b v]|]; try discriminate.
        destruct (if debug then _ else _) as [u'| | | |]; try discriminate. cbn [bind] in Ec.
        destruct (written v) as [w| | | |]; try discriminate. injection Ec as <-. reflexivity.
    Qed.
    Lemma use_set_other : forall m y p e, In m (a_nodesets fa) -> In y (ns_attributes m) ->
      lookup h p = Some (BNode e) -> (forall t, nodetype e = Some t -> ~ In t (map ID_LWR (listed (members m)))) ->
      use fa debug debug_ast (accessor (ns_name m) (at_name y)) p h =
      if debug && debug_ast then Aborted
      else Val (if is_classic y then Lvalue At_null else Rvalue (zero (print_type y))).
    Proof.
      intros m y p e Im Iy Lp T. destruct (set_parts m y Im Iy) as (Fm & Ff & Fe).
      destruct (macro_attribute (ns_name m) y) as (_ & S & _).
      unfold use. rewrite Fm, Ff, S. cbn [f_pointer DGNSAFattribute]. rewrite Bool.eqb_reflx. unfold call. cbn [f_body DGNSAFattribute f_pointer f_error f_type].
      unfold read_cell. rewrite Lp. cbn [bind].
      assert (F : find (fun e0 => match nodetype e with Some t => name_eqb (fst e0) t | None => false end)
                    (DGNSAFsetliteral y (members m)) = None).
      { destruct (nodetype e) as [t|]; [apply case_missing, T; reflexivity|]. induction (DGNSAFsetliteral y (members m)); [reflexivity|assumption]. }
      rewrite F. unfold call_error. cbn [f_error DGNSAFattribute] in Fe. rewrite Fe. cbn [e_flag Bool.eqb].
      destruct debug, debug_ast; reflexivity.
    Qed.
  End Sets.
End Names.
