(** Proofs about propagateAttributes (C31). *)

From Coq Require Import List Ascii Bool Arith Lia.
From Verif Require Import Base.Outcome Palm.StrModel Palm.StrProof Front.Syntax
  Front.SymbolTableSpec Front.SymbolTableProof Front.SetsSpec Front.NodesetTableModel Front.NodesetTableProof
  Front.PropagateModel Front.PropagateSpec.
Import ListNotations.

Lemma STReq_iff : forall a b, STReq a b = true <-> a = b.
Proof.
  intros [a|] [b|]; cbn; try easy. rewrite strcmp_eq_iff. split; congruence.
Qed.

Lemma same_name_iff : forall a b, same_name a b = true <-> same_id a b.
Proof. intros a b. unfold same_name, same_id. apply STReq_lwr. Qed.

Lemma same_name_false : forall a b, same_name a b = false <-> ~ same_id a b.
Proof.
  intros a b. rewrite <- same_name_iff. destruct (same_name a b); split; try easy.
Qed.

Lemma type_eqb_iff : forall a b, attribute_type_eqb a b = true <-> a = b.
Proof. intros [] []; cbn; split; intros H; try reflexivity; discriminate. Qed.

Lemma compare_types_iff : forall a b, compare_attribute_types a b = true <-> same_type a b.
Proof.
  intros a b. unfold compare_attribute_types, same_type.
  destruct (attribute_type_eqb _ _) eqn:E.
  - apply type_eqb_iff in E.
    assert (X : forall P : Prop, (P -> at_type_reference a = at_type_reference b) ->
                (at_type a = at_type b /\ (P -> at_type_reference a = at_type_reference b))) by tauto.
    destruct (at_type a) eqn:Ea; cbn [In]; rewrite ?STReq_iff;
      (split; [intros H; split; [exact E|]; intros C; try exact H; exfalso;
               repeat (destruct C as [C|C]; [discriminate C|]); exact C
              |intros [_ H]; try reflexivity; apply H; tauto]).
  - split; [discriminate|]. intros [C _]. apply type_eqb_iff in C. congruence.
Qed.

Lemma is_classic_iff : forall x, is_classic x = true <-> classic x.
Proof.
  intros x. unfold is_classic, classic. destruct (at_is_inherited x), (at_is_synthesized x); cbn; easy.
Qed.

Lemma classic_exception_iff : forall x a,
  check_classic_exception x a = Some [] <-> may_redeclare x a.
Proof.
  intros x a. unfold check_classic_exception, may_redeclare.
  rewrite <- !is_classic_iff, <- compare_types_iff. unfold is_classic at 3.
  destruct (is_classic x); cbn [negb].
  2:{ split; [discriminate|]. intros (C & _). discriminate. }
  destruct (at_in_constructor a); cbn [negb].
  2:{ split; [discriminate|]. intros (_ & _ & C & _). discriminate. }
  destruct (at_is_inherited a), (at_is_synthesized a), (compare_attribute_types x a); cbn;
    split; try easy; intros (_ & C1 & _ & C2); discriminate.
Qed.

Lemma classic_exception_none : forall x a, check_classic_exception x a = None -> ~ classic x.
Proof.
  intros x a. unfold check_classic_exception. rewrite <- is_classic_iff.
  destruct (is_classic x); cbn; [discriminate|]. intros _ C. discriminate.
Qed.

(** * The existing attributes *)

Definition named (x : ident) (a : attribute) : Prop := same_id (at_name a) x.

Lemma existing_absent : forall b l x, (forall a, In a l -> ~ named (at_name x) a) ->
  check_existing_attributes b l x = ([], false).
Proof.
  intros b l x H. induction l as [|a l IH]; cbn [check_existing_attributes]; [reflexivity|].
  assert (E : same_name (at_name a) (at_name x) = false).
  { apply same_name_false. apply H. cbn; auto. }
  rewrite E. apply IH. intros c Hc. apply H. cbn; auto.
Qed.

Definition distinct (l : list attribute) : Prop := NoDup (map (fun x => ID_LWR (at_name x)) l).

Lemma distinct_cons : forall a l, distinct (a :: l) <->
  (forall c, In c l -> ~ same_id (at_name c) (at_name a)) /\ distinct l.
Proof.
  intros a l. unfold distinct. cbn [map]. split.
  - intros H. inversion H as [|? ? N1 N2]; subst. split; [|assumption]. intros c Hc E.
    apply N1. unfold same_id in E. rewrite <- E. now apply (in_map (fun x => ID_LWR (at_name x))).
  - intros [H1 H2]. constructor; [|assumption]. intros C. apply in_map_iff in C.
    destruct C as (c & E & Hc). now apply (H1 c Hc).
Qed.

(** In a list without duplicates there is at most one attribute of that name. *)
Lemma existing_present : forall b l x a, distinct l -> In a l -> named (at_name x) a ->
  check_existing_attributes b l x =
  match (if b then check_classic_exception x a else None) with
  | Some errs => (errs, true)
  | None => ([Redeclared (at_name a)], false)
  end.
Proof.
  intros b l x a D Ha Na. induction l as [|c l IH]; [easy|]. cbn [check_existing_attributes].
  apply distinct_cons in D. destruct D as [D1 D2]. destruct Ha as [->|Ha].
  - assert (E : same_name (at_name a) (at_name x) = true) by now apply same_name_iff.
    rewrite E. rewrite existing_absent.
    + cbn [fst snd]. destruct (if b then _ else _); [now rewrite app_nil_r|reflexivity].
    + intros d Hd Nd. apply (D1 d Hd). unfold named, same_id in *. congruence.
  - assert (E : same_name (at_name c) (at_name x) = false).
    { apply same_name_false. intros C. apply (D1 a Ha). unfold named, same_id in *. congruence. }
    rewrite E. now apply IH.
Qed.

Lemma existing_dec : forall l x,
  (exists a, In a l /\ named (at_name x) a) \/ (forall a, In a l -> ~ named (at_name x) a).
Proof.
  induction l as [|c l IH]; intros x; [right; easy|].
  destruct (same_name (at_name c) (at_name x)) eqn:E.
  - apply same_name_iff in E. left. exists c. cbn; auto.
  - apply same_name_false in E. destruct (IH x) as [(a & Ha & Na)|N].
    + left. exists a. cbn; auto.
    + right. intros a [<-|Ha]; auto.
Qed.

Lemma existing_child_nil : forall cs x,
  check_existing_child cs x = [] <-> forall c, In c cs -> ~ same_id (ch_name c) (at_name x).
Proof.
  intros cs x. unfold check_existing_child. split.
  - intros H c Hc C. apply map_eq_nil in H.
    assert (X : In c (filter (fun c => same_name (ch_name c) (at_name x)) cs)).
    { apply filter_In. split; [assumption|]. now apply same_name_iff. }
    now rewrite H in X.
  - intros H. induction cs as [|c cs IH]; [reflexivity|]. cbn [filter].
    assert (E : same_name (ch_name c) (at_name x) = false). { apply same_name_false. apply H. cbn; auto. }
    rewrite E. apply IH. intros d Hd. apply H. cbn; auto.
Qed.

(** * A sequence of attributes arriving at one node or nodeset *)

Definition final (cs : option (list child)) (l xs : list attribute) : list attribute :=
  fold_left (fun l x => fst (propagate_attribute cs l x)) xs l.

Fixpoint clean (cs : option (list child)) (l xs : list attribute) : Prop :=
  match xs with
  | [] => True
  | x :: xs => snd (propagate_attribute cs l x) = [] /\
               clean cs (fst (propagate_attribute cs l x)) xs
  end.

Lemma final_snoc : forall cs l xs x,
  final cs l (xs ++ [x]) = fst (propagate_attribute cs (final cs l xs) x).
Proof. intros. unfold final. now rewrite fold_left_app. Qed.

Lemma clean_snoc : forall cs xs l x,
  clean cs l (xs ++ [x]) <-> clean cs l xs /\ snd (propagate_attribute cs (final cs l xs) x) = [].
Proof.
  intros cs xs. induction xs as [|y xs IH]; intros l x; cbn [app clean].
  - unfold final. cbn. tauto.
  - rewrite IH. unfold final. cbn [fold_left]. tauto.
Qed.

Lemma copy_marked : forall x, copy_of x (mark_propagated x).
Proof. intros x. unfold copy_of. cbn. repeat split. Qed.

(** ** Nodesets *)

Lemma distinct_app_one : forall l x, distinct (l ++ [x]) <->
  distinct l /\ forall a, In a l -> ~ named (at_name x) a.
Proof.
  intros l x. assert (H := distinct_snoc (map at_name l) (at_name x)).
  unfold distinct_names in H. rewrite <- (map_app at_name l [x] : _ = _ ++ [_]) in H.
  rewrite !map_map in H. unfold distinct. rewrite H. split.
  - intros [H1 H2]. split; [assumption|]. intros a Ha C. apply H2. unfold named, same_id in C.
    rewrite <- C. now apply (in_map (fun x => ID_LWR (at_name x))).
  - intros [H1 H2]. split; [assumption|]. intros C. apply in_map_iff in C. destruct C as (a & E & Ha).
    now apply (H2 a Ha).
Qed.

Lemma nodeset_local : forall own xs, distinct own ->
  (clean None own xs <-> nodeset_agrees own xs) /\
  (clean None own xs -> final None own xs = rev (map mark_propagated xs) ++ own).
Proof.
  intros own xs D. induction xs as [|x xs IH] using rev_ind.
  - split; [|reflexivity]. cbn. unfold nodeset_agrees. rewrite app_nil_r. unfold distinct in D. tauto.
  - destruct IH as [IH1 IH2].
    assert (S : clean None own xs ->
      (snd (propagate_attribute None (final None own xs) x) = [] <->
       (forall a, In a (own ++ xs) -> ~ named (at_name x) a)) /\
      (snd (propagate_attribute None (final None own xs) x) = [] ->
       fst (propagate_attribute None (final None own xs) x) = mark_propagated x :: final None own xs)).
    { intros Hc. rewrite (IH2 Hc). set (L := rev (map mark_propagated xs) ++ own).
      assert (IN : forall P : ident -> Prop, (forall a, In a L -> P (at_name a)) <->
                   (forall a, In a (own ++ xs) -> P (at_name a))).
      { intros P. unfold L. split; intros H a Ha; apply in_app_iff in Ha.
        - destruct Ha as [Ha|Ha].
          + apply H. apply in_app_iff. auto.
          + change (P (at_name (mark_propagated a))). apply H. apply in_app_iff. left.
            apply -> in_rev. now apply in_map.
        - destruct Ha as [Ha|Ha].
          + apply in_rev in Ha. apply in_map_iff in Ha. destruct Ha as (b & <- & Hb).
            apply (H b). apply in_app_iff. auto.
          + apply H. apply in_app_iff. auto. }
      assert (K := IN (fun i => ~ same_id i (at_name x))).
      unfold propagate_attribute.
      destruct (existing_dec L x) as [(a & Ha & Na)|N].
      - assert (X : fst (check_existing_attributes false L x) <> []).
        { clear - Ha Na. induction L as [|c L IH]; [easy|]. cbn [check_existing_attributes].
          destruct (same_name (at_name c) (at_name x)) eqn:E; [discriminate|].
          destruct Ha as [->|Ha]; [|auto]. apply same_name_iff in Na. congruence. }
        assert (Y : snd (check_existing_attributes false L x) = false).
        { clear. induction L as [|c L IH]; [reflexivity|]. cbn [check_existing_attributes].
          destruct (same_name _ _); auto. }
        rewrite Y. cbn [fst snd]. rewrite app_nil_r. split; [|intros C; contradiction].
        split; [intros C; contradiction|]. intros C. exfalso. apply (proj2 K C a Ha Na).
      - rewrite existing_absent by assumption. cbn [fst snd app]. split; [|reflexivity].
        split; [|reflexivity]. intros _. now apply K. }
    rewrite clean_snoc, final_snoc. split.
    + unfold nodeset_agrees in *. rewrite app_assoc.
      assert (E := distinct_app_one (own ++ xs) x). unfold distinct in E. rewrite E.
      rewrite <- IH1. split; intros [H1 H2]; split; auto; now apply (S H1).
    + intros [H1 H2]. rewrite (proj2 (S H1) H2), (IH2 H1). rewrite map_app, rev_app_distr. reflexivity.
Qed.

(** ** Nodes *)

Lemma first_named_exists : forall l id a, In a l -> named id a -> exists o, first_named l id o.
Proof.
  induction l as [|c l IH]; intros id a H Na; [easy|].
  destruct (same_name (at_name c) id) eqn:E.
  - apply same_name_iff in E. exists c, [], l. cbn. repeat split; auto; easy.
  - apply same_name_false in E. destruct H as [->|H]; [contradiction|].
    destruct (IH id a H Na) as (o & l1 & l2 & -> & No & F).
    exists o, (c :: l1), l2. repeat split; auto. intros b [<-|Hb]; auto.
Qed.

Lemma first_named_app : forall l m id o, first_named l id o -> first_named (l ++ m) id o.
Proof.
  intros l m id o (l1 & l2 & -> & No & F). exists l1, (l2 ++ m). rewrite <- app_assoc.
  cbn. auto.
Qed.

Lemma first_named_fun : forall l id o p, first_named l id o -> first_named l id p -> o = p.
Proof.
  intros l id o p (l1 & l2 & -> & No & F) (m1 & m2 & E & Np & G).
  revert m1 E G. induction l1 as [|a l1 IH]; intros [|b m1] E G; cbn in E.
  - congruence.
  - exfalso. injection E as -> E. apply (G b (or_introl eq_refl)). exact No.
  - exfalso. injection E as -> E. apply (F p (or_introl eq_refl)). exact Np.
  - injection E as -> E. apply (IH (fun a H => F a (or_intror H)) m1); auto.
    intros c Hc. apply G. cbn; auto.
Qed.

Lemma first_named_in : forall l id o, first_named l id o -> In o l /\ named id o.
Proof.
  intros l id o (l1 & l2 & -> & No & F). split; [|exact No]. apply in_app_iff. cbn; auto.
Qed.

Lemma first_named_new : forall l x, (forall a, In a l -> ~ named (at_name x) a) ->
  first_named (l ++ [x]) (at_name x) x.
Proof. intros l x H. exists l, []. repeat split; auto. Qed.

Lemma first_named_snoc : forall l x id o, first_named (l ++ [x]) id o ->
  first_named l id o \/ (o = x /\ named id x /\ forall a, In a l -> ~ named id a).
Proof.
  intros l x id o H.
  destruct (existing_dec l (mk_attribute id AT_int None false false false false [])) as [(a & Ha & Na)|N].
  - left. destruct (first_named_exists l id a Ha Na) as [p Hp].
    rewrite (first_named_fun _ _ _ _ H (first_named_app _ [x] _ _ Hp)). exact Hp.
  - right. destruct H as (l1 & l2 & E & No & F).
    assert (I : In o (l ++ [x])) by (rewrite E; apply in_app_iff; cbn; auto).
    apply in_app_iff in I. destruct I as [I|[<-|[]]]; [exfalso; apply (N o I No)|auto].
Qed.

(** same fields, except perhaps the mark *)
Definition alike (o y : attribute) : Prop := y = o \/ copy_of o y.

Lemma alike_redeclare : forall x o y, alike o y -> (may_redeclare x y <-> may_redeclare x o).
Proof.
  intros x o y [->|(C1 & C2 & C3 & C4 & C5 & C6 & _)]; [tauto|].
  unfold may_redeclare, classic, same_type. now rewrite C2, C3, C4, C5, C6.
Qed.

Lemma alike_name : forall o y, alike o y -> at_name y = at_name o.
Proof. intros o y [->|(C & _)]; auto. Qed.

Record node_state (own xs L : list attribute) : Prop := {
  ns_distinct : distinct L;
  ns_own : forall o, In o own -> In o L;
  ns_reach : forall x, In x xs -> exists y, In y L /\ same_id (at_name y) (at_name x) /\
                                   (copy_of x y \/ may_redeclare x y);
  ns_only : forall y, In y L -> In y own \/ exists x, In x xs /\ copy_of x y;
  ns_first : forall id o, first_named (own ++ xs) id o -> exists y, In y L /\ alike o y;
  ns_back : forall y, In y L -> exists o, In o (own ++ xs) /\ same_id (at_name o) (at_name y) }.

Lemma node_local : forall cs own xs, distinct own ->
  (clean (Some cs) own xs <-> node_agrees cs own xs) /\
  (clean (Some cs) own xs -> node_state own xs (final (Some cs) own xs)).
Proof.
  intros cs own xs D. induction xs as [|x xs IH] using rev_ind.
  - split.
    + cbn. split; [|tauto]. intros _ before x after E. now destruct before.
    + intros _. unfold final. cbn. constructor; auto; try easy.
      * intros id o H. rewrite app_nil_r in H. apply first_named_in in H. exists o. split; [tauto|now left].
      * intros y Hy. rewrite app_nil_r. exists y. split; [assumption|reflexivity].
  - destruct IH as [IH1 IH2]. rewrite clean_snoc, final_snoc.
    set (L := final (Some cs) own xs) in *.
    assert (S : clean (Some cs) own xs ->
      (snd (propagate_attribute (Some cs) L x) = [] <->
       (forall o, first_named (own ++ xs) (at_name x) o -> may_redeclare x o) /\
       ((forall o, In o (own ++ xs) -> ~ same_id (at_name o) (at_name x)) ->
        forall c, In c cs -> ~ same_id (ch_name c) (at_name x))) /\
      (snd (propagate_attribute (Some cs) L x) = [] ->
       node_state own (xs ++ [x]) (fst (propagate_attribute (Some cs) L x)))).
    { intros Hc. destruct (IH2 Hc) as [Sd So Sr Sy Sf Sb]. unfold propagate_attribute.
      destruct (existing_dec (own ++ xs) x) as [(a & Ha & Na)|N].
      - (* the name is there *)
        destruct (first_named_exists _ _ _ Ha Na) as (o & Ho).
        destruct (Sf _ _ Ho) as (y & Hy & Ay).
        assert (Ny : named (at_name x) y).
        { apply first_named_in in Ho. destruct Ho as [_ No]. unfold named in *.
          now rewrite (alike_name _ _ Ay). }
        rewrite (existing_present true L x y Sd Hy Ny). cbn [fst snd].
        assert (M : check_classic_exception x y = Some [] <-> may_redeclare x o).
        { rewrite classic_exception_iff. now apply alike_redeclare. }
        assert (Q : ((forall o, first_named (own ++ xs) (at_name x) o -> may_redeclare x o) /\
           ((forall o, In o (own ++ xs) -> ~ same_id (at_name o) (at_name x)) ->
            forall c, In c cs -> ~ same_id (ch_name c) (at_name x))) <-> may_redeclare x o).
        { split; [intros [H _]; auto|]. intros H. split.
          - intros p Hp. now rewrite (first_named_fun _ _ _ _ Hp Ho).
          - intros C. exfalso. apply (C a Ha Na). }
        rewrite Q. clear Q.
        destruct (check_classic_exception x y) as [errs|] eqn:Ex; cbn [fst snd].
        + split.
          * rewrite <- M. split; congruence.
          * intros ->. assert (R : may_redeclare x o) by now apply M.
            constructor; auto.
            -- intros z Hz. apply in_app_iff in Hz. destruct Hz as [Hz|[<-|[]]]; auto.
               exists y. split; [assumption|]. split; [exact Ny|]. right.
               now apply (alike_redeclare x o y Ay).
            -- intros z Hz. destruct (Sy z Hz) as [H|(w & Hw & Cw)]; [auto|]. right.
               exists w. split; [apply in_app_iff; auto|assumption].
            -- intros id p Hp. rewrite app_assoc in Hp. apply first_named_snoc in Hp.
               destruct Hp as [Hp|(-> & Np & F)]; [eauto|]. exfalso. apply (F a Ha).
               unfold named, same_id in *. congruence.
            -- intros z Hz. destruct (Sb z Hz) as (w & Hw & Nw). exists w.
               rewrite app_assoc. split; [apply in_app_iff; auto|assumption].
        + split; [|discriminate]. split; [discriminate|]. intros H. apply M in H. discriminate.
      - (* a new name *)
        assert (NL : forall a, In a L -> ~ named (at_name x) a).
        { intros a Ha C. destruct (Sb a Ha) as (o & Ho & No). apply (N o Ho).
          unfold named, same_id in *. congruence. }
        rewrite (existing_absent true L x NL). cbn [fst snd app].
        rewrite existing_child_nil. split.
        + split.
          * intros H. split; [|auto]. intros o Ho. apply first_named_in in Ho. destruct Ho as [Ho No].
            exfalso. apply (N o Ho No).
          * intros [_ H]. apply H. exact N.
        + intros _. constructor.
          * apply distinct_cons. split; [|assumption]. intros c Hc'. cbn [at_name mark_propagated].
            apply NL. exact Hc'.
          * intros o Ho. right. auto.
          * intros z Hz. apply in_app_iff in Hz. destruct Hz as [Hz|[<-|[]]].
            -- destruct (Sr z Hz) as (y & Hy & G). exists y. split; [now right|assumption].
            -- exists (mark_propagated x). split; [now left|]. split; [reflexivity|]. left. apply copy_marked.
          * intros y [<-|Hy].
            -- right. exists x. split; [apply in_app_iff; cbn; auto|apply copy_marked].
            -- destruct (Sy y Hy) as [H|(w & Hw & Cw)]; [auto|]. right.
               exists w. split; [apply in_app_iff; auto|assumption].
          * intros id p Hp. rewrite app_assoc in Hp. apply first_named_snoc in Hp.
            destruct Hp as [Hp|(-> & Np & F)].
            -- destruct (Sf _ _ Hp) as (y & Hy & Ay). exists y. split; [now right|assumption].
            -- exists (mark_propagated x). split; [now left|]. right. apply copy_marked.
          * intros y [<-|Hy].
            -- exists x. split; [apply in_app_iff; right; apply in_app_iff; cbn; auto|reflexivity].
            -- destruct (Sb y Hy) as (w & Hw & Nw). exists w. rewrite app_assoc.
               split; [apply in_app_iff; auto|assumption]. }
    split.
    + split.
      * intros [H1 H2] before z after E.
        destruct after as [|w after] using rev_ind.
        -- apply app_inj_tail in E. destruct E as [<- <-]. now apply (S H1).
        -- clear IHafter. rewrite app_comm_cons, app_assoc in E. apply app_inj_tail in E.
           destruct E as [E _]. apply (proj1 IH1 H1 before z after E).
      * intros H. assert (Hc : clean (Some cs) own xs).
        { apply IH1. intros before z after E. apply (H before z (after ++ [x])).
          rewrite E, <- app_assoc. reflexivity. }
        split; [assumption|]. apply (S Hc). apply (H xs x []). reflexivity.
    + intros [H1 H2]. now apply (S H1).
Qed.
