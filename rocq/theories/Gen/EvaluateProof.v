(** Running visit functions on a tree (C44): if the functions follow a plan of
    evaluations and child visits, all attributes get the values that the
    equations define. *)

From Coq Require Import String.
From Coq Require Import List Ascii Bool Arith Lia.
From Verif Require Import Sched.ScheduleModel Base.Outcome Palm.StrModel Palm.StrProof Front.Syntax Front.PropagateModel Front.PropagateSpec Front.PropagateProof
  Front.ProductRulesModel Gen.EvalVariantsModel Gen.EvalVariantsSpec Gen.EvalVariantsProof Gen.EvalVariantsNames Gen.EvaluateModel Gen.EvaluateSpec.
Import ListNotations.
Local Open Scope list_scope.
Local Open Scope outcome_scope.

Lemma text_eqb_spec : forall x y, text_eqb x y = true <-> x = y.
Proof. intros x y. unfold text_eqb. rewrite STReq_iff. split; [intros [=]; assumption|congruence]. Qed.
Lemma text_eqb_refl : forall x, text_eqb x x = true.
Proof. intros x. apply text_eqb_spec. reflexivity. Qed.
Lemma path_eqb_spec : forall p q, path_eqb p q = true <-> p = q.
Proof. intros p q. unfold path_eqb. destruct (list_eq_dec Nat.eq_dec p q); intuition congruence. Qed.

(** The second path goes through the node of the first. *)
Definition below (p q : path) : Prop := exists r, q = p ++ r.
Lemma below_refl : forall p, below p p.
Proof. intros p. exists []. rewrite app_nil_r. reflexivity. Qed.
Lemma below_child : forall p c q, below (p ++ [c]) q -> below p q.
Proof. intros p c q (r & ->). exists (c :: r). rewrite <- app_assoc. reflexivity. Qed.
Lemma below_own : forall p c, ~ below (p ++ [c]) p.
Proof. intros p c (r & E). apply (f_equal (@length nat)) in E. rewrite !app_length in E. cbn [length] in E. lia. Qed.
Lemma below_siblings : forall p c d q, below (p ++ [c]) q -> below (p ++ [d]) q -> c = d.
Proof.
  intros p c d q (r & ->) (r' & E). rewrite <- !app_assoc in E. apply app_inv_head in E. cbn in E. congruence.
Qed.

Section Stores.
  Context {V : Type}.
  Implicit Types st : @store V.

  Lemma fetch_cons : forall st p a v q b, fetch (((p, a), v) :: st) q b = if path_eqb p q && text_eqb a b then Some v else fetch st q b.
  Proof. intros st p a v q b. unfold fetch. cbn [find fst snd]. destruct (path_eqb p q && text_eqb a b); reflexivity. Qed.
  Lemma fetch_same : forall st p a v, fetch (((p, a), v) :: st) p a = Some v.
  Proof. intros st p a v. rewrite fetch_cons, text_eqb_refl, (proj2 (path_eqb_spec p p) eq_refl). reflexivity. Qed.
  Lemma fetch_other : forall st p a v q b, (p, a) <> (q, b) -> fetch (((p, a), v) :: st) q b = fetch st q b.
  Proof.
    intros st p a v q b N. rewrite fetch_cons. destruct (path_eqb p q && text_eqb a b) eqn:E; [|reflexivity].
    apply andb_true_iff in E. destruct E as [E1 E2]. apply path_eqb_spec in E1. apply text_eqb_spec in E2. congruence.
  Qed.
  Lemma fetch_none : forall st p a, fetch st p a = None -> ~ In (p, a) (map fst st).
  Proof.
    intros st p a H I. apply in_map_iff in I. destruct I as ([l v] & E & I). cbn [fst] in E. subst l. unfold fetch in H.
    destruct (find _ st) eqn:F; [discriminate|]. apply (find_none _ _ F) in I. cbn [fst snd] in I.
    rewrite text_eqb_refl, (proj2 (path_eqb_spec p p) eq_refl) in I. discriminate.
  Qed.

  (** No attribute is stored twice. *)
  Definition once st : Prop := NoDup (map fst st).
  Definition extends st st' : Prop := forall q a v, fetch st q a = Some v -> fetch st' q a = Some v.
  Definition same_outside (p : path) st st' : Prop := forall q a, ~ below p q -> fetch st' q a = fetch st q a.
  Lemma extends_trans : forall st1 st2 st3, extends st1 st2 -> extends st2 st3 -> extends st1 st3.
  Proof. unfold extends. auto. Qed.
  Lemma outside_trans : forall p st1 st2 st3, same_outside p st1 st2 -> same_outside p st2 st3 -> same_outside p st1 st3.
  Proof. unfold same_outside. intros p st1 st2 st3 H1 H2 q a N. rewrite H2, H1 by exact N. reflexivity. Qed.
  Lemma store_once : forall st p a v, once st -> fetch st p a = None -> once (((p, a), v) :: st).
  Proof. intros st p a v O F. constructor; [apply fetch_none; exact F|exact O]. Qed.
  Lemma store_extends : forall st p a v, fetch st p a = None -> extends st (((p, a), v) :: st).
  Proof. intros st p a v F q b w H. rewrite fetch_other; [exact H|]. intros [=]. subst. congruence. Qed.
  Lemma store_outside : forall st p a v, same_outside p st (((p, a), v) :: st).
  Proof. intros st p a v q b N. apply fetch_other. intros [=]. subst. apply N, below_refl. Qed.

  Lemma lookup_same : forall (l : @values V) x v, lookup ((x, v) :: l) x = Val v.
  Proof. intros l x v. unfold lookup. cbn [find fst]. rewrite text_eqb_refl. reflexivity. Qed.
  Lemma lookup_other : forall (l : @values V) x v y, x <> y -> lookup ((x, v) :: l) y = lookup l y.
  Proof.
    intros l x v y N. unfold lookup. cbn [find fst]. destruct (text_eqb x y) eqn:E; [|reflexivity]. apply text_eqb_spec in E. contradiction.
  Qed.

  Lemma kid_height : forall (t : tree V) c u, nth_error (kids_of t) c = Some (Some u) -> height u < height t.
  Proof.
    intros [i f kids] c u H. cbn [kids_of] in H. cbn [height]. apply Nat.lt_succ_r. revert c H.
    induction kids as [|o kids IH]; intros c H; [destruct c; discriminate|]. destruct c as [|c]; cbn [nth_error] in H.
    - injection H as ->. apply Nat.le_max_l.
    - specialize (IH c H). etransitivity; [exact IH|apply Nat.le_max_r].
  Qed.
End Stores.

(** ** Plans

    What a visit does, by name: compute an attribute of the node ([None]) or of
    a child, or make visit [j] of a child. *)
Inductive naction := AEval (o : option nat) (a : cstring) | AVisit (c j : nat).

Section Plans.
  Context {V : Type}.
  Variable nodes : list inode.
  Variable sets : list inodeset.
  Variable attrs : pra.
  Variable member : nat -> nat -> Prop.
  Variable eval : cstring -> list V -> V.
  Variable functions : list (list function).
  Notation attributes := (attributes_of attrs).
  Notation may_be := (may_be nodes sets member).
  Notation well_typed := (well_typed nodes sets member).

  (** For each type the number of visits, the attributes each takes and
      delivers, and what it does. *)
  Variable nv : nat -> nat.
  Variable ins outs : nat -> nat -> list cstring.
  Variable plan : nat -> list (list naction).

  Definition local (n : inode) (o : option nat) (a : cstring) : cstring :=
    local_name (match o with None => text "this"%string | Some c => child_name n c end) a.
  Definition rule_for (n : inode) (e : equation) (o : option nat) (a : cstring) : Prop :=
    ID_LWR (ar_attribute (eq_rule e)) = a /\
    match o with
    | None => ar_inode (eq_rule e) = None
    | Some c => exists cn x, ar_inode (eq_rule e) = Some cn /\ nth_error (nd_children n) c = Some x /\ same_id (ch_name x) cn
    end.
  Definition computed (x : attribute) : Prop := at_is_inherited x = true \/ at_is_synthesized x = true.
  (** In visit [k] of a node of type [i], after the actions [done], the
      arguments of the equation can be read. *)
  Definition own_available (i k : nat) (done : list naction) (a : cstring) : Prop :=
    (exists j, j < S k /\ In a (ins i j)) \/ In (AEval None a) done.
  Definition arguments_available (i : nat) (n : inode) (k : nat) (done : list naction) (e : equation) : Prop :=
    forall r, In r (eq_args e) ->
    match ar_inode r with
    | None => exists x, In x (attributes (TNode i)) /\ same_id (at_name x) (ar_attribute r) /\
                (computed x -> own_available i k done (ID_LWR (ar_attribute r)))
    | Some cn => exists c, get_child 0 (nd_children n) cn = Some c /\ reads_child n r c /\
        forall m, may_be i c m -> exists x, In x (attributes (TNode m)) /\ same_id (at_name x) (ar_attribute r) /\
          (computed x -> exists j, In (AVisit c j) done /\ j < nv m /\ In (ID_LWR (ar_attribute r)) (outs m j))
    end.
  (** The statement calls the function for the children that are absent. *)
  Definition calls_right (n : inode) (l : list branch) (e : equation) : Prop :=
    exists children, optional_children n (eq_args e) children /\
      forall null, (forall c, null c = true -> optional n c) ->
      exists args, run null l = Val (variant_name n (eq_rule e) (names n (filter null children)), args) /\ readable n null (eq_args e) args.
  (** The call for a child of type [m]. *)
  Definition selected (b : visiting_code) (m : nat) : option (option call) :=
    match b with
    | Direct _ x => if m =? c_type x then Some (Some x) else None
    | Switch l => match find (fun e => fst e =? m) l with
                  | Some (_, Some x) => if m =? c_type x then Some (Some x) else None
                  | Some (_, None) => Some None
                  | None => None
                  end
    end.
  (** The statement does the action in visit [k], after [done], of which
      [before] in this visit. *)
  Definition follows (i : nat) (n : inode) (k : nat) (done before : list naction) (a : naction) (s : statement) : Prop :=
    match a with
    | AEval o b => exists l e, s = SEval (local n o b) l (match o with None => Some b | Some _ => None end) /\
        In e (nd_equations n) /\ rule_for n e o b /\ arguments_available i n k done e /\ calls_right n l e /\
        (forall o' b', In (AEval o' b') before -> local n o' b' <> local n o b) /\
        (o = None -> ~ own_available i k done b)
    | AVisit c j => exists optional_ d body, s = SVisit c optional_ d body /\ c < length (nd_children n) /\ (optional n c -> optional_ = true) /\
        (forall j', In (AVisit c j') done <-> j' < j) /\
        forall m, may_be i c m ->
          if j <? nv m then
            exists x, selected body m = Some (Some x) /\ c_index x = j /\ c_args x = map (local n (Some c)) (ins m j) /\
              (forall b, In b (ins m j) -> In (AEval (Some c) b) before) /\
              (forall r, In r (c_results x) -> (exists b, In b (outs m j) /\ snd r = this_local b) /\
                 forall o' b', In (AEval o' b') before -> local n o' b' <> fst r)
          else selected body m = Some None
    end.

  Record follows_plan : Prop := {
    fp_names : forall i, NoDup (map (fun x => ID_LWR (at_name x)) (attributes (TNode i)));
    fp_children : forall n, In n nodes -> NoDup (map (fun c => ID_LWR (ch_name c)) (nd_children n));
    fp_length : forall i n, nth_error nodes i = Some n -> length (plan i) = nv i;
    fp_functions : forall i n, nth_error nodes i = Some n -> exists fs, nth_error functions i = Some fs /\ length fs = nv i /\
      forall k acts, nth_error (plan i) k = Some acts -> exists f, nth_error fs k = Some f /\ f_params f = ins i k /\ f_returns f = outs i k /\
        length (f_body f) = length acts /\
        forall before a after b1 s b2, acts = before ++ a :: after -> f_body f = b1 ++ s :: b2 -> length b1 = length before ->
          follows i n k (concat (firstn k (plan i)) ++ before) before a s;
    fp_inputs : forall i n k a, nth_error nodes i = Some n -> In a (ins i k) -> ~ In (AEval None a) (concat (plan i)) /\
      forall j, In a (ins i j) -> j = k;
    fp_inputs_once : forall i k, NoDup (ins i k);
    fp_outputs : forall i n k acts b, nth_error nodes i = Some n -> nth_error (plan i) k = Some acts -> In b (outs i k) -> In (AEval None b) acts;
    fp_synthesized : forall i n x, nth_error nodes i = Some n -> In x (attributes (TNode i)) -> at_is_synthesized x = true ->
      exists k, k < nv i /\ In (ID_LWR (at_name x)) (outs i k);
    fp_inherited : forall i n x, nth_error nodes i = Some n -> In x (attributes (TNode i)) -> at_is_inherited x = true ->
      exists k, k < nv i /\ In (ID_LWR (at_name x)) (ins i k);
    fp_complete : forall i n c m j, nth_error nodes i = Some n -> 0 < nv i -> may_be i c m -> j < nv m -> In (AVisit c j) (concat (plan i));
    fp_visited : forall i c m, may_be i c m -> 0 < nv m -> 0 < nv i }.
  Hypothesis F : follows_plan.

  (** ** The state of a tree after some visits *)

  Notation defines := (fun st => defines attributes eval (fetch st)).
  Definition done_in (i k : nat) : list naction := concat (firstn k (plan i)).

  Lemma has_value_mono : forall st st' p (t : tree V) a v, (forall w, fetch st p (ID_LWR a) = Some w -> fetch st' p (ID_LWR a) = Some w) ->
    has_value attributes (fetch st) p t a v -> has_value attributes (fetch st') p t a v.
  Proof.
    intros st st' p t a v H (x & I & S & [(C & E)|(C1 & C2 & E)]); exists x; (split; [exact I|split; [exact S|]]); [left|right]; auto.
  Qed.
  Lemma defines_mono : forall st st' n p (t : tree V) e v,
    (forall q a w, q = p \/ (exists c u, nth_error (kids_of t) c = Some (Some u) /\ q = p ++ [c]) -> fetch st q a = Some w -> fetch st' q a = Some w) ->
    defines st n p t e v -> defines st' n p t e v.
  Proof.
    intros st st' n p t e v H (children & args & vs & D1 & D2 & D3 & D4). exists children, args, vs. split; [exact D1|]. split; [exact D2|]. split; [|exact D4].
    clear D2 D4. induction D3 as [|r v' args vs Hr _ IH]; constructor; [|exact IH]. clear IH.
    destruct Hr as [(E & Hr)|(c & u & Rc & Ku & Hr)].
    - left. split; [exact E|]. apply (has_value_mono st); [|exact Hr]. intros w. apply H. left. reflexivity.
    - right. exists c, u. split; [exact Rc|]. split; [exact Ku|]. apply (has_value_mono st); [|exact Hr]. intros w. apply H. right. eauto.
  Qed.

  (** After the inputs of [k] visits and the actions [done]: exactly these
      attributes of the node are stored, with the right values, and the
      children have been visited so far. *)
  Inductive state (st : @store V) : path -> tree V -> nat -> list naction -> Prop :=
  | state_node : forall p i fs kids n k done rc,
      nth_error nodes i = Some n ->
      (forall a, fetch st p a <> None <-> (exists j, j < k /\ In a (ins i j)) \/ In (AEval None a) done) ->
      (forall a, In (AEval None a) done -> exists e v, In e (nd_equations n) /\ rule_for n e None a /\ fetch st p a = Some v /\
         defines st n p (Node i fs kids) e v) ->
      (forall c u a v, nth_error kids c = Some (Some u) -> (exists j, In a (ins (type_of u) j)) -> fetch st (p ++ [c]) a = Some v ->
         exists e, In e (nd_equations n) /\ rule_for n e (Some c) a /\ defines st n p (Node i fs kids) e v) ->
      (forall c u, nth_error kids c = Some (Some u) -> rc c <= nv (type_of u) /\
         forall j, j < nv (type_of u) -> (In (AVisit c j) done <-> j < rc c)) ->
      (forall c u, nth_error kids c = Some (Some u) -> state st (p ++ [c]) u (rc c) (done_in (type_of u) (rc c))) ->
      state st p (Node i fs kids) k done.

  (** It depends only on what is below the node. *)
  Lemma state_frame : forall st p t k done, state st p t k done ->
    forall st', (forall q a, below p q -> fetch st' q a = fetch st q a) -> state st' p t k done.
  Proof.
    intros st p t k done H. induction H as [p i fs kids n k done rc Hn Own Right Inh Rc Kids IH]. intros st' E.
    assert (E0 : forall a, fetch st' p a = fetch st p a) by (intros a; apply E, below_refl).
    assert (E1 : forall c a, fetch st' (p ++ [c]) a = fetch st (p ++ [c]) a) by (intros c a; apply E; exists [c]; reflexivity).
    assert (M : forall e v, defines st n p (Node i fs kids) e v -> defines st' n p (Node i fs kids) e v).
    { intros e v. apply defines_mono. intros q a w [->|(c & u & _ & ->)] H; [rewrite E0|rewrite E1]; exact H. }
    apply state_node with n rc; [exact Hn| | | |exact Rc|].
    - intros a. rewrite E0. apply Own.
    - intros a I. destruct (Right a I) as (e & v & H1 & H2 & H3 & H4). exists e, v. rewrite E0. auto.
    - intros c u a v Ku Ia Fa. rewrite E1 in Fa. destruct (Inh c u a v Ku Ia Fa) as (e & H1 & H2 & H3). exists e. auto.
    - intros c u Ku. apply (IH c u Ku). intros q a Bq. apply E. exact (below_child _ _ _ Bq).
  Qed.

  (** At the start nothing is stored. *)
  Lemma state_start : forall (t : tree V), well_typed t -> forall p st, (forall q a, below p q -> fetch st q a = None) -> state st p t 0 [].
  Proof.
    intros t W. induction W as [i n fs kids Hn _ _ _ _ IH]. intros p st E. apply state_node with n (fun _ => 0); [exact Hn| | | | |].
    - intros a. rewrite E by apply below_refl. split; [congruence|]. intros [(j & L & _)|[]]. lia.
    - intros a [].
    - intros c u a v _ _ H. rewrite E in H by (exists [c]; reflexivity). discriminate.
    - intros c u _. split; [lia|]. intros j _. split; [intros []|lia].
    - intros c u Ku. unfold done_in. cbn [firstn concat]. apply (IH c u Ku). intros q a Bq. apply E. exact (below_child _ _ _ Bq).
  Qed.

  (** ** Reading *)

  Lemma find_attribute : forall i x a, In x (attributes (TNode i)) -> same_id (at_name x) a ->
    find (fun y => text_eqb (ID_LWR (at_name y)) (ID_LWR a)) (attributes (TNode i)) = Some x.
  Proof.
    intros i x a I S. destruct (find _ _) as [y|] eqn:E.
    - apply find_some in E. destruct E as [Iy E]. apply text_eqb_spec in E. f_equal. unfold same_id in S.
      apply (NoDup_map_eq _ _ y x (fp_names F i) Iy I). congruence.
    - exfalso. apply (find_none _ _ E) in I. unfold same_id in S. rewrite S, text_eqb_refl in I. discriminate.
  Qed.
  Lemma access_right : forall st p (t : tree V) a x, In x (attributes (TNode (type_of t))) -> same_id (at_name x) a ->
    (computed x -> fetch st p (ID_LWR a) <> None) ->
    exists v, access attrs st p t (ID_LWR a) = Val v /\ has_value attributes (fetch st) p t a v.
  Proof.
    intros st p t a x I S C. unfold access. rewrite (find_attribute _ x a I S).
    destruct (at_is_inherited x || at_is_synthesized x) eqn:E.
    - apply orb_true_iff in E. destruct (fetch st p (ID_LWR a)) as [v|] eqn:Fv; [|exfalso; apply C; [exact E|reflexivity]].
      exists v. split; [reflexivity|]. exists x. split; [exact I|]. split; [exact S|]. left. split; [exact E|exact Fv].
    - apply orb_false_iff in E. exists (fields_of t (ID_LWR a)). split; [reflexivity|]. exists x. split; [exact I|]. split; [exact S|]. right.
      destruct E as [E1 E2]. split; [exact E1|]. split; [exact E2|reflexivity].
  Qed.

  Lemma firstn_in : forall (X : Type) (l : list (list X)) j r x acts, nth_error l j = Some acts -> In x acts -> j < r -> In x (concat (firstn r l)).
  Proof.
    intros X l j r x acts H I L. apply in_concat. exists acts. split; [|exact I]. revert j r H L.
    induction l as [|y l IH]; intros j r H L; [destruct j; discriminate|]. destruct r as [|r]; [lia|]. cbn [firstn].
    destruct j as [|j]; cbn [nth_error] in H; [injection H as ->; left; reflexivity|]. right. apply (IH j r H). lia.
  Qed.
  Lemma outputs_stored : forall st p (u : tree V) r, state st p u r (done_in (type_of u) r) ->
    forall j b, j < r -> j < nv (type_of u) -> In b (outs (type_of u) j) -> fetch st p b <> None.
  Proof.
    intros st p u r H j b L Lv I. inversion H as [p' i fs kids n k done rc Hn Own Right Inh Rc Kids]; subst. cbn [type_of] in *.
    apply Own. right. destruct (nth_error (plan i) j) as [acts|] eqn:E.
    - apply (firstn_in _ _ j r _ acts E); [|exact L]. exact (fp_outputs F i n j acts b Hn E I).
    - apply nth_error_None in E. rewrite (fp_length F i n Hn) in E. lia.
  Qed.

  (** ** The statements of a visit *)

  Section Node.
    Variable p : path.
    Variable i : nat.
    Variable fs : cstring -> V.
    Variable kids : list (option (tree V)).
    Notation t := (Node i fs kids).
    Variable n : inode.
    Hypothesis Hn : nth_error nodes i = Some n.
    Hypothesis W : well_typed t.

    Lemma kids_length : length kids = length (nd_children n).
    Proof. inversion W as [i' n' fs' kids' Hn' L _ _ _]; subst. rewrite Hn in Hn'. injection Hn' as <-. exact L. Qed.
    Lemma kid_absent : forall c, nth_error kids c = Some None -> optional n c.
    Proof. inversion W as [i' n' fs' kids' Hn' _ H _ _]; subst. rewrite Hn in Hn'. injection Hn' as <-. exact H. Qed.
    Lemma kid_type : forall c u, nth_error kids c = Some (Some u) -> may_be i c (type_of u).
    Proof. inversion W as [i' n' fs' kids' Hn' _ _ H _]; subst. exact H. Qed.
    Lemma kid_typed : forall c u, nth_error kids c = Some (Some u) -> well_typed u.
    Proof. inversion W as [i' n' fs' kids' Hn' _ _ _ H]; subst. exact H. Qed.

    (** The arguments that are read. *)
    Lemma argument_right : forall st k done e, state st p t (S k) done -> arguments_available i n k done e ->
      forall r, In r (eq_args e) -> (forall c, reads_child n r c -> is_absent t c = false) ->
      exists v, read_argument attrs n p t st r = Val v /\ argument_value attributes (fetch st) n p t r v.
    Proof.
      intros st k done e H A r Ir Pres. specialize (A r Ir). inversion H as [p' i' fs' kids' n' k' done' rc Hn' Own Right Inh Rc Kids]; subst.
      unfold read_argument. destruct (ar_inode r) as [cn|] eqn:Er.
      - destruct A as (c & G & Rd & A). rewrite G. specialize (Pres c Rd). unfold is_absent in Pres. cbn [kids_of] in *.
        destruct (nth_error kids c) as [[u|]|] eqn:Ku; [|discriminate|].
        + destruct (A _ (kid_type c u Ku)) as (x & Ix & Sx & Av).
          destruct (access_right st (p ++ [c]) u (ar_attribute r) x Ix Sx) as (v & E & Hv).
          { intros C. destruct (Av C) as (j & Ij & L & Io). destruct (Rc c u Ku) as (_ & Rj).
            apply (outputs_stored st (p ++ [c]) u (rc c) (Kids c u Ku) j); [|exact L|exact Io]. exact (proj1 (Rj j L) Ij). }
          exists v. split; [exact E|]. right. exists c, u. split; [exact Rd|]. split; [exact Ku|exact Hv].
        + exfalso. destruct Rd as (name & x & _ & Hx & _). apply nth_error_None in Ku. rewrite kids_length in Ku.
          assert (c < length (nd_children n)) by (apply nth_error_Some; congruence). lia.
      - destruct A as (x & Ix & Sx & Av). destruct (access_right st p t (ar_attribute r) x Ix Sx) as (v & E & Hv).
        { intros C. apply Own. exact (Av C). }
        exists v. split; [exact E|]. left. split; [exact Er|exact Hv].
    Qed.

    Lemma readable_in : forall null args l, readable n null args l ->
      forall r, In r l -> In r args /\ forall c, reads_child n r c -> null c = false.
    Proof.
      intros null args l H. induction H as [|r c args l R N H IH|r args l K H IH]; intros r' I.
      - destruct I.
      - destruct (IH r' I) as [I1 I2]. split; [right; exact I1|exact I2].
      - destruct I as [<-|I]; [split; [left; reflexivity|exact K]|]. destruct (IH r' I) as [I1 I2]. split; [right; exact I1|exact I2].
    Qed.
    Lemma evaluation_right : forall st k done l e, state st p t (S k) done -> arguments_available i n k done e -> calls_right n l e ->
      exists c vs, run (is_absent t) l = Val c /\ all (read_argument attrs n p t st) (snd c) = Val vs /\ defines st n p t e (eval (fst c) vs).
    Proof.
      intros st k done l e H A (children & O & C). destruct (C (is_absent t)) as (args & R & Rd).
      { intros c Hc. unfold is_absent in Hc. cbn [kids_of] in Hc. destruct (nth_error kids c) as [[u|]|] eqn:K; try discriminate. exact (kid_absent c K). }
      assert (X : exists vs, all (read_argument attrs n p t st) args = Val vs /\ Forall2 (argument_value attributes (fetch st) n p t) args vs).
      { assert (Q := readable_in _ _ _ Rd). clear R Rd. induction args as [|r args IH]; [exists []; split; [reflexivity|constructor]|].
        destruct (argument_right st k done e H A r) as (v & E & Hv); [apply Q; left; reflexivity|apply Q; left; reflexivity|].
        destruct IH as (vs & E' & Hvs); [intros r' I; apply Q; right; exact I|]. exists (v :: vs). cbn [all]. rewrite E. cbn [bind]. rewrite E'.
        split; [reflexivity|constructor; assumption]. }
      destruct X as (vs & E & Hvs). exists (variant_name n (eq_rule e) (names n (filter (is_absent t) children)), args), vs.
      split; [exact R|]. split; [exact E|]. cbn [fst]. exists children, args, vs. split; [exact O|]. split; [exact Rd|]. split; [exact Hvs|reflexivity].
    Qed.

    Lemma state_done : forall st k done done', state st p t k done ->
      (forall a, In (AEval None a) done' <-> In (AEval None a) done) -> (forall c j, In (AVisit c j) done' <-> In (AVisit c j) done) ->
      state st p t k done'.
    Proof.
      intros st k done done' H E1 E2. inversion H as [p' i' fs' kids' n' k' done0 rc Hn' Own Right Inh Rc Kids]; subst.
      apply state_node with n' rc; [exact Hn'| | |exact Inh| |exact Kids].
      - intros a. rewrite E1. apply Own.
      - intros a I. apply Right, E1, I.
      - intros c u Ku. destruct (Rc c u Ku) as [L Rj]. split; [exact L|]. intros j Lj. rewrite E2. apply Rj, Lj.
    Qed.

    (** What a visit of a node does. *)
    Definition visit_result (st st' : @store V) (q : path) (u : tree V) (j : nat) (args : list V) (l : @values V) : Prop :=
      once st' /\ state st' q u (S j) (done_in (type_of u) (S j)) /\ same_outside q st st' /\ extends st st' /\
      Forall2 (fun a v => fetch st' q a = Some v) (ins (type_of u) j) args /\
      forall b, In b (outs (type_of u) j) -> exists v, lookup l (this_local b) = Val v.

    Variable vf : @store V -> path -> tree V -> nat -> list V -> outcome (@store V * @values V).
    Hypothesis VF : forall c u st j args, nth_error kids c = Some (Some u) -> once st -> j < nv (type_of u) ->
      state st (p ++ [c]) u j (done_in (type_of u) j) -> length args = length (ins (type_of u) j) ->
      exists st' l, vf st (p ++ [c]) u j args = Val (st', l) /\ visit_result st st' (p ++ [c]) u j args l.

    (** The local variables. *)
    Definition variables (st : @store V) (before : list naction) (env : @values V) : Prop :=
      forall o a, In (AEval o a) before -> exists v, lookup env (local n o a) = Val v /\
        match o with
        | None => True
        | Some c => exists e, In e (nd_equations n) /\ rule_for n e (Some c) a /\ defines st n p t e v
        end.
    Lemma variables_mono : forall st st' before env, extends st st' -> variables st before env -> variables st' before env.
    Proof.
      intros st st' before env X H o a I. destruct (H o a I) as (v & L & Q). exists v. split; [exact L|]. destruct o as [c|]; [|exact Q].
      destruct Q as (e & Q1 & Q2 & Q3). exists e. split; [exact Q1|]. split; [exact Q2|]. apply (defines_mono st); [|exact Q3].
      intros q b w _. apply X.
    Qed.
    Lemma assign_right : forall results (returned env : @values V), (forall r, In r results -> exists v, lookup returned (snd r) = Val v) ->
      exists env', assign results returned env = Val env' /\
        forall x, (forall r, In r results -> x <> fst r) -> lookup env' x = lookup env x.
    Proof.
      induction results as [|[x f] results IH]; intros returned env H; cbn [assign]; [eauto|].
      destruct (H (x, f) (or_introl eq_refl)) as (v & E). cbn [snd] in E. rewrite E. cbn [bind].
      destruct (IH returned ((x, v) :: env)) as (env' & E' & L); [intros r I; apply H; right; exact I|].
      exists env'. split; [exact E'|]. intros y Ny. rewrite L by (intros r I; apply Ny; right; exact I).
      apply lookup_other. intros ->. apply (Ny (y, f) (or_introl eq_refl)). reflexivity.
    Qed.

    Definition progress (st st' : @store V) (k : nat) (done before : list naction) (a : naction) (env' : @values V) : Prop :=
      once st' /\ state st' p t (S k) (done ++ [a]) /\ variables st' (before ++ [a]) env' /\ same_outside p st st' /\ extends st st'.

    Lemma eval_right : forall st k done before env o b s, once st -> state st p t (S k) done -> variables st before env ->
      follows i n k done before (AEval o b) s ->
      exists st' env', run_statement attrs eval n p t vf st env s = Val (st', env') /\ progress st st' k done before (AEval o b) env'.
    Proof.
      intros st k done before env o b s O H Vars (l & e & -> & Ie & Re & Av & Cr & Fr & Un).
      destruct (evaluation_right st k done l e H Av Cr) as (c & vs & R & A & D).
      cbn [run_statement]. rewrite R. cbn [bind]. rewrite A. cbn [bind]. do 2 eexists. split; [reflexivity|].
      set (v := eval (fst c) vs) in *.
      assert (Vars' : forall st', extends st st' -> variables st' (before ++ [AEval o b]) ((local n o b, v) :: env)).
      { intros st' X o' b' I. apply in_app_iff in I. destruct I as [I|[[= <- <-]|[]]].
        - destruct (variables_mono st st' before env X Vars o' b' I) as (w & L & Q). exists w. split; [|exact Q].
          rewrite lookup_other; [exact L|]. intros E. exact (Fr o' b' I (eq_sym E)).
        - exists v. split; [apply lookup_same|]. destruct o as [c'|]; [|exact Logic.I]. exists e. split; [exact Ie|]. split; [exact Re|].
          apply (defines_mono st); [intros q a w _; apply X|exact D]. }
      destruct o as [c'|].
      - split; [exact O|]. split; [|split; [apply Vars'; unfold extends; auto|split; [intros q a _; reflexivity|unfold extends; auto]]].
        apply state_done with done; [exact H| |].
        + intros a. rewrite in_app_iff. split; [intros [Q|[[=]|[]]]; exact Q|auto].
        + intros a j. rewrite in_app_iff. split; [intros [Q|[[=]|[]]]; exact Q|auto].
      - specialize (Un eq_refl). inversion H as [p' i' fs' kids' n' k' done' rc Hn' Own Right Inh Rc Kids]; subst. rewrite Hn in Hn'. injection Hn' as <-.
        assert (Fb : fetch st p b = None).
        { destruct (fetch st p b) as [w|] eqn:E; [exfalso|reflexivity]. apply Un. apply Own. congruence. }
        assert (X : extends st (((p, b), v) :: st)) by (apply store_extends; exact Fb).
        split; [apply store_once; assumption|]. split; [|split; [apply Vars'; exact X|split; [apply store_outside|exact X]]].
        assert (Kf : forall q a, q <> p -> fetch (((p, b), v) :: st) q a = fetch st q a).
        { intros q a Nq. apply fetch_other. congruence. }
        assert (Pc : forall c1, p ++ [c1] <> p).
        { intros c1 E. apply (f_equal (@length nat)) in E. rewrite app_length in E. cbn [length] in E. lia. }
        apply state_node with n rc; [exact Hn| | | | |].
        + intros a. rewrite in_app_iff. destruct (list_eq_dec ascii_dec a b) as [->|Na].
          * rewrite fetch_same. split; [intros _; right; right; left; reflexivity|discriminate].
          * rewrite fetch_other by congruence. rewrite Own. split; [intros [Q|Q]; auto|]. intros [Q|[Q|[Q|[]]]]; auto. congruence.
        + intros a I. apply in_app_iff in I. destruct I as [I|[[= <-]|[]]].
          * destruct (Right a I) as (e' & v' & Q1 & Q2 & Q3 & Q4). exists e', v'. split; [exact Q1|]. split; [exact Q2|]. split; [apply X; exact Q3|].
            apply (defines_mono st); [intros q b' w _; apply X|exact Q4].
          * exists e, v. split; [exact Ie|]. split; [exact Re|]. split; [apply fetch_same|].
            apply (defines_mono st); [intros q b' w _; apply X|exact D].
        + intros c1 u a w Ku Ia Fa. rewrite Kf in Fa by apply Pc. destruct (Inh c1 u a w Ku Ia Fa) as (e' & Q1 & Q2 & Q3).
          exists e'. split; [exact Q1|]. split; [exact Q2|]. apply (defines_mono st); [intros q b' w' _; apply X|exact Q3].
        + intros c1 u Ku. destruct (Rc c1 u Ku) as [L Rj]. split; [exact L|]. intros j Lj. rewrite in_app_iff, <- (Rj j Lj).
          split; [intros [Q|[[=]|[]]]; exact Q|auto].
        + intros c1 u Ku. apply (state_frame st); [exact (Kids c1 u Ku)|]. intros q a Bq. apply Kf. intros ->. exact (below_own _ _ Bq).
    Qed.

    Lemma args_found : forall st before env c l, variables st before env -> (forall b, In b l -> In (AEval (Some c) b) before) ->
      exists vs, all (lookup env) (map (local n (Some c)) l) = Val vs /\
        Forall2 (fun b v => exists e, In e (nd_equations n) /\ rule_for n e (Some c) b /\ defines st n p t e v) l vs.
    Proof.
      intros st before env c l Vars H. induction l as [|b l IH]; [exists []; split; [reflexivity|constructor]|].
      destruct (Vars _ _ (H b (or_introl eq_refl))) as (v & L & Q). destruct IH as (vs & E & Hvs); [intros b' I; apply H; right; exact I|].
      exists (v :: vs). cbn [map all]. rewrite L. cbn [bind]. rewrite E. split; [reflexivity|constructor; assumption].
    Qed.
    Lemma Forall2_at : forall {X Y} (P Q : X -> Y -> Prop) l1 l2, Forall2 P l1 l2 -> Forall2 Q l1 l2 -> forall x, In x l1 -> exists y, P x y /\ Q x y.
    Proof.
      intros X Y P Q l1 l2 H. induction H as [|x y l1 l2 Pxy H IH]; intros H2 z I; [destruct I|]. inversion H2; subst.
      destruct I as [<-|I]; [eauto|]. apply IH; assumption.
    Qed.

    Lemma visit_right : forall st k done before env c j s, once st -> state st p t (S k) done -> variables st before env ->
      follows i n k done before (AVisit c j) s ->
      exists st' env', run_statement attrs eval n p t vf st env s = Val (st', env') /\ progress st st' k done before (AVisit c j) env'.
    Proof.
      intros st k done before env c j s O H Vars (optional_ & d & body & -> & Lc & Op & Dj & Call).
      inversion H as [p' i' fs' kids' n' k' done' rc Hn' Own Right Inh Rc Kids]; subst. rewrite Hn in Hn'. injection Hn' as <-.
      assert (Vars' : forall env', (forall o b, In (AEval o b) before -> lookup env' (local n o b) = lookup env (local n o b)) ->
        forall st', extends st st' -> variables st' (before ++ [AVisit c j]) env').
      { intros env' E st' X o b I. apply in_app_iff in I. destruct I as [I|[[=]|[]]].
        destruct (variables_mono st st' before env X Vars o b I) as (v & L & Q). exists v. split; [rewrite E by exact I; exact L|exact Q]. }
      (** Nothing is done. *)
      assert (Skip : (forall u, nth_error kids c = Some (Some u) -> nv (type_of u) <= j) -> progress st st k done before (AVisit c j) env).
      { intros Sk. split; [exact O|]. split; [|split; [apply Vars'; [reflexivity|unfold extends; auto]|split; [intros q a _; reflexivity|unfold extends; auto]]].
        apply state_node with n rc; [exact Hn| | |exact Inh| |exact Kids].
        - intros a. rewrite Own, in_app_iff. split; [intros [Q|Q]; auto|]. intros [Q|[Q|[[=]|[]]]]; auto.
        - intros a I. apply Right. apply in_app_iff in I. destruct I as [I|[[=]|[]]]. exact I.
        - intros c1 u Ku. destruct (Rc c1 u Ku) as [L Rj]. split; [exact L|]. intros j1 Lj. rewrite in_app_iff, <- (Rj j1 Lj).
          split; [|auto]. intros [Q|[[= <- <-]|[]]]; [exact Q|]. specialize (Sk u Ku). lia. }
      cbn [run_statement kids_of]. destruct (nth_error kids c) as [[u|]|] eqn:Ku.
      - specialize (Call _ (kid_type c u Ku)). destruct (j <? nv (type_of u)) eqn:Lj.
        + apply Nat.ltb_lt in Lj. destruct Call as (x & Sel & Ix & Ax & Iin & Res).
          assert (Run : match body with
              | Direct _ x0 => if type_of u =? c_type x0 then run_call p vf st env c u x0 else Undef
              | Switch l => match find (fun e => fst e =? type_of u) l with
                            | None => Undef
                            | Some (_, None) => Val (st, env)
                            | Some (_, Some x0) => if type_of u =? c_type x0 then run_call p vf st env c u x0 else Undef
                            end
              end = run_call p vf st env c u x).
          { destruct body as [ds x0|l]; cbn [selected] in Sel.
            - destruct (type_of u =? c_type x0); [|discriminate]. congruence.
            - destruct (find _ l) as [[m [x0|]]|]; try discriminate. destruct (type_of u =? c_type x0); [|discriminate]. congruence. }
          rewrite Run. clear Run Sel. unfold run_call. rewrite Ax, Ix.
          destruct (args_found st before env c (ins (type_of u) j) Vars Iin) as (vs & Ev & Hvs). rewrite Ev. cbn [bind].
          assert (Erc : rc c = j).
          { destruct (Rc c u Ku) as [L Rj]. destruct (Nat.lt_trichotomy (rc c) j) as [Z|[Z|Z]]; [|exact Z|]; exfalso.
            - assert (Z' : rc c < nv (type_of u)) by lia. specialize (Rj _ Z'). specialize (Dj (rc c)). assert (rc c < rc c) by tauto. lia.
            - specialize (Rj _ Lj). specialize (Dj j). assert (j < j) by tauto. lia. }
          assert (Len : length vs = length (ins (type_of u) j)).
          { clear -Hvs. induction Hvs; cbn [length]; congruence. }
          assert (Ks := Kids c u Ku). rewrite Erc in Ks.
          destruct (VF c u st j vs Ku O Lj Ks Len) as (st' & l & Evf & O' & Ks' & Out & X & Ins & Outs).
          rewrite Evf. cbn [bind fst snd].
          destruct (assign_right (c_results x) l env) as (env' & Ea & Le).
          { intros r Ir. destruct (Res r Ir) as ((b & Ib & ->) & _). exact (Outs b Ib). }
          rewrite Ea. cbn [bind]. do 2 eexists. split; [reflexivity|].
          split; [exact O'|]. split; [|split; [|split; [|exact X]]].
          * apply state_node with n (fun c1 => if c1 =? c then S j else rc c1); [exact Hn| | | | |].
            -- intros a. rewrite Out by apply below_own. rewrite Own, in_app_iff. split; [intros [Q|Q]; auto|]. intros [Q|[Q|[[=]|[]]]]; auto.
            -- intros a I. apply in_app_iff in I. destruct I as [I|[[=]|[]]]. destruct (Right a I) as (e & v & Q1 & Q2 & Q3 & Q4).
               exists e, v. split; [exact Q1|]. split; [exact Q2|]. split; [apply X; exact Q3|].
               apply (defines_mono st); [intros q b w _; apply X|exact Q4].
            -- intros c1 u1 a v Ku1 (j0 & Ia) Fa.
               assert (Old : forall w, fetch st (p ++ [c1]) a = Some w -> exists e, In e (nd_equations n) /\ rule_for n e (Some c1) a /\ defines st' n p t e v).
               { intros w Fw. assert (w = v) by (apply X in Fw; congruence). subst w. destruct (Inh c1 u1 a v Ku1 (ex_intro _ j0 Ia) Fw) as (e & Q1 & Q2 & Q3).
                 exists e. split; [exact Q1|]. split; [exact Q2|]. apply (defines_mono st); [intros q b w _; apply X|exact Q3]. }
               destruct (fetch st (p ++ [c1]) a) as [w|] eqn:Fw; [exact (Old w eq_refl)|].
               destruct (Nat.eq_dec c1 c) as [->|Nc].
               ++ rewrite Ku in Ku1. injection Ku1 as <-. clear Old.
                  inversion Ks as [p1 i1 fs1 kids1 n1 k1 done1 rc1 Hn1 Own1 _ _ _ _ E1 E2]; subst. cbn [type_of] in *.
                  inversion Ks' as [p2 i2 fs2 kids2 n2 k2 done2 rc2 Hn2 Own2 _ _ _ _ E1 E2]; subst.
                  assert (Ej : j0 = c_index x).
                  { assert (Fn : fetch st' (p ++ [c]) a <> None) by congruence. apply Own2 in Fn. destruct Fn as [(j1 & L1 & I1)|I1].
                    - destruct (fp_inputs F i1 n1 j0 a Hn1 Ia) as [_ Z]. rewrite (Z j1 I1) in L1.
                      destruct (Nat.eq_dec j0 (c_index x)) as [->|Nj]; [reflexivity|exfalso].
                      assert (Fx : fetch st (p ++ [c]) a <> None) by (apply Own1; left; exists j0; split; [lia|exact Ia]). congruence.
                    - exfalso. destruct (fp_inputs F i1 n1 j0 a Hn1 Ia) as [Z _]. apply Z. unfold done_in in I1. apply in_concat in I1.
                      destruct I1 as (acts & I1 & I2). apply in_concat. exists acts. split; [|exact I2].
                      rewrite <- (firstn_skipn (S (c_index x)) (plan i1)). apply in_app_iff. left. exact I1. }
                  subst j0. destruct (Forall2_at _ _ _ _ Ins Hvs a Ia) as (w & Fw' & e & Q1 & Q2 & Q3).
                  assert (w = v) by congruence. subst w. exists e. split; [exact Q1|]. split; [exact Q2|].
                  apply (defines_mono st); [intros q b w _; apply X|exact Q3].
               ++ rewrite Out in Fa; [congruence|]. intros Bq. apply Nc. symmetry. apply (below_siblings p c c1 (p ++ [c1])); [exact Bq|apply below_refl].
            -- intros c1 u1 Ku1. destruct (Rc c1 u1 Ku1) as [L Rj]. destruct (Nat.eqb_spec c1 c) as [->|Nc].
               ++ rewrite Ku in Ku1. injection Ku1 as <-. split; [lia|]. intros j1 L1. rewrite in_app_iff, (Dj j1). split.
                  ** intros [Q|[[= <-]|[]]]; lia.
                  ** intros Q. destruct (Nat.eq_dec j1 j) as [->|]; [right; left; reflexivity|left; lia].
               ++ split; [exact L|]. intros j1 L1. rewrite in_app_iff, <- (Rj j1 L1). split; [|auto]. intros [Q|[[= Q _]|[]]]; [exact Q|congruence].
            -- intros c1 u1 Ku1. destruct (Nat.eqb_spec c1 c) as [->|Nc].
               ++ rewrite Ku in Ku1. injection Ku1 as <-. exact Ks'.
               ++ apply (state_frame st); [exact (Kids c1 u1 Ku1)|]. intros q a Bq. apply Out. intros Bq'. apply Nc. symmetry. exact (below_siblings p c c1 q Bq' Bq).
          * apply Vars'; [|exact X]. intros o b I. apply Le. intros r Ir. destruct (Res r Ir) as [_ Z]. apply Z. exact I.
          * intros q a Nq. apply Out. intros Bq. apply Nq. exact (below_child _ _ _ Bq).
        + apply Nat.ltb_ge in Lj. exists st, env. split.
          * destruct body as [ds x0|l]; cbn [selected] in Call.
            -- destruct (type_of u =? c_type x0); discriminate.
            -- destruct (find _ l) as [[m [x0|]]|]; try discriminate; [|reflexivity]. destruct (type_of u =? c_type x0); discriminate.
          * apply Skip. intros u' Ku'. congruence.
      - rewrite Op by (apply kid_absent; exact Ku). exists st, env. split; [reflexivity|]. apply Skip. discriminate.
      - exfalso. apply nth_error_None in Ku. rewrite kids_length in Ku. lia.
    Qed.

    Lemma body_right : forall k acts body, length body = length acts ->
      (forall before a after b1 s b2, acts = before ++ a :: after -> body = b1 ++ s :: b2 -> length b1 = length before ->
         follows i n k (done_in i k ++ before) before a s) ->
      forall after before b2 b1 st env, acts = before ++ after -> body = b1 ++ b2 -> length b1 = length before ->
      once st -> state st p t (S k) (done_in i k ++ before) -> variables st before env ->
      exists st' env', run_body attrs eval n p t vf st env b2 = Val (st', env') /\ once st' /\
        state st' p t (S k) (done_in i k ++ acts) /\ variables st' acts env' /\ same_outside p st st' /\ extends st st'.
    Proof.
      intros k acts body Len Fol after. induction after as [|a after IH]; intros before b2 b1 st env E1 E2 L O H Vars.
      - rewrite app_nil_r in E1. subst before. destruct b2 as [|s b2].
        + exists st, env. split; [reflexivity|]. split; [exact O|]. split; [exact H|]. split; [exact Vars|]. split; [intros q b _; reflexivity|unfold extends; auto].
        + exfalso. subst body. rewrite app_length in Len. cbn [length] in Len. lia.
      - destruct b2 as [|s b2]; [exfalso; subst; rewrite !app_length in Len; cbn [length] in Len; lia|].
        assert (Fo := Fol before a after b1 s b2 E1 E2 L).
        assert (Step : exists st' env', run_statement attrs eval n p t vf st env s = Val (st', env') /\ progress st st' k (done_in i k ++ before) before a env').
        { destruct a as [o b|c j]; [apply eval_right|apply visit_right]; assumption. }
        destruct Step as (st1 & env1 & E & O1 & H1 & Vars1 & Out1 & X1).
        destruct (IH (before ++ [a]) b2 (b1 ++ [s]) st1 env1) as (st2 & env2 & E' & O2 & H2 & Vars2 & Out2 & X2).
        + rewrite <- app_assoc. exact E1.
        + rewrite <- app_assoc. exact E2.
        + rewrite !app_length. cbn [length]. lia.
        + exact O1.
        + rewrite app_assoc. exact H1.
        + exact Vars1.
        + exists st2, env2. cbn [run_body]. rewrite E. cbn [bind fst snd]. split; [exact E'|]. split; [exact O2|]. split; [exact H2|]. split; [exact Vars2|].
          split; [apply (outside_trans p st st1 st2); assumption|apply (extends_trans st st1 st2); assumption].
    Qed.
  End Node.

  (** ** Visits *)

  Lemma inputs_right : forall params p (st : @store V) env (args : list V), NoDup params -> length args = length params -> once st ->
    (forall a, In a params -> fetch st p a = None) ->
    exists st' env', set_inputs st env p params args = Val (st', env') /\ once st' /\ extends st st' /\
      (forall q a, q <> p -> fetch st' q a = fetch st q a) /\ (forall a, ~ In a params -> fetch st' p a = fetch st p a) /\
      Forall2 (fun a v => fetch st' p a = Some v) params args.
  Proof.
    induction params as [|a params IH]; intros p st env args N L O H; destruct args as [|v args]; try discriminate; cbn [set_inputs].
    - exists st, env. split; [reflexivity|]. split; [exact O|]. split; [unfold extends; auto|]. split; [reflexivity|]. split; [reflexivity|constructor].
    - inversion N as [|? ? Na N']; subst. assert (Fa : fetch st p a = None) by (apply H; left; reflexivity).
      destruct (IH p (((p, a), v) :: st) ((this_local a, v) :: env) args N') as (st' & env' & E & O' & X & Q1 & Q2 & Q3).
      + cbn [length] in L. lia.
      + apply store_once; assumption.
      + intros b Ib. rewrite fetch_other; [apply H; right; exact Ib|]. intros [=]. subst. contradiction.
      + exists st', env'. split; [exact E|]. split; [exact O'|]. split; [|split; [|split]].
        * apply (extends_trans st (((p, a), v) :: st)); [apply store_extends; exact Fa|exact X].
        * intros q b Nq. rewrite Q1 by exact Nq. apply fetch_other. congruence.
        * intros b Nb. rewrite Q2 by (intros I; apply Nb; right; exact I). apply fetch_other. intros [=]. subst. apply Nb. left. reflexivity.
        * constructor; [apply X, fetch_same|exact Q3].
  Qed.

  Lemma firstn_next : forall {X} (l : list (list X)) k x, nth_error l k = Some x -> concat (firstn (S k) l) = concat (firstn k l) ++ x.
  Proof.
    intros X l. induction l as [|y l IH]; intros k x H; [destruct k; discriminate|]. destruct k as [|k]; cbn [nth_error] in H.
    - injection H as ->. cbn. rewrite app_nil_r. reflexivity.
    - change (firstn (S (S k)) (y :: l)) with (y :: firstn (S k) l). change (firstn (S k) (y :: l)) with (y :: firstn k l).
      cbn [concat]. rewrite (IH k x H), app_assoc. reflexivity.
  Qed.

  Theorem run_visit_right : forall fuel st p (t : tree V) k args, height t <= fuel -> well_typed t -> once st -> k < nv (type_of t) ->
    state st p t k (done_in (type_of t) k) -> length args = length (ins (type_of t) k) ->
    exists st' l, run_visit nodes attrs eval functions fuel st p t k args = Val (st', l) /\ visit_result st st' p t k args l.
  Proof.
    induction fuel as [|fuel IH]; intros st p t k args Hf W O Lk H La; [destruct t; cbn [height] in Hf; lia|].
    destruct t as [i fs kids]. cbn [type_of] in *. inversion H as [p' i' fs' kids' n k' done' rc Hn Own Right Inh Rc Kids]; subst.
    destruct (fp_functions F i n Hn) as (gs & Hg & Lg & Fun).
    destruct (nth_error (plan i) k) as [acts|] eqn:Ea; [|exfalso; apply nth_error_None in Ea; rewrite (fp_length F i n Hn) in Ea; lia].
    destruct (Fun k acts Ea) as (f & Hfk & Ep & Er & Lb & Fol).
    cbn [run_visit type_of]. rewrite Hn, Hg, Hfk, Ep.
    destruct (inputs_right (ins i k) p st [] args) as (st1 & env1 & E1 & O1 & X1 & Q1 & Q2 & Q3);
      [exact (fp_inputs_once F i k)|exact La|exact O| |].
    { intros a Ia. destruct (fetch st p a) as [w|] eqn:Fw; [exfalso|reflexivity]. assert (Fn : fetch st p a <> None) by congruence.
      apply Own in Fn. destruct (fp_inputs F i n k a Hn Ia) as [Z1 Z2]. destruct Fn as [(j & L & I)|I]; [specialize (Z2 j I); lia|].
      apply Z1. unfold done_in in I. apply in_concat in I. destruct I as (l & I1 & I2). apply in_concat. exists l. split; [|exact I2].
      rewrite <- (firstn_skipn k (plan i)). apply in_app_iff. left. exact I1. }
    rewrite E1. cbn [bind fst snd].
    assert (H1 : state st1 p (Node i fs kids) (S k) (done_in i k)).
    { assert (Pc : forall c1, p ++ [c1] <> p).
      { intros c1 E. apply (f_equal (@length nat)) in E. rewrite app_length in E. cbn [length] in E. lia. }
      apply state_node with n rc; [exact Hn| | | |exact Rc|].
      - intros a. destruct (in_dec (list_eq_dec ascii_dec) a (ins i k)) as [Ia|Na].
        + split; [intros _; left; exists k; split; [lia|exact Ia]|]. intros _.
          destruct (Forall2_at _ _ _ _ Q3 Q3 a Ia) as (w & Fw & _). congruence.
        + rewrite Q2 by exact Na. rewrite Own. split; (intros [(j & L & I)|I]; [left; exists j|right; exact I]).
          * split; [lia|exact I].
          * split; [|exact I]. destruct (Nat.eq_dec j k) as [->|]; [contradiction|lia].
      - intros a I. destruct (Right a I) as (e & v & R1 & R2 & R3 & R4). exists e, v. split; [exact R1|]. split; [exact R2|]. split; [apply X1; exact R3|].
        apply (defines_mono st); [intros q b w _; apply X1|exact R4].
      - intros c u a v Ku Ia Fa. rewrite Q1 in Fa by apply Pc. destruct (Inh c u a v Ku Ia Fa) as (e & R1 & R2 & R3).
        exists e. split; [exact R1|]. split; [exact R2|]. apply (defines_mono st); [intros q b w _; apply X1|exact R3].
      - intros c u Ku. apply (state_frame st); [exact (Kids c u Ku)|]. intros q a Bq. apply Q1. intros ->. exact (below_own _ _ Bq). }
    destruct (body_right p i fs kids n Hn W (run_visit nodes attrs eval functions fuel)) with (k := k) (acts := acts) (body := f_body f)
      (after := acts) (before := @nil naction) (b2 := f_body f) (b1 := @nil statement) (st := st1) (env := env1)
      as (st2 & env2 & E2 & O2 & H2 & V2 & Out2 & X2).
    - intros c u st' j args' Ku O' Lj Hs L'. apply IH; [|apply (kid_typed i fs kids n Hn W c u Ku)|exact O'|exact Lj|exact Hs|exact L'].
      assert (Z := kid_height (Node i fs kids) c u Ku). lia.
    - exact Lb.
    - exact Fol.
    - reflexivity.
    - reflexivity.
    - reflexivity.
    - exact O1.
    - rewrite app_nil_r. exact H1.
    - intros o a [].
    - rewrite E2. cbn [bind fst snd]. rewrite Er.
      assert (Ret : exists l, all (fun x => map_outcome (pair (this_local x)) (lookup env2 (this_local x))) (outs i k) = Val l /\
        forall b, In b (outs i k) -> exists v, lookup l (this_local b) = Val v).
      { assert (Z : forall b, In b (outs i k) -> exists v, lookup env2 (this_local b) = Val v).
        { intros b Ib. destruct (V2 None b (fp_outputs F i n k acts b Hn Ea Ib)) as (v & L & _). exists v. exact L. }
        clear -Z. induction (outs i k) as [|b l IH]; [exists []; split; [reflexivity|intros b []]|].
        destruct (Z b (or_introl eq_refl)) as (v & Ev). destruct IH as (r & E & R); [intros b' I; apply Z; right; exact I|].
        exists ((this_local b, v) :: r). cbn [all]. unfold map_outcome at 1. rewrite Ev. cbn [bind]. rewrite E. split; [reflexivity|].
        intros b' [<-|I]; [exists v; apply lookup_same|]. destruct (list_eq_dec ascii_dec (this_local b) (this_local b')) as [<-|N]; [exists v; apply lookup_same|].
        destruct (R b' I) as (w & Ew). exists w. rewrite lookup_other by exact N. exact Ew. }
      destruct Ret as (l & El & Rl). rewrite El. cbn [bind]. do 2 eexists. split; [reflexivity|].
      split; [exact O2|]. cbn [type_of]. split; [|split; [|split; [|split; [|exact Rl]]]].
      + unfold done_in. rewrite (firstn_next _ k acts Ea). exact H2.
      + intros q a Nq. rewrite Out2 by exact Nq. apply Q1. intros ->. apply Nq, below_refl.
      + apply (extends_trans st st1 st2); assumption.
      + clear -Q3 X2. induction Q3 as [|a v l1 l2 H _ IH]; constructor; [apply X2; exact H|exact IH].
  Qed.

  (** ** The whole tree *)

  Lemma finished : forall st p (t : tree V), well_typed t -> state st p t (nv (type_of t)) (done_in (type_of t) (nv (type_of t))) ->
    forall q u, reached t q u -> state st (p ++ q) u (nv (type_of u)) (done_in (type_of u) (nv (type_of u))) /\ well_typed u.
  Proof.
    intros st p t W H q u R. induction R as [|q u c w R IH Kw]; [rewrite app_nil_r; split; [exact H|exact W]|].
    destruct IH as [Hs Wu]. destruct u as [i fs kids]. cbn [kids_of type_of] in *.
    inversion Hs as [p' i' fs' kids' n k' done' rc Hn Own Right Inh Rc Kids]; subst.
    split; [|exact (kid_typed i fs kids n Hn Wu c w Kw)]. specialize (Kids c w Kw). destruct (Rc c w Kw) as [L Rj].
    assert (Mb := kid_type i fs kids n Hn Wu c w Kw).
    assert (E : rc c = nv (type_of w)).
    { destruct (Nat.lt_ge_cases (rc c) (nv (type_of w))) as [Z|Z]; [exfalso|lia].
      assert (Pos : 0 < nv i) by (apply (fp_visited F i c _ Mb); lia).
      assert (In (AVisit c (rc c)) (done_in i (nv i))).
      { unfold done_in. rewrite <- (fp_length F i n Hn), firstn_all. exact (fp_complete F i n c _ _ Hn Pos Mb Z). }
      apply (Rj _ Z) in H0. lia. }
    rewrite E in Kids. rewrite app_assoc. exact Kids.
  Qed.

  Theorem evaluate_right : forall (t : tree V), well_typed t -> 0 < nv (type_of t) -> (forall k, ins (type_of t) k = []) ->
    exists st, CCNevaluateAttributes nodes attrs eval functions t = Val st /\ once st /\
      evaluated nodes attributes eval (fetch st) t.
  Proof.
    intros t W Pos Ins.
    assert (Hn : exists n, nth_error nodes (type_of t) = Some n) by (inversion W; subst; eauto). destruct Hn as (n & Hn).
    destruct (fp_functions F _ n Hn) as (fs & Hf & Lf & Fun).
    assert (Par : forallb (fun f => length (f_params f) =? 0) fs = true).
    { apply forallb_forall. intros f If. apply In_nth_error in If. destruct If as (k & Hk).
      assert (Lk : k < length fs) by (apply nth_error_Some; congruence).
      destruct (nth_error (plan (type_of t)) k) as [acts|] eqn:E.
      - destruct (Fun k acts E) as (f' & Hf' & Ep & _). rewrite Hk in Hf'. injection Hf' as <-. rewrite Ep, Ins. reflexivity.
      - apply nth_error_None in E. rewrite (fp_length F _ n Hn) in E. lia. }
    unfold CCNevaluateAttributes. rewrite Hf, Par. replace (length fs =? 0) with false by (symmetry; apply Nat.eqb_neq; lia). cbn [negb andb].
    rewrite Lf.
    assert (Loop : forall m k st, k + m = nv (type_of t) -> once st -> state st [] t k (done_in (type_of t) k) ->
      exists st', run_visits nodes attrs eval functions st t (seq k m) = Val st' /\ once st' /\
        state st' [] t (nv (type_of t)) (done_in (type_of t) (nv (type_of t)))).
    { induction m as [|m IH]; intros k st Ek O H.
      - exists st. split; [reflexivity|]. split; [exact O|]. replace (nv (type_of t)) with k by lia. exact H.
      - destruct (run_visit_right (height t) st [] t k [] (le_n _) W O) as (st' & l & E & O' & H' & _).
        + lia.
        + exact H.
        + rewrite Ins. reflexivity.
        + cbn [seq run_visits]. rewrite E. cbn [bind fst]. apply IH; [lia|exact O'|exact H']. }
    destruct (Loop (nv (type_of t)) 0 []) as (st & E & O & H).
    - lia.
    - constructor.
    - apply (state_start t W). reflexivity.
    - exists st. split; [exact E|]. split; [exact O|]. assert (Fin := finished st [] t W H). cbn [app] in Fin. split.
      + intros p u n' x R Hn' Ix Sx. destruct (Fin p u R) as [Hs Wu]. destruct u as [i us kids]. cbn [type_of] in *.
        inversion Hs as [p' i' fs' kids' n1 k' done' rc Hn1 Own Right Inh Rc Kids]; subst. rewrite Hn' in Hn1. injection Hn1 as <-.
        destruct (fp_synthesized F i n' x Hn' Ix Sx) as (k & Lk & Io).
        destruct (nth_error (plan i) k) as [acts|] eqn:Ea; [|exfalso; apply nth_error_None in Ea; rewrite (fp_length F i n' Hn') in Ea; lia].
        assert (Ie : In (AEval None (ID_LWR (at_name x))) (done_in i (nv i))).
        { apply (firstn_in _ _ k _ _ acts Ea); [exact (fp_outputs F i n' k acts _ Hn' Ea Io)|exact Lk]. }
        destruct (Right _ Ie) as (e & v & R1 & (R2 & R2') & R3 & R4). exists e, v. split; [exact R1|]. split; [exact R2'|]. split; [exact R2|]. split; [exact R3|exact R4].
      + intros p u n' k c w x R Hn' Hc Kw Ix Sx. destruct (Fin p u R) as [Hs Wu].
        destruct (Fin (p ++ [k]) w (reached_child t p u k w R Kw)) as [Hw Ww]. destruct u as [i us kids]. cbn [type_of kids_of] in *.
        inversion Hs as [p' i' fs' kids' n1 k' done' rc Hn1 Own Right Inh Rc Kids]; subst. rewrite Hn' in Hn1. injection Hn1 as <-.
        assert (Fw : fetch st (p ++ [k]) (ID_LWR (at_name x)) <> None /\ exists j, In (ID_LWR (at_name x)) (ins (type_of w) j)).
        { destruct w as [m wf wk]. cbn [type_of] in *. inversion Hw as [p2 i2 fs2 kids2 n2 k2 done2 rc2 Hn2 Own2 _ _ _ _]; subst.
          destruct (fp_inherited F m n2 x Hn2 Ix Sx) as (j & Lj & Ij). split; [|eauto]. apply Own2. left. exists j. split; [exact Lj|exact Ij]. }
        destruct Fw as [Fn Ij]. destruct (fetch st (p ++ [k]) (ID_LWR (at_name x))) as [v|] eqn:Fv; [|congruence].
        destruct (Inh k w _ v Kw Ij Fv) as (e & R1 & (R2 & cn & y & R3 & R4 & R5) & R6). rewrite Hc in R4. injection R4 as <-.
        exists e, cn, v. split; [exact R1|]. split; [exact R3|]. split; [exact R5|]. split; [exact R2|]. split; [reflexivity|exact R6].
  Qed.
End Plans.
