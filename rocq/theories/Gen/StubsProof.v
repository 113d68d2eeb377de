(** The user files hold the stubs. *)

From Coq Require Import String.
From Coq Require Import List Ascii Bool Arith Lia Permutation.
From Verif Require Import Base.Outcome Palm.StrModel Front.Syntax Front.CheckExistanceModel Front.CheckExistanceSpec Front.CheckExistanceProof Front.SetsModel Front.SetsSpec Front.SetsProof Front.SymbolTableSpec Front.SymbolTableProof
  Front.ReachModel Front.PropagateModel Front.NodesetPassesProof Sched.FrontendModel Gen.TablesModel Gen.TablesSpec Gen.TablesProof Gen.EvalVariantsModel Gen.EvalVariantsSpec Gen.EvalVariantsProof Gen.EvalVariantsProps
  Front.ProductRulesProof Gen.CompileVerdict Gen.AccessMembers Gen.DispatchModel Gen.DispatchSpec Gen.DispatchReach Gen.DispatchProof Gen.StubsModel Gen.StubsSpec.
Import ListNotations.
Local Open Scope list_scope.
Local Open Scope outcome_scope.

(** ** Files with distinct names are all there *)

Lemma filter_all : forall A (f : A -> bool) l, (forall x, In x l -> f x = true) -> filter f l = l.
Proof.
  intros A f l. induction l as [|x l IH]; intros H; [reflexivity|]. cbn [filter]. rewrite (H x) by (left; reflexivity).
  f_equal. apply IH. intros y I. apply H. right. exact I.
Qed.
Lemma opened : forall l files, NoDup (map fst (files ++ l)) -> fold_left GNopenUserFile l files = files ++ l.
Proof.
  induction l as [|f l IH]; intros files N; cbn [fold_left]; [symmetry; apply app_nil_r|].
  assert (E : GNopenUserFile files f = files ++ [f]).
  { unfold GNopenUserFile. rewrite filter_all; [reflexivity|]. intros g I. destruct (list_eq_dec ascii_dec (fst g) (fst f)) as [E|]; [|reflexivity].
    exfalso. rewrite map_app in N. cbn [map] in N. apply NoDup_remove_2 in N. apply N. rewrite <- E. apply in_or_app. left. apply in_map. exact I. }
  rewrite E, IH; rewrite <- app_assoc; [reflexivity|exact N].
Qed.

(** ** There is one list of optional children *)

Lemma optional_unique : forall n args l m, optional_children n args l -> optional_children n args m -> l = m.
Proof.
  intros n args l m L M.
  assert (S : forall x, In x l <-> In x m) by (intros x; rewrite (oc_all _ _ _ L), (oc_all _ _ _ M); reflexivity).
  assert (Nl := oc_once _ _ _ L). assert (Nm := oc_once _ _ _ M). assert (Ol := oc_order _ _ _ L). assert (Om := oc_order _ _ _ M). clear L M.
  revert m S Nm Om. induction l as [|x l IH]; intros m S Nm Om.
  - destruct m as [|y m]; [reflexivity|]. exfalso. apply (S y). left. reflexivity.
  - destruct m as [|y m]; [exfalso; apply (S x); left; reflexivity|].
    assert (E : x = y).
    { destruct (Nat.eq_dec x y) as [E|Ne]; [exact E|]. exfalso.
      assert (I1 : In y l) by (destruct (proj2 (S y) (or_introl eq_refl)) as [E|I]; [congruence|exact I]).
      assert (I2 : In x m) by (destruct (proj1 (S x) (or_introl eq_refl)) as [E|I]; [congruence|exact I]).
      apply in_split in I1. destruct I1 as (l1 & l2 & ->). apply in_split in I2. destruct I2 as (m1 & m2 & ->).
      apply (read_before_asym n args x y); [apply (Ol [] x l1 y l2 eq_refl)|apply (Om [] y m1 x m2 eq_refl)]. }
    subst y. f_equal. apply NoDup_cons_iff in Nl. apply NoDup_cons_iff in Nm. apply IH.
    + apply Nl.
    + intros l1 c l2 d l3 E. apply (Ol (x :: l1) c l2 d l3). cbn [app]. congruence.
    + intros z. specialize (S z). cbn [In] in S. split; intros I.
      * destruct (proj1 S (or_intror I)) as [E|J]; [subst z; tauto|exact J].
      * destruct (proj2 S (or_intror I)) as [E|J]; [subst z; tauto|exact J].
    + apply Nm.
    + intros l1 c l2 d l3 E. apply (Om (x :: l1) c l2 d l3). cbn [app]. congruence.
Qed.

Section Accepted.
  Variable a : ast.
  Variable s : pra.
  Variable lits : list Syntax.literal.
  Hypothesis P : parsed_ast a.
  Hypothesis U : unmarked a.
  Hypothesis Pu : uids_present a.
  Hypothesis B : before_scheduling a = Val (s, lits).
  Hypothesis Few : few_children a.
  Variable order : list nat -> list nat.
  Hypothesis Po : forall l, Permutation (order l) l.

  (** ** Equations *)
  Lemma equation_stubs : forall n e, In n (a_nodes a) -> In e (nd_equations n) ->
    exists l, DGEFequation n order e = Val l /\
    forall f args, In (f, args) l <-> exists children null, optional_children n (eq_args e) children /\
      (forall c, null c = true -> optional n c) /\ readable n null (eq_args e) args /\
      f = variant_name n (eq_rule e) (names n (filter null children)).
  Proof.
    intros n e In_n Ie. destruct (accepted_good a s lits P U B n In_n) as (D & Rs). specialize (Rs e Ie).
    destruct (collect_children_right n D (eq_args e) Rs) as (children & C & O).
    assert (Fc := Few n e children In_n Ie O).
    eexists. split; [apply (declared_val n D e Rs children O C Fc order (Po children))|].
    intros f args. split.
    - intros I. apply in_map_iff in I. destruct I as (m & Em & _).
      destruct (declaration_variant n D e Rs children O order (Po children) m) as (_ & V). rewrite Em in V. destruct V as [V1 V2]. cbn [fst snd] in V1, V2.
      exists children, (absent_in children order m). split; [exact O|]. split; [|split; [exact V2|exact V1]].
      intros c Hc. destruct (in_dec Nat.eq_dec c children) as [Ic|Ic]; [apply O in Ic; apply Ic|].
      unfold absent_in in Hc. rewrite (table_out n e children O order (Po children)) in Hc by exact Ic. discriminate.
    - intros (children' & null & O' & Legal & Rd & ->). rewrite (optional_unique _ _ _ _ O' O).
      assert (Oo : only_optional n e null) by (intros r' c _ _ Hc; apply Legal; exact Hc).
      destruct (declares_variant n D e Rs children O Fc order (Po children) null Oo) as (p & Ip & Vp).
      replace (variant_name n (eq_rule e) (names n (filter null children)), args) with p; [exact Ip|].
      apply (is_variant_unique n e children (eq_rule e) null); [exact Vp|split; [reflexivity|exact Rd]].
  Qed.

  Lemma equations_val : forall n l, In n (a_nodes a) -> (forall e, In e l -> In e (nd_equations n)) ->
    exists r, map_val (DGEFequation n order) l = Val r /\
    forall x, In x (concat r) <-> exists e d, In e l /\ DGEFequation n order e = Val d /\ In x d.
  Proof.
    intros n l In_n Sub. destruct (map_val_exists _ _ (DGEFequation n order) l) as (r & E).
    { intros e I. destruct (equation_stubs n e In_n (Sub e I)) as (d & E & _). eauto. }
    exists r. split; [exact E|]. apply map_val_forall in E. intros x. rewrite in_concat. split.
    - intros (d & Id & Ix). destruct (Forall2_in_r _ _ _ _ _ _ E Id) as (e & Ie & Ed). eauto.
    - intros (e & d & Ie & Ed & Ix). clear Sub. induction E as [|e' d' l r H E IH]; [destruct Ie|].
      destruct Ie as [->|Ie]; [exists d'; split; [left; reflexivity|congruence]|]. destruct (IH Ie) as (d2 & I2 & X2). exists d2. split; [right; exact I2|exact X2].
  Qed.

  Definition node_file (n : inode) (file : list cfile) : Prop :=
    match nd_equations n with
    | [] => file = []
    | _ => exists fs, file = [(equation_file n, fs)] /\
        forall f b, In (f, b) fs <-> exists e children null args, In e (nd_equations n) /\ optional_children n (eq_args e) children /\
          (forall c, null c = true -> optional n c) /\ readable n null (eq_args e) args /\
          f = variant_name n (eq_rule e) (names n (filter null children)) /\ b = Default_value args
    end.
  Lemma node_files : forall n, In n (a_nodes a) -> exists file, DUGEinode order n = Val file /\ node_file n file.
  Proof.
    intros n In_n. unfold DUGEinode, node_file. destruct (nd_equations n) as [|e0 el] eqn:En; [eauto|]. rewrite <- En.
    destruct (equations_val n (nd_equations n) In_n (fun e I => I)) as (r & E & Q). unfold DGEFequations. change (all (DGEFequation n order) (nd_equations n)) with (map_val (DGEFequation n order) (nd_equations n)). rewrite E. cbn [bind].
    eexists. split; [reflexivity|]. eexists. split; [reflexivity|]. intros f b. rewrite in_map_iff. split.
    - intros ((f' & args) & Ef & I). cbn [fst snd] in Ef. apply Q in I. destruct I as (e & d & Ie & Ed & Id).
      destruct (equation_stubs n e In_n Ie) as (d' & Ed' & H). assert (d = d') by congruence. subst d'.
      apply H in Id. destruct Id as (children & null & O & L & R & Ef'). injection Ef as <- <-.
      exists e, children, null, args. auto 10.
    - intros (e & children & null & args & Ie & O & L & R & -> & ->).
      exists (variant_name n (eq_rule e) (names n (filter null children)), args). split; [reflexivity|]. apply Q.
      destruct (equation_stubs n e In_n Ie) as (d & Ed & H). exists e, d. split; [exact Ie|]. split; [exact Ed|]. apply H.
      exists children, null. auto.
  Qed.

  (** ** Traversals *)
  Definition handler_stub (t : itraversal) (f : cstring) (b : body) : Prop :=
    (tv_data t <> [] /\ (f = ID_UPR (uid_of t) ++ str "init" \/ f = ID_UPR (uid_of t) ++ str "fini") /\ b = Return_nothing) \/
    (exists n, In n (a_nodes a) /\ taken_for a t n /\ f = ID_UPR (uid_of t) ++ ID_LWR (nd_name n) /\ b = Walk_children).

  Lemma traversal_stubs : exists ts, unwrap a = Val (ts, lits) /\ List.length ts = List.length (a_traversals a) /\
    Forall2 (fun t o => forall f b, In (f, b) (snd (DUGTitraversal a t o)) <-> handler_stub t f b) (a_traversals a) ts.
  Proof.
    destruct (all_passes a s lits B) as (st & ts & C & _ & _ & Eu & _). exists ts. split; [exact Eu|].
    destruct (unwrap_right a ts lits P Eu) as (_ & F). split; [symmetry; apply (Forall2_len _ _ _ _ _ F)|].
    refine (Forall2_weaken _ _ _ _ _ _ _ F). intros t o It _ H f b. unfold DUGTitraversal, handler_stub. cbn [snd].
    rewrite in_app_iff.
    assert (X : In (f, b) (match tv_data t with [] => [] | _ :: _ => [(ID_UPR (uid_of t) ++ TablesModel.text "init", Return_nothing); (ID_UPR (uid_of t) ++ TablesModel.text "fini", Return_nothing)] end) <->
      tv_data t <> [] /\ (f = ID_UPR (uid_of t) ++ str "init" \/ f = ID_UPR (uid_of t) ++ str "fini") /\ b = Return_nothing).
    { destruct (tv_data t) as [|d l]; cbn [In].
      - split; [intros []|]. intros (N & _). congruence.
      - split.
        + intros [E|[E|[]]]; assert (E1 := f_equal fst E); assert (E2 := f_equal snd E); cbn [fst snd] in E1, E2; (split; [discriminate|]; split; [|symmetry; exact E2]).
          * left. symmetry. exact E1.
          * right. symmetry. exact E1.
        + intros (_ & [->| ->] & ->); [left|right; left]; reflexivity. }
    assert (Y : In (f, b) (match o with None | Some LNull => rev (map (fun n => DUGTid (ID_UPR (uid_of t)) (nd_name n)) (a_nodes a)) | Some l => map (DUGTid (ID_UPR (uid_of t))) (listed l) end) <->
      exists n, In n (a_nodes a) /\ taken_for a t n /\ f = ID_UPR (uid_of t) ++ ID_LWR (nd_name n) /\ b = Walk_children).
    { assert (All : (forall n, taken_for a t n) -> (In (f, b) (rev (map (fun n => DUGTid (ID_UPR (uid_of t)) (nd_name n)) (a_nodes a))) <->
        exists n, In n (a_nodes a) /\ taken_for a t n /\ f = ID_UPR (uid_of t) ++ ID_LWR (nd_name n) /\ b = Walk_children)).
      { intros T. rewrite <- in_rev, in_map_iff. split.
        - intros (n & E & I). exists n. unfold DUGTid in E. assert (E1 := f_equal fst E). assert (E2 := f_equal snd E). cbn [fst snd] in E1, E2. auto 6.
        - intros (n & I & _ & -> & ->). exists n. auto. }
      destruct (tv_nodes t) as [e|] eqn:Et, o as [lit|]; [|destruct H|destruct H|apply All; left; unfold is_for; rewrite Et; exact I].
      destruct H as [De Tw].
      assert (Gd : good_setexpr a e) by exact (r_trav_nodes a (proj2 (proj2 (checked_names a C))) t e It Et). destruct Gd as [_ Gd].
      destruct lit as [|id l1 l2].
      - apply All. intros n. right. exists e, (names_in LNull). split; [exact Et|]. split; [exact De|]. intros y Y. destruct Y.
      - set (lit := SetLiteral id l1 l2) in *. rewrite in_map_iff. split.
        + intros (x & E & Ix). unfold DUGTid in E. assert (E1 := f_equal fst E). assert (E2 := f_equal snd E). cbn [fst snd] in E1, E2.
          destruct (denoted_nodes a C e _ De Gd (ID_LWR x)) as (n & In_n & En); [apply in_map, Ix|].
          exists n. split; [exact In_n|]. split; [|split; [congruence|auto]]. left. unfold is_for. rewrite Et. exists (names_in lit). split; [exact De|].
          rewrite En. apply in_map, Ix.
        + intros (n & In_n & T & -> & ->). unfold taken_for, is_for in T. rewrite Et in T.
          assert (Sn : names_in lit (ID_LWR (nd_name n))).
          { destruct T as [(S & DS & Sn)|(e' & S & Ee & DS & N)].
            - apply (denotes_unique _ _ _ _ (sets_distinct a C) DS De). exact Sn.
            - rewrite Et in Ee. injection Ee as <-. exfalso. apply (N (ID_LWR id)). apply (denotes_unique _ _ _ _ (sets_distinct a C) DS De).
              left. reflexivity. }
          unfold names_in in Sn. apply in_map_iff in Sn. destruct Sn as (x & Ex & Ix). exists x. split; [|exact Ix]. unfold DUGTid. rewrite Ex. reflexivity. }
    rewrite X, Y. reflexivity.
  Qed.

  (** ** The directory *)
  Let C : is_val (check_names a) = true.
  Proof. destruct (all_passes a s lits B) as (st & ts & C & _). exact C. Qed.
  Let Dn : NoDup (map (fun n => ID_LWR (nd_name n)) (a_nodes a)) := nodes_distinct a C.
  Let Dt : NoDup (map (fun t => ID_LWR (tv_name t)) (a_traversals a)) := travs_distinct a C.

  Lemma equation_file_inj : forall n m, equation_file n = equation_file m -> ID_LWR (nd_name n) = ID_LWR (nd_name m).
  Proof. intros n m E. unfold equation_file in E. apply app_inv_head in E. apply app_inv_tail in E. exact E. Qed.
  Lemma traversal_file_inj : forall n m, traversal_file n = traversal_file m -> ID_LWR (tv_name n) = ID_LWR (tv_name m).
  Proof. intros n m E. unfold traversal_file in E. apply app_inv_head in E. apply app_inv_tail in E. exact E. Qed.

  Lemma node_directory : exists l, DUGEast order a = Val l /\ NoDup (map fst l) /\
    forall file fs, In (file, fs) l <-> exists n, In n (a_nodes a) /\ nd_equations n <> [] /\ DUGEinode order n = Val [(file, fs)].
  Proof.
    destruct (map_val_exists _ _ (DUGEinode order) (a_nodes a)) as (r & E).
    { intros n I. destruct (node_files n I) as (d & E & _). eauto. }
    exists (concat r). unfold DUGEast. rewrite E. split; [reflexivity|]. apply map_val_forall in E.
    assert (K : forall n l, In n (a_nodes a) -> DUGEinode order n = Val l -> l = [] \/ exists fs, l = [(equation_file n, fs)]).
    { intros n l I H. destruct (node_files n I) as (d & E' & N). assert (d = l) by congruence. subst d. unfold node_file in N.
      destruct (nd_equations n); [left; exact N|right]. destruct N as (fs & -> & _). eauto. }
    split.
    - revert K. generalize Dn. clear Dn. intros Nd. generalize E Nd. generalize (a_nodes a) as nodes. clear. intros nodes E. induction E as [|n l nodes r H E IH]; intros Nd K.
      + constructor.
      + cbn [map] in Nd. apply NoDup_cons_iff in Nd. destruct Nd as [N1 N2]. cbn [concat]. rewrite map_app.
        assert (IH' := IH N2 (fun m l I => K m l (or_intror I))).
        destruct (K n l (or_introl eq_refl) H) as [->|(fs & ->)]; [exact IH'|]. cbn [map app fst]. constructor; [|exact IH'].
        intros I. apply in_map_iff in I. destruct I as ((file & fs') & Ef & I). cbn [fst] in Ef. subst file. apply in_concat in I. destruct I as (l' & Il & I).
        destruct (Forall2_in_r _ _ _ _ _ _ E Il) as (m & Im & Hm). destruct (K m l' (or_intror Im) Hm) as [->|(fs2 & ->)]; [destruct I|].
        destruct I as [I|[]]. apply N1. apply in_map_iff. exists m. split; [|exact Im]. apply equation_file_inj. apply (f_equal fst) in I. exact I.
    - intros file fs. rewrite in_concat. split.
      + intros (l & Il & I). destruct (Forall2_in_r _ _ _ _ _ _ E Il) as (n & In_n & H). exists n. split; [exact In_n|].
        destruct (K n l In_n H) as [->|(fs2 & ->)]; [destruct I|]. destruct I as [I|[]]. rewrite <- I. split; [|exact H].
        intros Z. unfold DUGEinode in H. rewrite Z in H. discriminate.
      + intros (n & In_n & _ & H). clear K Dn. apply In_nth_error in In_n. destruct In_n as (k & Hk).
        exists [(file, fs)]. split; [|left; reflexivity].
        destruct (nth_error r k) as [l|] eqn:Hl.
        * assert (X := Forall2_at _ _ _ _ _ E k n l Hk Hl). cbn beta in X. rewrite H in X. injection X as <-. eapply nth_error_In; exact Hl.
        * apply nth_error_None in Hl. rewrite <- (Forall2_len _ _ _ _ _ E) in Hl. assert (k < List.length (a_nodes a)) by (apply nth_error_Some; congruence). lia.
  Qed.

  Definition the_files (ts : list (option Syntax.literal)) (l : list cfile) : list cfile := DUGPast a :: DUGTast a ts ++ l.
  Lemma directory_val : exists ts l, unwrap a = Val (ts, lits) /\ DUGEast order a = Val l /\
    user_directory order a = Val (the_files ts l) /\ NoDup (map fst (the_files ts l)).
  Proof.
    destruct traversal_stubs as (ts & Eu & Len & _). destruct node_directory as (l & El & Nl & Fl). exists ts, l.
    split; [exact Eu|]. split; [exact El|].
    assert (Tn : map fst (DUGTast a ts) = map traversal_file (a_traversals a)).
    { unfold DUGTast. revert Len. clear. generalize (a_traversals a) as tr. revert ts. generalize a.
      intros b ts. induction ts as [|o ts IH]; intros tr Len; destruct tr as [|t tr]; try discriminate; [reflexivity|].
      cbn [combine map]. rewrite IH by (injection Len as Len; exact Len). reflexivity. }
    assert (Nt : NoDup (map traversal_file (a_traversals a))).
    { assert (D := Dt). revert D. clear. generalize (a_traversals a) as tr. induction tr as [|t tr IH]; intros D; [constructor|].
      cbn [map] in *. apply NoDup_cons_iff in D. destruct D as [D1 D2]. constructor; [|apply IH, D2].
      intros I. apply D1. apply in_map_iff in I. destruct I as (x & E & I). apply in_map_iff. exists x. split; [apply traversal_file_inj; exact E|exact I]. }
    assert (N : NoDup (map fst (the_files ts l))).
    { assert (M : map fst (the_files ts l) = fst (DUGPast a) :: map traversal_file (a_traversals a) ++ map fst l).
      { unfold the_files. cbn [map]. f_equal. rewrite <- Tn. apply map_app. }
      rewrite M. constructor.
      - intros I. apply in_app_iff in I. destruct I as [I|I].
        + apply in_map_iff in I. destruct I as (x & E & _). discriminate E.
        + apply in_map_iff in I. destruct I as ((file & fs) & E & I). cbn [fst] in E. subst file. apply Fl in I. destruct I as (n & In_n & _ & H).
          destruct (node_files n In_n) as (d & E' & K). assert (d = [(fst (DUGPast a), fs)]) by congruence. subst d. unfold node_file in K.
          destruct (nd_equations n); [discriminate|]. destruct K as (x & K & _). discriminate K.
      - assert (Dj : forall x, In x (map traversal_file (a_traversals a)) -> ~ In x (map fst l)).
        { intros x I J. apply in_map_iff in I. destruct I as (t & <- & _). apply in_map_iff in J. destruct J as ((file & fs) & E & I). cbn [fst] in E. subst file.
          apply Fl in I. destruct I as (n & In_n & _ & H).
          destruct (node_files n In_n) as (d & E' & K). assert (d = [(traversal_file t, fs)]) by congruence. subst d. unfold node_file in K.
          destruct (nd_equations n); [discriminate|]. destruct K as (x & K & _). discriminate K. }
        revert Nt Dj. clear -Nl. generalize (map traversal_file (a_traversals a)) as k. induction k as [|x k IH]; intros Nt Dj; [exact Nl|].
        cbn [app]. apply NoDup_cons_iff in Nt. destruct Nt as [N1 N2]. constructor.
        + intros I. apply in_app_iff in I. destruct I as [I|I]; [apply N1, I|]. apply (Dj x); [left; reflexivity|exact I].
        + apply IH; [exact N2|]. intros y I. apply Dj. right. exact I. }
    split; [|exact N]. unfold user_directory. rewrite Eu. cbn [bind fst]. unfold dynamicGenUserFiles. rewrite El. cbn [bind]. f_equal.
    change (DUGPast a :: DUGTast a ts ++ l) with (the_files ts l). apply (opened (the_files ts l) []). exact N.
  Qed.

  Lemma in_trav : forall ts l t f b,
    Forall2 (fun t o => forall f b, In (f, b) (snd (DUGTitraversal a t o)) <-> handler_stub t f b) (a_traversals a) ts ->
    In t (a_traversals a) -> handler_stub t f b -> exists fs, In (traversal_file t, fs) (the_files ts l) /\ In (f, b) fs.
  Proof.
    intros ts l t f b F It H. apply In_nth_error in It. destruct It as (k & Hk).
    destruct (nth_error ts k) as [o|] eqn:Ho.
    - exists (snd (DUGTitraversal a t o)). split; [|apply (Forall2_at _ _ _ _ _ F k t o Hk Ho); exact H].
      right. apply in_app_iff. left. unfold DUGTast. apply in_map_iff. exists (t, o). split; [reflexivity|].
      apply (nth_error_In _ k). apply nth_error_combine_some; assumption.
    - apply nth_error_None in Ho. rewrite <- (Forall2_len _ _ _ _ _ F) in Ho. assert (k < List.length (a_traversals a)) by (apply nth_error_Some; congruence). lia.
  Qed.

  Lemma directory_stubs : forall dir, user_directory order a = Val dir -> forall file f b,
    (exists fs, In (file, fs) dir /\ In (f, b) fs) <-> stub a file f b.
  Proof.
    intros dir E. destruct directory_val as (ts & l & Eu & El & Ed & N). rewrite Ed in E. injection E as <-.
    destruct traversal_stubs as (ts' & Eu' & Len & Ft). assert (ts' = ts) by congruence. subst ts'.
    destruct node_directory as (l' & El' & Nl & Fl). assert (l' = l) by congruence. subst l'.
    assert (Ui : forall t, In t (a_traversals a) -> tv_uid t = Some (uid_of t)).
    { intros t I. unfold uid_of. destruct (tv_uid t) eqn:Et; [reflexivity|]. exfalso. apply (Pu t I Et). }
    intros file f b. split.
    - intros (fs & I & J). unfold the_files in I. destruct I as [I|I]; [|apply in_app_iff in I; destruct I as [I|I]].
      + assert (E1 := f_equal fst I). assert (E2 := f_equal snd I). cbn [fst snd] in E1, E2. rewrite <- E1. clear E1. subst fs. cbn [DUGPast snd] in J.
        apply in_map_iff in J. destruct J as (p & E & Ip). assert (E1 := f_equal fst E). assert (E2 := f_equal snd E). cbn [fst snd] in E1, E2.
        rewrite <- E2. rewrite <- E1. exact (stub_pass a p Ip).
      + unfold DUGTast in I. apply in_map_iff in I. destruct I as ((t & o) & E & I). cbn [fst snd] in E.
        apply In_nth_error in I. destruct I as (k & Hk). destruct (nth_error_combine _ _ _ _ _ _ Hk) as [Ht Ho].
        assert (It := nth_error_In _ _ Ht).
        assert (X := Forall2_at _ _ _ _ _ Ft k t o Ht Ho). cbn beta in X. rewrite E in X. cbn [snd] in X. apply X in J.
        apply (f_equal fst) in E. cbn [fst] in E. rewrite <- E. change (fst (DUGTitraversal a t o)) with (traversal_file t).
        destruct J as [(Nd & [->| ->] & ->)|(n & In_n & Tf & -> & ->)].
        * apply stub_init; auto.
        * apply stub_fini; auto.
        * apply stub_handler; auto.
      + apply Fl in I. destruct I as (n & In_n & Ne & H). destruct (node_files n In_n) as (d & E' & K). assert (d = [(file, fs)]) by congruence. subst d.
        unfold node_file in K. destruct (nd_equations n) as [|e0 el] eqn:En; [congruence|]. destruct K as (x & K & Q). injection K as -> ->.
        apply Q in J. destruct J as (e & children & null & args & Ie & O & L & R & -> & ->). rewrite <- En in Ie.
        apply stub_equation; assumption.
    - intros St. destruct St as [p Ip|t u It Eut Nd|t u It Eut Nd|t u n It Eut In_n Tf|n e children null args In_n Ie O L R].
      + eexists. split; [left; reflexivity|]. apply in_map_iff. exists p. split; [reflexivity|exact Ip].
      + rewrite (Ui t It) in Eut. injection Eut as <-. apply (in_trav ts l t (ID_UPR (uid_of t) ++ str "init") Return_nothing Ft It). left. auto.
      + rewrite (Ui t It) in Eut. injection Eut as <-. apply (in_trav ts l t (ID_UPR (uid_of t) ++ str "fini") Return_nothing Ft It). left. auto.
      + rewrite (Ui t It) in Eut. injection Eut as <-. apply (in_trav ts l t (ID_UPR (uid_of t) ++ ID_LWR (nd_name n)) Walk_children Ft It). right. exists n. auto.
      + destruct (node_files n In_n) as (d & E' & K). unfold node_file in K. destruct (nd_equations n) as [|e0 el] eqn:En; [destruct Ie|]. rewrite <- En in *.
        destruct K as (fs & -> & Q). exists fs. split.
        * right. apply in_app_iff. right. apply Fl. exists n. split; [exact In_n|]. split; [congruence|exact E'].
        * apply Q. exists e, children, null, args. auto 10.
  Qed.
End Accepted.
