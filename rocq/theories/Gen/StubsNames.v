(** No two stubs have the same name. *)

From Coq Require Import String.
From Coq Require Import List Ascii Bool Arith Lia Permutation.
From Verif Require Import Base.Outcome Palm.StrModel Front.Syntax Front.CheckExistanceModel Front.CheckExistanceSpec Front.CheckExistanceProof Front.SetsModel Front.SetsSpec Front.SetsProof Front.SymbolTableSpec Front.SymbolTableProof
  Front.ReachModel Front.PropagateModel Front.PropagateSpec Front.NodesetPassesProof Front.ScannerSpec Front.FileModel Front.FileSpec Front.FileNamesSpec Front.FileNames Sched.FrontendModel Gen.TablesModel Gen.TablesSpec Gen.TablesProof Gen.EvalVariantsModel Gen.EvalVariantsSpec Gen.EvalVariantsProof Gen.EvalVariantsProps
  Front.ProductRulesProof Gen.CompileVerdict Gen.AccessMembers Gen.DispatchModel Gen.DispatchSpec Gen.DispatchReach Gen.DispatchProof Gen.DispatchProps
  Gen.StubsModel Gen.StubsSpec Gen.StubsProof.
From Verif Require Gen.EvalVariantsNames.
Import ListNotations.
Local Open Scope list_scope.
Local Open Scope outcome_scope.

Lemma NoDup_app_intro : forall A (l m : list A), NoDup l -> NoDup m -> (forall x, In x l -> ~ In x m) -> NoDup (l ++ m).
Proof.
  intros A l m Nl Nm D. induction Nl as [|x l N1 N2 IH]; [exact Nm|]. cbn [app]. constructor.
  - intros I. apply in_app_iff in I. destruct I as [I|I]; [exact (N1 I)|]. apply (D x); [left; reflexivity|exact I].
  - apply IH. intros y I. apply D. right. exact I.
Qed.

Lemma all_files_once : forall dir : list cfile, NoDup (map fst dir) -> (forall file fs, In (file, fs) dir -> NoDup (map fst fs)) ->
  (forall file file' fs fs' f b b', In (file, fs) dir -> In (file', fs') dir -> In (f, b) fs -> In (f, b') fs' -> file = file') ->
  NoDup (map fst (flat_map snd dir)).
Proof.
  induction dir as [|[file fs] dir IH]; intros N E X; [constructor|]. cbn [flat_map snd]. rewrite map_app. apply NoDup_app_intro.
  - apply (E file). left. reflexivity.
  - cbn [map] in N. apply NoDup_cons_iff in N. apply IH; [apply N| |].
    + intros file' fs' I. apply (E file'). right. exact I.
    + intros file1 file2 fs1 fs2 f b b' I1 I2. apply X; right; assumption.
  - intros f I J. cbn [map fst] in N. apply NoDup_cons_iff in N. apply (proj1 N).
    apply in_map_iff in I. destruct I as ((f1 & b1) & E1 & I). cbn [fst] in E1. subst f1.
    apply in_map_iff in J. destruct J as ((f2 & b2) & E2 & J). cbn [fst] in E2. subst f2.
    apply in_flat_map in J. destruct J as ((file' & fs') & J1 & J2). cbn [snd] in J2.
    rewrite (X file file' fs fs' f b1 b2 (or_introl eq_refl) (or_intror J1) I J2). apply (in_map fst) in J1. exact J1.
Qed.

Lemma variant_start : forall n r l, exists y, variant_name n r l = str "EVAL" ++ ID_LWR (nd_name n) ++ y.
Proof. intros n r l. unfold variant_name. eexists. reflexivity. Qed.

Section Accepted.
  Variable a : ast.
  Variable s : pra.
  Variable lits : list Syntax.literal.
  Hypothesis P : parsed_ast a.
  Hypothesis U : unmarked a.
  Hypothesis Pu : uids_present a.
  Hypothesis B : before_scheduling a = Val (s, lits).
  Hypothesis Few : few_children a.
  Variable order : list nat -> list nat.
  Hypothesis Po : forall l, Permutation (order l) l.
  Hypothesis Na : names_apart a.
  Hypothesis Nn : forall n, In n (a_nodes a) -> identifier_ok (nd_name n).

  Let C : is_val (check_names a) = true.
  Proof. destruct (all_passes a s lits B) as (st & ts & C & _). exact C. Qed.
  Let Dn : NoDup (map (fun n => ID_LWR (nd_name n)) (a_nodes a)) := nodes_distinct a C.
  Let Du : distinct_names (map uid_of (a_traversals a)) := distinct_uids a (proj1 (checked_names a C)) Pu.

  Lemma same_traversal : forall t t' u u', In t (a_traversals a) -> In t' (a_traversals a) -> tv_uid t = Some u -> tv_uid t' = Some u' ->
    ID_UPR u = ID_UPR u' -> t = t'.
  Proof.
    intros t t' u u' I I' E E' H. apply (NoDup_key _ _ (fun t => ID_LWR (uid_of t)) (a_traversals a)); [|exact I|exact I'|].
    - assert (D := Du). unfold distinct_names in D. rewrite map_map in D. exact D.
    - unfold uid_of. rewrite E, E'. apply upr_lwr. exact H.
  Qed.

  Definition low (x : cstring) : Prop := exists c l, x = c :: l /\ upper_byte c <> c.
  Lemma low_node : forall n, In n (a_nodes a) -> low (ID_LWR (nd_name n)).
  Proof. intros n I. apply lower_start, Nn, I. Qed.
  Lemma low_app : forall x y, low x -> low (x ++ y).
  Proof. intros x y (c & l & -> & H). exists c, (l ++ y). auto. Qed.
  Lemma low_init : low (str "init").
  Proof. exists "i"%char, (str "nit"). split; [reflexivity|]. vm_compute. discriminate. Qed.
  Lemma low_fini : low (str "fini").
  Proof. exists "f"%char, (str "ini"). split; [reflexivity|]. vm_compute. discriminate. Qed.

  (** The stubs of a traversal. *)
  Definition of_traversal (t : itraversal) (u : ident) (x : cstring) (b : body) : Prop :=
    In t (a_traversals a) /\ tv_uid t = Some u /\ low x /\
    ((tv_data t <> [] /\ b = Return_nothing /\ (x = str "init" \/ x = str "fini")) \/
     (b = Walk_children /\ exists n, In n (a_nodes a) /\ taken_for a t n /\ x = ID_LWR (nd_name n))).
  Definition of_equation (n : inode) (e : equation) (f : cstring) (args : list attribute_reference) : Prop :=
    In n (a_nodes a) /\ In e (nd_equations n) /\ exists children null, optional_children n (eq_args e) children /\
      (forall c, null c = true -> optional n c) /\ readable n null (eq_args e) args /\
      f = variant_name n (eq_rule e) (names n (filter null children)).
  Lemma stub_cases : forall file f b, stub a file f b ->
    (exists p, In p (a_passes a) /\ file = str "passes.c" /\ f = pass_function p /\ b = Return_root) \/
    (exists t u x, of_traversal t u x b /\ file = traversal_file t /\ f = ID_UPR u ++ x) \/
    (exists n e args, of_equation n e f args /\ file = equation_file n /\ b = Default_value args).
  Proof.
    intros file f b St. destruct St as [p Ip|t u It Eut Nd|t u It Eut Nd|t u n It Eut In_n Tf|n e children null args In_n Ie O L R].
    - left. exists p. auto.
    - right; left. exists t, u, (str "init"). split; [|auto]. split; [exact It|]. split; [exact Eut|]. split; [apply low_init|]. left. auto.
    - right; left. exists t, u, (str "fini"). split; [|auto]. split; [exact It|]. split; [exact Eut|]. split; [apply low_fini|]. left. auto.
    - right; left. exists t, u, (ID_LWR (nd_name n)). split; [|auto]. split; [exact It|]. split; [exact Eut|]. split; [apply low_node, In_n|]. right. eauto.
    - right; right. exists n, e, args. split; [|auto]. split; [exact In_n|]. split; [exact Ie|]. exists children, null. auto.
  Qed.

  Lemma pass_traversal : forall p t u x b, In p (a_passes a) -> of_traversal t u x b -> pass_function p <> ID_UPR u ++ x.
  Proof.
    intros p t u x b Ip (It & Eu & _ & H). apply (proj1 (na_passes a Na p Ip) t u x It Eu).
    destruct H as [(_ & _ & [->| ->])|(_ & n & In_n & _ & ->)]; [left; reflexivity|right; left; reflexivity|].
    right; right. apply in_map_iff. eauto.
  Qed.
  Lemma pass_equation : forall p n e f args, In p (a_passes a) -> of_equation n e f args -> pass_function p <> f.
  Proof.
    intros p n e f args Ip (_ & _ & c & null & _ & _ & _ & ->). destruct (variant_start n (eq_rule e) (names n (filter null c))) as (y & ->).
    apply (proj2 (na_passes a Na p Ip)).
  Qed.
  Lemma traversal_equation : forall t u x b n e f args, of_traversal t u x b -> of_equation n e f args -> ID_UPR u ++ x <> f.
  Proof.
    intros t u x b n e f args (It & Eu & Lx & _) (In_n & _ & c & null & _ & _ & _ & ->) E.
    destruct (variant_start n (eq_rule e) (names n (filter null c))) as (y & Ey). rewrite Ey in E.
    apply upper_part in E; [|apply upr_no_lower| |exact Lx|apply low_app, low_node, In_n].
    - apply (uids_free a s lits B t u It Eu). unfold reserved_uid. rewrite (proj1 E). vm_compute. tauto.
    - intros ch I. change (In ch ["E"; "V"; "A"; "L"]%char) in I. destruct I as [<-|[<-|[<-|[<-|[]]]]]; reflexivity.
  Qed.
  Lemma two_equations : forall n e n' e' f args args', of_equation n e f args -> of_equation n' e' f args' -> n' = n /\ e' = e /\ args' = args.
  Proof.
    intros n e n' e' f args args' H H'. assert (In1 := proj1 H). assert (In2 := proj1 H'). assert (Ie := proj1 (proj2 H)). assert (Ie' := proj1 (proj2 H')).
    destruct (equation_stubs a s lits P U B Few order Po n e In1 Ie) as (d & Ed & Q).
    destruct (equation_stubs a s lits P U B Few order Po n' e' In2 Ie') as (d' & Ed' & Q').
    destruct (C35_declared_once a s lits P U B n e order d In1 Ie Po Ed) as (N & X).
    assert (J : In (f, args) d) by (apply Q; destruct H as (_ & _ & H); exact H).
    assert (J' : In (f, args') d') by (apply Q'; destruct H' as (_ & _ & H'); exact H').
    destruct (na_plain a Na n e In1 Ie) as (P1 & P2). destruct (na_plain a Na n' e' In2 Ie') as (P1' & P2').
    destruct (X n' e' order d' In2 Ie' Po Ed' P1 P1' P2 P2') as [-> ->].
    - exact (na_equations a Na n In1).
    - exists f. split; [apply (in_map fst) in J; exact J|apply (in_map fst) in J'; exact J'].
    - split; [reflexivity|]. split; [reflexivity|]. assert (d' = d) by congruence. subst d'.
      assert (E := NoDup_key _ _ fst d (f, args') (f, args) N J' J eq_refl). congruence.
  Qed.

  Lemma stub_once : forall file file' f b b', stub a file f b -> stub a file' f b' -> file = file' /\ b = b'.
  Proof.
    intros file file' f b b' S S'. apply stub_cases in S. apply stub_cases in S'.
    destruct S as [(p & Ip & -> & Ef & ->)|[(t & u & x & Ot & -> & Ef)|(n & e & args & Oe & -> & ->)]];
      destruct S' as [(p' & Ip' & -> & Ef' & ->)|[(t' & u' & x' & Ot' & -> & Ef')|(n' & e' & args' & Oe' & -> & ->)]].
    - auto.
    - exfalso. apply (pass_traversal p t' u' x' b' Ip Ot'). congruence.
    - exfalso. apply (pass_equation p n' e' f args' Ip Oe'). congruence.
    - exfalso. apply (pass_traversal p' t u x b Ip' Ot). congruence.
    - rewrite Ef in Ef'. apply upper_part in Ef'; [|apply upr_no_lower|apply upr_no_lower|apply Ot|apply Ot'].
      destruct Ef' as [Eu Ex]. subst x'.
      assert (t = t') by (apply (same_traversal t t' u u'); [apply Ot|apply Ot'|apply Ot|apply Ot'|exact Eu]). subst t'.
      split; [reflexivity|]. destruct Ot as (It & _ & _ & H). destruct Ot' as (_ & _ & _ & H').
      destruct H as [(D & Eb & H)|(Eb & n & In_n & T & H)], H' as [(D' & Eb' & H')|(Eb' & n' & In_n' & T' & H')]; try congruence.
      + exfalso. destruct (na_data a Na t n' It D In_n' T') as [N1 N2]. destruct H as [H|H]; congruence.
      + exfalso. destruct (na_data a Na t n It D' In_n T) as [N1 N2]. destruct H' as [H'|H']; congruence.
    - exfalso. apply (traversal_equation t u x b n' e' f args' Ot Oe'). congruence.
    - exfalso. apply (pass_equation p' n e f args Ip' Oe). congruence.
    - exfalso. apply (traversal_equation t' u' x' b' n e f args Ot' Oe). congruence.
    - destruct (two_equations n e n' e' f args args' Oe Oe') as (-> & _ & ->). auto.
  Qed.

  (** ** Every file defines a function once *)
  Lemma passes_once : NoDup (map fst (snd (DUGPast a))).
  Proof. unfold DUGPast. cbn [snd]. rewrite map_map. exact (na_functions a Na). Qed.

  Lemma NoDup_prefixed : forall (p : cstring) l, NoDup l -> NoDup (map (fun x => p ++ x) l).
  Proof.
    intros p l N. induction N as [|x l N1 N2 IH]; [constructor|]. cbn [map]. constructor; [|exact IH].
    intros I. apply in_map_iff in I. destruct I as (y & E & I). apply app_inv_head in E. subst y. exact (N1 I).
  Qed.
  Lemma traversal_once : forall ts, unwrap a = Val (ts, lits) -> forall t o, In (t, o) (combine (a_traversals a) ts) ->
    NoDup (map fst (snd (DUGTitraversal a t o))).
  Proof.
    intros ts Eu t o I. destruct (unwrap_right a ts lits P Eu) as (_ & F).
    destruct (traversal_stubs a s lits P B) as (ts' & Eu' & _ & Ft). assert (ts' = ts) by congruence. subst ts'.
    apply In_nth_error in I. destruct I as (k & Hk). destruct (nth_error_combine _ _ _ _ _ _ Hk) as [Ht Ho]. cbn [fst snd] in Ht, Ho.
    assert (It := nth_error_In _ _ Ht). assert (X := Forall2_at _ _ _ _ _ Ft k t o Ht Ho). assert (Y := Forall2_at _ _ _ _ _ F k t o Ht Ho). cbn beta in X, Y.
    assert (Nh : NoDup (map fst (match o with None | Some LNull => rev (map (fun n => DUGTid (ID_UPR (uid_of t)) (nd_name n)) (a_nodes a)) | Some l => map (DUGTid (ID_UPR (uid_of t))) (listed l) end))).
    { assert (All : NoDup (map fst (rev (map (fun n => DUGTid (ID_UPR (uid_of t)) (nd_name n)) (a_nodes a))))).
      { rewrite map_rev, map_map. apply NoDup_rev. cbn [DUGTid fst].
        assert (Q := NoDup_prefixed (ID_UPR (uid_of t)) _ Dn). rewrite map_map in Q. exact Q. }
      destruct o as [[|id l1 l2]|]; [exact All| |exact All]. destruct (tv_nodes t) as [e|]; [|destruct Y].
      destruct Y as [_ Tw]. rewrite map_map. unfold DUGTid. cbn [fst].
      assert (Q := NoDup_prefixed (ID_UPR (uid_of t)) _ Tw). rewrite map_map in Q. exact Q. }
    unfold DUGTitraversal in *. cbn [snd] in *. rewrite map_app. apply NoDup_app_intro; [|exact Nh|].
    - destruct (tv_data t); cbn [map fst]; [constructor|]. constructor.
      + intros [I|[]]. apply app_inv_head in I. discriminate I.
      + constructor; [intros []|constructor].
    - intros f I J. apply in_map_iff in I. destruct I as ((f1 & b1) & E1 & I). cbn [fst] in E1. subst f1.
      apply in_map_iff in J. destruct J as ((f2 & b2) & E2 & J). cbn [fst] in E2. subst f2.
      assert (D : tv_data t <> [] /\ (f = ID_UPR (uid_of t) ++ str "init" \/ f = ID_UPR (uid_of t) ++ str "fini")).
      { destruct (tv_data t); [destruct I|]. split; [discriminate|]. destruct I as [I|[I|[]]]; apply (f_equal fst) in I; cbn [fst] in I; symmetry in I; auto. }
      assert (Hb : b2 = Walk_children).
      { destruct o as [[|id l1 l2]|]; [apply in_rev in J| |apply in_rev in J]; apply in_map_iff in J; destruct J as (z & E & _); apply (f_equal snd) in E; cbn [snd DUGTid] in E; congruence. }
      destruct (proj1 (X f b2) (proj2 (in_app_iff _ _ _) (or_intror J))) as [(_ & _ & Z)|(n & In_n & T & Ef & _)]; [congruence|].
      destruct D as (D & Di). destruct (na_data a Na t n It D In_n T) as [N1 N2].
      destruct Di as [Di|Di]; rewrite Di in Ef; apply app_inv_head in Ef; congruence.
  Qed.

  Lemma node_once : forall n file fs, In n (a_nodes a) -> DUGEinode order n = Val [(file, fs)] -> NoDup (map fst fs).
  Proof.
    intros n file fs In_n H. unfold DUGEinode in H.
    assert (Q : forall l r, (forall e, In e l -> In e (nd_equations n)) ->
      NoDup (map (fun e => (match ar_inode (eq_rule e) with Some c => ID_LWR c | None => str "this" end, ID_LWR (ar_attribute (eq_rule e)))) l) ->
      Forall2 (fun e d => DGEFequation n order e = Val d) l r -> NoDup (map fst (concat r))).
    { intros l r Sub N F. induction F as [|e d l r He F IH]; [constructor|]. cbn [concat]. rewrite map_app. cbn [map] in N.
      apply NoDup_cons_iff in N. destruct N as [N1 N2].
      assert (Ie := Sub e (or_introl eq_refl)).
      destruct (C35_declared_once a s lits P U B n e order d In_n Ie Po He) as (Nd & X).
      apply NoDup_app_intro; [exact Nd|apply IH; [intros e' I; apply Sub; right; exact I|exact N2]|].
      intros f I J. rewrite concat_map in J. apply in_concat in J. destruct J as (fl & Jl & J). apply in_map_iff in Jl. destruct Jl as (d' & <- & Jd).
      destruct (Forall2_in_r _ _ _ _ _ _ F Jd) as (e' & Ie' & He'). assert (Ie2 := Sub e' (or_intror Ie')).
      destruct (na_plain a Na n e In_n Ie) as (P1 & P2). destruct (na_plain a Na n e' In_n Ie2) as (_ & P2').
      destruct (X n e' order d' In_n Ie2 Po He' P1 P1 P2 P2' (na_equations a Na n In_n)) as [_ ->]; [eauto|].
      apply N1. apply in_map_iff. exists e. auto. }
    assert (F : exists r, map_val (DGEFequation n order) (nd_equations n) = Val r /\ fs = map (fun f => (fst f, Default_value (snd f))) (concat r)).
    { destruct (nd_equations n) as [|e0 el] eqn:En; [discriminate|]. rewrite <- En. clear En. unfold DGEFequations in H.
      change (all (DGEFequation n order)) with (map_val (DGEFequation n order)) in H. revert H.
      destruct (map_val (DGEFequation n order) (nd_equations n)) as [r| | | |] eqn:E; cbn [bind]; try discriminate.
      intros H. exists r. split; [reflexivity|]. congruence. }
    destruct F as (r & Er & ->). rewrite map_map. cbn [fst].
    apply (Q (nd_equations n) r (fun e I => I) (na_equations a Na n In_n)). apply map_val_forall. exact Er.
  Qed.

  Theorem all_once : forall dir, user_directory order a = Val dir -> NoDup (map fst (flat_map snd dir)).
  Proof.
    intros dir E. destruct (directory_val a s lits P U B Few order Po) as (ts & l & Eu & El & Ed & N).
    assert (St := directory_stubs a s lits P U Pu B Few order Po dir E).
    rewrite Ed in E. injection E as E. rewrite E in N. apply all_files_once; [exact N| |].
    - intros file fs I. rewrite <- E in I. destruct I as [I|I]; [|apply in_app_iff in I; destruct I as [I|I]].
      + apply (f_equal snd) in I. cbn [snd] in I. rewrite <- I. apply passes_once.
      + unfold DUGTast in I. apply in_map_iff in I. destruct I as ((t & o) & Ef & I). cbn [fst snd] in Ef.
        apply (f_equal snd) in Ef. cbn [snd] in Ef. rewrite <- Ef. apply (traversal_once ts Eu). exact I.
      + destruct (node_directory a s lits P U B Few order Po) as (l' & El' & _ & Fl). assert (l' = l) by congruence. subst l'.
        apply Fl in I. destruct I as (n & In_n & _ & H). apply (node_once n file fs In_n H).
    - intros file file' fs fs' f b b' I I' J J'.
      apply (stub_once file file' f b b'); apply St; eauto.
  Qed.

  Lemma defined_in : forall dir file f b, user_directory order a = Val dir -> stub a file f b -> definition dir f = Some b.
  Proof.
    intros dir file f b E S. assert (N := all_once dir E).
    apply (directory_stubs a s lits P U Pu B Few order Po dir E) in S. destruct S as (fs & I & J).
    assert (K : In (f, b) (flat_map snd dir)) by (apply in_flat_map; exists (file, fs); auto).
    unfold definition. revert N K. clear. generalize (flat_map snd dir) as l. intros l N K. induction l as [|[g c] l IH]; [destruct K|].
    cbn [find fst]. cbn [map fst] in N. apply NoDup_cons_iff in N. destruct (list_eq_dec ascii_dec g f) as [->|Ne].
    - destruct K as [K|K]; [injection K as ->; reflexivity|]. exfalso. apply (proj1 N). apply (in_map fst) in K. exact K.
    - destruct K as [K|K]; [injection K as -> _; congruence|]. apply IH; [apply N|exact K].
  Qed.
  Lemma not_defined : forall dir f, user_directory order a = Val dir -> (forall file b, ~ stub a file f b) -> definition dir f = None.
  Proof.
    intros dir f E S. unfold definition. match goal with |- option_map _ ?x = _ => destruct x as [[g b]|] eqn:F end; [|reflexivity]. exfalso.
    apply find_some in F. destruct F as [I H]. cbn [fst] in H. destruct (list_eq_dec ascii_dec g f) as [->|]; [|discriminate].
    apply in_flat_map in I. destruct I as ((file & fs) & I & J). apply (S file b).
    apply (directory_stubs a s lits P U Pu B Few order Po dir E). eauto.
  Qed.
End Accepted.
