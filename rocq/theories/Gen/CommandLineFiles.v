(** The directories that main creates, and the files in them. *)

From Coq Require Import String DecimalString.
From Coq Require Import List Ascii Bool NArith Lia Permutation.
From Verif Require Import Base.Outcome Palm.StrModel Front.Syntax Front.ScannerSpec Front.FileSpec Front.FileModel Front.FileNamesSpec Front.SetsModel Front.ParserModel Sched.GraphModel Sched.ScheduleModel Gen.AccessModel Gen.TablesModel
  Gen.IdentifierProps Gen.RunSpec Gen.RunModel Gen.RunNames Gen.CommandLineModel Gen.CommandLineSpec Gen.CommandLineProof.
Import ListNotations.
Local Open Scope list_scope.

Lemma skip_plain : forall s t, ~ In "/"%char s -> skip_name (s ++ "/"%char :: t) = "/"%char :: t.
Proof.
  induction s as [|c s IH]; intros t N; [reflexivity|]. cbn. destruct (Ascii.eqb_spec c "/") as [E|D]; [destruct N; left; exact E|].
  apply IH. intros I. apply N. right. exact I.
Qed.
Definition ends_slash (d : cstring) : Prop := exists d', d = d' ++ ["/"%char].
Lemma parent_child : forall d base, ends_slash d -> ~ In "/"%char base -> parent (d ++ base ++ ["/"%char]) = d.
Proof.
  intros d base (d' & ->) N. unfold parent. rewrite !rev_app_distr. cbn [rev app Ascii.eqb Bool.eqb].
  change (rev (skip_name (rev base ++ "/"%char :: rev d')) = d' ++ ["/"%char]).
  rewrite skip_plain by (intros I; apply in_rev in I; exact (N I)). cbn [rev]. rewrite rev_involutive. reflexivity.
Qed.

Definition is_in (q : cstring) (l : list cstring) : bool := existsb (same_name q) l.
Lemma is_in_iff : forall q l, is_in q l = true <-> In q l.
Proof.
  intros q l. unfold is_in. rewrite existsb_exists. split; [intros (x & I & E); apply same_name_iff in E; subst; exact I|intros I; exists q; split; [exact I|apply same_name_iff; reflexivity]].
Qed.

Fixpoint ready (t0 : tree) (before l : list cstring) : Prop :=
  match l with
  | [] => True
  | p :: l => t0 p <> Some Other /\ (t0 p = Some Directory \/ In (parent p) before \/ t0 (parent p) = Some Directory) /\ ready t0 (before ++ [p]) l
  end.
Lemma ensure_ready : forall l t0 before t, (forall q, t q = if is_in q before then Some Directory else t0 q) -> ready t0 before l ->
  exists t', ensure_all t l = (t', true) /\ forall q, t' q = if is_in q (before ++ l) then Some Directory else t0 q.
Proof.
  induction l as [|p l IH]; intros t0 before t E R.
  - exists t. split; [reflexivity|]. rewrite app_nil_r. exact E.
  - destruct R as (O & D & R). cbn [ensure_all].
    assert (Ba : forall q, is_in q (before ++ [p]) = is_in q before || same_name q p).
    { intros q. unfold is_in. rewrite existsb_app. cbn. rewrite orb_false_r. reflexivity. }
    assert (X : exists t1, FSensureDirExists t p = Some t1 /\ forall q, t1 q = if is_in q (before ++ [p]) then Some Directory else t0 q).
    { unfold FSensureDirExists. destruct (t p) as [[|]|] eqn:Tp.
      - exists t. split; [reflexivity|]. intros q. rewrite Ba, E. destruct (is_in q before) eqn:B; [reflexivity|]. cbn [orb].
        destruct (same_name q p) eqn:S; [|reflexivity]. apply same_name_iff in S. subst q. rewrite E, B in Tp. exact Tp.
      - exfalso. rewrite E in Tp. destruct (is_in p before); [discriminate Tp|exact (O Tp)].
      - assert (Tq : t (parent p) = Some Directory).
        { rewrite E. destruct (is_in (parent p) before) eqn:B; [reflexivity|]. destruct D as [D|[D|D]]; [|apply is_in_iff in D; congruence|exact D].
          exfalso. rewrite E, D in Tp. destruct (is_in p before); discriminate Tp. }
        rewrite Tq. eexists. split; [reflexivity|]. intros q. cbv beta. rewrite Ba, E. destruct (same_name q p); [rewrite orb_true_r; reflexivity|]. rewrite orb_false_r. reflexivity. }
    destruct X as (t1 & -> & E1). destruct (IH t0 (before ++ [p]) t1 E1 R) as (t' & E2 & E3). exists t'. split; [exact E2|].
    rewrite <- app_assoc in E3. exact E3.
Qed.

Lemma same_directories : forall dir, directories dir = wanted_directories dir.
Proof. intros dir. unfold directories, wanted_directories. rewrite <- app_assoc. reflexivity. Qed.

Lemma directories_made : forall t dir, ends_slash dir ->
  t dir = Some Directory \/ t (parent dir) = Some Directory -> (forall q, In q (wanted_directories dir) -> t q <> Some Other) ->
  exists t', ensure_all t (directories dir) = (t', true) /\
  forall q, t' q = if in_dec (list_eq_dec ascii_dec) q (wanted_directories dir) then Some Directory else t q.
Proof.
  intros t dir S P O. rewrite same_directories.
  assert (S2 : ends_slash (dir ++ str "ccngen/")) by (exists (dir ++ str "ccngen"); rewrite <- app_assoc; reflexivity).
  destruct (ensure_ready (wanted_directories dir) t [] t) as (t' & E & H).
  - reflexivity.
  - unfold wanted_directories in *. cbn [ready app].
    assert (P1 : forall b, ~ In "/"%char (str b) -> parent (dir ++ str (b ++ "/")) = dir).
    { intros b N. replace (str (b ++ "/")) with (str b ++ ["/"%char]); [apply parent_child; assumption|].
      clear. unfold str. induction b as [|c b IH]; [reflexivity|]. cbn. rewrite IH. reflexivity. }
    assert (P2 : parent (dir ++ str "ccngen/equations/") = dir ++ str "ccngen/").
    { change (str "ccngen/equations/") with (str "ccngen/" ++ (str "equations" ++ ["/"%char])). rewrite app_assoc. apply parent_child; [exact S2|].
      cbn. intuition discriminate. }
    split; [apply O; cbn; auto|]. split; [tauto|].
    split; [apply O; cbn; auto|]. split; [right; left; left; symmetry; exact (P1 "ccngen"%string ltac:(cbn; intuition discriminate))|].
    split; [apply O; cbn; auto|]. split; [right; left; right; left; symmetry; exact P2|].
    split; [apply O; cbn; auto|]. split; [right; left; left; symmetry; exact (P1 "user"%string ltac:(cbn; intuition discriminate))|].
    split; [apply O; cbn; auto 10|]. split; [right; left; left; symmetry; exact (P1 "ag_dot"%string ltac:(cbn; intuition discriminate))|].
    split; [apply O; cbn; auto 10|]. split; [right; left; left; symmetry; exact (P1 "log"%string ltac:(cbn; intuition discriminate))|]. exact I.
  - exists t'. split; [exact E|]. intros q. rewrite H. cbn [app]. destruct (in_dec _ q (wanted_directories dir)) as [I|N].
    + rewrite (proj2 (is_in_iff q _) I). reflexivity.
    + destruct (is_in q (wanted_directories dir)) eqn:B; [apply is_in_iff in B; destruct (N B)|reflexivity].
Qed.

(** Names of files *)
Lemma identifier_plain : forall x, identifier_ok x -> ~ In "/"%char x.
Proof.
  intros x (c & t & -> & L & W) [E|I].
  - subst c. unfold is_letter in L. vm_compute in L. intuition discriminate.
  - rewrite Forall_forall in W. specialize (W _ I). destruct W as [W|[W|W]]; [unfold is_letter in W|unfold ScannerSpec.is_digit in W|discriminate W];
      vm_compute in W; intuition discriminate.
Qed.
Lemma number_plain : forall u, ~ In "/"%char (str (NilEmpty.string_of_uint u)).
Proof. induction u as [|u IH|u IH|u IH|u IH|u IH|u IH|u IH|u IH|u IH|u IH]; cbn; [intros []|intros [E|I]; [discriminate E|exact (IH I)]..]. Qed.

Lemma in_directory : forall dir d base path, In (dir ++ d) (wanted_directories dir) -> path = d ++ base -> base <> [] -> ~ In "/"%char base ->
  exists q, In q (wanted_directories dir) /\ lies_in q (dir ++ path).
Proof. intros dir d base path I -> B N. exists (dir ++ d). split; [exact I|]. exists base. rewrite app_assoc. auto. Qed.

Ltac place d b := eapply (in_directory _ (str d) (str b)); [rewrite ?app_nil_r; unfold wanted_directories; cbn [In]; tauto|reflexivity|discriminate|cbn; intuition discriminate].

Lemma fixed_places : forall dir, Forall (fun path => exists q, In q (wanted_directories dir) /\ lies_in q (dir ++ path))
  (map str ["ccngen/ast.h"; "ast.c"; "ccngen/enum.h"; "ccngen/trav_data.h"; "trav_data.c"; "vtables.c"; "ccngen/actions.h"; "ccn_copy.c"; "ccn_free.c"; "ccn_check.c";
     "ccngen/equation.h"; "ccngen/visit.h"; "visit.c"; "ccngen/ag.h"; "ag.c"; "user/passes.c"; "trav.c"; "ccngen/trav.h";
     "ccngen/action_handling.h"; "action_handling.c"; "ccngen/gate.h"; "ast.dot"; "ccngen/ccn_defs.h"]%string).
Proof.
  intros dir. assert (Top : forall b, b <> [] -> ~ In "/"%char b -> exists q, In q (wanted_directories dir) /\ lies_in q (dir ++ b)).
  { intros b B N. apply (in_directory dir [] b); [rewrite app_nil_r; left; reflexivity|reflexivity|exact B|exact N]. }
  assert (Hdr : forall b, b <> [] -> ~ In "/"%char b -> exists q, In q (wanted_directories dir) /\ lies_in q (dir ++ str "ccngen/" ++ b)).
  { intros b B N. apply (in_directory dir (str "ccngen/") b); [right; left; reflexivity|reflexivity|exact B|exact N]. }
  repeat (constructor; [first
    [ apply Top; [discriminate|cbn; intuition discriminate]
    | match goal with |- exists q, _ /\ lies_in q (dir ++ ?p) =>
        let b := eval cbv in (skipn 7 p) in change p with (str "ccngen/" ++ b) end; apply Hdr; [discriminate|cbn; intuition discriminate]
    | match goal with |- exists q, _ /\ lies_in q (dir ++ ?p) =>
        let b := eval cbv in (skipn 5 p) in apply (in_directory dir (str "user/") b) end; [cbn; tauto|reflexivity|discriminate|cbn; intuition discriminate] ]|]).
  constructor.
Qed.

Lemma outputs_places : forall t p dir path, reads_file t p -> In path (map fst (outputs (ast_of p))) ->
  exists q, In q (wanted_directories dir) /\ lies_in q (dir ++ path).
Proof.
  intros t p dir path F I. destruct (C53_names_partial t p F) as (Nm & _).
  assert (Nn : forall n, In n (a_nodes (ast_of p)) -> ~ In "/"%char (ID_LWR (nd_name n))).
  { intros n In_n. apply identifier_plain. apply (Nm (nd_name n)). unfold tree_names. rewrite !in_app_iff. right; right; right; left.
    apply in_flat_map. exists n. split; [exact In_n|left; reflexivity]. }
  assert (Nt : forall n, In n (a_traversals (ast_of p)) -> ~ In "/"%char (ID_LWR (tv_name n))).
  { intros n In_n. apply identifier_plain. apply (Nm (tv_name n)). unfold tree_names. rewrite !in_app_iff. right; left.
    apply in_flat_map. exists n. split; [exact In_n|left; reflexivity]. }
  apply (Permutation_in _ (paths (ast_of p))) in I. rewrite !in_app_iff in I. destruct I as [I|[I|[I|I]]].
  - assert (Fx := fixed_places dir). rewrite Forall_forall in Fx. exact (Fx path I).
  - apply in_map_iff in I. destruct I as (n & <- & I). unfold equation_nodes in I. apply filter_In in I. destruct I as [I _].
    apply (in_directory dir (str "ccngen/equations/") (ID_LWR (nd_name n) ++ str ".h")); [cbn; tauto|reflexivity| |].
    + intros E. apply app_eq_nil in E. destruct E as [_ E]. discriminate E.
    + intros J. apply in_app_or in J. destruct J as [J|J]; [exact (Nn n I J)|]. cbn in J. intuition discriminate.
  - apply in_map_iff in I. destruct I as (n & <- & I).
    apply (in_directory dir (str "user/") (str "trav_" ++ ID_LWR (tv_name n) ++ str ".c")); [cbn; tauto|reflexivity|discriminate|].
    intros J. apply in_app_or in J. destruct J as [J|J]; [cbn in J; intuition discriminate|].
    apply in_app_or in J. destruct J as [J|J]; [exact (Nt n I J)|]. cbn in J. intuition discriminate.
  - apply in_map_iff in I. destruct I as (n & <- & I). unfold equation_nodes in I. apply filter_In in I. destruct I as [I _].
    apply (in_directory dir (str "user/") (str "eq_" ++ ID_LWR (nd_name n) ++ str ".c")); [cbn; tauto|reflexivity|discriminate|].
    intros J. apply in_app_or in J. destruct J as [J|J]; [cbn in J; intuition discriminate|].
    apply in_app_or in J. destruct J as [J|J]; [exact (Nn n I J)|]. cbn in J. intuition discriminate.
Qed.

Lemma diagnostic_places : forall rounds dir path, In path (dot_files rounds) \/ path = str "log/ag_schedule.log" ->
  exists q, In q (wanted_directories dir) /\ lies_in q (dir ++ path).
Proof.
  intros rounds dir path [I| ->].
  - unfold dot_files in I. destruct I as [<-|I].
    + apply (in_directory dir (str "ag_dot/") (str "pre_induce.dot")); [cbn; tauto|reflexivity|discriminate|cbn; intuition discriminate].
    + apply in_app_or in I. destruct I as [I|[<-|[]]].
      * apply in_map_iff in I. destruct I as (k & <- & _).
        apply (in_directory dir (str "ag_dot/") (str "induce_" ++ str (NilEmpty.string_of_uint (Nat.to_uint k)) ++ str ".dot")); [cbn; tauto|reflexivity|discriminate|].
        intros J. apply in_app_or in J. destruct J as [J|J]; [cbn in J; intuition discriminate|].
        apply in_app_or in J. destruct J as [J|J]; [exact (number_plain _ J)|]. cbn in J. intuition discriminate.
      * apply (in_directory dir (str "ag_dot/") (str "partitioned.dot")); [cbn; tauto|reflexivity|discriminate|cbn; intuition discriminate].
  - apply (in_directory dir (str "log/") (str "ag_schedule.log")); [cbn; tauto|reflexivity|discriminate|cbn; intuition discriminate].
Qed.
