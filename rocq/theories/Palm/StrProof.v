(** Lemmas about the string functions. *)

From Coq Require Import List Ascii NArith ZArith Bool Lia Arith.
From Verif Require Import Base.Outcome Palm.StrModel Palm.StrSpec.
Import ListNotations.
Local Open Scope outcome_scope.

(* ----- blocks ----- *)

Lemma malloc_ok n : (0 < n < 2 ^ 63)%Z -> MEMmalloc n = Val (Some (mk_block n [])).
Proof.
  intros H. unfold MEMmalloc. rewrite Z.mod_small by lia.
  destruct (Z.eqb_spec n 0); [lia|].
  destruct (Z.leb_spec (2 ^ 63) n); [lia|]. reflexivity.
Qed.

Lemma malloc_neg n : (- 2 ^ 63 <= n < 0)%Z -> MEMmalloc n = Aborted.
Proof.
  intros H. unfold MEMmalloc.
  replace (n mod 2 ^ 64)%Z with (n + 2 ^ 64)%Z.
  - destruct (Z.eqb_spec (n + 2 ^ 64) 0); [lia|].
    destruct (Z.leb_spec (2 ^ 63) (n + 2 ^ 64)); [reflexivity|lia].
  - apply (Z.mod_unique _ _ (-1)); lia.
Qed.

Lemma put_ok c d bs :
  (Z.of_nat (length d) + Z.of_nat (length bs) <= c)%Z ->
  put (Some (mk_block c d)) bs = Val (Some (mk_block c (d ++ bs))).
Proof.
  intros H. unfold put. cbn [data cap].
  destruct (Z.leb_spec (Z.of_nat (length d) + Z.of_nat (length bs)) c); [reflexivity|lia].
Qed.

Lemma content_of_app s r : no_nul s -> content_of (s ++ nul :: r) = Some s.
Proof.
  induction s as [|c s IH]; intros H.
  - reflexivity.
  - cbn [app content_of]. destruct (Ascii.eqb_spec c nul) as [->|Hc].
    + exfalso. apply H. left. reflexivity.
    + rewrite IH; [reflexivity|]. intros Hin. apply H. right. exact Hin.
Qed.

Lemma no_nul_app a b : no_nul (a ++ b) <-> no_nul a /\ no_nul b.
Proof.
  unfold no_nul. rewrite in_app_iff. tauto.
Qed.

Lemma no_nul_cons c a : no_nul (c :: a) <-> c <> nul /\ no_nul a.
Proof. unfold no_nul. simpl. split; [intros H; split; intros E; apply H; auto|].
  intros [H1 H2] [E|E]; auto. Qed.

Lemma holds_intro c s : no_nul s -> c = Z.of_nat (length s + 1) ->
  holds (Some (mk_block c (s ++ [nul]))) s.
Proof.
  intros Hs Hc. exists (mk_block c (s ++ [nul])). repeat split.
  - simpl. exact (content_of_app s [] Hs).
  - exact Hc.
Qed.

(* ----- construction ----- *)

Lemma STRcpy_correct s : no_nul s -> int_len s ->
  exists b, STRcpy (Some s) = Val b /\ holds b s.
Proof.
  intros Hs Hl. unfold STRcpy, STRlen, int_len in *.
  rewrite malloc_ok by lia. cbn [bind].
  rewrite put_ok by (rewrite app_length; simpl; lia).
  eexists. split; [reflexivity|]. simpl app. apply holds_intro; [exact Hs|lia].
Qed.

Lemma no_nul_firstn n s : no_nul s -> no_nul (firstn n s).
Proof.
  intros H Hin. apply H. rewrite <- (firstn_skipn n s). apply in_or_app. auto.
Qed.
Lemma no_nul_skipn n s : no_nul s -> no_nul (skipn n s).
Proof.
  intros H Hin. apply H. rewrite <- (firstn_skipn n s). apply in_or_app. auto.
Qed.

Lemma STRncpy_correct s maxlen : no_nul s -> int_len s ->
  (0 <= maxlen)%Z ->
  exists b, STRncpy (Some s) maxlen = Val b /\ holds b (firstn (Z.to_nat maxlen) s).
Proof.
  intros Hs Hl Hm. unfold STRncpy, STRlen, int_len in *.
  set (max := if (maxlen <? Z.of_nat (length s))%Z then maxlen else Z.of_nat (length s)).
  assert (Hmax : (0 <= max <= Z.of_nat (length s))%Z /\
                 firstn (Z.to_nat max) s = firstn (Z.to_nat maxlen) s /\
                 length (firstn (Z.to_nat maxlen) s) = Z.to_nat max).
  { unfold max. rewrite firstn_length.
    destruct (Z.ltb_spec maxlen (Z.of_nat (length s))).
    - repeat split; try lia.
    - repeat split; try lia. rewrite !firstn_all2 by lia. reflexivity. }
  destruct Hmax as (H1 & H2 & H3).
  rewrite malloc_ok by lia. cbn [bind].
  destruct (Z.ltb_spec max 0); [lia|].
  rewrite H2. rewrite put_ok by (rewrite H3; simpl; lia).
  cbn [bind app]. rewrite put_ok by (rewrite H3; simpl; lia).
  eexists. split; [reflexivity|]. apply holds_intro; [apply no_nul_firstn; exact Hs|].
  rewrite H3. lia.
Qed.

Lemma STRncpy_negative s maxlen : int_len s -> (- 2 ^ 31 <= maxlen < 0)%Z ->
  STRncpy (Some s) maxlen = if (maxlen =? -1)%Z then Undef else Aborted.
Proof.
  intros Hl Hm. unfold STRncpy, STRlen.
  destruct (Z.ltb_spec maxlen (Z.of_nat (length s))); [|lia].
  destruct (Z.eqb_spec maxlen (-1)) as [->|Hne].
  - reflexivity.
  - rewrite malloc_neg by lia. reflexivity.
Qed.

Lemma STRnull_correct : exists b, STRnull = Val b /\ holds b [].
Proof.
  eexists. split; [reflexivity|]. eexists. repeat split.
Qed.

(** What STRsubStr is documented to return. *)
Lemma STRsubStr_correct s start len : no_nul s -> int_len s ->
  (0 <= start)%Z -> (start <= INT_MAX)%Z ->
  let len' := (if len <? 0 then Z.of_nat (length s) + len else len)%Z in
  (0 <= len')%Z -> (start + len' <= INT_MAX)%Z ->
  exists b, STRsubStr (Some s) start len = Val b /\
            holds b (firstn (Z.to_nat len') (skipn (Z.to_nat start) s)).
Proof.
  intros Hs Hl Hst Hsm len' Hle Hov. unfold int_len in Hl. unfold STRsubStr, STRlen.
  set (n := Z.of_nat (length s)) in *.
  assert (Hn : (0 <= n < 2 ^ 31)%Z) by lia.
  assert (E1 : (if (len <? 0)%Z then int_add n len else Val len) = Val len').
  { unfold len'. destruct (Z.ltb_spec len 0); [|reflexivity].
    unfold int_add, INT_MIN, INT_MAX in *.
    destruct (Z.leb_spec (- 2 ^ 31) (n + len)); [|lia].
    destruct (Z.leb_spec (n + len) (2 ^ 31 - 1)); [reflexivity|lia]. }
  rewrite E1. cbn [bind].
  assert (Eadd : forall a b, (INT_MIN <= a + b <= INT_MAX)%Z -> int_add a b = Val (a + b)%Z).
  { intros a b H. unfold int_add.
    destruct (Z.leb_spec INT_MIN (a + b)); [|lia].
    destruct (Z.leb_spec (a + b) INT_MAX); [reflexivity|lia]. }
  unfold INT_MIN, INT_MAX in *.
  rewrite Eadd by lia. cbn [bind].
  set (len2 := if (n <? start + len')%Z then (n - start)%Z else len').
  assert (E2 : (if (n <? start + len')%Z then int_add n (- start) else Val len') = Val len2).
  { unfold len2. destruct (Z.ltb_spec n (start + len')); [|reflexivity].
    rewrite Eadd by lia. reflexivity. }
  rewrite E2. cbn [bind].
  destruct (Z.ltb_spec n start) as [Hgt|Hle2].
  - destruct STRnull_correct as (b & Hb & Hh). exists b. split; [exact Hb|].
    rewrite skipn_all2 by lia. rewrite firstn_nil. exact Hh.
  - assert (H2 : (0 <= len2 <= n - start)%Z).
    { unfold len2. destruct (Z.ltb_spec n (start + len')); lia. }
    rewrite Eadd by lia. cbn [bind].
    rewrite malloc_ok by lia. cbn [bind].
    destruct (Z.ltb_spec start 0); [lia|].
    destruct (Z.ltb_spec len2 0); [lia|]. cbn [orb].
    set (r := firstn (Z.to_nat len2) (skipn (Z.to_nat start) s)).
    assert (Hr : length r = Z.to_nat len2).
    { unfold r. rewrite firstn_length, skipn_length. lia. }
    rewrite put_ok by (rewrite Hr; simpl; lia). cbn [bind app].
    rewrite put_ok by (rewrite Hr; simpl; lia).
    eexists. split; [reflexivity|].
    assert (Er : firstn (Z.to_nat len') (skipn (Z.to_nat start) s) = r).
    { unfold r, len2. destruct (Z.ltb_spec n (start + len')); [|reflexivity].
      rewrite !firstn_all2; [reflexivity| |]; rewrite skipn_length; lia. }
    rewrite Er. apply holds_intro; [|rewrite Hr; lia].
    unfold r. apply no_nul_firstn, no_nul_skipn. exact Hs.
Qed.

Lemma strcat_block_ok c s t : no_nul s ->
  (Z.of_nat (length s) + Z.of_nat (length t) + 1 <= c)%Z ->
  forall rest, strcat_block (Some (mk_block c (s ++ nul :: rest))) t
    = Val (Some (mk_block c ((s ++ t) ++ [nul]))).
Proof.
  intros Hs Hc rest. unfold strcat_block. cbn [data].
  rewrite content_of_app by exact Hs. cbn [cap].
  rewrite put_ok by (rewrite app_length; simpl; lia).
  rewrite app_assoc. reflexivity.
Qed.

Definition as_list (s : option cstring) : cstring :=
  match s with Some l => l | None => [] end.

Lemma STRcat_correct x y : no_nul x -> no_nul y -> int_len x -> int_len y ->
  exists b, STRcat (Some x) (Some y) = Val b /\ holds b (x ++ y).
Proof.
  intros Hx Hy Lx Ly. unfold int_len in *. unfold STRcat, STRlen.
  rewrite malloc_ok by lia. cbn [bind].
  rewrite put_ok by (rewrite app_length; simpl; lia). cbn [bind app].
  rewrite strcat_block_ok; [|exact Hx|lia].
  eexists. split; [reflexivity|].
  apply holds_intro; [apply no_nul_app; auto|rewrite app_length; lia].
Qed.

Definition good_arg (s : option cstring) : Prop := no_nul (as_list s).

Lemma STRlen_as_list s : STRlen s = Z.of_nat (length (as_list s)).
Proof. destruct s; reflexivity. Qed.

Lemma catn_length args a :
  fold_left (fun a s => (a + STRlen s)%Z) args a
  = (a + Z.of_nat (length (concat (map as_list args))))%Z.
Proof.
  revert a. induction args as [|s args IH]; intros a; cbn [fold_left map concat].
  - simpl. lia.
  - rewrite IH, app_length, STRlen_as_list. lia.
Qed.

Lemma catn_loop c : forall args s,
  no_nul s -> Forall good_arg args ->
  (Z.of_nat (length s) + Z.of_nat (length (concat (map as_list args))) + 1 <= c)%Z ->
  fold_left (fun acc s => let! b := acc in
                          match s with
                          | None => Val b
                          | Some x => strcat_block b x
                          end) args (Val (Some (mk_block c (s ++ [nul]))))
  = Val (Some (mk_block c ((s ++ concat (map as_list args)) ++ [nul]))).
Proof.
  induction args as [|a args IH]; intros s Hs Ha Hc; cbn [fold_left map concat].
  - rewrite app_nil_r. reflexivity.
  - inversion Ha as [|? ? Hga Ha']; subst. cbn [map concat] in Hc.
    rewrite app_length in Hc. cbn [bind].
    destruct a as [x|]; cbn [as_list] in *.
    + rewrite strcat_block_ok; [|exact Hs|lia].
      rewrite IH; [rewrite <- !app_assoc; reflexivity| |exact Ha'|rewrite app_length; lia].
      apply no_nul_app. split; [exact Hs|exact Hga].
    + rewrite IH; [reflexivity|exact Hs|exact Ha'|simpl in Hc; lia].
Qed.

Lemma good_args_concat args : Forall good_arg args -> no_nul (concat (map as_list args)).
Proof.
  induction 1 as [|a args Ha _ IH]; cbn [map concat].
  - intros [].
  - apply no_nul_app. split; [exact Ha|exact IH].
Qed.

Lemma STRcatn_correct debug args : Forall good_arg args ->
  int_len (concat (map as_list args)) ->
  length args > 2 -> concat (map as_list args) <> [] ->
  exists b, STRcatn debug args = Val b /\ holds b (concat (map as_list args)).
Proof.
  intros Ha Hl Hn Hne. unfold STRcatn, int_len in *.
  destruct (Nat.leb_spec (length args) 2); [lia|]. rewrite andb_false_r.
  rewrite catn_length, Z.add_0_l.
  set (r := concat (map as_list args)) in *.
  assert (0 < length r) by (destruct r; [congruence|simpl; lia]).
  destruct (Z.eqb_spec (Z.of_nat (length r)) 0); [lia|].
  rewrite malloc_ok by lia. cbn [bind].
  rewrite put_ok by (simpl; lia). cbn [bind].
  change ([] ++ [nul]) with (([] : cstring) ++ [nul]).
  rewrite catn_loop; [|intros []|exact Ha|fold r; simpl; lia].
  eexists. split; [reflexivity|]. fold r. cbn [app].
  apply holds_intro; [apply good_args_concat; exact Ha|lia].
Qed.

Lemma STRcatn_empty debug args : length args > 2 -> concat (map as_list args) = [] ->
  STRcatn debug args = Val None.
Proof.
  intros Hn He. unfold STRcatn.
  destruct (Nat.leb_spec (length args) 2); [lia|]. rewrite andb_false_r.
  rewrite catn_length, He. reflexivity.
Qed.

(* ----- comparison ----- *)

Lemma strcmp_eq_iff a b : strcmp_eq a b = true <-> a = b.
Proof.
  revert b. induction a as [|x a IH]; intros [|y b]; simpl; try (split; congruence).
  destruct (Ascii.eqb_spec x y) as [->|Hne].
  - rewrite IH. split; [intros ->; reflexivity|intros [= ->]; reflexivity].
  - split; [discriminate|intros [= E _]; congruence].
Qed.

Lemma STReq_iff a b : STReq a b = true <-> a = b.
Proof.
  destruct a as [x|], b as [y|]; simpl; try (split; congruence).
  rewrite strcmp_eq_iff. split; [intros ->; reflexivity|intros [= ->]; reflexivity].
Qed.

Lemma strncmp_eq_iff n a b : strncmp_eq n a b = true <-> firstn n a = firstn n b.
Proof.
  revert a b. induction n as [|n IH]; intros a b; simpl; [tauto|].
  destruct a as [|x a], b as [|y b]; try (split; congruence).
  destruct (Ascii.eqb_spec x y) as [->|Hne].
  - rewrite IH. split; [intros ->; reflexivity|intros [= ->]; reflexivity].
  - split; [discriminate|intros [= E _]; congruence].
Qed.

Lemma STReqn_iff x y n : (0 <= n)%Z ->
  STReqn (Some x) (Some y) n = true <-> firstn (Z.to_nat n) x = firstn (Z.to_nat n) y.
Proof.
  intros Hn. simpl. destruct (Z.ltb_spec n 0); [lia|]. apply strncmp_eq_iff.
Qed.

Lemma STReqn_negative x y n : (n < 0)%Z -> STReqn (Some x) (Some y) n = true <-> x = y.
Proof.
  intros Hn. simpl. destruct (Z.ltb_spec n 0); [|lia]. apply strcmp_eq_iff.
Qed.

Lemma prefix_firstn p s : prefix_of p s <-> length p <= length s /\ firstn (length p) s = p.
Proof.
  split.
  - intros [r ->]. rewrite app_length. split; [lia|].
    rewrite firstn_app, firstn_all, Nat.sub_diag. simpl. apply app_nil_r.
  - intros [_ H]. exists (skipn (length p) s). rewrite <- H at 1. symmetry. apply firstn_skipn.
Qed.

Lemma STRprefix_iff p s : STRprefix (Some p) (Some s) = true <-> prefix_of p s.
Proof.
  unfold STRprefix, STRlen. rewrite prefix_firstn.
  destruct (Z.ltb_spec (Z.of_nat (length s)) (Z.of_nat (length p))).
  - split; [discriminate|]. intros [H1 _]. lia.
  - rewrite strncmp_eq_iff, firstn_all. split.
    + intros E. split; [lia|congruence].
    + intros [_ E]. congruence.
Qed.

Lemma STRsuffix_iff p s : exists r, STRsuffix (Some p) (Some s) = Val r /\
  (r = true <-> suffix_of p s).
Proof.
  unfold STRsuffix, STRlen.
  destruct (Z.ltb_spec (Z.of_nat (length s)) (Z.of_nat (length p))).
  - exists false. split; [reflexivity|]. split; [discriminate|].
    intros [r ->]. rewrite app_length in *. lia.
  - eexists. split; [reflexivity|]. rewrite strcmp_eq_iff. split.
    + intros E. exists (firstn (length s - length p) s). rewrite <- E at 2.
      symmetry. apply firstn_skipn.
    + intros [r ->]. rewrite app_length. replace (length r + length p - length p) with (length r) by lia.
      rewrite skipn_app, skipn_all, Nat.sub_diag. reflexivity.
Qed.

Lemma is_prefix_iff p s : is_prefix p s = true <-> prefix_of p s.
Proof.
  revert s. induction p as [|x p IH]; intros s; simpl.
  - split; [intros _; exists s; reflexivity|reflexivity].
  - destruct s as [|y s].
    + split; [discriminate|]. intros [r E]. discriminate.
    + destruct (Ascii.eqb_spec x y) as [->|Hne].
      * rewrite IH. split; intros [r E]; exists r; simpl in *; congruence.
      * split; [discriminate|]. intros [r E]. simpl in E. congruence.
Qed.

Lemma strstr_some s p r : strstr s p = Some r ->
  exists a, s = a ++ r /\ prefix_of p r /\
    forall a1 a2, a = a1 ++ a2 -> a2 <> [] -> ~ prefix_of p (a2 ++ r).
Proof.
  revert r. induction s as [|c s IH]; intros r; simpl.
  - destruct (is_prefix p []) eqn:E; [|discriminate]. intros [= <-].
    exists []. split; [reflexivity|]. split; [apply is_prefix_iff; exact E|].
    intros a1 a2 Ha Hne. destruct a1, a2; simpl in *; congruence.
  - destruct (is_prefix p (c :: s)) eqn:E.
    + intros [= <-]. exists []. split; [reflexivity|]. split; [apply is_prefix_iff; exact E|].
      intros a1 a2 Ha Hne. destruct a1, a2; simpl in *; congruence.
    + intros H. destruct (IH r H) as (a & -> & Hp & Hno). exists (c :: a).
      split; [reflexivity|]. split; [exact Hp|].
      intros a1 a2 Ha Hne. destruct a1 as [|d a1]; simpl in Ha.
      * subst a2. intros Hpre. change ((c :: a) ++ r) with (c :: a ++ r) in Hpre.
        apply is_prefix_iff in Hpre. congruence.
      * injection Ha as <- Ha. exact (Hno a1 a2 Ha Hne).
Qed.

Lemma strstr_none s p : strstr s p = None ->
  forall a b, s = a ++ b -> ~ prefix_of p b.
Proof.
  induction s as [|c s IH]; simpl; intros H a b E Hp.
  - destruct (is_prefix p []) eqn:Ep; [discriminate|].
    destruct a, b; try discriminate. apply is_prefix_iff in Hp. congruence.
  - destruct (is_prefix p (c :: s)) eqn:Ep; [discriminate|].
    destruct a as [|d a]; simpl in E.
    + subst b. apply is_prefix_iff in Hp. congruence.
    + injection E as <- E. exact (IH H a b E Hp).
Qed.

Lemma STRsub_iff p s : STRsub (Some p) (Some s) = true <-> substring_of p s.
Proof.
  simpl. destruct (strstr s p) as [r|] eqn:E.
  - split; [intros _|reflexivity].
    destruct (strstr_some _ _ _ E) as (a & -> & [q ->] & _). exists a, q. reflexivity.
  - split; [discriminate|]. intros (a & b & Hs). exfalso.
    apply (strstr_none _ _ E a (p ++ b) Hs). exists b. reflexivity.
Qed.

(* ----- substitution ----- *)

Lemma prefix_dec t s : {prefix_of t s} + {~ prefix_of t s}.
Proof.
  destruct (is_prefix t s) eqn:E.
  - left. apply is_prefix_iff. exact E.
  - right. intros H. apply is_prefix_iff in H. congruence.
Qed.

Lemma skipn_prefix (t s : cstring) : skipn (length t) (t ++ s) = s.
Proof. rewrite skipn_app, skipn_all, Nat.sub_diag. reflexivity. Qed.

(** The greedy replacement together with the number of replacements. *)
Inductive RepN (t u : cstring) : cstring -> cstring -> nat -> Prop :=
| RN_end : RepN t u [] [] 0
| RN_token : forall s r n, RepN t u s r n -> RepN t u (t ++ s) (u ++ r) (S n)
| RN_char : forall c s r n, ~ prefix_of t (c :: s) -> RepN t u s r n ->
                            RepN t u (c :: s) (c :: r) n.

Lemma RepN_Replaced t u s r n : RepN t u s r n -> Replaced t u s r.
Proof. induction 1; constructor; auto. Qed.

Lemma RepN_exists t u s : t <> [] -> exists r n, RepN t u s r n.
Proof.
  intros Ht. remember (length s) as m eqn:Hm. revert s Hm.
  induction m as [m IH] using lt_wf_ind. intros s ->.
  destruct s as [|c s]; [exists [], 0; constructor|].
  destruct (prefix_dec t (c :: s)) as [[q Hq]|Hn].
  - rewrite Hq. destruct (IH (length q)) with (s := q) as (r & n & H); [|reflexivity|].
    + apply (f_equal (@length _)) in Hq. rewrite app_length in Hq.
      destruct t; [congruence|simpl in *; lia].
    + exists (u ++ r), (S n). constructor. exact H.
  - destruct (IH (length s)) with (s := s) as (r & n & H); [simpl; lia|reflexivity|].
    exists (c :: r), n. constructor; assumption.
Qed.

Lemma RepN_length t u s r n : RepN t u s r n ->
  (Z.of_nat (length r) = Z.of_nat (length s) +
     Z.of_nat n * (Z.of_nat (length u) - Z.of_nat (length t)))%Z.
Proof.
  induction 1 as [|s r n _ IH|c s r n _ _ IH]; rewrite ?app_length; simpl length; lia.
Qed.

Lemma RepN_no_nul t u s r n : RepN t u s r n -> no_nul u -> no_nul s -> no_nul r.
Proof.
  induction 1 as [|s r n _ IH|c s r n _ _ IH]; intros Hu Hs.
  - exact Hs.
  - apply no_nul_app in Hs. apply no_nul_app. tauto.
  - apply no_nul_cons in Hs. apply no_nul_cons. tauto.
Qed.

Lemma strstr_skip c s t : ~ prefix_of t (c :: s) -> strstr (c :: s) t = strstr s t.
Proof.
  intros H. simpl. destruct (is_prefix t (c :: s)) eqn:E; [|reflexivity].
  elim H. apply is_prefix_iff. exact E.
Qed.

Lemma strstr_here t s : strstr (t ++ s) t = Some (t ++ s).
Proof.
  assert (is_prefix t (t ++ s) = true) as H by (apply is_prefix_iff; exists s; reflexivity).
  destruct (t ++ s); simpl in *; rewrite H; reflexivity.
Qed.

Lemma count_loop_RepN t u s r n : t <> [] -> RepN t u s r n ->
  forall fuel occ, n <= fuel ->
    count_loop fuel t (strstr s t) occ = Val (occ + Z.of_nat n)%Z.
Proof.
  intros Ht. induction 1 as [|s r n _ IH|c s r n Hn _ IH]; intros fuel occ Hf.
  - destruct t as [|x t]; [congruence|]. simpl. destruct fuel; simpl; f_equal; lia.
  - rewrite strstr_here. destruct fuel as [|fuel]; [lia|]. cbn [count_loop].
    rewrite skipn_prefix, IH by lia. f_equal. lia.
  - rewrite (strstr_skip _ _ _ Hn). apply IH. exact Hf.
Qed.

Lemma RepN_count t u s r n : t <> [] -> RepN t u s r n -> n <= length s.
Proof.
  intros Ht. induction 1 as [|s r n _ IH|c s r n _ _ IH]; simpl; auto.
  rewrite app_length. destruct t; [congruence|]. simpl. lia.
Qed.

Lemma subst_loop_RepN t u s r n : t <> [] -> RepN t u s r n ->
  forall fuel c d, length s <= fuel ->
    (Z.of_nat (length d) + Z.of_nat (length r) + 1 <= c)%Z ->
    subst_loop fuel s t (Some u) (Some (mk_block c d))
    = Val (Some (mk_block c (d ++ r ++ [nul]))).
Proof.
  intros Ht. induction 1 as [|s r n _ IH|x s r n Hn _ IH]; intros fuel c d Hf Hc.
  - destruct fuel; cbn [subst_loop app]; apply put_ok; simpl in *; lia.
  - rewrite app_length in Hf, Hc.
    assert (Hpre : STRprefix (Some t) (Some (t ++ s)) = true).
    { apply STRprefix_iff. exists s. reflexivity. }
    assert (Hsk : skipn (length t) (t ++ s) = s) by apply skipn_prefix.
    destruct (t ++ s) as [|y ys] eqn:E.
    { destruct t; [congruence|discriminate]. }
    destruct fuel as [|fuel].
    { destruct t; [congruence|simpl in Hf; lia]. }
    cbn [subst_loop].
    match goal with |- context [STRprefix ?p ?q] =>
      replace (STRprefix p q) with true by (symmetry; exact Hpre) end.
    match goal with |- context [skipn ?n ?q] =>
      replace (skipn n q) with s by (symmetry; exact Hsk) end.
    rewrite put_ok by lia. cbn [bind].
    rewrite IH.
    + rewrite <- !app_assoc. reflexivity.
    + destruct t; [congruence|simpl in Hf; lia].
    + rewrite app_length. lia.
  - cbn [length] in Hf, Hc. destruct fuel as [|fuel]; [lia|]. cbn [subst_loop].
    match goal with |- context [STRprefix ?p ?q] =>
      destruct (STRprefix p q) eqn:Hpre end.
    { apply STRprefix_iff in Hpre. elim Hn. exact Hpre. }
    rewrite put_ok by (cbn [length]; lia). cbn [bind].
    rewrite IH by (rewrite ?app_length; cbn [length]; lia).
    rewrite <- !app_assoc. reflexivity.
Qed.

Lemma STRsubstToken_correct s t u fuel :
  no_nul s -> no_nul t -> no_nul u -> t <> [] -> length s <= fuel ->
  (Z.of_nat (length s) * (Z.of_nat (length u) + 1) < 2 ^ 62)%Z ->
  exists b r, STRsubstToken fuel (Some s) (Some t) (Some u) = Val b /\
              Replaced t u s r /\ holds b r.
Proof.
  intros Hs Ht Hu Hne Hf Hsz.
  destruct (RepN_exists t u s Hne) as (r & n & HR).
  assert (HL := RepN_length _ _ _ _ _ HR).
  assert (Hcnt := RepN_count _ _ _ _ _ Hne HR).
  unfold STRsubstToken, STRlen.
  rewrite (count_loop_RepN _ _ _ _ _ Hne HR) by lia. cbn [bind].
  rewrite Z.add_0_l, <- HL.
  assert (Hrl : (Z.of_nat (length r) < 2 ^ 62)%Z).
  { rewrite HL. nia. }
  rewrite malloc_ok by lia. cbn [bind].
  rewrite (subst_loop_RepN _ _ _ _ _ Hne HR); [|lia|simpl; lia].
  eexists. exists r. split; [reflexivity|]. split; [exact (RepN_Replaced _ _ _ _ _ HR)|].
  cbn [app]. apply holds_intro; [exact (RepN_no_nul _ _ _ _ _ HR Hu Hs)|lia].
Qed.

Lemma Replaced_functional t u s r1 : t <> [] -> Replaced t u s r1 ->
  forall r2, Replaced t u s r2 -> r1 = r2.
Proof.
  intros Ht. induction 1 as [|s r1 _ IH|c s r1 Hn _ IH]; intros r2 H2.
  - inversion H2 as [|s' r' H E|]; subst; [reflexivity|].
    destruct t; [congruence|discriminate].
  - inversion H2 as [E|s' r' H E|c' s' r' Hn' H E]; subst.
    + destruct t; [congruence|discriminate].
    + apply app_inv_head in E. subst. f_equal. apply IH. exact H.
    + exfalso. apply Hn'. exists s. exact E.
  - inversion H2 as [E|s' r' H E|c' s' r' Hn' H E]; subst.
    + exfalso. apply Hn. exists s'. symmetry. exact E.
    + f_equal. apply IH. exact H.
Qed.

Lemma STRsubstToken_empty_token s u fuel :
  STRsubstToken fuel (Some s) (Some []) u = NoFuel.
Proof.
  unfold STRsubstToken.
  assert (H : forall f (s : cstring) occ, count_loop f [] (Some s) occ = NoFuel).
  { induction f as [|f IH]; intros s0 occ; [reflexivity|]. cbn [count_loop length skipn].
    destruct s0; simpl strstr; apply IH. }
  assert (E : strstr s [] = Some s) by (destruct s; reflexivity).
  rewrite E, H. reflexivity.
Qed.

(* ----- tokenizer ----- *)

Lemma CharInString_iff c sep : CharInString c sep = true <-> is_sep sep c.
Proof.
  unfold CharInString, is_sep. destruct sep as [l|].
  - rewrite existsb_exists. split.
    + intros (x & Hx & E). apply Ascii.eqb_eq in E. subst. exists l. auto.
    + intros (l' & [= <-] & H). exists c. split; [exact H|apply Ascii.eqb_refl].
  - split; [discriminate|]. intros (l & E & _). discriminate.
Qed.

Lemma CharInString_false c sep : CharInString c sep = false <-> ~ is_sep sep c.
Proof.
  rewrite <- CharInString_iff. destruct (CharInString c sep); split; intros; try congruence; tauto.
Qed.

Lemma tok_scan_spec s sep a r : tok_scan s sep = (a, r) ->
  (forall c, In c a -> ~ is_sep sep c) /\
  match r with
  | None => s = a
  | Some s' => exists c, is_sep sep c /\ s = a ++ c :: s'
  end.
Proof.
  revert a r. induction s as [|c s IH]; simpl; intros a r H.
  - injection H as <- <-. split; [intros c []|reflexivity].
  - destruct (CharInString c sep) eqn:E.
    + injection H as <- <-. split; [intros d []|]. exists c.
      split; [apply CharInString_iff; exact E|reflexivity].
    + destruct (tok_scan s sep) as [a0 r0] eqn:E0. injection H as <- <-.
      destruct (IH _ _ eq_refl) as [H1 H2]. split.
      * intros d [<-|Hd]; [apply CharInString_false; exact E|auto].
      * destruct r0 as [s'|]; [|congruence].
        destruct H2 as (d & Hd & ->). exists d. auto.
Qed.

(** [k] calls [STRtok(NULL, sep)]. *)
Fixpoint more_tokens (k : nat) (st : tok_state) (sep : option cstring) : list (option cstring) :=
  match k with
  | 0 => []
  | S k' => let (st', t) := STRtok st None sep in t :: more_tokens k' st' sep
  end.

(** The caller's loop: first call with the string, then [k] calls with NULL. *)
Definition tokens (k : nat) (st : tok_state) (s : cstring) (sep : option cstring)
  : list (option cstring) :=
  let (st', t) := STRtok st (Some s) sep in t :: more_tokens k st' sep.

Lemma more_tokens_done k kp sep : more_tokens k (mk_tok kp None) sep = repeat None k.
Proof. induction k as [|k IH]; simpl; [reflexivity|]. rewrite IH. reflexivity. Qed.

Lemma more_tokens_split : forall s sep ts kp k, Split sep s ts ->
  more_tokens (length ts + k) (mk_tok kp (Some s)) sep = map Some ts ++ repeat None k.
Proof.
  intros s sep ts kp k H. induction H as [s Hs|a c s ts Ha Hc _ IH].
  - simpl. unfold STRtok. cbn [current keep].
    destruct (tok_scan s sep) as [a r] eqn:E.
    destruct (tok_scan_spec _ _ _ _ E) as [H1 H2].
    destruct r as [s'|].
    + destruct H2 as (c & Hc & ->). exfalso. apply (Hs c); [|exact Hc].
      apply in_or_app. right. left. reflexivity.
    + subst a. cbn. rewrite more_tokens_done. reflexivity.
  - cbn [length map app plus more_tokens]. unfold STRtok. cbn [current keep].
    assert (E : tok_scan (a ++ c :: s) sep = (a, Some s)).
    { clear IH. induction a as [|d a IHa]; simpl.
      - apply CharInString_iff in Hc. rewrite Hc. reflexivity.
      - assert (Hd := Ha d (or_introl eq_refl)). apply CharInString_false in Hd. rewrite Hd.
        rewrite IHa; [reflexivity|]. intros x Hx. apply Ha. right. exact Hx. }
    rewrite E. f_equal. exact IH.
Qed.

Lemma Split_exists sep s : exists ts, Split sep s ts /\ ts <> [].
Proof.
  remember (length s) as m eqn:Hm. revert s Hm.
  induction m as [m IH] using lt_wf_ind. intros s ->.
  destruct (tok_scan s sep) as [a r] eqn:E.
  destruct (tok_scan_spec _ _ _ _ E) as [H1 H2].
  destruct r as [s'|].
  - destruct H2 as (c & Hc & ->).
    destruct (IH (length s')) with (s := s') as (ts & Hts & _); [rewrite app_length; simpl; lia|reflexivity|].
    exists (a :: ts). split; [constructor; auto|discriminate].
  - subst a. exists [s]. split; [constructor; exact H1|discriminate].
Qed.

Lemma STRtok_correct s sep st k :
  exists ts, Split sep s ts /\
    tokens (length ts + k) st s sep = map Some ts ++ repeat None (S k).
Proof.
  destruct (Split_exists sep s) as (ts & Hts & Hne). exists ts. split; [exact Hts|].
  assert (H := more_tokens_split s sep ts (Some s) (S k) Hts).
  rewrite <- H. unfold tokens.
  replace (length ts + S k) with (S (length ts + k)) by lia. cbn [more_tokens].
  unfold STRtok. cbn [current keep]. destruct (tok_scan s sep) as [a r]. reflexivity.
Qed.

Lemma Split_functional sep s ts : Split sep s ts -> forall ts', Split sep s ts' -> ts = ts'.
Proof.
  intros H ts' H'.
  assert (L := more_tokens_split s sep ts None (length ts') H).
  assert (L' := more_tokens_split s sep ts' None (length ts) H').
  rewrite (Nat.add_comm (length ts') (length ts)) in L'. rewrite L in L'.
  clear - L'. revert ts' L'. induction ts as [|t ts IH]; intros [|t' ts'] L.
  - reflexivity.
  - simpl in L. discriminate.
  - simpl in L. discriminate.
  - simpl in L. injection L as -> L. f_equal. apply IH.
    clear IH.
    assert (X : forall n m (xs ys : list (option cstring)),
      xs ++ repeat None (S n) = ys ++ repeat None (S m) ->
      xs ++ repeat None n = ys ++ repeat None m).
    { intros n m xs ys E.
      assert (R : forall k, @repeat (option cstring) None (S k) = repeat None k ++ [None]).
      { intros k. induction k as [|k IHk]; [reflexivity|]. simpl. f_equal. exact IHk. }
      rewrite !R, !app_assoc in E. apply app_inj_tail in E. tauto. }
    apply X. exact L.
Qed.

(* ----- case ----- *)

Ltac all_bytes c :=
  destruct c as [b0 b1 b2 b3 b4 b5 b6 b7];
  destruct b0, b1, b2, b3, b4, b5, b6, b7.

Lemma tolower_ok c : ctype_ok c -> exists d, tolower c = Val d /\ lower_of c d.
Proof.
  intros [H|H]; unfold tolower.
  - destruct (N.ltb_spec (N_of_ascii c) 128); [|lia].
    eexists. split; [reflexivity|]. unfold lower_of, is_upper_letter.
    destruct (N.leb_spec 65 (N_of_ascii c)); simpl.
    + destruct (N.leb_spec (N_of_ascii c) 90); simpl.
      * left. split; [lia|]. apply N_ascii_embedding. lia.
      * right. split; [lia|reflexivity].
    + right. split; [lia|reflexivity].
  - rewrite H. simpl. exists c. split; [reflexivity|]. right.
    unfold is_upper_letter. split; [lia|reflexivity].
Qed.

Lemma tolower_undef c : ~ ctype_ok c -> tolower c = Undef.
Proof.
  intros H. unfold tolower, ctype_ok in *.
  destruct (N.ltb_spec (N_of_ascii c) 128); [tauto|].
  destruct (N.eqb_spec (N_of_ascii c) 255); [tauto|reflexivity].
Qed.

Lemma toupper_ok c : ctype_ok c -> exists d, toupper c = Val d /\ upper_of c d.
Proof.
  intros [H|H]; unfold toupper.
  - destruct (N.ltb_spec (N_of_ascii c) 128); [|lia].
    eexists. split; [reflexivity|]. unfold upper_of, is_lower_letter.
    destruct (N.leb_spec 97 (N_of_ascii c)); simpl.
    + destruct (N.leb_spec (N_of_ascii c) 122); simpl.
      * left. split; [lia|]. rewrite N_ascii_embedding by lia. lia.
      * right. split; [lia|reflexivity].
    + right. split; [lia|reflexivity].
  - rewrite H. simpl. exists c. split; [reflexivity|]. right.
    unfold is_lower_letter. split; [lia|reflexivity].
Qed.

Lemma toupper_undef c : ~ ctype_ok c -> toupper c = Undef.
Proof.
  intros H. unfold toupper, ctype_ok in *.
  destruct (N.ltb_spec (N_of_ascii c) 128); [tauto|].
  destruct (N.eqb_spec (N_of_ascii c) 255); [tauto|reflexivity].
Qed.

Lemma ctype_dec c : {ctype_ok c} + {~ ctype_ok c}.
Proof.
  unfold ctype_ok. destruct (N_of_ascii c <? 128)%N eqn:H.
  - left. left. apply N.ltb_lt. exact H.
  - apply N.ltb_ge in H. destruct (N.eq_dec (N_of_ascii c) 255); [left; right; assumption|].
    right. lia.
Qed.

Lemma nul_not_conv c d : c <> nul -> (lower_of c d \/ upper_of c d) -> d <> nul.
Proof.
  intros Hc Hd ->. unfold lower_of, upper_of, is_upper_letter, is_lower_letter in Hd.
  assert (E : N_of_ascii nul = 0%N) by reflexivity. rewrite E in Hd.
  destruct Hd as [[[H1 H2]|[_ <-]]|[[H1 H2]|[_ <-]]]; try congruence; lia.
Qed.

Lemma conv_loop_ok (f : ascii -> outcome ascii) (R : ascii -> ascii -> Prop) :
  (forall c, ctype_ok c -> exists d, f c = Val d /\ R c d) ->
  forall s, Forall ctype_ok s ->
  exists r, Forall2 R s r /\ map_bytes f s = Val r /\
    forall c d, (Z.of_nat (length d) + Z.of_nat (length s) + 1 <= c)%Z ->
      conv_loop f s (Some (mk_block c d)) = Val (Some (mk_block c (d ++ r ++ [nul]))).
Proof.
  intros Hf. induction s as [|x s IH]; intros Hs.
  - exists []. split; [constructor|]. split; [reflexivity|].
    intros c d Hc. cbn [conv_loop app]. apply put_ok. cbn [length] in *. lia.
  - inversion Hs as [|? ? Hx Hs']; subst. destruct (Hf x Hx) as (y & Hy & HR).
    destruct (IH Hs') as (r & Hr & Hm & Hc). exists (y :: r).
    split; [constructor; assumption|]. split.
    + simpl. rewrite Hy. simpl. rewrite Hm. reflexivity.
    + intros c d Hlen. cbn [length] in Hlen. cbn [conv_loop]. rewrite Hy. cbn [bind].
      rewrite put_ok by (simpl; lia). cbn [bind].
      rewrite Hc by (rewrite app_length; simpl; lia).
      rewrite <- app_assoc. reflexivity.
Qed.

Lemma Forall2_len {A B} (R : A -> B -> Prop) l l' : Forall2 R l l' -> length l = length l'.
Proof. induction 1; simpl; auto. Qed.

Lemma Forall2_no_nul (R : ascii -> ascii -> Prop) s r : (forall c d, R c d -> lower_of c d \/ upper_of c d) ->
  Forall2 R s r -> no_nul s -> no_nul r.
Proof.
  intros HR. induction 1 as [|c d s r Hcd _ IH]; intros Hs; [exact Hs|].
  apply no_nul_cons in Hs. apply no_nul_cons. split; [|tauto].
  exact (nul_not_conv c d (proj1 Hs) (HR _ _ Hcd)).
Qed.

Lemma STRlower_correct s : no_nul s -> int_len s -> Forall ctype_ok s ->
  exists b r, STRlower (Some s) = Val b /\ Forall2 lower_of s r /\ holds b r /\
              STRtoLower (Some s) = Val (Some r).
Proof.
  intros Hs Hl Hc. destruct (conv_loop_ok tolower lower_of tolower_ok s Hc) as (r & Hr & Hm & Hw).
  assert (Hlen : length s = length r) by exact (Forall2_len _ _ _ Hr).
  unfold STRlower, STRlen, int_len in *. rewrite malloc_ok by lia. cbn [bind].
  rewrite Hw by (simpl; lia). eexists. exists r. split; [reflexivity|]. split; [exact Hr|].
  split.
  - cbn [app]. apply holds_intro; [|lia].
    apply (Forall2_no_nul lower_of s r); auto.
  - unfold STRtoLower. rewrite Hm. reflexivity.
Qed.

Lemma STRupper_correct s : no_nul s -> int_len s -> Forall ctype_ok s ->
  exists b r, STRupper (Some s) = Val b /\ Forall2 upper_of s r /\ holds b r /\
              STRtoUpper (Some s) = Val (Some r).
Proof.
  intros Hs Hl Hc. destruct (conv_loop_ok toupper upper_of toupper_ok s Hc) as (r & Hr & Hm & Hw).
  assert (Hlen : length s = length r) by exact (Forall2_len _ _ _ Hr).
  unfold STRupper, STRlen, int_len in *. rewrite malloc_ok by lia. cbn [bind].
  rewrite Hw by (simpl; lia). eexists. exists r. split; [reflexivity|]. split; [exact Hr|].
  split.
  - cbn [app]. apply holds_intro; [|lia].
    apply (Forall2_no_nul upper_of s r); auto.
  - unfold STRtoUpper. rewrite Hm. reflexivity.
Qed.

Lemma map_bytes_undef f s : (forall c, ctype_ok c -> exists d, f c = Val d) ->
  (forall c, ~ ctype_ok c -> f c = Undef) -> ~ Forall ctype_ok s -> map_bytes f s = Undef.
Proof.
  intros H1 H2. induction s as [|c s IH]; intros Hs; [elim Hs; constructor|].
  simpl. destruct (ctype_dec c) as [Hc|Hc].
  - destruct (H1 c Hc) as [d ->]. simpl. rewrite IH; [reflexivity|].
    intros H. apply Hs. constructor; assumption.
  - rewrite (H2 c Hc). reflexivity.
Qed.

Lemma STRtoLower_undef s : ~ Forall ctype_ok s -> STRtoLower (Some s) = Undef.
Proof.
  intros H. unfold STRtoLower. rewrite map_bytes_undef; [reflexivity| | |exact H].
  - intros c Hc. destruct (tolower_ok c Hc) as (d & Hd & _). exists d. exact Hd.
  - exact tolower_undef.
Qed.

Lemma lower_of_functional c d e : lower_of c d -> lower_of c e -> d = e.
Proof.
  unfold lower_of. intros [[H1 H2]|[H1 H2]] [[H3 H4]|[H3 H4]]; try tauto; [|congruence].
  rewrite <- (ascii_N_embedding d), <- (ascii_N_embedding e). congruence.
Qed.

Lemma eqci_loop_iff a b : Forall ctype_ok a -> Forall ctype_ok b ->
  exists r, eqci_loop a b = Val r /\
   (r = true <-> exists l, Forall2 lower_of a l /\ Forall2 lower_of b l).
Proof.
  revert b. induction a as [|x a IH]; intros b Ha Hb.
  - destruct b as [|y b]; simpl; eexists; (split; [reflexivity|]).
    + split; [intros _; exists []; split; constructor|reflexivity].
    + split; [discriminate|]. intros (l & H1 & H2). inversion H1; subst. inversion H2.
  - inversion Ha as [|? ? Hx Ha']; subst. destruct b as [|y b]; simpl.
    + eexists; (split; [reflexivity|]).
      split; [discriminate|]. intros (l & H1 & H2). inversion H2; subst. inversion H1.
    + inversion Hb as [|? ? Hy Hb']; subst.
      destruct (tolower_ok x Hx) as (x' & Ex & Lx). destruct (tolower_ok y Hy) as (y' & Ey & Ly).
      rewrite Ex, Ey. cbn [bind]. destruct (Ascii.eqb_spec x' y') as [<-|Hne].
      * destruct (IH b Ha' Hb') as (r & Hr & Hiff). exists r. split; [exact Hr|].
        rewrite Hiff. split.
        -- intros (l & H1 & H2). exists (x' :: l). split; constructor; assumption.
        -- intros (l & H1 & H2). inversion H1; subst. inversion H2; subst. eauto.
      * exists false. split; [reflexivity|]. split; [discriminate|].
        intros (l & H1 & H2). inversion H1; subst. inversion H2; subst. elim Hne.
        match goal with
        | A : lower_of x ?z, B : lower_of y ?z |- _ =>
            rewrite (lower_of_functional _ _ _ Lx A), (lower_of_functional _ _ _ Ly B)
        end. reflexivity.
Qed.

Lemma STReqci_correct a b : Forall ctype_ok a -> Forall ctype_ok b ->
  exists r, STReqci (Some a) (Some b) = Val r /\
   (r = true <-> exists l, Forall2 lower_of a l /\ Forall2 lower_of b l).
Proof. exact (eqci_loop_iff a b). Qed.

Lemma lower_of_idem c d : lower_of c d -> lower_of d d.
Proof.
  unfold lower_of, is_upper_letter. intros [[H1 H2]|[H1 ->]].
  - right. split; [lia|reflexivity].
  - right. auto.
Qed.

Lemma lower_idempotent s r : Forall2 lower_of s r -> Forall2 lower_of r r.
Proof.
  induction 1; constructor; auto. eapply lower_of_idem; eauto.
Qed.
