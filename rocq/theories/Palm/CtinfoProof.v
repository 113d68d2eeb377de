(** Proofs about diagnostics. *)

From Coq Require Import List ZArith Ascii Bool Lia.
From Verif Require Import Base.Outcome Palm.StrModel Palm.CtinfoModel Palm.CtinfoSpec.
Import ListNotations.

(** ** Bytes *)

Lemma nth_mid (pre : list ascii) c post : nth (length pre) (pre ++ c :: post) nul = c.
Proof. rewrite app_nth2 by lia. rewrite Nat.sub_diag. reflexivity. Qed.

Lemma set_mid (pre : list ascii) c d post :
  set_byte (length pre) d (pre ++ c :: post) = pre ++ d :: post.
Proof. induction pre as [|x pre IH]; [reflexivity|]. cbn. rewrite IH. reflexivity. Qed.

Lemma set_byte_length i c l : length (set_byte i c l) = length l.
Proof. revert i. induction l as [|x l IH]; intros [|i]; cbn; auto. Qed.

Lemma nth_set_other i j c l : i <> j -> nth i (set_byte j c l) nul = nth i l nul.
Proof.
  revert i j. induction l as [|x l IH]; intros [|i] [|j] H; cbn; auto; try congruence.
Qed.

(** ** C10: nothing lost *)

Lemma keeps_set msg buf i c : rebroken msg buf ->
  (c = space \/ c = at_sign) -> is_blank (nth i buf nul) = true \/ length buf <= i ->
  rebroken msg (set_byte i c buf).
Proof.
  intros H. revert i. induction H as [|m o msg buf Hk H IH]; intros [|i] Hc Hb; cbn; try constructor; auto.
  - cbn in Hb. destruct Hb as [Hb|Hb]; [|cbn in Hb; lia]. right. split; [|exact Hc].
    destruct Hk as [->|[Hm _]]; assumption.
  - apply IH; auto. destruct Hb as [Hb|Hb]; [left; exact Hb|right; cbn in Hb; lia].
Qed.

Lemma blank_space : is_blank space = true. Proof. reflexivity. Qed.
Lemma blank_tab : is_blank tab = true. Proof. reflexivity. Qed.
Lemma blank_newline : is_blank newline = true. Proof. reflexivity. Qed.

Lemma process_keeps L : forall n index column ls msg buf,
  rebroken msg buf -> rebroken msg (process L n index column ls buf).
Proof.
  induction n as [|n IH]; intros index column ls msg buf H; cbn [process]; [exact H|].
  set (buf1 := if Ascii.eqb (nth index buf nul) tab then set_byte index space buf else buf).
  assert (H1 : rebroken msg buf1).
  { unfold buf1. destruct (Ascii.eqb_spec (nth index buf nul) tab) as [E|E]; [|exact H].
    apply keeps_set; auto. left. rewrite E. reflexivity. }
  destruct (Ascii.eqb_spec (nth index buf1 nul) newline) as [E|E].
  - apply IH. apply keeps_set; auto. left. rewrite E. reflexivity.
  - destruct (Nat.eqb column L); [|apply IH; exact H1].
    set (ls1 := if Ascii.eqb (nth index buf1 nul) space then index else ls).
    destruct (Ascii.eqb_spec (nth ls1 buf1 nul) space) as [E2|E2]; [|exact H1].
    apply IH. apply keeps_set; auto. left. rewrite E2. reflexivity.
Qed.

Lemma rebroken_refl msg : rebroken msg msg.
Proof. induction msg; constructor; auto. left. reflexivity. Qed.

Lemma ProcessMessage_keeps L msg : rebroken msg (ProcessMessage msg L).
Proof. apply process_keeps. apply rebroken_refl. Qed.

Lemma strtok_pieces : forall s cur, ~ In at_sign cur -> pieces (cur ++ s) (strtok_at cur s).
Proof.
  induction s as [|c s IH]; intros cur Hc; cbn [strtok_at].
  - rewrite app_nil_r. destruct cur as [|x cur]; [constructor|].
    constructor; [discriminate|exact Hc].
  - destruct (Ascii.eqb_spec c at_sign) as [->|Hne].
    + specialize (IH [] ltac:(cbn; tauto)). cbn [app] in IH.
      destruct cur as [|x cur].
      * constructor. exact IH.
      * apply (pieces_word (x :: cur)); [discriminate|exact Hc|exact IH].
    + specialize (IH (cur ++ [c])). rewrite <- app_assoc in IH. apply IH.
      intros F. apply in_app_or in F. destruct F as [F|[F|[]]]; auto.
Qed.

Lemma visible_app a b : visible (a ++ b) = visible a ++ visible b.
Proof. apply filter_app. Qed.

Lemma pieces_concat s ls : pieces s ls ->
  concat ls = filter (fun c => negb (Ascii.eqb c at_sign)) s.
Proof.
  assert (N : forall w, ~ In at_sign w -> filter (fun c => negb (Ascii.eqb c at_sign)) w = w).
  { induction w as [|c w IH]; intros H; [reflexivity|]. cbn.
    destruct (Ascii.eqb_spec c at_sign) as [->|Hne]; [exfalso; apply H; left; reflexivity|].
    cbn. f_equal. apply IH. intros F. apply H. right. exact F. }
  induction 1 as [|w Hw Hn|s ls H IH|w s ls Hw Hn H IH]; cbn.
  - reflexivity.
  - rewrite app_nil_r, N; auto.
  - exact IH.
  - rewrite filter_app, N by exact Hn. cbn. rewrite IH. reflexivity.
Qed.

Lemma rebroken_visible msg out : rebroken msg out -> ~ In at_sign msg ->
  visible (filter (fun c => negb (Ascii.eqb c at_sign)) out) = visible msg.
Proof.
  induction 1 as [|m o msg out Hk H IH]; intros Hn; [reflexivity|].
  assert (Hn' : ~ In at_sign msg) by (intros F; apply Hn; right; exact F).
  assert (Hm : m <> at_sign) by (intros ->; apply Hn; left; reflexivity).
  specialize (IH Hn'). unfold visible in *. cbn [filter]. destruct Hk as [->|[Hb Ho]].
  - destruct (Ascii.eqb_spec m at_sign); [contradiction|]. cbn [negb filter].
    destruct (is_blank m); cbn [negb]; rewrite IH; reflexivity.
  - rewrite Hb. cbn. destruct Ho as [-> | ->]; cbn; exact IH.
Qed.

Lemma text_kept L msg : exists out,
  rebroken msg out /\ pieces out (message_lines L msg) /\
  (~ In at_sign msg -> visible (concat (message_lines L msg)) = visible msg).
Proof.
  exists (ProcessMessage msg L).
  assert (R := ProcessMessage_keeps L msg).
  assert (P : pieces (ProcessMessage msg L) (message_lines L msg))
    by (exact (strtok_pieces (ProcessMessage msg L) [] ltac:(cbn; tauto))).
  split; [exact R|]. split; [exact P|]. intros Hn.
  rewrite (pieces_concat _ _ P). apply rebroken_visible; assumption.
Qed.

(** ** C10: lines fit *)

Definition lines_short (L : nat) (out : list ascii) : Prop :=
  forall a w b, out = a ++ w ++ b -> ~ In at_sign w -> length w <= L.

Lemma split_sign (x y a w b : list ascii) : x ++ at_sign :: y = a ++ w ++ b -> ~ In at_sign w ->
  (exists b', x = a ++ w ++ b') \/ (exists a', y = a' ++ w ++ b).
Proof.
  revert a. induction x as [|c x IH]; intros [|d a] E Hn; cbn in E.
  - destruct w as [|c w]; cbn in E.
    + left. exists []. reflexivity.
    + injection E as E1 _. exfalso. apply Hn. left. symmetry. exact E1.
  - injection E as _ E. right. exists a. exact E.
  - (* a = [] *) clear IH. revert c x E. induction w as [|e w IHw]; intros c x E.
    + left. eexists. reflexivity.
    + cbn in E. injection E as E0 E. subst c.
      destruct x as [|f x].
      * destruct w as [|g w]; [left; exists []; reflexivity|].
        cbn in E. injection E as E1 E. exfalso. apply Hn. right. left. symmetry. exact E1.
      * destruct (IHw ltac:(intros F; apply Hn; right; exact F) f x E) as [(b' & Hb)|(a' & Ha)].
        -- left. exists b'. cbn. f_equal. exact Hb.
        -- exfalso. apply (f_equal (@length ascii)) in E. apply (f_equal (@length ascii)) in Ha.
           cbn [app length] in *. rewrite ?app_length in *. cbn [length] in *. lia.
  - injection E as E0 E. subst c. destruct (IH a E Hn) as [(b' & Hb)|(a' & Ha)].
    + left. exists b'. cbn. f_equal. exact Hb.
    + right. exists a'. exact Ha.
Qed.

Lemma lines_short_at L x y : lines_short L x -> lines_short L y -> lines_short L (x ++ at_sign :: y).
Proof.
  intros Hx Hy a w b E Hn. destruct (split_sign x y a w b E Hn) as [(b' & H)|(a' & H)].
  - eapply Hx; eassumption.
  - eapply Hy; eassumption.
Qed.

Lemma lines_short_small L x : length x <= L -> lines_short L x.
Proof.
  intros H a w b E _. apply (f_equal (@length ascii)) in E. rewrite !app_length in E. lia.
Qed.

(** Finished lines: empty, or ending in a break. *)
Definition finished (A : list ascii) : Prop := A = [] \/ exists A', A = A' ++ [at_sign].

Lemma lines_short_app L A x : finished A -> lines_short L A -> length x <= L -> lines_short L (A ++ x).
Proof.
  intros [->|(A' & ->)] HA Hx; [apply lines_short_small; exact Hx|].
  rewrite <- app_assoc. cbn. apply lines_short_at; [|apply lines_short_small; exact Hx].
  intros a w b E Hn. apply (HA a w (b ++ [at_sign])); [|exact Hn].
  rewrite E, <- !app_assoc. reflexivity.
Qed.

Lemma lines_short_end L A x : finished A -> lines_short L A -> length x <= L ->
  lines_short L (A ++ x ++ [at_sign]).
Proof.
  intros Hf HA Hx. rewrite app_assoc. apply lines_short_at; [|apply lines_short_small; cbn; lia].
  apply lines_short_app; assumption.
Qed.

Lemma finished_end A x : finished (A ++ x ++ [at_sign]).
Proof. right. exists (A ++ x). rewrite app_assoc. reflexivity. Qed.

Lemma is_blank_cases c : is_blank c = true -> c = space \/ c = tab \/ c = newline.
Proof.
  unfold is_blank. destruct (Ascii.eqb_spec c space); auto.
  destruct (Ascii.eqb_spec c tab); auto. destruct (Ascii.eqb_spec c newline); auto. discriminate.
Qed.

Lemma process_lines L msg : words_short L msg -> forall rest A B C M0 column ls,
  msg = M0 ++ C ++ rest ->
  Forall (fun c => is_blank c = false) C ->
  finished A -> lines_short L A ->
  (B = [] \/ exists B', B = B' ++ [space] /\ ls = length A + length B') ->
  length B + length C <= column -> column <= S (length B + length C) ->
  column <= L ->
  (A = [] -> column = length B + length C) ->
  lines_short L (process L (length rest) (length A + length B + length C) column ls
                         (A ++ B ++ C ++ rest)).
Proof.
  intros Hw. assert (HL : 1 <= L).
  { apply (Hw [] [] msg); [reflexivity|constructor]. }
  induction rest as [|c rest IH]; intros A B C M0 column ls Hmsg HC HA HAs HB Hc1 Hc2 Hc3 HA0.
  - cbn [length process]. rewrite app_nil_r. apply lines_short_app; auto.
    rewrite app_length. lia.
  - cbn [length process].
    replace (length A + length B + length C) with (length (A ++ B ++ C)) by (rewrite !app_length; lia).
    replace (A ++ B ++ C ++ c :: rest) with ((A ++ B ++ C) ++ c :: rest) by (rewrite <- !app_assoc; reflexivity).
    rewrite nth_mid.
    assert (Blank : forall c', is_blank c' = true -> c' = space ->
      forall ls', ls' = length (A ++ B ++ C) ->
      lines_short L
        (if Nat.eqb column L
         then if Ascii.eqb (nth ls' ((A ++ B ++ C) ++ c' :: rest) nul) space
              then process L (length rest) (S (length (A ++ B ++ C)))
                     (S (length (A ++ B ++ C) - ls')) ls'
                     (set_byte ls' at_sign ((A ++ B ++ C) ++ c' :: rest))
              else (A ++ B ++ C) ++ c' :: rest
         else process L (length rest) (S (length (A ++ B ++ C))) (S column) ls'
                ((A ++ B ++ C) ++ c' :: rest))).
    { intros c' _ -> ls' ->. rewrite nth_mid, Ascii.eqb_refl, set_mid, Nat.sub_diag.
      destruct (Nat.eqb_spec column L) as [El|El].
      - specialize (IH (A ++ (B ++ C) ++ [at_sign]) [] [] (M0 ++ C ++ [c]) 1 (length (A ++ B ++ C))).
        cbn [length app] in IH.
        replace (S (length (A ++ B ++ C))) with (length (A ++ (B ++ C) ++ [at_sign]) + 0 + 0)
          by (rewrite !app_length; cbn; lia).
        replace ((A ++ B ++ C) ++ at_sign :: rest) with ((A ++ (B ++ C) ++ [at_sign]) ++ rest)
          by (rewrite <- !app_assoc; reflexivity).
        apply IH.
        + rewrite Hmsg, <- !app_assoc. reflexivity.
        + constructor.
        + apply finished_end.
        + apply lines_short_end; auto. rewrite app_length. lia.
        + left. reflexivity.
        + lia.
        + lia.
        + exact HL.
        + intros F. apply (f_equal (@length ascii)) in F. rewrite !app_length in F. cbn in F. lia.
      - specialize (IH A (B ++ C ++ [space]) [] (M0 ++ C ++ [c]) (S column) (length (A ++ B ++ C))).
        cbn [length app] in IH.
        replace (S (length (A ++ B ++ C))) with (length A + length (B ++ C ++ [space]) + 0)
          by (rewrite !app_length; cbn; lia).
        replace ((A ++ B ++ C) ++ space :: rest) with (A ++ (B ++ C ++ [space]) ++ rest)
          by (rewrite <- !app_assoc; reflexivity).
        apply IH; auto.
        + rewrite Hmsg, <- !app_assoc. reflexivity.
        + right. exists (B ++ C). split; [rewrite <- app_assoc; reflexivity|].
          rewrite !app_length. lia.
        + rewrite !app_length. cbn. lia.
        + rewrite !app_length. cbn. lia.
        + lia.
        + intros ->. specialize (HA0 eq_refl). rewrite !app_length. cbn. lia. }
    destruct (Ascii.eqb_spec c tab) as [->|Htab].
    + rewrite set_mid, nth_mid.
      change (Ascii.eqb space space) with true. change (Ascii.eqb space newline) with false.
      cbv iota. apply Blank; reflexivity.
    + rewrite nth_mid. destruct (Ascii.eqb_spec c space) as [->|Hsp].
      * change (Ascii.eqb space newline) with false. cbv iota. apply Blank; reflexivity.
      * destruct (Ascii.eqb_spec c newline) as [->|Hnl].
        -- rewrite set_mid.
           specialize (IH (A ++ (B ++ C) ++ [at_sign]) [] [] (M0 ++ C ++ [newline]) 1 ls).
           cbn [length app] in IH.
           replace (S (length (A ++ B ++ C))) with (length (A ++ (B ++ C) ++ [at_sign]) + 0 + 0)
             by (rewrite !app_length; cbn; lia).
           replace ((A ++ B ++ C) ++ at_sign :: rest) with ((A ++ (B ++ C) ++ [at_sign]) ++ rest)
             by (rewrite <- !app_assoc; reflexivity).
           apply IH.
           ++ rewrite Hmsg, <- !app_assoc. reflexivity.
           ++ constructor.
           ++ apply finished_end.
           ++ apply lines_short_end; auto. rewrite app_length. lia.
           ++ left. reflexivity.
           ++ lia.
           ++ lia.
           ++ exact HL.
           ++ intros F. apply (f_equal (@length ascii)) in F. rewrite !app_length in F. cbn in F. lia.
        -- assert (Hbl : is_blank c = false).
           { destruct (is_blank c) eqn:E; [|reflexivity]. apply is_blank_cases in E.
             destruct E as [E|[E|E]]; contradiction. }
           assert (HC' : Forall (fun c => is_blank c = false) (C ++ [c]))
             by (apply Forall_app; split; [exact HC|repeat constructor; exact Hbl]).
           assert (Hshort : length (C ++ [c]) < L).
           { apply (Hw M0 (C ++ [c]) rest); [|exact HC']. rewrite Hmsg, <- app_assoc. reflexivity. }
           destruct (Nat.eqb_spec column L) as [El|El].
           ++ destruct HB as [->|(B' & -> & ->)].
              { rewrite app_length in Hshort. cbn in *. lia. }
              replace ((A ++ (B' ++ [space]) ++ C) ++ c :: rest)
                with ((A ++ B') ++ space :: C ++ c :: rest) by (rewrite <- !app_assoc; reflexivity).
              replace (length A + length B') with (length (A ++ B')) by (rewrite app_length; lia).
              rewrite nth_mid, Ascii.eqb_refl, set_mid.
              specialize (IH (A ++ B' ++ [at_sign]) [] (C ++ [c]) M0 (S (S (length C))) (length (A ++ B'))).
              cbn [app] in IH.
              replace (S (length (A ++ (B' ++ [space]) ++ C)))
                with (length (A ++ B' ++ [at_sign]) + length (@nil ascii) + length (C ++ [c]))
                by (rewrite !app_length; cbn; lia).
              replace (S (length (A ++ (B' ++ [space]) ++ C) - length (A ++ B')))
                with (S (S (length C))) by (rewrite !app_length; cbn; lia).
              replace ((A ++ B') ++ at_sign :: C ++ c :: rest)
                with ((A ++ B' ++ [at_sign]) ++ (C ++ [c]) ++ rest) by (rewrite <- !app_assoc; reflexivity).
              rewrite app_length in Hshort. cbn in Hshort.
              apply IH; auto.
              ** rewrite Hmsg, <- !app_assoc. reflexivity.
              ** apply finished_end.
              ** apply lines_short_end; auto. rewrite !app_length in *. cbn in *. lia.
              ** rewrite app_length. cbn. lia.
              ** rewrite app_length. cbn. lia.
              ** lia.
              ** intros F. apply (f_equal (@length ascii)) in F. rewrite !app_length in F. cbn in F. lia.
           ++ specialize (IH A B (C ++ [c]) M0 (S column) ls).
              replace (S (length (A ++ B ++ C))) with (length A + length B + length (C ++ [c]))
                by (rewrite !app_length; cbn; lia).
              replace ((A ++ B ++ C) ++ c :: rest) with (A ++ B ++ (C ++ [c]) ++ rest)
                by (rewrite <- !app_assoc; reflexivity).
              apply IH; auto.
              ** rewrite Hmsg, <- !app_assoc. reflexivity.
              ** rewrite app_length. cbn. lia.
              ** rewrite app_length. cbn. lia.
              ** lia.
              ** intros ->. specialize (HA0 eq_refl). rewrite app_length. cbn. lia.
Qed.

Lemma ProcessMessage_lines L msg : words_short L msg -> lines_short L (ProcessMessage msg L).
Proof.
  intros Hw.
  exact (process_lines L msg Hw msg [] [] [] [] 0 0 eq_refl (Forall_nil _) (or_introl eq_refl)
           (lines_short_small L [] (Nat.le_0_l _)) (or_introl eq_refl) (le_n 0)
           (Nat.le_0_l _) (Nat.le_0_l _) (fun _ => eq_refl)).
Qed.

Lemma pieces_short L s ls : pieces s ls -> lines_short L s -> Forall (fun l => length l <= L) ls.
Proof.
  induction 1 as [|w Hw Hn|s ls H IH|w s ls Hw Hn H IH]; intros Hs.
  - constructor.
  - repeat constructor. apply (Hs [] w []); [rewrite app_nil_r; reflexivity|exact Hn].
  - apply IH. intros a w b E. apply (Hs (at_sign :: a) w b). cbn. f_equal. exact E.
  - constructor.
    + apply (Hs [] w (at_sign :: s)); [reflexivity|exact Hn].
    + apply IH. intros a v b E. apply (Hs (w ++ at_sign :: a) v b).
      rewrite E, <- app_assoc. reflexivity.
Qed.

Lemma lines_fit L msg : words_short L msg -> Forall (fun l => length l <= L) (message_lines L msg).
Proof.
  intros Hw. eapply pieces_short; [|apply ProcessMessage_lines; exact Hw].
  exact (strtok_pieces (ProcessMessage msg L) [] ltac:(cbn; tauto)).
Qed.

(** ** The buffer *)

Lemma buffer_holds (b : buffer) text :
  buf_text (Format2Buffer b text) = Some text /\ length text < buf_size (Format2Buffer b text).
Proof.
  unfold Format2Buffer. destruct (vsnprintf b text) as [b1 len] eqn:E.
  unfold vsnprintf in E. injection E as <- <-.
  set (b1 := match buf_size b with 0 => b | S n => mk_buffer (buf_size b) (Some (firstn n text)) end).
  destruct (Nat.leb_spec (buf_size b1) (length text)) as [Hle|Hlt].
  - unfold vsnprintf. cbn [fst buf_size]. replace (length text + 2) with (S (S (length text))) by lia.
    cbn [buf_size buf_text]. rewrite firstn_all2 by lia. split; [reflexivity|lia].
  - unfold b1 in *. destruct (buf_size b) as [|n] eqn:En; [rewrite En in Hlt; lia|].
    cbn [buf_size buf_text] in *. rewrite firstn_all2 by lia. split; [reflexivity|lia].
Qed.

(** ** C11 *)

Definition no_overflow (n : Z) : Prop := (0 <= n < INT_MAX)%Z.

Lemma int_add_1 n : no_overflow n -> int_add n 1 = Val (n + 1)%Z.
Proof.
  unfold no_overflow, int_add, INT_MIN, INT_MAX. intros H.
  destruct (Z.leb_spec (- 2 ^ 31) (n + 1)); [|lia].
  destruct (Z.leb_spec (n + 1) (2 ^ 31 - 1)); [reflexivity|lia].
Qed.

Definition counts (before : list call) : counters :=
  mk_counters (count_reports CTI_ERROR before) (count_reports CTI_WARN before).

Lemma count_reports_snoc ty before x :
  count_reports ty (before ++ [x]) = (count_reports ty before + (if reports ty x then 1 else 0))%Z.
Proof.
  unfold count_reports. rewrite filter_app, app_length. cbn [filter].
  destruct (reports ty x); cbn [length]; lia.
Qed.

Lemma count_nonneg ty xs : (0 <= count_reports ty xs)%Z.
Proof. unfold count_reports. lia. Qed.

Lemma count_le ty xs : (count_reports ty xs <= Z.of_nat (length xs))%Z.
Proof.
  unfold count_reports. apply inj_le. induction xs as [|x xs IH]; [apply le_n|]. cbn [filter length].
  destruct (reports ty x); cbn [length]; lia.
Qed.

Definition returns (a : answer) : Prop := match a with Exit _ _ _ => False | _ => True end.

(** The answers of a run: each call gets its answer until one ends the process. *)
Fixpoint expected (before xs : list call) : list answer :=
  match xs with
  | [] => []
  | x :: xs' =>
      match answer_after before x with
      | Exit s e w => [Exit s e w]
      | a => a :: expected (before ++ [x]) xs'
      end
  end.

Lemma step_answer before x : (Z.of_nat (length before) < INT_MAX)%Z ->
  exists c, cti_step (counts before) x = Val (c, answer_after before x) /\
            (returns (answer_after before x) -> c = counts (before ++ [x])).
Proof.
  intros Hlen.
  assert (He : no_overflow (count_reports CTI_ERROR before))
    by (split; [apply count_nonneg|pose proof (count_le CTI_ERROR before); lia]).
  assert (Hw : no_overflow (count_reports CTI_WARN before))
    by (split; [apply count_nonneg|pose proof (count_le CTI_WARN before); lia]).
  unfold counts. rewrite !count_reports_snoc.
  destruct x as [[]|[]| | | | |]; cbn [cti_step HandleCtiCall errors warnings bind answer_after reports];
    try rewrite (int_add_1 _ He); try rewrite (int_add_1 _ Hw); cbn [bind];
    rewrite ?Z.add_0_r;
    try (eexists; split; [reflexivity|intros _; reflexivity]);
    try (eexists; split; [reflexivity|cbn; intros []]).
  - (* abortOnError *) eexists. split; [|intros _; reflexivity].
    destruct (Z.ltb_spec 0 (count_reports CTI_ERROR before)) as [H|H];
      destruct (Z.eqb_spec (count_reports CTI_ERROR before) 0) as [H0|H0]; try reflexivity.
    + lia.
    + unfold no_overflow in He. lia.
Qed.

Lemma run_expected : forall xs before, (Z.of_nat (length before + length xs) <= INT_MAX)%Z ->
  cti_run (counts before) xs = Val (expected before xs).
Proof.
  induction xs as [|x xs IH]; intros before Hlen; [reflexivity|].
  cbn [length] in Hlen. cbn [cti_run expected].
  destruct (step_answer before x ltac:(lia)) as (c & E & Hc). rewrite E. cbn [bind].
  destruct (answer_after before x) as [|n|s e w] eqn:Ea.
  - rewrite (Hc I), IH; [reflexivity|]. rewrite app_length. cbn [length]. lia.
  - rewrite (Hc I), IH; [reflexivity|]. rewrite app_length. cbn [length]. lia.
  - reflexivity.
Qed.

Lemma expected_nth : forall xs before k a, nth_error (expected before xs) k = Some a ->
  exists x, nth_error xs k = Some x /\ a = answer_after (before ++ firstn k xs) x.
Proof.
  induction xs as [|x xs IH]; intros before k a H; [destruct k; discriminate|].
  cbn [expected] in H.
  assert (G : nth_error (answer_after before x :: expected (before ++ [x]) xs) k = Some a ->
              exists y, nth_error (x :: xs) k = Some y /\ a = answer_after (before ++ firstn k (x :: xs)) y).
  { destruct k as [|k]; cbn; intros E.
    - injection E as <-. exists x. rewrite app_nil_r. auto.
    - destruct (IH _ _ _ E) as (y & Hy & ->). exists y. split; [exact Hy|].
      rewrite <- app_assoc. reflexivity. }
  destruct (answer_after before x) eqn:Ea; try (apply G; exact H).
  destruct k as [|k]; [|destruct k; discriminate]. apply G. exact H.
Qed.

(** The run stops early only by ending the process. *)
Lemma expected_short : forall xs before, length (expected before xs) < length xs ->
  exists l s e w, expected before xs = l ++ [Exit s e w].
Proof.
  induction xs as [|x xs IH]; intros before H; cbn [length] in H; [lia|].
  cbn [expected] in *. destruct (answer_after before x) as [|n|s e w] eqn:Ea; cbn [length] in H.
  - destruct (IH (before ++ [x]) ltac:(lia)) as (l & s & e & w & ->).
    exists (Nothing :: l), s, e, w. reflexivity.
  - destruct (IH (before ++ [x]) ltac:(lia)) as (l & s & e & w & ->).
    exists (Number n :: l), s, e, w. reflexivity.
  - exists [], s, e, w. reflexivity.
Qed.

Lemma counters_correct xs : (Z.of_nat (length xs) <= INT_MAX)%Z ->
  exists answers, cti_run counters_init xs = Val answers /\
    (forall k a, nth_error answers k = Some a ->
       exists x, nth_error xs k = Some x /\ a = answer_after (firstn k xs) x) /\
    (length answers < length xs -> exists l s e w, answers = l ++ [Exit s e w]).
Proof.
  intros H. exists (expected [] xs). split; [exact (run_expected xs [] H)|].
  split; [exact (expected_nth xs [])|exact (expected_short xs [])].
Qed.

(** ** Locations *)
Lemma marker_at_column i l : (1 <= first_column i)%Z -> source_line i = Some l ->
  (first_column i <= Z.of_nat (length l))%Z ->
  nth (Z.to_nat (first_column i) - 1 + 4) (quoted l) nul = nth (Z.to_nat (first_column i) - 1) l nul /\
  nth (Z.to_nat (first_column i) - 1 + 4) (marker i) nul = "^"%char /\
  (forall k, k < Z.to_nat (first_column i) - 1 + 4 -> nth k (marker i) nul = space) /\
  length (marker i) = Z.to_nat (Z.max (first_column i) (last_column i)) + 4.
Proof.
  intros Hc Hl Hlen.
  set (n := Z.to_nat (first_column i) - 1).
  assert (Hn : Z.to_nat (first_column i - 1) = n) by (unfold n; lia).
  assert (Hsp : repeat space 4 ++ repeat space n = repeat space (n + 4)).
  { rewrite <- repeat_app. f_equal. lia. }
  unfold marker. rewrite Hn, app_assoc, Hsp.
  repeat split.
  - unfold quoted. rewrite app_nth2; cbn [length]; [f_equal; lia|lia].
  - rewrite app_nth2; rewrite repeat_length; [|lia]. rewrite Nat.sub_diag. reflexivity.
  - intros k Hk. rewrite app_nth1 by (rewrite repeat_length; exact Hk).
    rewrite (nth_indep _ nul space) by (rewrite repeat_length; exact Hk). apply nth_repeat.
  - rewrite !app_length, !repeat_length. cbn [length]. unfold n. lia.
Qed.

Lemma headed_lines_fit header msg : length header <= message_line_length ->
  words_short (message_line_length - length header) msg ->
  Forall (fun l => length (header ++ l) <= message_line_length)
         (message_lines (message_line_length - length header) msg).
Proof.
  intros Hh Hw. eapply Forall_impl; [|apply lines_fit; exact Hw].
  intros l Hl. cbv beta in Hl. rewrite app_length. lia.
Qed.

(** Printing. *)
Lemma shown_line : forall l bytes, ~ In newline l ->
  shown_lines (l ++ newline :: bytes) = (l :: fst (shown_lines bytes), snd (shown_lines bytes)).
Proof.
  induction l as [|c l IH]; intros bytes N.
  - cbn [app shown_lines]. destruct (shown_lines bytes) as [full rest]. reflexivity.
  - cbn [app shown_lines]. rewrite IH by (intros H; apply N; now right).
    destruct (Ascii.eqb_spec c (ascii_of_nat 10)) as [->|_]; [destruct N; now left|]. reflexivity.
Qed.
Lemma printed_lines : forall header l ls, Forall (fun x => ~ In newline x) (header :: l :: ls) ->
  shown_lines (print_lines header (l :: ls)) = ((header ++ l) :: ls, []).
Proof.
  intros header l ls H. inversion H as [|? ? Hh Hl]; subst. inversion Hl as [|? ? Hl1 Hls]; subst.
  unfold print_lines. rewrite app_assoc, shown_line.
  - assert (shown_lines (concat (map (fun l => l ++ [newline]) ls)) = (ls, [])) as ->; [|reflexivity].
    clear - Hls. induction Hls as [|x ls Hx Hls IH]; [reflexivity|].
    cbn [map concat]. rewrite <- app_assoc. cbn [app]. rewrite shown_line by exact Hx. now rewrite IH.
  - intros X. apply in_app_or in X. destruct X; contradiction.
Qed.
