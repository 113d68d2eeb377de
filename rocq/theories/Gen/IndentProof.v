(** Proofs about the indentation of generated files. *)

From Coq Require Import List NArith ZArith Ascii Bool Lia.
From Verif Require Import Base.Outcome Gen.IndentModel Gen.IndentSpec.
Import ListNotations.
Local Open Scope outcome_scope.

Section Proofs.
  Variable asserts : bool.

  Definition estep (c : context) (e : event) : outcome context :=
    match e with
    | Open_block => GNindentIncrease c
    | Close_block => GNindentDecrease asserts c
    | New_file => GNopenFile true c
    | Text i t =>
        let! c := when (i && (0 <? indent_level c)%N)
                    (write (padded_blank (indent_level c * indent_size c))) c in
        write t c
    end.
  Fixpoint erun (es : list event) (c : context) : outcome context :=
    match es with
    | [] => Val c
    | e :: es => let! c := estep c e in erun es c
    end.

  Lemma erun_app : forall es es' c, erun (es ++ es') c = (let! c := erun es c in erun es' c).
  Proof.
    induction es as [|e es IH]; intros es' c; [reflexivity|]. cbn [app erun].
    destruct (estep c e); cbn [bind]; auto.
  Qed.
  Lemma bind_ret : forall A (m : outcome A), (let! x := m in Val x) = m.
  Proof. now intros A []. Qed.

  Lemma step_events : forall c k, can_open k -> step asserts c k = erun (events_of k) c.
  Proof.
    intros c [s t| | |ok] H; cbn [step events_of erun]; try now rewrite bind_ret.
    - destruct s as [b1 b2 b3 b4 b5]. unfold GNprint.
      cbn [GN_INCREASE_WS_AFTER GN_INCREASE_WS_BEFORE GN_NO_WS GN_DECREASE_WS_AFTER GN_DECREASE_WS_BEFORE].
      rewrite erun_app.
      assert (O : forall b e c, when b (fun c => estep c e) c = erun (opt b e) c).
      { intros [|] e c'; cbn [when opt erun]; [now rewrite bind_ret|reflexivity]. }
      replace (when b2 GNindentIncrease c) with (erun (opt b2 Open_block) c) by (rewrite <- O; reflexivity).
      destruct (erun (opt b2 Open_block) c) as [c1| | | |]; cbn [bind]; try reflexivity.
      rewrite erun_app.
      replace (when b5 (GNindentDecrease asserts) c1) with (erun (opt b5 Close_block) c1) by (rewrite <- O; reflexivity).
      destruct (erun (opt b5 Close_block) c1) as [c2| | | |]; cbn [bind]; try reflexivity.
      rewrite erun_app. cbn [erun estep].
      destruct (when (negb b3 && (0 <? indent_level c2)%N) _ c2) as [c3| | | |]; cbn [bind]; try reflexivity.
      destruct (write t c3) as [c4| | | |]; cbn [bind]; try reflexivity.
      rewrite erun_app.
      replace (when b1 GNindentIncrease c4) with (erun (opt b1 Open_block) c4) by (rewrite <- O; reflexivity).
      destruct (erun (opt b1 Open_block) c4) as [c5| | | |]; cbn [bind]; try reflexivity.
      rewrite <- O. reflexivity.
    - destruct ok; [|destruct H]. cbn [estep]. now rewrite bind_ret.
  Qed.

  Lemma run_events : forall ks c, Forall can_open ks -> run asserts ks c = erun (history ks) c.
  Proof.
    induction ks as [|k ks IH]; intros c H; [reflexivity|]. inversion H as [|? ? Hk Hks]; subst.
    cbn [run history flat_map]. rewrite erun_app, <- step_events by exact Hk.
    destruct (step asserts c k); cbn [bind]; auto.
  Qed.
End Proofs.

Lemma depth_app : forall es es', depth (es ++ es') = (depth es + depth es')%Z.
Proof.
  intros es es'. unfold depth. rewrite map_app. induction (map change es) as [|z zs IH]; cbn [app fold_right]; lia.
Qed.

Definition good (es : list event) (c : context) : Prop :=
  written es (files c) /\ Z.of_N (indent_level c) = depth es /\ indent_size c = 4%N.

Lemma events_written : forall asserts es, never_over_closed es -> not_too_deep es -> file_first es ->
  exists c, erun asserts es GNnew = Val c /\ good es c.
Proof.
  intros asserts es. induction es as [|e es IH] using rev_ind; intros O D F.
  - exists GNnew. split; [reflexivity|]. split; [constructor|]. split; reflexivity.
  - destruct IH as (c & E & W & L & S).
    { intros p f ->. apply (O p (f ++ [e])). now rewrite app_assoc. }
    { intros p f ->. apply (D p (f ++ [e])). now rewrite app_assoc. }
    { intros p i t f ->. apply (F p i t (f ++ [e])). now rewrite <- app_assoc. }
    rewrite erun_app, E. cbn [bind erun].
    assert (O1 := O (es ++ [e]) [] (eq_sym (app_nil_r _))).
    assert (D1 := D (es ++ [e]) [] (eq_sym (app_nil_r _))).
    assert (O0 := O es [e] eq_refl). assert (D0 := D es [e] eq_refl).
    assert (De := depth_app es [e]). unfold depth in De at 3. cbn [map fold_right] in De.
    destruct e as [| |i t|]; cbn [change] in De; cbn [estep].
    + eexists. split; [reflexivity|]. split; [apply written_block; auto|].
      cbn [indent_level indent_size]. split; [|exact S].
      unfold ushort. rewrite N2Z.inj_mod by lia.
      rewrite Z.mod_small by lia. lia.
    + unfold GNindentDecrease. destruct (N.eqb_spec (indent_level c) 0) as [Z|Z]; [lia|].
      rewrite andb_false_r. cbn [bind]. eexists. split; [reflexivity|].
      split; [apply written_block; auto|]. cbn [indent_level indent_size]. split; [|exact S].
      unfold ushort. rewrite N2Z.inj_mod by lia.
      replace (Z.of_N (indent_level c + 65535)) with ((Z.of_N (indent_level c) - 1) + 1 * Z.of_N 65536)%Z by lia.
      rewrite Z.mod_add by lia. rewrite Z.mod_small by lia. lia.
    + assert (In New_file es) as Hf by (apply (F es i t []); reflexivity).
      assert (exists f fs, files c = f :: fs) as (f & fs & Ef).
      { clear - W Hf. induction W as [|es fs W IH|es fs e W IH X|es f fs i t W IH].
        - destruct Hf.
        - eauto.
        - apply in_app_or in Hf. destruct Hf as [Hf|[E|[]]]; [auto|subst e; destruct X; discriminate].
        - eauto. }
      assert (estep asserts c (Text i t) =
        Val (mk_context ((f ++ (if i then repeat " "%char (Z.to_nat (4 * depth es)) else []) ++ t) :: fs)
          (indent_level c) (indent_size c))) as Es.
      { cbn [estep]. destruct i; cbn [andb].
        - destruct (N.ltb_spec 0 (indent_level c)) as [P|P]; cbn [when].
          + unfold write. rewrite Ef. cbn [bind files indent_level indent_size].
            rewrite <- app_assoc. unfold padded_blank. rewrite S.
            replace (N.to_nat (N.max 1 (indent_level c * 4))) with (Z.to_nat (4 * depth es)) by lia. reflexivity.
          + unfold write. cbn [bind]. rewrite Ef. replace (depth es) with 0%Z by lia. reflexivity.
        - cbn [when bind]. unfold write. rewrite Ef. reflexivity. }
      cbn [estep] in Es. rewrite Es. cbn [bind]. eexists. split; [reflexivity|].
      split; [cbn [files]; apply written_text; now rewrite <- Ef|]. cbn [indent_level indent_size].
      split; [lia|exact S].
    + eexists. split; [reflexivity|]. split; [cbn [files]; now apply written_file|].
      cbn [indent_level indent_size]. split; [lia|exact S].
Qed.

Fixpoint over_closed_at (es : list event) (d : Z) : bool :=
  (d <? 0)%Z || match es with [] => false | e :: es => over_closed_at es (d + change e) end.

Lemma over_closed_first : forall es d, (0 <= d)%Z -> over_closed_at es d = true ->
  exists past future, es = past ++ Close_block :: future /\
    (forall p f, past = p ++ f -> 0 <= d + depth p)%Z /\ (d + depth past = 0)%Z.
Proof.
  induction es as [|e es IH]; intros d P H; cbn [over_closed_at] in H.
  - destruct (Z.ltb_spec d 0); [lia|discriminate].
  - destruct (Z.ltb_spec d 0) as [|_]; [lia|]. cbn [orb] in H.
    destruct (Z_lt_le_dec (d + change e) 0) as [L|L].
    + destruct e; cbn [change] in L; try lia. exists [], es. split; [reflexivity|]. split.
      * intros p f E. destruct p; [unfold depth; cbn; lia|discriminate].
      * unfold depth. cbn. lia.
    + destruct (IH _ L H) as (p & f & -> & A & B). exists (e :: p), f. split; [reflexivity|].
      assert (Dc : forall q, depth (e :: q) = (change e + depth q)%Z) by reflexivity.
      split; [|rewrite Dc; lia]. intros q g E. destruct q as [|x q]; [unfold depth; cbn; lia|].
      injection E as <- E. rewrite Dc. specialize (A q g E). lia.
Qed.

Lemma over_closed_flag : forall es, over_closed es -> over_closed_at es 0 = true.
Proof.
  intros es (p & f & -> & N). assert (K : forall p d, (d + depth p < 0)%Z -> over_closed_at (p ++ f) d = true).
  { clear p N. induction p as [|e p IH]; intros d N.
    - unfold depth in N. cbn in N. destruct f; cbn [app over_closed_at];
        destruct (Z.ltb_spec d 0); try reflexivity; lia.
    - cbn [app over_closed_at]. rewrite IH; [apply orb_true_r|].
      change (depth (e :: p)) with (change e + depth p)%Z in N. lia. }
  apply K. lia.
Qed.

Lemma over_closing_stops : forall es, over_closed es -> not_too_deep es -> file_first es ->
  erun true es GNnew = Aborted.
Proof.
  intros es H D F. apply over_closed_flag in H.
  destruct (over_closed_first es 0 ltac:(lia) H) as (p & f & -> & A & B).
  destruct (events_written true p) as (c & E & W & L & S).
  - intros q g Eq. specialize (A q g Eq). lia.
  - intros q g ->. apply (D q (g ++ Close_block :: f)). now rewrite app_assoc.
  - intros q i t g ->. apply (F q i t (g ++ Close_block :: f)). rewrite <- app_assoc. reflexivity.
  - rewrite erun_app, E. cbn [bind erun estep]. unfold GNindentDecrease.
    replace (indent_level c) with 0%N by lia. reflexivity.
Qed.

(** The description of the files determines them. *)
Lemma written_unique : forall es fs, written es fs -> forall fs', written es fs' -> fs' = fs.
Proof.
  induction 1 as [|es fs W IH|es fs e W IH X|es f fs i t W IH]; intros fs' W'.
  - inversion W' as [|es fs W1 E|es fs e W1 X1 E|es f fs i t W1 E]; try reflexivity;
      apply app_eq_nil in E; destruct E; discriminate.
  - inversion W' as [E|es1 fs1 W1 E|es1 fs1 e W1 X1 E|es1 f fs1 i t W1 E].
    + symmetry in E; apply app_eq_nil in E; destruct E; discriminate.
    + apply app_inj_tail in E. destruct E as [-> _]. f_equal. auto.
    + apply app_inj_tail in E. destruct E as [_ E]. subst. destruct X1; discriminate.
    + apply app_inj_tail in E. destruct E as [_ E]. discriminate.
  - inversion W' as [E|es1 fs1 W1 E|es1 fs1 e1 W1 X1 E|es1 f fs1 i t W1 E].
    + symmetry in E; apply app_eq_nil in E; destruct E; discriminate.
    + apply app_inj_tail in E. destruct E as [_ E]. subst. destruct X; discriminate.
    + apply app_inj_tail in E. destruct E as [-> _]. auto.
    + apply app_inj_tail in E. destruct E as [_ E]. subst. destruct X; discriminate.
  - inversion W' as [E|es1 fs1 W1 E|es1 fs1 e W1 X1 E|es1 f1 fs1 i1 t1 W1 E].
    + symmetry in E; apply app_eq_nil in E; destruct E; discriminate.
    + apply app_inj_tail in E. destruct E as [_ E]. discriminate.
    + apply app_inj_tail in E. destruct E as [_ E]. subst. destruct X1; discriminate.
    + apply app_inj_tail in E. destruct E as [-> E]. injection E as -> ->.
      specialize (IH _ W1). injection IH as -> ->. reflexivity.
Qed.
