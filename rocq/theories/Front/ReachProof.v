(** The reachability search skips only node types without targets below. *)

From Coq Require Import List Arith Bool Lia.
From Verif Require Import Base.Outcome Copra.TravModel Copra.TravSpec Copra.TravProof.
From Verif Require Import Front.ReachModel Front.ReachSpec.
Import ListNotations.

Lemma existsb_eqb_In i l : existsb (Nat.eqb i) l = true <-> In i l.
Proof.
  rewrite existsb_exists. split.
  - intros (x & H & E). apply Nat.eqb_eq in E. subst. exact H.
  - intros H. exists i. split; [exact H|apply Nat.eqb_refl].
Qed.

Lemma existsb_eqb_nIn i l : existsb (Nat.eqb i) l = false <-> ~ In i l.
Proof.
  rewrite <- existsb_eqb_In. destruct (existsb (Nat.eqb i) l); split; intros H; congruence.
Qed.

Lemma concat_skipn {X} (ll : list (list X)) k x : In x (nth k ll []) -> In x (concat (skipn k ll)).
Proof.
  revert k. induction ll as [|l ll IH]; intros [|k] H; cbn in *; try contradiction.
  - apply in_or_app. left. exact H.
  - apply IH. exact H.
Qed.

Lemma in_skipn {X} (l : list X) k x : In x (skipn k l) -> In x l.
Proof. intros H. rewrite <- (firstn_skipn k l). apply in_or_app. right. exact H. Qed.

Section Search.
  Variable sp : spec.
  Variable r : row.
  Hypothesis Hres : resolved sp.

  Definition wide (c : ref) : list nat :=
    match c with
    | RNode i => [i]
    | RSet k => concat (skipn k (isets sp))
    end.

  Lemma members_wide c : incl (members sp c) (wide c).
  Proof. destruct c as [i|k]; intros x H; [exact H|]. apply concat_skipn. exact H. Qed.

  Lemma wide_resolved i c j : In i (inodes sp) -> In c (ichildren sp i) -> In j (wide c) ->
    In j (inodes sp).
  Proof.
    destruct Hres as (_ & H1 & H2). intros Hi Hc Hj. destruct c as [k|k].
    - apply (H1 i (RNode k) j Hi Hc). exact Hj.
    - cbn in Hj. apply in_concat in Hj. destruct Hj as (l & Hl & Hj).
      apply (H2 l j); [eapply in_skipn; exact Hl|exact Hj].
  Qed.

  Definition fresh (vis : list nat) : nat :=
    length (filter (fun i => negb (existsb (Nat.eqb i) vis)) (inodes sp)).

  Lemma filter_le {X} (p q : X -> bool) l : (forall x, p x = true -> q x = true) ->
    length (filter p l) <= length (filter q l).
  Proof.
    intros H. induction l as [|x l IH]; [reflexivity|]. cbn.
    destruct (p x) eqn:E; [rewrite (H _ E); cbn; lia|]. destruct (q x); cbn; lia.
  Qed.

  Lemma filter_lt {X} (p q : X -> bool) l x : (forall x, p x = true -> q x = true) ->
    In x l -> p x = false -> q x = true -> length (filter p l) < length (filter q l).
  Proof.
    intros H. induction l as [|y l IH]; [contradiction|]. intros [->|Hin] Hp Hq; cbn.
    - rewrite Hp, Hq. cbn. pose proof (filter_le p q l H). lia.
    - specialize (IH Hin Hp Hq). destruct (p y) eqn:E; [rewrite (H _ E); cbn; lia|].
      destruct (q y); cbn; lia.
  Qed.

  Lemma fresh_incl v1 v2 : incl v1 v2 -> fresh v2 <= fresh v1.
  Proof.
    intros H. apply filter_le. intros x Hx. apply negb_true_iff in Hx. apply negb_true_iff.
    apply existsb_eqb_nIn in Hx. apply existsb_eqb_nIn. intros F. apply Hx, H, F.
  Qed.

  Lemma fresh_lt i vis : In i (inodes sp) -> ~ In i vis -> fresh (i :: vis) < fresh vis.
  Proof.
    intros Hi Hv. apply filter_lt with (x := i); [|exact Hi| |].
    - intros x Hx. apply negb_true_iff in Hx. apply negb_true_iff.
      apply existsb_eqb_nIn in Hx. apply existsb_eqb_nIn. intros F. apply Hx. right. exact F.
    - apply negb_false_iff, existsb_eqb_In. left. reflexivity.
    - apply negb_true_iff, existsb_eqb_nIn. exact Hv.
  Qed.

  Lemma fresh_le vis : fresh vis <= length (inodes sp).
  Proof.
    unfold fresh. induction (inodes sp) as [|x l IH]; [reflexivity|]. cbn [filter length].
    destruct (negb (existsb (Nat.eqb x) vis)); cbn [length]; lia.
  Qed.

  (** Everything newly visited is unmarked, with all successors visited. *)
  Definition closed_over (vis vis' : list nat) : Prop :=
    forall x, In x vis' -> In x vis \/
      (r x = RZero /\ forall c j, In c (ichildren sp x) -> In j (wide c) -> In j vis').

  Definition post (vis : list nat) (flag : bool) (want : list nat) (res : outcome search) : Prop :=
    exists vis' flag', res = Val (vis', flag') /\ incl vis vis' /\
      (flag' = false -> flag = false /\ closed_over vis vis' /\ incl want vis').

  Definition walk_ok (wk : nat -> search -> outcome search) (bound : nat) : Prop :=
    forall i vis flag, In i (inodes sp) -> fresh vis < bound ->
      post vis flag (flat_map wide (ichildren sp i)) (wk i (vis, flag)).

  Lemma is_zero_spec c : is_zero c = true <-> c = RZero.
  Proof. destruct c; cbn; split; congruence. Qed.

  Lemma closed_over_trans v1 v2 v3 : incl v2 v3 ->
    closed_over v1 v2 -> closed_over v2 v3 -> closed_over v1 v3.
  Proof.
    intros Hi H1 H2 x Hx. destruct (H2 x Hx) as [H|H]; [|right; exact H].
    destruct (H1 x H) as [H'|[Hz Hs]]; [left; exact H'|]. right. split; [exact Hz|].
    intros c j Hc Hj. apply Hi. eapply Hs; eassumption.
  Qed.

  Lemma visit_index_ok wk bound : walk_ok wk bound -> forall i vis flag,
    In i (inodes sp) -> fresh vis <= bound ->
    post vis flag [i] (visit_index r wk i (vis, flag)).
  Proof.
    intros Hw i vis flag Hi Hf. cbn [visit_index].
    destruct (existsb (Nat.eqb i) vis) eqn:Ev.
    - apply existsb_eqb_In in Ev. exists vis, flag.
      split; [reflexivity|]. split; [apply incl_refl|]. intros ->.
      split; [reflexivity|]. split; [intros x Hx; left; exact Hx|].
      intros x [<-|[]]. exact Ev.
    - apply existsb_eqb_nIn in Ev. destruct (is_zero (r i)) eqn:Ez.
      + apply is_zero_spec in Ez.
        destruct (Hw i (i :: vis) flag Hi) as (vis' & flag' & E & Hincl & Hpost).
        { pose proof (fresh_lt i vis Hi Ev). lia. }
        exists vis', flag'. split; [exact E|]. split.
        { intros x Hx. apply Hincl. right. exact Hx. }
        intros Hfl. destruct (Hpost Hfl) as (Hfl0 & Hcl & Hwant).
        split; [exact Hfl0|]. split.
        * intros x Hx. destruct (Hcl x Hx) as [[<-|H]|H]; [|left; exact H|right; exact H].
          right. split; [exact Ez|]. intros c j Hc Hj. apply Hwant.
          apply in_flat_map. exists c. split; assumption.
        * intros x [<-|[]]. apply Hincl. left. reflexivity.
      + exists (i :: vis), true. split; [reflexivity|]. split; [|discriminate].
        intros x Hx. right. exact Hx.
  Qed.

  Lemma post_seq vis flag w1 w2 st (k : search -> outcome search) :
    post vis flag w1 st ->
    (forall vis1 flag1, incl vis vis1 -> post vis1 flag1 w2 (k (vis1, flag1))) ->
    post vis flag (w1 ++ w2) (bind st k).
  Proof.
    intros (vis1 & flag1 & -> & Hi1 & Hp1) Hk. cbn [bind].
    destruct (Hk vis1 flag1 Hi1) as (vis2 & flag2 & E & Hi2 & Hp2).
    exists vis2, flag2. split; [exact E|]. split; [exact (incl_tran Hi1 Hi2)|].
    intros Hf. destruct (Hp2 Hf) as (Hf1 & Hc2 & Hw2). destruct (Hp1 Hf1) as (Hf0 & Hc1 & Hw1).
    split; [exact Hf0|]. split; [exact (closed_over_trans _ _ _ Hi2 Hc1 Hc2)|].
    apply incl_app; [exact (incl_tran Hw1 Hi2)|exact Hw2].
  Qed.

  Lemma post_nil vis flag : post vis flag [] (Val (vis, flag)).
  Proof.
    exists vis, flag. split; [reflexivity|]. split; [apply incl_refl|]. intros ->.
    split; [reflexivity|]. split; [intros x Hx; left; exact Hx|]. intros x [].
  Qed.

  Lemma visit_all_ok wk bound : walk_ok wk bound -> forall l vis flag,
    incl l (inodes sp) -> fresh vis <= bound ->
    post vis flag l (visit_all r wk l (vis, flag)).
  Proof.
    intros Hw l. induction l as [|i l IH]; intros vis flag Hl Hf.
    - apply post_nil.
    - cbn [visit_all]. change (i :: l) with ([i] ++ l).
      apply post_seq.
      + eapply visit_index_ok; eauto. apply Hl. left. reflexivity.
      + intros vis1 flag1 Hi. apply IH; [intros x Hx; apply Hl; right; exact Hx|].
        pose proof (fresh_incl _ _ Hi). lia.
  Qed.

  Lemma visit_ref_ok wk bound : walk_ok wk bound -> forall c vis flag,
    incl (wide c) (inodes sp) -> fresh vis <= bound ->
    post vis flag (wide c) (visit_ref sp r wk c (vis, flag)).
  Proof.
    intros Hw [i|k] vis flag Hc Hf; cbn [visit_ref wide] in *.
    - eapply visit_index_ok; eauto. apply Hc. left. reflexivity.
    - eapply visit_all_ok; eauto.
  Qed.

  Lemma visit_children_ok wk bound : walk_ok wk bound -> forall cs vis flag,
    incl (flat_map wide cs) (inodes sp) -> fresh vis <= bound ->
    post vis flag (flat_map wide cs) (visit_children sp r wk cs (vis, flag)).
  Proof.
    intros Hw cs. induction cs as [|c cs IH]; intros vis flag Hc Hf.
    - apply post_nil.
    - cbn [visit_children flat_map].
      apply post_seq.
      + eapply visit_ref_ok; eauto. intros x Hx. apply Hc. cbn. apply in_or_app. left. exact Hx.
      + intros vis1 flag1 Hi. cbn [snd]. destruct flag1.
        * exists vis1, true. split; [reflexivity|]. split; [apply incl_refl|discriminate].
        * apply IH; [intros x Hx; apply Hc; cbn; apply in_or_app; right; exact Hx|].
          pose proof (fresh_incl _ _ Hi). lia.
  Qed.

  Lemma walk_is_ok : forall fuel, walk_ok (walk sp r fuel) fuel.
  Proof.
    induction fuel as [|fuel IH]; intros i vis flag Hi Hf; [lia|].
    cbn [walk]. eapply visit_children_ok; [exact IH| |lia].
    intros j Hj. apply in_flat_map in Hj. destruct Hj as (c & Hc & Hj).
    eapply wide_resolved; eassumption.
  Qed.

  (** [i] leads to [j] through declared children. *)
  Inductive leads : nat -> nat -> Prop :=
  | leads_one : forall i c j, In c (ichildren sp i) -> In j (members sp c) -> leads i j
  | leads_step : forall i c j k, In c (ichildren sp i) -> In j (members sp c) -> leads j k -> leads i k.

  Lemma walk_finds fuel i : In i (inodes sp) -> length (inodes sp) < fuel ->
    exists vis flag, walk sp r fuel i ([], false) = Val (vis, flag) /\
      (flag = false -> forall j, leads i j -> r j = RZero).
  Proof.
    intros Hi Hf.
    destruct (walk_is_ok fuel i [] false Hi) as (vis & flag & E & _ & Hp).
    { pose proof (fresh_le []). lia. }
    exists vis, flag. split; [exact E|]. intros Hfl. destruct (Hp Hfl) as (_ & Hcl & Hw).
    assert (Zero : forall x, In x vis -> r x = RZero /\
              forall c j, In c (ichildren sp x) -> In j (members sp c) -> In j vis).
    { intros x Hx. destruct (Hcl x Hx) as [[]|[Hz Hs]]. split; [exact Hz|].
      intros c j Hc Hj. eapply Hs; [exact Hc|]. apply members_wide. exact Hj. }
    assert (Below : forall x j, leads x j -> In x vis -> In j vis).
    { intros x j L. induction L as [x c j Hc Hj|x c j k Hc Hj L IH]; intros Hx.
      - eapply Zero; eassumption.
      - apply IH. eapply Zero; eassumption. }
    intros j L. inversion L as [? c ? Hc Hj|? c k ? Hc Hj L']; subst.
    - apply Zero. apply Hw. apply in_flat_map. exists c. split; [exact Hc|]. apply members_wide, Hj.
    - apply Zero. eapply Below; [exact L'|]. apply Hw. apply in_flat_map. exists c.
      split; [exact Hc|]. apply members_wide, Hj.
  Qed.
End Search.

Section Rows.
  Variable sp : spec.
  Hypothesis Hres : resolved sp.

  (** What a row means with respect to the targets. *)
  Definition row_ok (target : nat -> bool) (r : row) : Prop :=
    forall i, (r i = RUser <-> target i = true).

  Lemma mark_users_ok l : row_ok (fun i => existsb (Nat.eqb i) l) (mark_users l).
  Proof.
    unfold mark_users.
    assert (G : forall l (r : row) i, fold_left (fun r i => row_set r i RUser) l r i = RUser <->
              (In i l \/ r i = RUser)).
    { clear l. induction l as [|j l IH]; intros r i; cbn.
      - split; [auto|intros [[]|H]; exact H].
      - rewrite IH. unfold row_set. destruct (Nat.eqb_spec i j) as [->|Hne].
        + split; auto. 
        + split; intros [H|H]; auto. destruct H as [->|H]; [congruence|auto]. }
    intros i. rewrite G, existsb_eqb_In. split; [intros [H|H]; [exact H|discriminate]|auto].
  Qed.

  Lemma mark_users_zero l i : mark_users l i = RZero \/ mark_users l i = RUser.
  Proof.
    unfold mark_users.
    assert (G : forall l (r : row), (forall i, r i = RZero \/ r i = RUser) ->
              forall i, fold_left (fun r i => row_set r i RUser) l r i = RZero \/
                        fold_left (fun r i => row_set r i RUser) l r i = RUser).
    { clear. induction l as [|j l IH]; intros r H i; cbn; [apply H|]. apply IH.
      intros k. unfold row_set. destruct (Nat.eqb k j); auto. }
    apply G. auto.
  Qed.

  Lemma rcb_inodes_ok target fuel : length (inodes sp) < fuel -> forall l r,
    incl l (inodes sp) -> NoDup l -> row_ok target r ->
    exists r', rcb_inodes sp fuel l r = Val r' /\ row_ok target r' /\
      (forall i, ~ In i l -> r' i = r i) /\
      (forall i, In i l -> r' i = RZero -> forall j, leads sp i j -> target j = false).
  Proof.
    intros Hf l. induction l as [|i l IH]; intros r Hl Hn Hr.
    - exists r. repeat split; auto; try apply Hr. intros i [].
    - inversion Hn as [|? ? Hni Hn']; subst.
      assert (Hl' : incl l (inodes sp)) by (intros x Hx; apply Hl; right; exact Hx).
      cbn [rcb_inodes]. destruct (is_zero (r i)) eqn:Ez.
      + apply is_zero_spec in Ez.
        destruct (walk_finds sp r Hres fuel i ltac:(apply Hl; left; reflexivity) Hf)
          as (vis & flag & E & Hfl).
        rewrite E. cbn [bind snd].
        assert (Hr1 : row_ok target (if flag then row_set r i RTrav else r)).
        { destruct flag; [|exact Hr]. intros k. unfold row_set.
          destruct (Nat.eqb_spec k i) as [->|Hk]; [|apply Hr].
          split; [discriminate|]. intros T. apply Hr in T. congruence. }
        destruct (IH _ Hl' Hn' Hr1) as (r' & E' & Hr' & Hsame & Hz).
        exists r'. split; [exact E'|]. split; [exact Hr'|]. split.
        * intros k Hk. rewrite Hsame; [|intros F; apply Hk; right; exact F].
          destruct flag; [|reflexivity]. unfold row_set.
          destruct (Nat.eqb_spec k i) as [->|]; [exfalso; apply Hk; left; reflexivity|reflexivity].
        * intros k [<-|Hk] Hz0 j L; [|eapply Hz; eassumption].
          rewrite (Hsame i Hni) in Hz0. destruct flag.
          -- unfold row_set in Hz0. rewrite Nat.eqb_refl in Hz0. discriminate.
          -- specialize (Hfl eq_refl j L). destruct (target j) eqn:Tj; [|reflexivity].
             apply Hr in Tj. congruence.
      + destruct (IH r Hl' Hn' Hr) as (r' & E' & Hr' & Hsame & Hz).
        exists r'. split; [exact E'|]. split; [exact Hr'|]. split.
        * intros k Hk. apply Hsame. intros F. apply Hk. right. exact F.
        * intros k [<-|Hk] Hz0 j L; [|eapply Hz; eassumption].
          rewrite (Hsame i Hni) in Hz0. rewrite Hz0 in Ez. discriminate.
  Qed.

  Definition is_target (targets : option (list nat)) (i : nat) : bool :=
    match targets with None => true | Some l => existsb (Nat.eqb i) l end.

  Lemma rcb_row_ok fuel targets : length (inodes sp) < fuel ->
    exists r, rcb_row sp fuel targets = Val r /\ row_ok (is_target targets) r /\
      (forall i, In i (inodes sp) -> r i = RZero -> forall j, leads sp i j -> is_target targets j = false).
  Proof.
    intros Hf. destruct targets as [l|]; cbn [rcb_row is_target].
    - destruct Hres as (Hn & _).
      destruct (rcb_inodes_ok (fun i => existsb (Nat.eqb i) l) fuel Hf (inodes sp) (mark_users l))
        as (r & E & Hr & _ & Hz); auto using incl_refl, mark_users_ok.
      exists r. auto.
    - exists (fun _ => RUser). split; [reflexivity|]. split; [split; reflexivity|]. discriminate.
  Qed.

  Lemma rcb_rows_ok fuel : length (inodes sp) < fuel -> forall ts,
    exists rows, rcb_rows sp fuel ts = Val rows /\ length rows = length ts /\
      forall n targets r, nth_error ts n = Some targets -> nth_error rows n = Some r ->
        row_ok (is_target targets) r /\
        (forall i, In i (inodes sp) -> r i = RZero -> forall j, leads sp i j -> is_target targets j = false).
  Proof.
    intros Hf ts. induction ts as [|t ts (rows & E & Hlen & Hrows)].
    - exists []. split; [reflexivity|]. split; [reflexivity|]. intros [|n]; discriminate.
    - destruct (rcb_row_ok fuel t Hf) as (r & Er & Hr).
      exists (r :: rows). cbn [rcb_rows]. rewrite Er. cbn [bind]. rewrite E. cbn [bind].
      split; [reflexivity|]. split; [cbn; congruence|].
      intros [|n] targets r' H1 H2; cbn in *.
      + injection H1 as <-. injection H2 as <-. exact Hr.
      + eapply Hrows; eassumption.
  Qed.

  (** ** From indexes to node types *)
  Lemma position_nth l : NoDup l -> forall p i, nth_error l p = Some i -> position i l = p.
  Proof.
    induction 1 as [|j l Hj Hn IH]; intros [|p] i H; try discriminate; cbn in *.
    - injection H as ->. rewrite Nat.eqb_refl. reflexivity.
    - destruct (Nat.eqb_spec i j) as [->|Hne].
      + exfalso. apply Hj. eapply nth_error_In. exact H.
      + f_equal. apply IH. exact H.
  Qed.

  Lemma position_In l i : In i l -> nth_error l (position i l) = Some i.
  Proof.
    induction l as [|j l IH]; [contradiction|]. intros H. cbn.
    destruct (Nat.eqb_spec i j) as [->|Hne]; [reflexivity|]. apply IH. destruct H; congruence.
  Qed.

  Lemma below_leads ty ty' : below (declared sp) ty ty' ->
    exists i j, In i (inodes sp) /\ In j (inodes sp) /\ ty = nodetype sp i /\ ty' = nodetype sp j /\ leads sp i j.
  Proof.
    assert (One : forall a b d, In d (declared sp a) -> In b d ->
              exists i c j, In i (inodes sp) /\ a = nodetype sp i /\ In c (ichildren sp i) /\
                            In j (members sp c) /\ In j (inodes sp) /\ b = nodetype sp j).
    { intros [|p] b d Hd Hb; cbn in Hd; [contradiction|].
      destruct (nth_error (inodes sp) p) as [i|] eqn:Ep; [|contradiction].
      apply in_map_iff in Hd. destruct Hd as (c & <- & Hc).
      apply in_map_iff in Hb. destruct Hb as (j & <- & Hj).
      exists i, c, j. pose proof (nth_error_In _ _ Ep) as Hi.
      destruct Hres as (Hn & H1 & _).
      repeat split; auto.
      - unfold nodetype. rewrite (position_nth _ Hn _ _ Ep). reflexivity.
      - eapply H1; eassumption. }
    induction 1 as [a b d Hd Hb|a b c d Hd Hb H (i & j & Hi & Hj & Eb & Ec & L)].
    - destruct (One _ _ _ Hd Hb) as (i & c & j & Hi & -> & Hc & Hj & Hjn & ->).
      exists i, j. repeat split; auto. econstructor; eassumption.
    - destruct (One _ _ _ Hd Hb) as (i0 & c0 & j0 & Hi0 & -> & Hc0 & Hj0 & Hjn & E).
      exists i0, j. repeat split; auto. eapply leads_step; [exact Hc0|exact Hj0|].
      assert (i = j0).
      { rewrite E in Eb. unfold nodetype in Eb. injection Eb as Eb.
        pose proof (position_In _ _ Hi) as P1. pose proof (position_In _ _ Hjn) as P2.
        rewrite <- Eb in P1. congruence. }
      subst. exact L.
  Qed.

  Lemma nth_error_nth_entry (r : row) ty :
    nth ty (node_vtable sp r) EError =
    match ty with 0 => EError | S p => match nth_error (inodes sp) p with
                                       | Some i => entry_of (r i) | None => EError end end.
  Proof.
    destruct ty as [|p]; [reflexivity|]. cbn [node_vtable nth].
    revert p. induction (inodes sp) as [|i l IH]; intros [|p]; cbn; auto.
  Qed.

  Lemma gen_vtable_ok : exists rows,
    rcb_rows sp (S (length (inodes sp))) (itravs sp) = Val rows /\
    only_skips_walks (declared sp) (reference sp) (gen_vtable sp rows).
  Proof.
    destruct (rcb_rows_ok (S (length (inodes sp))) (Nat.lt_succ_diag_r _) (itravs sp))
      as (rows & E & Hlen & Hrows).
    exists rows. split; [exact E|]. intros [|t] ty; [left; reflexivity|].
    cbn [gen_vtable reference].
    destruct (nth_error (itravs sp) t) as [targets|] eqn:Et.
    2:{ left. apply nth_error_None in Et. rewrite <- Hlen in Et. apply nth_error_None in Et.
        rewrite Et. reflexivity. }
    destruct (nth_error rows t) as [r|] eqn:Er.
    2:{ apply nth_error_None in Er. rewrite Hlen in Er. apply nth_error_None in Er. congruence. }
    destruct (Hrows t targets r Et Er) as [Hr Hz].
    rewrite nth_error_nth_entry.
    destruct ty as [|p]; [left; reflexivity|].
    destruct (nth_error (inodes sp) p) as [i|] eqn:Ep; [|left; reflexivity].
    assert (Ref : forall k, match targets with
                   | None => EUser
                   | Some l => if existsb (Nat.eqb k) l then EUser else EChildren
                   end = if is_target targets k then EUser else EChildren)
      by (intros k; destruct targets; reflexivity).
    rewrite Ref.
    destruct (r i) eqn:Ei; cbn [entry_of].
    - right. split; [reflexivity|]. 
      destruct (is_target targets i) eqn:Ti; [apply Hr in Ti; congruence|]. split; [reflexivity|].
      intros b Hb. destruct (below_leads _ _ Hb) as (i' & j & Hi & Hj & E1 & -> & L).
      unfold nodetype. rewrite (position_In _ _ Hj), Ref.
      assert (i' = i).
      { unfold nodetype in E1. injection E1 as E1.
        pose proof (position_In _ _ Hi) as P. rewrite <- E1 in P. congruence. }
      subst i'. rewrite (Hz i Hi Ei j L). reflexivity.
    - left. destruct (is_target targets i) eqn:Ti; [apply Hr in Ti; congruence|reflexivity].
    - left. apply Hr in Ei. rewrite Ei. reflexivity.
  Qed.
End Rows.

Section Main.
  Context {A W : Type}.
  Variable sp : spec.
  Variable user : nat -> W -> tree A -> prog A W.
  Hypothesis Hres : resolved sp.

  Theorem pruning_invisible : exists rows,
    rcb_rows sp (S (length (inodes sp))) (itravs sp) = Val rows /\
    forall (s : tstate A) w t x,
      (forall fuel, TRAVdo_typed (declared sp) (reference sp) user fuel s w t = Val x ->
         TRAVdo (gen_vtable sp rows) user fuel s w t = Val x) /\
      (forall fuel, TRAVdo_typed (declared sp) (gen_vtable sp rows) user fuel s w t = Val x ->
         exists fuel', TRAVdo (reference sp) user fuel' s w t = Val x).
  Proof.
    destruct (gen_vtable_ok sp Hres) as (rows & E & Hv).
    exists rows. split; [exact E|]. intros s w t x. split; intros fuel H.
    - eapply prune_sound; eassumption.
    - eapply prune_complete; eassumption.
  Qed.
End Main.
