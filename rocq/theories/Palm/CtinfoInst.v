(** Concrete diagnostics. *)

From Coq Require Import String.
From Coq Require Import List ZArith Ascii Bool.
From Verif Require Import Base.Outcome Palm.StrModel Palm.CtinfoModel Palm.CtinfoSpec.
Import ListNotations.
Local Open Scope list_scope.

Definition txt (s : string) : list ascii := list_ascii_of_string s.

Lemma words_short_of n msg :
  forallb (fun k => negb (forallb (fun c => negb (is_blank c)) (firstn n (skipn k msg))
                          && Nat.eqb (List.length (firstn n (skipn k msg))) n))
          (seq 0 (S (List.length msg))) = true ->
  words_short n msg.
Proof.
  intros H a w b E Hw.
  destruct (Nat.lt_ge_cases (List.length w) n) as [Hlt|Hge]; [exact Hlt|exfalso].
  rewrite forallb_forall in H.
  assert (Hin : In (List.length a) (seq 0 (S (List.length msg)))).
  { apply in_seq. rewrite E, app_length. split; [apply Nat.le_0_l|].
    apply Nat.lt_succ_r. apply Nat.le_add_r. }
  specialize (H _ Hin). cbv beta in H. subst msg.
  assert (Ef : firstn n (skipn (List.length a) (a ++ w ++ b)) = firstn n w).
  { rewrite skipn_app, skipn_all, Nat.sub_diag. cbn [skipn app].
    rewrite firstn_app. replace (n - List.length w) with 0 by (symmetry; apply Nat.sub_0_le; exact Hge).
    cbn [firstn]. apply app_nil_r. }
  rewrite Ef in H. apply negb_true_iff in H. apply andb_false_iff in H. destruct H as [H|H].
  - assert (T : forallb (fun c => negb (is_blank c)) (firstn n w) = true).
    { apply forallb_forall. intros c Hc. rewrite Forall_forall in Hw.
      rewrite Hw; [reflexivity|]. rewrite <- (firstn_skipn n w). apply in_or_app. left. exact Hc. }
    congruence.
  - apply Nat.eqb_neq in H. apply H. apply firstn_length_le. exact Hge.
Qed.

Definition msg0 : list ascii := txt "the quick	brown fox
jumps over the dog".

Definition calls0 : list call :=
  [CTI CTI_WARN; CTIabortOnError; CTIobj CTI_ERROR; CTIgetErrors; CTI CTI_NOTE; CTIabortOnError; CTIgetWarnings].
