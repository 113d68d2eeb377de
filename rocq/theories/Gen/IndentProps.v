(** C41: indentation of generated code. *)

From Coq Require Import String.
From Coq Require Import List NArith ZArith Ascii Bool Lia.
From Verif Require Import Base.Outcome Gen.IndentModel Gen.IndentSpec Gen.IndentProof.
Import ListNotations.
Local Open Scope Z_scope.

(** Every piece of text that is to be indented is preceded by four blanks
    per block open at that point; the remaining text is written as it is. *)
Theorem C41_four_blanks_per_block : forall asserts ks,
  Forall can_open ks -> never_over_closed (history ks) -> not_too_deep (history ks) ->
  file_first (history ks) ->
  exists c, run asserts ks GNnew = Val c /\ written (history ks) (files c) /\
    Z.of_N (indent_level c) = depth (history ks).
Proof.
  intros asserts ks H O D F. rewrite run_events by exact H.
  destruct (events_written asserts _ O D F) as (c & E & W & L & _). eauto.
Qed.
Print Assumptions C41_four_blanks_per_block.

(** The specification leaves no choice. *)
Theorem C41_files_determined : forall es fs fs', written es fs -> written es fs' -> fs' = fs.
Proof. intros es fs fs' W W'. exact (written_unique es fs W fs' W'). Qed.
Print Assumptions C41_files_determined.

(** With assertions, closing a block that is not open stops the generator. *)
Theorem C41_over_closing_stops_partial : forall ks,
  Forall can_open ks -> over_closed (history ks) -> not_too_deep (history ks) -> file_first (history ks) ->
  run true ks GNnew = Aborted.
Proof. intros ks H O D F. rewrite run_events by exact H. now apply over_closing_stops. Qed.
Print Assumptions C41_over_closing_stops_partial.

(** In a release build (the default) it does not: the level becomes 65535. *)
Theorem C41_over_closing_release_refuted :
  exists c f, run false [OpenFile true; Decrease; Print GN_DEFAULT ["x"%char]] GNnew = Val c /\
    files c = [f] /\ N.of_nat (List.length f) = 262141%N.
Proof.
  eexists. eexists. split; [cbn [run step GNopenFile bind]; reflexivity|].
  split; [reflexivity|]. vm_compute. reflexivity.
Qed.
Print Assumptions C41_over_closing_release_refuted.

Definition text (s : string) : list ascii := list_ascii_of_string s.
Definition opening := mk_style true false false false false.
Definition closing := mk_style false false false false true.
Definition no_blanks := mk_style false false true false false.
Definition ks_function : list call :=
  [OpenFile true; Print opening (text "f() {"); Print opening (text "if (x) {");
   Print GN_DEFAULT (text "y = "); Print no_blanks (text "0;"); Print closing (text "}"); Print closing (text "}")].

Example C41_case : Forall can_open ks_function /\ file_first (history ks_function) /\
  never_over_closed (history ks_function) /\ not_too_deep (history ks_function) /\
  (exists c, run true ks_function GNnew = Val c /\
     files c = [text "f() {    if (x) {        y = 0;    }}"]).
Proof.
  split; [repeat constructor|]. split; [|split; [|split]].
  - intros past i t future E. destruct past as [|e past]; [discriminate|].
    cbn in E. injection E as <- _. now left.
  - intros past future E. unfold ks_function in E. cbn in E.
    do 11 (destruct past as [|? past]; [unfold depth; cbn; lia|cbn in E; try discriminate; injection E as <- E]);
    (destruct past; [unfold depth; cbn; lia|discriminate]).
  - intros past future E. unfold ks_function in E. cbn in E.
    do 11 (destruct past as [|? past]; [unfold depth; cbn; lia|cbn in E; try discriminate; injection E as <- E]);
    (destruct past; [unfold depth; cbn; lia|discriminate]).
  - eexists. split; vm_compute; reflexivity.
Qed.

Example C41_over_case : over_closed (history (ks_function ++ [Decrease])).
Proof. exists (history (ks_function ++ [Decrease])), []. split; [now rewrite app_nil_r|]. vm_compute. reflexivity. Qed.
