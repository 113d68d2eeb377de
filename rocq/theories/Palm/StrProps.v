(** Properties C05-C09 of the string functions (palm/src/str.c). *)

From Coq Require Import String List Ascii NArith ZArith Bool.
From Verif Require Import Base.Outcome Palm.StrModel Palm.StrSpec Palm.StrProof Palm.StrInst.
Import ListNotations.

(** C05.  For a non-empty token the call ends, the result is the greedy
    left-to-right replacement, and the block allocated has exactly the size
    that is written ([holds]). *)
Theorem C05_subst_token_partial : forall s t u fuel,
  no_nul s -> no_nul t -> no_nul u -> t <> [] -> length s <= fuel ->
  (Z.of_nat (length s) * (Z.of_nat (length u) + 1) < 2 ^ 62)%Z ->
  exists b r, STRsubstToken fuel (Some s) (Some t) (Some u) = Val b /\
              Replaced t u s r /\ holds b r.
Proof. exact STRsubstToken_correct. Qed.
Print Assumptions C05_subst_token_partial.

(** The replacement is unique, so [Replaced] determines the result. *)
Theorem C05_replaced_unique : forall t u s r1, t <> [] -> Replaced t u s r1 ->
  forall r2, Replaced t u s r2 -> r1 = r2.
Proof. exact Replaced_functional. Qed.
Print Assumptions C05_replaced_unique.

Example C05_example :
  exists b, STRsubstToken 7 (Some (str "aXXbXXX")) (Some (str "XX")) (Some (str "-long-")) = Val b
  /\ holds b (str "a-long-b-long-X").
Proof. exact subst_example. Qed.

(** C05 for the empty token: false, the call does not end. *)
Theorem C05_empty_token_refuted : exists s u, forall fuel,
  STRsubstToken fuel (Some s) (Some []) (Some u) = NoFuel.
Proof. exact empty_token_witness. Qed.
Print Assumptions C05_empty_token_refuted.

(** C05, documented "NULL if str is NULL": false, undefined behaviour. *)
Theorem C05_null_refuted : exists t u, forall fuel,
  STRsubstToken fuel None (Some t) (Some u) = Undef.
Proof. exact null_subst_witness. Qed.
Print Assumptions C05_null_refuted.

(** C06.  From whatever state, the calls STRtok(s,sep), STRtok(NULL,sep), ...
    give the pieces of [s] between separators in order, and then NULL. *)
Theorem C06_tokens : forall s sep st k,
  exists ts, Split sep s ts /\
    tokens (length ts + k) st s sep = map Some ts ++ repeat None (S k).
Proof. exact STRtok_correct. Qed.
Print Assumptions C06_tokens.

Theorem C06_split_unique : forall sep s ts, Split sep s ts ->
  forall ts', Split sep s ts' -> ts = ts'.
Proof. exact Split_functional. Qed.
Print Assumptions C06_split_unique.

Example C06_example :
  tokens 4 tok_init (str ";a,;b") (Some (str ",;"))
  = [Some []; Some (str "a"); Some []; Some (str "b"); None].
Proof. exact tokens_example. Qed.

(** C06, documented "with the last call the copy is freed": false. *)
Theorem C06_copy_freed_refuted : exists s sep st,
  let (st1, t1) := STRtok st (Some s) sep in
  let (st2, t2) := STRtok st1 None sep in
  t1 <> None /\ t2 = None /\ keep st2 <> None.
Proof. exact tok_leak_witness. Qed.
Print Assumptions C06_copy_freed_refuted.

(** C07 *)
Theorem C07_eq : forall a b, STReq a b = true <-> a = b.
Proof. exact STReq_iff. Qed.
Print Assumptions C07_eq.

Theorem C07_eq_ignoring_case : forall a b, Forall ctype_ok a -> Forall ctype_ok b ->
  exists r, STReqci (Some a) (Some b) = Val r /\
   (r = true <-> exists l, Forall2 lower_of a l /\ Forall2 lower_of b l).
Proof. exact STReqci_correct. Qed.
Print Assumptions C07_eq_ignoring_case.

Theorem C07_eqn : forall x y n, (0 <= n)%Z ->
  STReqn (Some x) (Some y) n = true <-> firstn (Z.to_nat n) x = firstn (Z.to_nat n) y.
Proof. exact STReqn_iff. Qed.
Print Assumptions C07_eqn.

Theorem C07_prefix : forall p s, STRprefix (Some p) (Some s) = true <-> prefix_of p s.
Proof. exact STRprefix_iff. Qed.
Print Assumptions C07_prefix.

Theorem C07_suffix : forall p s, exists r, STRsuffix (Some p) (Some s) = Val r /\
  (r = true <-> suffix_of p s).
Proof. exact STRsuffix_iff. Qed.
Print Assumptions C07_suffix.

Theorem C07_substring : forall p s, STRsub (Some p) (Some s) = true <-> substring_of p s.
Proof. exact STRsub_iff. Qed.
Print Assumptions C07_substring.

(** NULL arguments: two NULLs are equal, NULL differs from every string, NULL
    is a prefix and a substring of everything, nothing else is one of NULL. *)
Theorem C07_null : forall s n,
  STReq None (Some s) = false /\ STReq (Some s) None = false /\
  STReqci None None = Val true /\ STReqci None (Some s) = Val false /\
  STReqci (Some s) None = Val false /\
  STReqn None None n = true /\
  (STReqn None (Some s) n = true <-> n = 0%Z) /\ (STReqn (Some s) None n = true <-> n = 0%Z) /\
  STRprefix None (Some s) = true /\ STRprefix (Some s) None = false /\
  STRsub None (Some s) = true /\ STRsub (Some s) None = false.
Proof. exact null_comparisons. Qed.
Print Assumptions C07_null.

(** C07: [STRsuffix] has no guard for NULL. *)
Theorem C07_suffix_null_refuted : forall s,
  STRsuffix None (Some s) = Undef /\ STRsuffix (Some []) None = Undef.
Proof. exact suffix_null_witness. Qed.
Print Assumptions C07_suffix_null_refuted.

(** C08 *)
Theorem C08_cpy : forall s, no_nul s -> int_len s ->
  exists b, STRcpy (Some s) = Val b /\ holds b s.
Proof. exact STRcpy_correct. Qed.
Print Assumptions C08_cpy.

Theorem C08_ncpy : forall s maxlen, no_nul s -> int_len s -> (0 <= maxlen)%Z ->
  exists b, STRncpy (Some s) maxlen = Val b /\ holds b (firstn (Z.to_nat maxlen) s).
Proof. exact STRncpy_correct. Qed.
Print Assumptions C08_ncpy.

(** A negative limit never gives a string. *)
Theorem C08_ncpy_negative : forall s maxlen, int_len s -> (- 2 ^ 31 <= maxlen < 0)%Z ->
  STRncpy (Some s) maxlen = if (maxlen =? -1)%Z then Undef else Aborted.
Proof. exact STRncpy_negative. Qed.
Print Assumptions C08_ncpy_negative.

Theorem C08_substr : forall s start len, no_nul s -> int_len s ->
  (0 <= start)%Z -> (start <= INT_MAX)%Z ->
  let len' := (if len <? 0 then Z.of_nat (length s) + len else len)%Z in
  (0 <= len')%Z -> (start + len' <= INT_MAX)%Z ->
  exists b, STRsubStr (Some s) start len = Val b /\
            holds b (firstn (Z.to_nat len') (skipn (Z.to_nat start) s)).
Proof. exact STRsubStr_correct. Qed.
Print Assumptions C08_substr.

(** The guards of [C08_substr] are needed: "the rest of the string" spelled
    with INT_MAX overflows, and a negative start reads before the string. *)
Theorem C08_substr_guard_refuted :
  STRsubStr (Some (str "abc")) 1 INT_MAX = Undef /\
  STRsubStr (Some (str "abc")) (-1) 2 = Undef /\
  STRsubStr (Some (str "abc")) 0 (-4) = Undef.
Proof. exact substr_witness. Qed.
Print Assumptions C08_substr_guard_refuted.

Theorem C08_cat : forall x y, no_nul x -> no_nul y -> int_len x -> int_len y ->
  exists b, STRcat (Some x) (Some y) = Val b /\ holds b (x ++ y).
Proof. exact STRcat_correct. Qed.
Print Assumptions C08_cat.

Theorem C08_cat_null : forall s,
  STRcat None (Some s) = STRcpy (Some s) /\ STRcat (Some s) None = STRcpy (Some s) /\
  STRcat None None = Val None /\ STRcpy None = Val None.
Proof. exact cat_null. Qed.
Print Assumptions C08_cat_null.

Theorem C08_catn : forall debug args, Forall good_arg args ->
  int_len (concat (map as_list args)) ->
  length args > 2 -> concat (map as_list args) <> [] ->
  exists b, STRcatn debug args = Val b /\ holds b (concat (map as_list args)).
Proof. exact STRcatn_correct. Qed.
Print Assumptions C08_catn.

(** When all arguments are empty strings, the result is NULL, not "". *)
Theorem C08_catn_empty_refuted : forall debug,
  STRcatn debug [Some []; Some []; Some []] = Val None.
Proof. exact catn_empty_witness. Qed.
Print Assumptions C08_catn_empty_refuted.

Example C08_example :
  exists b1 b2 b3, STRsubStr (Some (str "hello")) 1 (-2) = Val b1 /\ holds b1 (str "ell") /\
    STRcatn true [Some (str "a"); None; Some (str "bc")] = Val b2 /\ holds b2 (str "abc") /\
    STRncpy (Some (str "hello")) 2 = Val b3 /\ holds b3 (str "he").
Proof. exact construct_example. Qed.

(** C09 *)
Theorem C09_lower : forall s, no_nul s -> int_len s -> Forall ctype_ok s ->
  exists b r, STRlower (Some s) = Val b /\ Forall2 lower_of s r /\ holds b r /\
              STRtoLower (Some s) = Val (Some r).
Proof. exact STRlower_correct. Qed.
Print Assumptions C09_lower.

Theorem C09_upper : forall s, no_nul s -> int_len s -> Forall ctype_ok s ->
  exists b r, STRupper (Some s) = Val b /\ Forall2 upper_of s r /\ holds b r /\
              STRtoUpper (Some s) = Val (Some r).
Proof. exact STRupper_correct. Qed.
Print Assumptions C09_upper.

Theorem C09_lower_idempotent : forall s r r',
  STRtoLower (Some s) = Val (Some r) -> STRtoLower (Some r) = Val (Some r') -> r' = r.
Proof. exact STRtoLower_idem. Qed.
Print Assumptions C09_lower_idempotent.

(** STReqci agrees with STReq of the lower-case forms. *)
Theorem C09_eqci_is_eq_of_lower : forall a b la lb,
  STRtoLower (Some a) = Val (Some la) -> STRtoLower (Some b) = Val (Some lb) ->
  STReqci (Some a) (Some b) = Val (STReq (Some la) (Some lb)).
Proof. exact eqci_lower. Qed.
Print Assumptions C09_eqci_is_eq_of_lower.

(** Bytes 128..254 are outside of what [tolower] accepts. *)
Theorem C09_non_ascii_undefined : forall s, ~ Forall ctype_ok s -> STRtoLower (Some s) = Undef.
Proof. exact STRtoLower_undef. Qed.
Print Assumptions C09_non_ascii_undefined.

Example C09_example :
  STRtoLower (Some (str "AbC_1z")) = Val (Some (str "abc_1z")) /\
  STRtoUpper (Some (str "AbC_1z")) = Val (Some (str "ABC_1Z")) /\
  STReqci (Some (str "NodeSet")) (Some (str "nODEsET")) = Val true.
Proof. exact case_example. Qed.
