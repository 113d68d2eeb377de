(** Model of palm/src/str.c.

    A C string argument is [option cstring]: [None] is NULL, [Some l] the
    bytes before the terminator (so [l] does not contain NUL, predicate
    [no_nul] of StrSpec.v).  A string that a function builds is a [block]:
    its allocated size and the bytes written so far; every write is checked
    against the size and is undefined behaviour outside of it.
    Simplifications: lengths are mathematical integers, i.e. the C [int]s
    that hold lengths are assumed not to overflow (strings below 2^31 bytes),
    except where a function's own arguments can overflow (STRsubStr) or the
    code relies on wrap-around (STRsubstToken).  Blocks returned by different
    calls are distinct objects, so freshness needs no addresses. *)

From Coq Require Import List Ascii NArith ZArith Bool.
From Verif Require Import Base.Outcome.
Import ListNotations.
Local Open Scope outcome_scope.

Notation cstring := (list ascii).

Definition nul : ascii := Ascii.zero.

Record block : Type := mk_block { cap : Z; data : list ascii }.

(** palm/src/memory.c:16-38 [MEMmalloc] for a [size_t] argument [n]: NULL for
    0; requests of 2^63 bytes and more (a negative [int] converted to
    [size_t]) can never be satisfied and end the process; otherwise a block
    (running out of memory also ends the process and is not modelled). *)
Definition MEMmalloc (n : Z) : outcome (option block) :=
  let u := (n mod 2 ^ 64)%Z in
  if (u =? 0)%Z then Val None
  else if (2 ^ 63 <=? u)%Z then Aborted
  else Val (Some (mk_block u [])).

(** Write [bs] after the bytes already written. *)
Definition put (b : option block) (bs : list ascii) : outcome (option block) :=
  match b with
  | None => Undef
  | Some b =>
      if (Z.of_nat (length (data b)) + Z.of_nat (length bs) <=? cap b)%Z
      then Val (Some (mk_block (cap b) (data b ++ bs)))
      else Undef
  end.

(** The C string at the start of a block: [None] if it is not terminated. *)
Fixpoint content_of (l : list ascii) : option cstring :=
  match l with
  | [] => None
  | c :: l' => if Ascii.eqb c nul then Some []
               else match content_of l' with
                    | Some s => Some (c :: s)
                    | None => None
                    end
  end.
Definition content (b : option block) : option cstring :=
  match b with Some b => content_of (data b) | None => None end.

(** libc [strcat]: write [s] and a terminator over the terminator of [b]. *)
Definition strcat_block (b : option block) (s : cstring) : outcome (option block) :=
  match b with
  | None => Undef
  | Some b' =>
      match content_of (data b') with
      | None => Undef
      | Some old => put (Some (mk_block (cap b') old)) (s ++ [nul])
      end
  end.

(** str.c:393-404 [STRlen] *)
Definition STRlen (s : option cstring) : Z :=
  match s with None => 0%Z | Some l => Z.of_nat (length l) end.

(** str.c:22-34 [STRcpy] *)
Definition STRcpy (s : option cstring) : outcome (option block) :=
  match s with
  | Some l => let! b := MEMmalloc (STRlen s + 1) in put b (l ++ [nul])
  | None => Val None
  end.

(** str.c:48-69 [STRncpy]; [strncpy] with a [max] of at most the length
    copies the first [max] bytes; a negative [max] becomes a huge [size_t]. *)
Definition STRncpy (s : option cstring) (maxlen : Z) : outcome (option block) :=
  match s with
  | Some l =>
      let max := if (maxlen <? STRlen s)%Z then maxlen else STRlen s in
      let! b := MEMmalloc (max + 1) in
      if (max <? 0)%Z then Undef
      else
        let! b := put b (firstn (Z.to_nat max) l) in
        put b [nul]
  | None => Val None
  end.

(** str.c:113-121 [STRnull] *)
Definition STRnull : outcome (option block) :=
  let! b := MEMmalloc 1 in put b [nul].

Definition INT_MAX : Z := (2 ^ 31 - 1)%Z.
Definition INT_MIN : Z := (- 2 ^ 31)%Z.
(** signed [int] arithmetic: overflow is UB *)
Definition int_add (a b : Z) : outcome Z :=
  if ((INT_MIN <=? a + b) && (a + b <=? INT_MAX))%Z%bool then Val (a + b)%Z else Undef.

(** str.c:79-104 [STRsubStr].  [memcpy] reads [len] bytes from
    [string + start]: UB when [start] or [len] is negative or the source is
    NULL. *)
Definition STRsubStr (s : option cstring) (start len : Z) : outcome (option block) :=
  let slen := STRlen s in
  let! len1 := (if (len <? 0)%Z then int_add slen len else Val len) in
  let! e := int_add start len1 in
  let! len2 := (if (slen <? e)%Z then int_add slen (- start) else Val len1) in
  if (slen <? start)%Z then STRnull
  else
    let! n := int_add len2 1 in
    let! b := MEMmalloc n in
    match s with
    | None => Undef
    | Some l =>
        if (start <? 0)%Z || (len2 <? 0)%Z then Undef
        else
          let! b := put b (firstn (Z.to_nat len2) (skipn (Z.to_nat start) l)) in
          put b [nul]
    end.

(** str.c:134-150 [STRcat] *)
Definition STRcat (a b : option cstring) : outcome (option block) :=
  match a, b with
  | None, _ => STRcpy b
  | _, None => STRcpy a
  | Some x, Some y =>
      let! r := MEMmalloc (STRlen a + STRlen b + 1) in
      let! r := put r (x ++ [nul]) in
      strcat_block r y
  end.

(** str.c:163-205 [STRcatn] on the list of its varargs; [debug] tells whether
    [DBUG_ASSERTF] (line 171) is compiled in. *)
Definition STRcatn (debug : bool) (args : list (option cstring))
  : outcome (option block) :=
  if debug && (length args <=? 2)%nat then Aborted
  else
    let len := fold_left (fun a s => (a + STRlen s)%Z) args 0%Z in
    if (len =? 0)%Z then Val None
    else
      let! r := MEMmalloc (len + 1) in
      let! r := put r [nul] in
      fold_left (fun acc s => let! b := acc in
                              match s with
                              | None => Val b
                              | Some x => strcat_block b x
                              end) args (Val r).

(** libc [strcmp(a,b) == 0] on the bytes before the terminators *)
Fixpoint strcmp_eq (a b : cstring) : bool :=
  match a, b with
  | [], [] => true
  | x :: a', y :: b' => if Ascii.eqb x y then strcmp_eq a' b' else false
  | _, _ => false
  end.

(** str.c:219-232 [STReq] *)
Definition STReq (a b : option cstring) : bool :=
  match a, b with
  | None, None => true
  | Some x, Some y => strcmp_eq x y
  | _, _ => false
  end.

(** libc [tolower]/[toupper] in the "C" locale for a (signed) [char]: a
    negative value other than EOF = -1 is UB (C11 7.4p1). *)
Definition tolower (c : ascii) : outcome ascii :=
  let n := N_of_ascii c in
  if (n <? 128)%N then
    Val (if (65 <=? n)%N && (n <=? 90)%N then ascii_of_N (n + 32) else c)
  else if (n =? 255)%N then Val c else Undef.

Definition toupper (c : ascii) : outcome ascii :=
  let n := N_of_ascii c in
  if (n <? 128)%N then
    Val (if (97 <=? n)%N && (n <=? 122)%N then ascii_of_N (n - 32) else c)
  else if (n =? 255)%N then Val c else Undef.

(** str.c:256-265: the loop of [STReqci] *)
Fixpoint eqci_loop (a b : cstring) : outcome bool :=
  match a, b with
  | [], [] => Val true
  | x :: a', y :: b' =>
      let! x' := tolower x in
      let! y' := tolower y in
      if Ascii.eqb x' y' then eqci_loop a' b' else Val false
  | _, _ => Val false
  end.

(** str.c:246-269 [STReqci] *)
Definition STReqci (a b : option cstring) : outcome bool :=
  match a, b with
  | None, None => Val true
  | Some x, Some y => eqci_loop x y
  | _, _ => Val false
  end.

(** libc [strncmp(a,b,n) == 0] *)
Fixpoint strncmp_eq (n : nat) (a b : cstring) : bool :=
  match n with
  | 0 => true
  | S n' =>
      match a, b with
      | [], [] => true
      | x :: a', y :: b' => if Ascii.eqb x y then strncmp_eq n' a' b' else false
      | _, _ => false
      end
  end.

(** str.c:282-299 [STReqn]; a negative [n] is converted to a huge [size_t],
    i.e. no limit. *)
Definition STReqn (a b : option cstring) (n : Z) : bool :=
  match a, b with
  | None, None => true
  | Some x, Some y => if (n <? 0)%Z then strcmp_eq x y else strncmp_eq (Z.to_nat n) x y
  | _, _ => (n =? 0)%Z
  end.

(** str.c:313-334 [STRprefix] *)
Definition STRprefix (p s : option cstring) : bool :=
  match p, s with
  | None, _ => true
  | Some _, None => false
  | Some x, Some y =>
      if (STRlen s <? STRlen p)%Z then false else strncmp_eq (length x) x y
  end.

(** str.c:343-355 [STRsuffix]: [strcmp] with a NULL argument is UB. *)
Definition STRsuffix (p s : option cstring) : outcome bool :=
  if (STRlen s <? STRlen p)%Z then Val false
  else match p, s with
       | Some x, Some y => Val (strcmp_eq (skipn (length y - length x) y) x)
       | _, _ => Undef
       end.

Fixpoint is_prefix (p s : cstring) : bool :=
  match p, s with
  | [], _ => true
  | x :: p', y :: s' => if Ascii.eqb x y then is_prefix p' s' else false
  | _ :: _, [] => false
  end.

(** libc [strstr(s, p)]: the rest of [s] from the first occurrence of [p] on *)
Fixpoint strstr (s p : cstring) : option cstring :=
  if is_prefix p s then Some s
  else match s with
       | [] => None
       | _ :: s' => strstr s' p
       end.

(** str.c:367-382 [STRsub] *)
Definition STRsub (p s : option cstring) : bool :=
  match p, s with
  | None, _ => true
  | Some _, None => false
  | Some x, Some y => match strstr y x with Some _ => true | None => false end
  end.

(** str.c:407-423 [CharInString] (the character is never NUL in the calls) *)
Definition CharInString (c : ascii) (s : option cstring) : bool :=
  match s with
  | None => false
  | Some l => existsb (Ascii.eqb c) l
  end.

(** str.c:442-443: the static variables of [STRtok].  [keep] is the content of
    the live copy ([None]: no copy is allocated), [current] the rest still to
    be tokenized ([None]: NULL). *)
Record tok_state : Type := mk_tok { keep : option cstring; current : option cstring }.
Definition tok_init : tok_state := mk_tok None None.

(** str.c:458-470: the bytes up to the first separator, and the rest behind
    that separator if there is one *)
Fixpoint tok_scan (s : cstring) (sep : option cstring) : cstring * option cstring :=
  match s with
  | [] => ([], None)
  | c :: s' => if CharInString c sep then ([], Some s')
               else let (a, r) := tok_scan s' sep in (c :: a, r)
  end.

(** str.c:440-474 [STRtok] *)
Definition STRtok (st : tok_state) (first : option cstring) (sep : option cstring)
  : tok_state * option cstring :=
  let st1 := match first with
             | Some s => mk_tok (Some s) (Some s)
             | None => st
             end in
  match current st1 with
  | None => (st1, None)
  | Some s => let (t, r) := tok_scan s sep in (mk_tok (keep st1) r, Some t)
  end.

(** str.c:487-498 [STRonNull] *)
Definition STRonNull (alt str : option cstring) : option cstring :=
  match str with None => alt | Some _ => str end.

(** str.c:569-574: count the occurrences; [found + tlen] skips [tlen] bytes. *)
Fixpoint count_loop (fuel : nat) (token : cstring) (found : option cstring) (occ : Z)
  : outcome Z :=
  match found with
  | None => Val occ
  | Some f =>
      match fuel with
      | 0 => NoFuel
      | S fuel' =>
          count_loop fuel' token (strstr (skipn (length token) f) token) (occ + 1)
      end
  end.

(** str.c:580-588: the writing loop *)
Fixpoint subst_loop (fuel : nat) (str token : cstring) (subst : option cstring)
         (b : option block) : outcome (option block) :=
  match str with
  | [] => put b [nul]
  | c :: str' =>
      match fuel with
      | 0 => NoFuel
      | S fuel' =>
          if STRprefix (Some token) (Some str) then
            match subst with
            | None => Undef
            | Some sb =>
                let! b := put b sb in
                subst_loop fuel' (skipn (length token) str) token subst b
            end
          else
            let! b := put b [c] in
            subst_loop fuel' str' token subst b
      end
  end.

(** str.c:558-592 [STRsubstToken]; [strstr] with a NULL argument is UB.  The
    size on line 577 is computed in [size_t] (modulo 2^64, in [MEMmalloc]). *)
Definition STRsubstToken (fuel : nat) (str token subst : option cstring)
  : outcome (option block) :=
  match str, token with
  | Some s, Some t =>
      let! occ := count_loop fuel t (strstr s t) 0 in
      let size := (STRlen str + occ * (STRlen subst - STRlen token) + 1)%Z in
      let! b := MEMmalloc size in
      subst_loop fuel s t subst b
  | _, _ => Undef
  end.

Fixpoint map_bytes (f : ascii -> outcome ascii) (s : cstring) : outcome cstring :=
  match s with
  | [] => Val []
  | c :: s' => let! c' := f c in let! r := map_bytes f s' in Val (c' :: r)
  end.

(** str.c:598-608 [STRtoLower], 614-624 [STRtoUpper]: in place *)
Definition STRtoLower (s : option cstring) : outcome (option cstring) :=
  match s with
  | None => Val None
  | Some l => let! r := map_bytes tolower l in Val (Some r)
  end.
Definition STRtoUpper (s : option cstring) : outcome (option cstring) :=
  match s with
  | None => Val None
  | Some l => let! r := map_bytes toupper l in Val (Some r)
  end.

(** str.c:640-645, 664-669: convert and write byte by byte *)
Fixpoint conv_loop (f : ascii -> outcome ascii) (s : cstring) (b : option block)
  : outcome (option block) :=
  match s with
  | [] => put b [nul]
  | c :: s' => let! c' := f c in let! b := put b [c'] in conv_loop f s' b
  end.

(** str.c:631-648 [STRlower], 655-672 [STRupper] *)
Definition STRlower (s : option cstring) : outcome (option block) :=
  match s with
  | None => Val None
  | Some l => let! b := MEMmalloc (STRlen s + 1) in conv_loop tolower l b
  end.
Definition STRupper (s : option cstring) : outcome (option block) :=
  match s with
  | None => Val None
  | Some l => let! b := MEMmalloc (STRlen s + 1) in conv_loop toupper l b
  end.
