(** The command line of cocogen: cocogen/commandline.c, cocogen/main.c:41-80,
    cocogen/filesystem/utils.c and palm/src/filesystem.c.

    getopt_long, strtoul and mkdir are those of the GNU C library, with the
    environment variable POSIXLY_CORRECT not set.  What is printed is not
    modelled. *)

From Coq Require Import String.
From Coq Require Import List Ascii Bool NArith.
From Verif Require Import Base.Outcome Palm.StrModel Front.Syntax Copra.PhaseDriverModel Sched.GraphModel Sched.ScheduleModel
  Gen.AccessModel Gen.TablesModel Gen.RunModel.
Import ListNotations.
Local Open Scope string_scope.
Local Open Scope list_scope.
Local Open Scope outcome_scope.

Notation literal := TablesModel.text (only parsing).

Fixpoint same_name (s t : cstring) : bool :=
  match s, t with
  | [], [] => true
  | c :: s, d :: t => Ascii.eqb c d && same_name s t
  | _, _ => false
  end.
Fixpoint begins (s t : cstring) : bool :=
  match s, t with
  | [], _ => true
  | c :: s, d :: t => Ascii.eqb c d && begins s t
  | _ :: _, [] => false
  end.

(** commandline.c:73-90: the name, whether an argument is required, and the
    value that getopt_long returns.  It returns 0 for an entry with a flag,
    after having set the flag. *)
Definition long_options : list (string * bool * N) :=
  [ ("verbose", false, 0); ("help", false, 104); ("dot", true, 23); ("version", false, 20);
    ("profiling", false, 24); ("breakpoints", false, 25); ("consistency-checks", false, 26);
    ("serialise", false, 27); ("inspectpoints", false, 28); ("backend", true, 30); ("gen-dir", true, 31);
    ("show-ast", false, 32); ("breakpoint", true, 33); ("show-structure", false, 34); ("debug", false, 35);
    ("ag-scheduler-max-iter", true, 36) ]%N.

Definition entry_name (e : string * bool * N) : cstring := literal (fst (fst e)).

(** getopt_long: a name that is spelled out, or the beginning of one name
    only.  (Beginnings of several names are ambiguous unless the entries agree,
    and no two entries of the table do.) *)
Definition find_long (s : cstring) : option (bool * N) :=
  match find (fun e => same_name s (entry_name e)) long_options with
  | Some e => Some (snd (fst e), snd e)
  | None =>
      match filter (fun e => begins s (entry_name e)) long_options with
      | [e] => Some (snd (fst e), snd e)
      | _ => None
      end
  end.

(** What getopt_long returns, with optarg *)
Definition returned : Type := (N * option cstring)%type.
Definition question_mark : returned := (63%N, None).

(** One letter of an argument that begins with one dash; the third argument
    of getopt_long is "v" (commandline.c:97). *)
Definition short_option (c : ascii) : returned :=
  if Ascii.eqb c "v" then (118%N, None) else question_mark.

(** The part before the first '=', and the part after it *)
Fixpoint split_value (s : cstring) : cstring * option cstring :=
  match s with
  | [] => ([], None)
  | c :: s =>
      if Ascii.eqb c "=" then ([], Some s)
      else let (n, v) := split_value s in (c :: n, v)
  end.

(** All calls of getopt_long until it returns -1, and the elements of argv
    from optind then on.  getopt_long moves arguments that are not options
    behind the options; "--" ends the options. *)
Fixpoint getopt_all (args : list cstring) : list returned * list cstring :=
  match args with
  | [] => ([], [])
  | arg :: rest =>
      match arg with
      | "-"%char :: "-"%char :: [] => ([], rest)
      | "-"%char :: "-"%char :: body =>
          let (name, value) := split_value body in
          match find_long name with
          | None => let (l, w) := getopt_all rest in (question_mark :: l, w)
          | Some (false, code) =>
              let (l, w) := getopt_all rest in
              ((match value with None => (code, None) | Some _ => question_mark end) :: l, w)
          | Some (true, code) =>
              match value with
              | Some v => let (l, w) := getopt_all rest in ((code, Some v) :: l, w)
              | None =>
                  match rest with
                  | [] => ([question_mark], [])
                  | v :: rest => let (l, w) := getopt_all rest in ((code, Some v) :: l, w)
                  end
              end
          end
      | "-"%char :: ((_ :: _) as letters) => let (l, w) := getopt_all rest in (map short_option letters ++ l, w)
      | _ => let (l, w) := getopt_all rest in (l, arg :: w)
      end
  end.

(** strtoul with base 10: [None] if there is no number (endptr == optarg).
    Values that are too large are the largest value; a minus sign negates
    modulo 2^64. *)
Definition is_space (c : ascii) : bool :=
  let n := N_of_ascii c in ((n =? 32) || ((9 <=? n) && (n <=? 13)))%N.
Definition digit (c : ascii) : option N :=
  let n := N_of_ascii c in if ((48 <=? n) && (n <=? 57))%N then Some (n - 48)%N else None.
Definition ulong_max : N := 18446744073709551615%N.

Fixpoint skip_space (s : cstring) : cstring :=
  match s with
  | c :: s' => if is_space c then skip_space s' else s
  | [] => []
  end.
Fixpoint digits (acc : N) (s : cstring) : N :=
  match s with
  | c :: s => match digit c with Some d => digits (10 * acc + d)%N s | None => acc end
  | [] => acc
  end.
Definition unsigned_number (negative : bool) (s : cstring) : option N :=
  match s with
  | c :: _ =>
      match digit c with
      | None => None
      | Some _ =>
          let n := digits 0 s in
          if (ulong_max <? n)%N then Some ulong_max
          else Some (if negative && (0 <? n)%N then (ulong_max + 1 - n)%N else n)
      end
  | [] => None
  end.
Definition strtoul (s : cstring) : option N :=
  match skip_space s with
  | "-"%char :: s => unsigned_number true s
  | "+"%char :: s => unsigned_number false s
  | s => unsigned_number false s
  end.

(** commandline.h:7-20 and the settings of the phase driver.
    gen_user_files is never set: no option has the value 29. *)
Record settings := mk_settings {
  s_verbose : bool;
  s_verbosity : bool;               (* CCNsetVerbosity(PD_V_MEDIUM) was called *)
  s_profiling : bool;
  s_break_inspect_points : bool;
  s_consistcheck : bool;
  s_serialise : bool;
  s_show_ast : bool;
  s_debug : bool;
  s_backend : option cstring;
  s_gen_dir : option cstring;
  s_max_iter : N;
  s_breakpoint : option cstring     (* CCNsetBreakpoint *)
}.

(** commandline.c:15-30 *)
Definition initial : settings :=
  mk_settings false false false false false false false false None None 1000%N None.

(** commandline.c:103-162: the switch.  The values 0 (a flag) and 23 have no
    case; getopt_long itself sets verbose for the former. *)
Definition CLoption (s : settings) (r : returned) : N + settings :=
  let '(mk_settings ve vy pr br co se sh de ba di it bp) := s in
  match fst r, snd r with
  | 0, _ => inr (mk_settings true vy pr br co se sh de ba di it bp)
  | 20, _ => inl 0
  | 118, _ => inr (mk_settings true true pr br co se sh de ba di it bp)
  | 24, _ => inr (mk_settings ve vy true br co se sh de ba di it bp)
  | 25, _ => inr (mk_settings ve vy pr true co se sh de ba di it bp)
  | 26, _ => inr (mk_settings ve vy pr br true se sh de ba di it bp)
  | 27, _ => inr (mk_settings ve vy pr br co true sh de ba di it bp)
  | 28, _ => inr (mk_settings ve vy pr true co se sh de ba di it bp)
  | 30, v => inr (mk_settings ve vy pr br co se sh de v di it bp)
  | 31, v => inr (mk_settings ve vy pr br co se sh de ba v it bp)
  | 32, _ => inr (mk_settings ve vy pr br co se true de ba di it bp)
  | 33, v => inr (mk_settings ve vy pr br co se sh de ba di it v)
  | 34, _ => inl 0
  | 35, _ => inr (mk_settings ve vy pr br co se sh true ba di it bp)
  | 36, Some v =>
      match strtoul v with
      | Some n => inr (mk_settings ve vy pr br co se sh de ba di n bp)
      | None => inl 1
      end
  | 104, _ => inl 0
  | 63, _ => inl 1
  | _, _ => inr s
  end%N.

Fixpoint CLoptions (s : settings) (l : list returned) : N + settings :=
  match l with
  | [] => inr s
  | r :: l => match CLoption s r with inl n => inl n | inr s => CLoptions s l end
  end.

(** filesystem/utils.c:4-7: the character before the string if it is empty *)
Definition FSdirifyString (path : cstring) : outcome cstring :=
  match rev path with
  | [] => Undef
  | c :: _ => Val (if Ascii.eqb c "/" then path else path ++ literal "/")
  end.

(** commandline.c:70-179; [args] is argv without the name of the program.
    The results are the settings, gen_dir and input_file, or the status with
    which the program ends. *)
Definition CLprocessArgs (args : list cstring) : outcome (N + settings * cstring * cstring) :=
  let (l, words) := getopt_all args in
  match CLoptions initial l with
  | inl n => Val (inl n)
  | inr s =>
      let! dir := FSdirifyString (match s_gen_dir s with None => literal "ccngen/" | Some d => d end) in
      match words with
      | [file] => Val (inr (s, dir, file))
      | _ => Val (inl 1%N)
      end
  end.

(** What is there under a name.  Directories are named with a '/' at the end;
    two names never stand for the same directory. *)
Inductive kind := Directory | Other.
Definition tree : Type := cstring -> option kind.

(** The directory in which a name is *)
Fixpoint skip_name (s : cstring) : cstring :=
  match s with
  | c :: s' => if Ascii.eqb c "/" then s else skip_name s'
  | [] => []
  end.
Definition parent (path : cstring) : cstring :=
  match rev path with
  | c :: s => rev (skip_name (if Ascii.eqb c "/" then s else c :: s))
  | [] => []
  end.

(** palm/src/filesystem.c:8-27.  [None]: the program ends with a failure. *)
Definition FSensureDirExists (d : tree) (path : cstring) : option tree :=
  match d path with
  | Some Directory => Some d
  | Some Other => None
  | None =>
      match d (parent path) with
      | Some Directory => Some (fun q => if same_name q path then Some Directory else d q)
      | _ => None
      end
  end.
Fixpoint ensure_all (d : tree) (paths : list cstring) : tree * bool :=
  match paths with
  | [] => (d, true)
  | p :: paths => match FSensureDirExists d p with Some d => ensure_all d paths | None => (d, false) end
  end.

(** main.c:50-56, 66-71 *)
Definition directories (dir : cstring) : list cstring :=
  let hdr := dir ++ literal "ccngen/" in
  [dir; hdr; hdr ++ literal "equations/"; dir ++ literal "user/"; dir ++ literal "ag_dot/"; dir ++ literal "log/"].

Section Main.
  Context {P : Type}.
  (** The tree of the file with a name, if it can be read. *)
  Variable source : cstring -> option ast.
  Variable shuffle : list (graph_key * ag_graph) -> list (graph_key * ag_graph).
  Variable iteration : list nat -> list nat.
  Variable content : string -> nat -> list P.
  Variable rounds stage : nat.

  (** The exit status of a run: [Exited] stands for AbortCompilation, which
      ends the program with status 1 (ctinfo.c:286-296). *)
  Definition status (o : outcome unit) : outcome N :=
    match o with Val _ => Val 0%N | Exited => Val 1%N | Undef => Undef | Aborted => Aborted | NoFuel => NoFuel end.

  (** The same as [cocogen] (RunModel.v), with a breakpoint (main.c:36-39;
      phase_driver.c:108-112 calls exit(0)).  There are none if none is
      set. *)
  Definition generate (directory backend : cstring) (input : option ast) (max_iter : nat) (bp : option cstring) (d : files)
    : files * outcome N :=
    match CCNrun (leaf_fun directory input shuffle max_iter iteration content rounds stage) (gate_fun backend) (fun _ _ => 0%N) 1 startPhase
            (mk_state (set_breakpoint bp driver0) (mk_machine d None (Val tt)) Nothing 0%N []) with
    | Cont s => (disk (world s), status (verdict (world s)))
    | Halt HActionError s => (disk (world s), status (verdict (world s)))
    | Halt HBreakpoint s => (disk (world s), match bp with Some _ => Val 0%N | None => Undef end)
    | Halt _ s => (disk (world s), Undef)
    end.

  (** main.c:41-80 *)
  Definition main (args : list cstring) (t : tree) (d : files) : tree * files * outcome N :=
    match CLprocessArgs args with
    | Val (inl n) => (t, d, Val n)
    | Val (inr (s, dir, file)) =>
        let (t, ok) := ensure_all t (directories dir) in
        if ok then
          let (d, o) := generate dir (match s_backend s with None => literal "dynamic" | Some b => b end) (source file)
                          (N.to_nat (s_max_iter s)) (s_breakpoint s) d in (t, d, o)
        else (t, d, Val 1%N)
    | Undef => (t, d, Undef)
    | Aborted | Exited | NoFuel => (t, d, Aborted)
    end.
End Main.
