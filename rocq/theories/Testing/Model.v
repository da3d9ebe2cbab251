(** * The test runner

    Models src/core/analyse/testplan.rs, src/driver/tester.rs and the verification part of
    lib/test.eu: which targets eu test runs, when it says PASS, and when it exits with 0.

    Simplifications: evaluating a target is a parameter, and so are reading its output back, the
    functions of the test file used as validations (which do not look at the list of expectations),
    and the regex engine.  The files written on the
    way (evidence.yaml, report.yaml) are represented by their contents; writing a value to YAML and
    reading it back is part of the parameter that reads output. *)
From Coq Require Import String List NArith ZArith Bool.
Import ListNotations.
Open Scope string_scope.
Open Scope list_scope.

(** ** Targets and plans *)

(** Target, without doc and path.  src/core/target.rs:15-27.  [own]: declared in the file itself, a
    member of own_targets.  src/core/unit.rs:19-28. *)
Record target := mkTarget
  { name : string; format : option string; validations : list string; own : bool }.

(** Target::default. *)
Definition whole : target := mkTarget "" None [] true.

(** is_benchmark.  src/core/target.rs:86-88. *)
Definition is_benchmark (t : target) : bool := String.prefix "bench-" (name t).

(** A file to be tested: its targets, in the order in which the hash set gives them, and the header
    metadata test-formats and requires-io.  src/core/unit.rs:23; src/core/metadata.rs:400-431. *)
Record file := mkFile { targets : list target; formats : list string; requires_io : bool }.

(** The targets that TestPlan::analyse runs.  src/core/analyse/testplan.rs:248-275. *)
Definition include (t : target) : bool :=
  if String.prefix "test" (name t) || is_benchmark t then own t
  else String.eqb (name t) "main" || negb (match validations t with [] => true | _ => false end).

(** src/core/analyse/testplan.rs:233-237. *)
Definition plan_formats (f : file) : list string :=
  match formats f with [] => ["yaml"] | fs => fs end.

(** TestPlan::analyse.  src/core/analyse/testplan.rs:218-300. *)
Definition analyse (f : file) : list (target * list string) :=
  match map (fun t => (t, match format t with Some x => [x] | None => plan_formats f end))
          (filter include (targets f)) with
  | [] => [(whole, plan_formats f)]
  | ts => ts
  end.

(** ** Values *)

(** A value read back from the output of a test, or returned by a validation. *)
Inductive value := VBool (b : bool) | VSym (s : string) | VStr (s : string) | VNull | VOther
  | VBlock (entries : list (string * value)).

Definition is_true (v : value) : bool := match v with VBool true => true | _ => false end.

(** Lookup finds the first entry (C50). *)
Fixpoint lookup (k : string) (l : list (string * value)) : option value :=
  match l with
  | [] => None
  | (k', v) :: r => if String.eqb k k' then Some v else lookup k r
  end.

(** validation.compute-verdict.  lib/test.eu:25-37. *)
Definition compute_verdict (r : value) : value :=
  match r with
  | VBlock es =>
    match lookup "RESULT" es with
    | Some (VBool true) => VSym "PASS"
    | Some (VBool false) => VSym "FAIL"
    | Some v => v
    | None => if forallb is_true (map snd es) then VSym "PASS" else VSym "FAIL"
    end
  | VBool true => VSym "PASS"
  | VBool false => VSym "FAIL"
  | _ => VNull
  end.

(** ** Evidence *)

(** What evaluating a target came to: it ended with a code, it failed, or it was interrupted.
    src/driver/eval.rs:360-368,644-712. *)
Inductive outcome := Ended (code : N) (stdout : string) (stderr : list string)
  | Failed (stdout : string) (stderr : list string)
  | Interrupted (stdout : string) (stderr : list string).

(** The entry made for one run, except its expectations.  src/driver/tester.rs:310-420. *)
Record evidence := mkEvidence
  { exit : N; stdout : string; stderr : list string; result : value }.

(** Substring. *)
Fixpoint contains (p s : string) : bool :=
  String.prefix p s || match s with EmptyString => false | String _ r => contains p r end.

(** validation.has-assertion-failure?.  lib/test.eu:39-42. *)
Definition has_assertion_failure (e : evidence) : bool := existsb (contains "EXPECT FAILED") (stderr e).

(** validation.default-expectation.  lib/test.eu:44-55. *)
Definition default_expectation (e : evidence) : value :=
  if has_assertion_failure e then VSym "FAIL" else compute_verdict (result e).

(** The functions of the block validation in lib/test.eu:11-66, by name.  The first two are helpers;
    applied to evidence, which has no RESULT, is not all true and is not null, they are no pass. *)
Definition built_in (k : string) : option (evidence -> value) :=
  if String.eqb k "compute-verdict" then Some (fun _ => VSym "FAIL")
  else if String.eqb k "has-assertion-failure?" then Some (fun e => VBool (has_assertion_failure e))
  else if String.eqb k "default-expectation" then Some default_expectation
  else if String.eqb k "unguarded-expectation" then Some (fun e => compute_verdict (result e))
  else if String.eqb k "bench-expectation" then Some (fun _ => VSym "PASS")
  else None.

(** verification.is-pass?.  lib/test.eu:119-120. *)
Definition is_pass (v : value) : bool :=
  match v with VSym s | VStr s => String.eqb s "PASS" | _ => false end.

(** The expectations of a target.  src/driver/tester.rs:357-379. *)
Definition expected (t : target) : list string :=
  match validations t with
  | [] => [if is_benchmark t then "bench-expectation" else "default-expectation"]
  | vs => vs
  end.

(** src/driver/tester.rs:327-331. *)
Definition entry_name (t : target) (f : string) : string :=
  (if String.eqb (name t) "" then "default" else name t) ++ "-" ++ f.

(** A later declaration of the same name replaces an earlier one when the evidence is written. *)
Definition declare {A} (k : string) (x : A) (l : list (string * A)) : list (string * A) :=
  filter (fun e => negb (String.eqb k (fst e))) l ++ [(k, x)].

(** How eu test ends. *)
Inductive ending := Exit (code : N) | Error | Panic.

Section Runs.

(** The result of evaluating a target of a file in test mode. *)
Variable evaluate : file -> target -> string -> outcome.
(** Reading output in a format; none if that fails. *)
Variable reread : string -> string -> option value.
(** The functions that a test file defines; none as result if the function fails. *)
Variable subject : file -> string -> option (evidence -> option value).

(** TranslationUnit::target.  src/core/unit.rs:51-53.  Targets are run by name; the name of the
    default target is that of the whole file. *)
Definition named (f : file) (n : string) : target :=
  match find (fun t => String.eqb (name t) n) (targets f) with Some t => t | None => whole end.

(** The result and evidence of one run.  src/driver/tester.rs:337-413,668-688. *)
Definition gather (f : file) (t : target) (fmt : string) : option evidence :=
  match evaluate f (named f (name t)) fmt with
  | Ended c o e => option_map (fun r => mkEvidence c o e r) (reread fmt o)
  | Interrupted o e => option_map (fun r => mkEvidence 130 o e r) (reread fmt o)
  | Failed o e => Some (mkEvidence 1 o e (VBlock [("RESULT", VStr "FAIL")]))
  end.

(** All the evidence for a plan; none if some output cannot be read back.
    src/driver/tester.rs:310-440,612-697. *)
Definition gather_all (f : file) : option (list (string * (evidence * list string))) :=
  fold_left
    (fun acc tf =>
       match acc, gather f (fst tf) (snd tf) with
       | Some l, Some e => Some (declare (entry_name (fst tf) (snd tf)) (e, expected (fst tf)) l)
       | _, _ => None
       end)
    (flat_map (fun tfs => map (fun x => (fst tfs, x)) (snd tfs)) (analyse f))
    (Some []).

(** verification.apply-to-content.  lib/test.eu:105-109. *)
Definition apply_to (f : file) (e : evidence) (k : string) : option value :=
  match built_in k with
  | Some g => Some (g e)
  | None => match subject f k with Some g => g e | None => Some (VSym "FAIL") end
  end.

Fixpoint all_results (l : list (option value)) : option (list value) :=
  match l with
  | [] => Some []
  | Some v :: r => option_map (cons v) (all_results r)
  | None :: _ => None
  end.

(** verification.summary: overall, as a boolean; none if a validation fails to evaluate.
    lib/test.eu:93-116. *)
Definition summary (f : file) (tests : list (string * (evidence * list string))) : option bool :=
  option_map (forallb is_pass)
    (all_results (flat_map (fun e => map (apply_to f (fst (snd e))) (snd (snd e))) tests)).

(** run, validate and summary of one test. *)
Definition test_file (f : file) : option bool :=
  match gather_all f with Some tests => summary f tests | None => None end.

(** The loop of run_plans.  src/driver/tester.rs:151-191.  A list of what was done is kept: which
    files have a report. *)
Fixpoint run_loop (allow_io : bool) (fs : list file) : option (N * list bool) :=
  match fs with
  | [] => Some (0%N, [])
  | f :: r =>
    if requires_io f && negb allow_io then
      option_map (fun '(x, d) => (x, false :: d)) (run_loop allow_io r)
    else
      match test_file f with
      | None => None
      | Some pass =>
        option_map (fun '(x, d) => (if pass then x else 1%N, true :: d)) (run_loop allow_io r)
      end
  end.

(** run_plans: the report reads the results of every plan, and asks for a first one.
    src/driver/tester.rs:151-201,776-800. *)
Definition run_plans (allow_io : bool) (fs : list file) : ending :=
  match run_loop allow_io fs with
  | None => Error
  | Some (x, done) =>
    match fs with
    | [] => Panic
    | _ => if forallb (fun b => b) done then Exit x else Error
    end
  end.

End Runs.

(** ** Error tests *)

(** ErrorExpectation.  src/core/analyse/testplan.rs:33-45. *)
Record error_expectation := mkError { want_exit : option Z; want_stderr : option string }.

(** Trimming of ASCII blanks. *)
Definition is_blank (c : Ascii.ascii) : bool :=
  let n := Ascii.N_of_ascii c in (n =? 32)%N || ((9 <=? n) && (n <=? 13))%N.

Fixpoint trim_left (s : string) : string :=
  match s with String c r => if is_blank c then trim_left r else s | "" => "" end.

Fixpoint trim_right (s : string) : string :=
  match s with
  | "" => ""
  | String c r => match trim_right r with
                  | "" => if is_blank c then "" else String c ""
                  | r' => String c r'
                  end
  end.

Definition trim (s : string) : string := trim_right (trim_left s).

(** str::strip_prefix. *)
Fixpoint strip_prefix (p s : string) : option string :=
  match p, s with
  | "", _ => Some s
  | String a p', String b s' => if Ascii.eqb a b then strip_prefix p' s' else None
  | _, "" => None
  end.

(** str::strip_suffix of one character. *)
Fixpoint strip_last (c : Ascii.ascii) (s : string) : option string :=
  match s with
  | "" => None
  | String a "" => if Ascii.eqb a c then Some "" else None
  | String a r => option_map (String a) (strip_last c r)
  end.

Definition DQUOTE : Ascii.ascii := Ascii.ascii_of_nat 34.

(** src/core/analyse/testplan.rs:99-104. *)
Definition unquote (v : string) : string :=
  match strip_prefix (String DQUOTE "") v with
  | Some r => match strip_last DQUOTE r with Some x => x | None => v end
  | None => v
  end.

Section ErrorTests.

(** i32::from_str; and Regex::new followed by is_match, none for a pattern that is no regex. *)
Variable parse_i32 : string -> option Z.
Variable matches : string -> string -> option bool.

(** ErrorExpectation::parse, from the lines of the file; none for an error.
    src/core/analyse/testplan.rs:74-117. *)
Fixpoint parse_lines (acc : error_expectation) (ls : list string) : option error_expectation :=
  match ls with
  | [] => match acc with mkError None None => None | _ => Some acc end
  | l :: r =>
    let l := trim l in
    if String.eqb l "" || String.prefix "#" l then parse_lines acc r else
    match strip_prefix "exit:" l with
    | Some v => match parse_i32 (trim v) with
                | Some z => parse_lines (mkError (Some z) (want_stderr acc)) r
                | None => None
                end
    | None =>
      match strip_prefix "stderr:" l with
      | Some v => parse_lines (mkError (want_exit acc) (Some (unquote (trim v)))) r
      | None => parse_lines acc r
      end
    end
  end.

Definition parse (ls : list string) : option error_expectation := parse_lines (mkError None None) ls.

(** ErrorExpectation::validate.  src/core/analyse/testplan.rs:58-77. *)
Definition validate (x : error_expectation) (code : Z) (err : string) : bool :=
  match want_exit x with Some z => (code =? z)%Z | None => true end &&
  match want_stderr x with
  | Some p => match matches p err with Some b => b | None => false end
  | None => true
  end.

(** error_test_with_binary, from the lines of the sidecar file, if there is one.
    src/driver/tester.rs:47-103. *)
Definition error_test (sidecar : option (list string)) (code : Z) (err : string) : ending :=
  match sidecar with
  | None => Exit 0
  | Some ls => match parse ls with
               | None => Error
               | Some x => if validate x code err then Exit 0 else Exit 1
               end
  end.

End ErrorTests.
