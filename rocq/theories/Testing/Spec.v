(** What a test is and when it passes, from the documentation of the test runner and lib/test.eu. *)
From Coq Require Import String List NArith ZArith Bool.
From Verif Require Import Testing.Model.
Import ListNotations.
Open Scope string_scope.
Open Scope list_scope.

Definition starts (p s : string) : Prop := exists r, s = (p ++ r)%string.

(** ** What is run *)

(** Tests and benchmarks of the file itself, its main target, and whatever names validations. *)
Definition for_test (t : target) : Prop := starts "test" (name t) \/ starts "bench-" (name t).

Definition selected (f : file) (t : target) : Prop :=
  In t (targets f) /\
  ((for_test t /\ own t = true) \/ (~ for_test t /\ (name t = "main" \/ validations t <> []))).

(** In the target's own format, or in each format of the header, or in YAML. *)
Definition in_format (f : file) (t : target) (x : string) : Prop :=
  format t = Some x \/
  (format t = None /\ (In x (formats f) \/ (formats f = [] /\ x = "yaml"))).

(** Where there is nothing to select, the file is run as a whole. *)
Definition runs (f : file) (t : target) (x : string) : Prop :=
  (selected f t /\ in_format f t x) \/
  ((forall t', ~ selected f t') /\ t = whole /\ in_format f whole x).

(** No two targets have the same name, none has the name of the whole file, and the pairs of name
    and format do not run into each other when joined by a hyphen. *)
Definition distinct (f : file) : Prop :=
  NoDup (map name (targets f)) /\ ~ In "" (map name (targets f)) /\
  (forall t x t' x', runs f t x -> runs f t' x' ->
     (name t ++ "-" ++ x)%string = (name t' ++ "-" ++ x')%string -> name t = name t' /\ x = x').

(** ** When it passes *)

(** The result of a test says that it passed: under RESULT, or by everything in it being true. *)
Inductive says_pass : value -> Prop :=
| says_result es v : (exists before after, es = before ++ ("RESULT", v) :: after /\
                                           ~ In "RESULT" (map fst before)) ->
    v = VBool true \/ v = VSym "PASS" \/ v = VStr "PASS" -> says_pass (VBlock es)
| says_all es : ~ In "RESULT" (map fst es) -> (forall k v, In (k, v) es -> v = VBool true) ->
    says_pass (VBlock es)
| says_true : says_pass (VBool true).

(** A failed assertion was reported. *)
Definition assertion_failed (lines : list string) : Prop :=
  exists a b, In (a ++ "EXPECT FAILED" ++ b)%string lines.

(** What the target asks for. *)
Definition wanted (t : target) (k : string) : Prop :=
  In k (validations t) \/
  (validations t = [] /\ starts "bench-" (name t) /\ k = "bench-expectation") \/
  (validations t = [] /\ ~ starts "bench-" (name t) /\ k = "default-expectation").

Definition library : list string :=
  ["compute-verdict"; "has-assertion-failure?"; "default-expectation"; "unguarded-expectation";
   "bench-expectation"].

Section Tests.

Variable evaluate : file -> target -> string -> outcome.
Variable reread : string -> string -> option value.
Variable subject : file -> string -> option (evidence -> option value).

(** What is known after running a target. *)
Inductive known (f : file) (t : target) (x : string) : evidence -> Prop :=
| known_ended c o e r : evaluate f t x = Ended c o e -> reread x o = Some r ->
    known f t x (mkEvidence c o e r)
| known_interrupted o e r : evaluate f t x = Interrupted o e -> reread x o = Some r ->
    known f t x (mkEvidence 130 o e r)
| known_failed o e : evaluate f t x = Failed o e ->
    known f t x (mkEvidence 1 o e (VBlock [("RESULT", VStr "FAIL")])).

Inductive holds (f : file) (e : evidence) : string -> Prop :=
| holds_default : ~ assertion_failed (stderr e) -> says_pass (result e) -> holds f e "default-expectation"
| holds_unguarded : says_pass (result e) -> holds f e "unguarded-expectation"
| holds_bench : holds f e "bench-expectation"
| holds_own k g v : ~ In k library -> subject f k = Some g -> g e = Some v ->
    v = VSym "PASS" \/ v = VStr "PASS" -> holds f e k.

(** A file passes: all that is run is known and meets everything wanted of it. *)
Definition passes (f : file) : Prop :=
  forall t x, runs f t x -> exists e, known f t x e /\ (forall k, wanted t k -> holds f e k).

End Tests.

(** ** Sidecar files of error tests *)

(** Space, tab, line feed, vertical tab, form feed and carriage return. *)
Definition space (c : Ascii.ascii) : Prop := In (Ascii.N_of_ascii c) [32; 9; 10; 11; 12; 13]%N.

Definition blank (s : string) : Prop := forall c, In c (list_ascii_of_string s) -> space c.

(** Begins and ends with something that is not blank. *)
Definition solid (s : string) : Prop :=
  (exists c r, s = String c r /\ ~ space c) /\
  (exists r c, s = (r ++ String c "")%string /\ ~ space c).

Inductive item := Nothing | WantExit (z : Z) | WantStderr (p : string).

Section Sidecars.

Variable parse_i32 : string -> option Z.

(** Blank lines, comments, exit: N and stderr: pattern, the pattern in double quotes or beginning
    with none. *)
Inductive line_says : string -> item -> Prop :=
| line_blank b : blank b -> line_says b Nothing
| line_comment b s : blank b -> line_says (b ++ "#" ++ s) Nothing
| line_exit b b' s b'' z : blank b -> blank b' -> blank b'' -> solid s -> parse_i32 s = Some z ->
    line_says (b ++ "exit:" ++ b' ++ s ++ b'') (WantExit z)
| line_quoted b b' p b'' : blank b -> blank b' -> blank b'' ->
    line_says (b ++ "stderr:" ++ b' ++ String DQUOTE p ++ String DQUOTE b'') (WantStderr p)
| line_plain b b' p b'' : blank b -> blank b' -> blank b'' -> solid p -> ~ starts (String DQUOTE "") p ->
    line_says (b ++ "stderr:" ++ b' ++ p ++ b'') (WantStderr p).

(** What was said last counts. *)
Inductive last_exit : list item -> option Z -> Prop :=
| last_exit_none items : (forall z, ~ In (WantExit z) items) -> last_exit items None
| last_exit_some before z after : (forall z', ~ In (WantExit z') after) ->
    last_exit (before ++ WantExit z :: after) (Some z).
Inductive last_stderr : list item -> option string -> Prop :=
| last_stderr_none items : (forall p, ~ In (WantStderr p) items) -> last_stderr items None
| last_stderr_some before p after : (forall p', ~ In (WantStderr p') after) ->
    last_stderr (before ++ WantStderr p :: after) (Some p).

End Sidecars.
