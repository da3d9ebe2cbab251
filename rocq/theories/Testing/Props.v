(** * C95-C97: the test runner *)
From Coq Require Import Ascii String List NArith ZArith Bool Lia Permutation.
From Verif Require Import Testing.Model Testing.Spec Testing.Proofs.
Import ListNotations.
Open Scope string_scope.
Open Scope list_scope.

(** ** C96: which targets are run *)

(** The plan holds exactly the targets, in the formats, that it should. *)
Theorem C96_selected f t x : (exists xs, In (t, xs) (analyse f) /\ In x xs) <-> runs f t x.
Proof.
  rewrite <- jobs_runs. unfold jobs. rewrite in_flat_map. split.
  - intros (xs & I & J). eexists. split; [exact I|]. cbn. apply in_map_iff. eauto.
  - intros ([t' xs] & I & J). cbn in J. apply in_map_iff in J. destruct J as (y & [= -> ->] & J). eauto.
Qed.

(** Something is run for every file. *)
Theorem C96_some f : exists t x, runs f t x.
Proof.
  assert (P : exists x, In x (plan_formats f)).
  { unfold plan_formats. destruct (formats f) as [|y r]; [exists "yaml"|exists y]; now left. }
  destruct P as [y P].
  destruct (filter include (targets f)) as [|t ts] eqn:E.
  - exists whole, y. right. split; [|split; [reflexivity|]].
    + intros t' S. apply included in S. rewrite E in S. destruct S.
    + now apply (formats_spec f whole).
  - assert (S : selected f t) by (apply included; rewrite E; now left).
    destruct (format t) as [x|] eqn:Ft.
    + exists t, x. left. split; [exact S|]. now left.
    + exists t, y. left. split; [exact S|]. apply formats_spec. now rewrite Ft.
Qed.

Lemma selected_order f f' : Permutation (targets f) (targets f') -> forall t, selected f t -> selected f' t.
Proof. intros P t [I S]. split; [eapply Permutation_in; eauto|exact S]. Qed.

Lemma runs_order f f' : Permutation (targets f) (targets f') -> formats f = formats f' ->
  forall t x, runs f t x -> runs f' t x.
Proof.
  intros P F t x [[S I]|(N & -> & I)].
  - left. split; [now apply (selected_order f)|]. unfold in_format in *. now rewrite <- F.
  - right. split; [|split; [reflexivity|unfold in_format in *; now rewrite <- F]].
    intros t' S. apply (N t'). apply (selected_order f'); [now symmetry|exact S].
Qed.

Lemma distinct_order f f' : Permutation (targets f) (targets f') -> formats f = formats f' -> distinct f -> distinct f'.
Proof.
  intros P F (N & W & D). pose proof (Permutation_map name P) as Q. split; [|split].
  - eapply Permutation_NoDup; eauto.
  - intros H. apply W. eapply Permutation_in; [symmetry; exact Q|exact H].
  - intros t x t' x' R R'. apply D; apply (runs_order f'); auto; now symmetry.
Qed.

Section Order.
Variable evaluate : file -> target -> string -> outcome.
Variable reread : string -> string -> option value.
Variable subject : file -> string -> option (evidence -> option value).

(** The order of the targets, which is that of a hash table, makes no difference. *)
Theorem C96_order f f' :
  Permutation (targets f) (targets f') -> formats f = formats f' ->
  (forall t x, evaluate f t x = evaluate f' t x) -> (forall k, subject f k = subject f' k) ->
  distinct f ->
  (test_file evaluate reread subject f = Some true <-> test_file evaluate reread subject f' = Some true).
Proof.
  intros P F E S D. rewrite !pass_spec; [|now apply (distinct_order f)|exact D].
  assert (Half : forall g g', Permutation (targets g) (targets g') -> formats g = formats g' ->
    (forall t x, evaluate g t x = evaluate g' t x) -> (forall k, subject g k = subject g' k) ->
    passes evaluate reread subject g -> passes evaluate reread subject g').
  { clear. intros g g' P F E S H t x R. destruct (H t x) as (e & K & W).
    - apply (runs_order g'); auto; now symmetry.
    - exists e. split.
      + destruct K as [c o er r Ev Rr|o er r Ev Rr|o er Ev]; rewrite E in Ev.
        * eapply known_ended; eauto.
        * eapply known_interrupted; eauto.
        * now apply known_failed.
      + intros k Wk. destruct (W k Wk) as [A B|B| |k g0 v N G V Q].
        * now apply holds_default.
        * now apply holds_unguarded.
        * apply holds_bench.
        * eapply holds_own; eauto. now rewrite <- S. }
  split; apply Half; auto; now symmetry.
Qed.

(** ** C95: when eu test succeeds *)

(** A test file passes exactly when everything run meets all that is wanted of it. *)
Theorem C95_pass f : distinct f ->
  (test_file evaluate reread subject f = Some true <-> passes evaluate reread subject f).
Proof. apply pass_spec. Qed.

Lemma loop_spec allow fs : (forall f, In f fs -> requires_io f = true -> allow = true) ->
  match run_loop evaluate reread subject allow fs with
  | None => exists f, In f fs /\ test_file evaluate reread subject f = None
  | Some (x, done) => forallb (fun b => b) done = true /\ (x = 0%N \/ x = 1%N) /\
      (x = 0%N <-> forall f, In f fs -> test_file evaluate reread subject f = Some true)
  end.
Proof.
  induction fs as [|f fs IH]; intros H; cbn [run_loop].
  - split; [reflexivity|]. split; [now left|]. split; [intros _ ? []|reflexivity].
  - assert (requires_io f && negb allow = false) as ->.
    { destruct (requires_io f) eqn:R; [|reflexivity]. rewrite (H f (or_introl eq_refl) R). reflexivity. }
    specialize (IH (fun f' I => H f' (or_intror I))).
    destruct (test_file evaluate reread subject f) as [pass|] eqn:T.
    + destruct (run_loop evaluate reread subject allow fs) as [[x done]|]; cbn [option_map].
      * destruct IH as (D & B & X). split; [exact D|]. destruct pass.
        -- split; [exact B|]. rewrite X. split.
           ++ intros A f' [<-|I]; auto.
           ++ intros A f' I. apply A. now right.
        -- split; [now right|]. split; [discriminate|]. intros A. specialize (A f (or_introl eq_refl)). congruence.
      * destruct IH as (f' & I & N). exists f'. split; [now right|exact N].
    + exists f. split; [now left|exact T].
Qed.

Lemma loop_skips allow fs f : In f fs -> requires_io f = true -> allow = false ->
  forall x done, run_loop evaluate reread subject allow fs = Some (x, done) -> forallb (fun b => b) done = false.
Proof.
  intros I R ->. induction fs as [|g fs IH]; [destruct I|]. intros x done H. cbn [run_loop] in H.
  destruct (requires_io g && negb false) eqn:G.
  - destruct (run_loop _ _ _ _ fs) as [[x' d']|]; [|discriminate]. injection H as <- <-. reflexivity.
  - destruct I as [<-|I]; [rewrite R in G; discriminate|].
    destruct (test_file evaluate reread subject g) as [p|]; [|discriminate].
    destruct (run_loop _ _ _ _ fs) as [[x' d']|] eqn:L; [|discriminate]. injection H as <- <-.
    cbn [forallb]. now apply (IH I x' d').
Qed.

(** The exit code is 0 exactly when there is a file to test, none had to be skipped, and all passed. *)
Theorem C95_exit allow fs : Forall distinct fs ->
  (run_plans evaluate reread subject allow fs = Exit 0 <->
   fs <> [] /\ forall f, In f fs -> (requires_io f = true -> allow = true) /\ passes evaluate reread subject f).
Proof.
  intros D. rewrite Forall_forall in D. unfold run_plans. split.
  - intros H. destruct (run_loop evaluate reread subject allow fs) as [[x done]|] eqn:L; [|discriminate].
    destruct fs as [|g fs]; [discriminate|].
    assert (Ne0 : g :: fs <> []) by discriminate. remember (g :: fs) as l. clear Heql g fs.
    assert (K : forallb (fun b => b) done = true /\ x = 0%N /\ l <> []).
    { destruct (forallb _ done); [|discriminate H]. injection H as ->. auto. }
    destruct K as (K & -> & Ne). split; [exact Ne|].
    assert (A : forall f, In f l -> requires_io f = true -> allow = true).
    { intros f I R. destruct allow eqn:Al; [reflexivity|].
      pose proof (loop_skips false l f I R eq_refl _ _ L). congruence. }
    pose proof (loop_spec allow l A) as S. rewrite L in S. destruct S as (_ & _ & X).
    intros f I. split; [exact (A f I)|]. apply pass_spec; [now apply D|]. now apply (proj1 X eq_refl).
  - intros [Ne A].
    pose proof (loop_spec allow fs (fun f I => proj1 (A f I))) as S.
    assert (T : forall f, In f fs -> test_file evaluate reread subject f = Some true).
    { intros f I. apply pass_spec; [now apply D|]. now apply A. }
    destruct (run_loop evaluate reread subject allow fs) as [[x done]|].
    + destruct S as (K & _ & X). apply X in T. subst x. rewrite K. destruct fs; [contradiction|reflexivity].
    + destruct S as (f & I & N). rewrite (T f I) in N. discriminate.
Qed.

(** An exit code other than 0 is 1, and then some file did not pass. *)
Theorem C95_failure allow fs x : Forall distinct fs ->
  run_plans evaluate reread subject allow fs = Exit x -> x <> 0%N ->
  x = 1%N /\ exists f, In f fs /\ ~ passes evaluate reread subject f.
Proof.
  intros D R Nx. rewrite Forall_forall in D. unfold run_plans in R.
  destruct (run_loop evaluate reread subject allow fs) as [[y done]|] eqn:L; [|discriminate].
  assert (K : forallb (fun b => b) done = true /\ y = x).
  { destruct fs; [discriminate|]. destruct (forallb _ done); [|discriminate]. injection R as ->. auto. }
  destruct K as [K ->]. clear R.
  assert (A : forall f, In f fs -> requires_io f = true -> allow = true).
  { intros f I Rq. destruct allow eqn:Al; [reflexivity|].
    pose proof (loop_skips false fs f I Rq eq_refl _ _ L). congruence. }
  pose proof (loop_spec allow fs A) as S. rewrite L in S. destruct S as (_ & B & X).
  destruct B as [->|B]; [contradiction|]. split; [exact B|].
  assert (U : exists f, In f fs /\ test_file evaluate reread subject f <> Some true).
  { clear -X Nx. assert (Q : ~ forall f, In f fs -> test_file evaluate reread subject f = Some true) by tauto.
    clear X. induction fs as [|f fs IH].
    - exfalso. apply Q. intros ? [].
    - destruct (test_file evaluate reread subject f) as [[|]|] eqn:T.
      + destruct IH as (g & I & N); [|exists g; split; [now right|exact N]].
        intros H. apply Q. intros g [<-|I]; auto.
      + exists f. split; [now left|]. congruence.
      + exists f. split; [now left|]. congruence. }
  destruct U as (f & I & N). exists f. split; [exact I|]. intros P. apply N. apply pass_spec; [now apply D|exact P].
Qed.

End Order.

(** *** Concrete runs *)

Definition good : string -> string -> option value :=
  fun _ o => if String.eqb o "RESULT: PASS" then Some (VBlock [("RESULT", VStr "PASS")])
             else if String.eqb o "" then Some (VBlock []) else Some VOther.

Definition prints (o : string) : file -> target -> string -> outcome := fun _ _ _ => Ended 0 o [].
Definition no_functions : file -> string -> option (evidence -> option value) := fun _ _ => None.

Definition two_tests : file :=
  mkFile [mkTarget "test-a" None [] true; mkTarget "other" None [] true; mkTarget "bench-b" (Some "json") [] true]
    ["yaml"; "json"] false.

Lemma two_tests_distinct : distinct two_tests.
Proof.
  split; [|split].
  - repeat constructor; cbn; intuition discriminate.
  - cbn. intuition discriminate.
  - intros t x t' x' R R'. apply jobs_runs in R, R'. cbn in R, R'.
    intuition; repeat match goal with H : (_, _) = (_, _) |- _ => injection H as <- <- end; cbn in *; try discriminate; auto.
Qed.

Example C96_example : runs two_tests (mkTarget "test-a" None [] true) "json" /\
  ~ runs two_tests (mkTarget "other" None [] true) "json".
Proof.
  split; [apply jobs_runs; cbn; auto|]. intros R. apply jobs_runs in R. cbn in R. intuition discriminate.
Qed.

Example C95_example : run_plans (prints "RESULT: PASS") good no_functions false [two_tests] = Exit 0 /\
  passes (prints "RESULT: PASS") good no_functions two_tests /\
  run_plans (prints "RESULT: FAIL") good no_functions false [two_tests] = Exit 1.
Proof.
  assert (E : run_plans (prints "RESULT: PASS") good no_functions false [two_tests] = Exit 0) by reflexivity.
  split; [exact E|]. split; [|reflexivity].
  apply C95_exit in E; [|constructor; [apply two_tests_distinct|constructor]].
  destruct E as [_ E]. apply E. now left.
Qed.

(** *** Refutations *)

(** A file that is skipped because --allow-io was not given should not make eu test fail; it does. *)
Theorem C95_skip_refuted :
  exists f g, distinct f /\ requires_io f = false /\ requires_io g = true /\
    passes (prints "RESULT: PASS") good no_functions f /\
    run_plans (prints "RESULT: PASS") good no_functions false [f; g] = Error.
Proof.
  exists two_tests, (mkFile [] [] true). split; [apply two_tests_distinct|]. split; [reflexivity|]. split; [reflexivity|].
  split; [apply C95_example|reflexivity].
Qed.

(** With no tests in a directory eu test should say so; it panics. *)
Theorem C95_none_refuted evaluate reread subject allow : run_plans evaluate reread subject allow [] = Panic.
Proof. reflexivity. Qed.

(** A test that was interrupted before it printed anything should not pass; it does. *)
Theorem C95_interrupted_refuted :
  test_file (fun _ _ _ => Interrupted "" []) good no_functions (mkFile [] [] false) = Some true.
Proof. reflexivity. Qed.

(** Without [distinct], a file passes although one of its targets does not meet what it asks for:
    two targets that share a name, one with a validation that never holds. *)
Theorem C95_names_refuted :
  exists f, test_file (prints "RESULT: PASS") good no_functions f = Some true /\
    ~ passes (prints "RESULT: PASS") good no_functions f.
Proof.
  set (t1 := mkTarget "test-a" None ["no-such-function"] true).
  set (t2 := mkTarget "test-a" None [] true).
  exists (mkFile [t1; t2] [] false). split; [reflexivity|]. intros P.
  destruct (P t1 "yaml") as (e & _ & H).
  - apply jobs_runs. cbn. auto.
  - specialize (H "no-such-function" (or_introl (or_introl eq_refl))). inversion H as [| | |k g v _ G]. discriminate G.
Qed.

(** Without [distinct] the order of the hash table decides. *)
Theorem C96_order_refuted :
  exists evaluate f f', Permutation (targets f) (targets f') /\ formats f = formats f' /\
    (forall t x, evaluate f t x = evaluate f' t x) /\
    test_file evaluate good no_functions f = Some true /\ test_file evaluate good no_functions f' = Some false.
Proof.
  set (t1 := mkTarget "test-a" (Some "yaml") [] true).
  set (t2 := mkTarget "test-a" None [] true).
  exists (fun _ t _ => match format t with Some _ => Ended 0 "RESULT: PASS" [] | None => Ended 0 "RESULT: FAIL" [] end),
    (mkFile [t1; t2] [] false), (mkFile [t2; t1] [] false).
  split; [apply perm_swap|]. repeat split; reflexivity.
Qed.

(** ** C97: error tests *)

Section ErrorTests.
Variable parse_i32 : string -> option Z.
Variable matches : string -> string -> option bool.

(** An error test passes exactly when the sidecar asks for something, and the exit code and the
    error output are as it asks. *)
Theorem C97_sidecar ls items x p code err :
  Forall2 (line_says parse_i32) ls items -> last_exit items x -> last_stderr items p ->
  (error_test parse_i32 matches (Some ls) code err = Exit 0 <->
   (x <> None \/ p <> None) /\ (forall z, x = Some z -> code = z) /\
   (forall q, p = Some q -> matches q err = Some true)).
Proof.
  intros F X P. rewrite (error_spec _ _ _ _ _ _ _ _ F X P). rewrite <- (validate_spec matches).
  assert (G : forall v : bool, (x <> None \/ p <> None) ->
    ((if v then Exit 0 else Exit 1) = Exit 0 <-> (x <> None \/ p <> None) /\ v = true)).
  { intros v N. destruct v; (split; [intros H; try discriminate H; auto|]); intros [_ H]; [reflexivity|discriminate H]. }
  destruct x as [z|]; [|destruct p as [q|]].
  - assert (N : Some z <> None \/ p <> None) by (left; discriminate). destruct p; apply (G _ N).
  - apply G. right. discriminate.
  - split; [discriminate|]. intros [[H|H] _]; now destruct H.
Qed.

(** It fails, rather than being in error, whenever the sidecar asks for something. *)
Theorem C97_fails ls items x p code err :
  Forall2 (line_says parse_i32) ls items -> last_exit items x -> last_stderr items p ->
  x <> None \/ p <> None ->
  error_test parse_i32 matches (Some ls) code err = Exit 0 \/ error_test parse_i32 matches (Some ls) code err = Exit 1.
Proof.
  intros F X P. rewrite (error_spec _ _ _ _ _ _ _ _ F X P). intros H.
  destruct x as [z|], p as [q|]; try (destruct (validate matches _ code err); auto).
  destruct H as [H|H]; now destruct H.
Qed.

(** A sidecar with an exit code that is no number is an error, whatever else it says. *)
Theorem C97_bad_code ls b b' s b'' code err :
  blank b -> blank b' -> blank b'' -> solid s -> parse_i32 s = None ->
  In (b ++ "exit:" ++ b' ++ s ++ b'')%string ls -> error_test parse_i32 matches (Some ls) code err = Error.
Proof.
  intros B B' B'' S P I. unfold error_test, parse. now rewrite (parse_bad _ matches ls b b' s b'' B B' B'' S P I).
Qed.

(** Without a sidecar the test passes, as documented. *)
Theorem C97_unvalidated code err : error_test parse_i32 matches None code err = Exit 0.
Proof. reflexivity. Qed.

(** The format is documented as key-value YAML.  A block scalar is read as the pattern |, which
    matches everything: the text it holds is never looked for. *)
Theorem C97_block_refuted wants code err : (forall s, matches "|" s = Some true) ->
  strip_prefix "exit:" (trim wants) = None -> strip_prefix "stderr:" (trim wants) = None ->
  error_test parse_i32 matches (Some ["stderr: |"; wants]) code err = Exit 0.
Proof.
  intros M E S. unfold error_test, parse.
  assert (parse_lines parse_i32 (mkError None None) ["stderr: |"; wants] = Some (mkError None (Some "|"))) as ->.
  { change (parse_lines parse_i32 (mkError None (Some "|")) [wants] = Some (mkError None (Some "|"))).
    cbn [parse_lines]. rewrite E, S. destruct (_ || _); reflexivity. }
  unfold validate. cbn [want_exit want_stderr]. now rewrite M.
Qed.

(** A space before the colon is YAML too; the line is then left out of account without a word. *)
Theorem C97_space_refuted code err : matches "x" err = Some true ->
  error_test parse_i32 matches (Some ["exit : 3"; "stderr: x"]) code err = Exit 0.
Proof.
  intros M. unfold error_test, parse.
  change (parse_lines parse_i32 (mkError None None) ["exit : 3"; "stderr: x"]) with (Some (mkError None (Some "x"))).
  unfold validate. cbn [want_exit want_stderr]. now rewrite M.
Qed.

End ErrorTests.

Example C97_example :
  let parse_i32 := fun s => if String.eqb s "1" then Some 1%Z else None in
  let ls := ["# comment"; " exit: 1 "; ""; ("stderr: " ++ String DQUOTE "not found" ++ String DQUOTE "")%string] in
  let items := [Nothing; WantExit 1; Nothing; WantStderr "not found"] in
  Forall2 (line_says parse_i32) ls items /\ last_exit items (Some 1%Z) /\ last_stderr items (Some "not found") /\
  error_test parse_i32 (fun p s => Some (contains p s)) (Some ls) 1 "error: not found" = Exit 0 /\
  error_test parse_i32 (fun p s => Some (contains p s)) (Some ls) 2 "error: not found" = Exit 1.
Proof.
  assert (B0 : blank "") by (intros ? []).
  assert (B1 : blank " ") by (intros c [<-|[]]; now left).
  cbv zeta. split; [|split; [|split; [|split; reflexivity]]].
  - constructor; [exact (line_comment _ "" " comment" B0)|]. constructor.
    { apply (line_exit _ " " " " "1" " " 1); auto. assert (D : ~ space "1"%char) by (unfold space; cbn; intuition discriminate).
      split; [exists "1"%char, ""; auto|exists "", "1"%char; auto]. }
    constructor; [exact (line_blank _ "" B0)|]. constructor; [exact (line_quoted _ "" " " "not found" "" B0 B1 B0)|constructor].
  - apply (last_exit_some [Nothing] 1 [Nothing; WantStderr "not found"]). intros z H. cbn in H. intuition discriminate.
  - apply (last_stderr_some [Nothing; WantExit 1; Nothing] "not found" []). intros z [].
Qed.

Print Assumptions C95_pass.
Print Assumptions C95_exit.
Print Assumptions C95_failure.
Print Assumptions C95_skip_refuted.
Print Assumptions C95_none_refuted.
Print Assumptions C95_interrupted_refuted.
Print Assumptions C95_names_refuted.
Print Assumptions C96_selected.
Print Assumptions C96_some.
Print Assumptions C96_order.
Print Assumptions C96_order_refuted.
Print Assumptions C97_sidecar.
Print Assumptions C97_fails.
Print Assumptions C97_block_refuted.
Print Assumptions C97_space_refuted.
Print Assumptions C97_bad_code.
Print Assumptions C97_unvalidated.
