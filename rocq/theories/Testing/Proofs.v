From Coq Require Import Ascii String List NArith ZArith Bool Lia Permutation.
From Verif Require Import Testing.Model Testing.Spec.
Import ListNotations.
Open Scope string_scope.
Open Scope list_scope.

(** ** Strings *)

Lemma prefix_starts p : forall s, String.prefix p s = true <-> starts p s.
Proof.
  induction p as [|a p IH]; intros s.
  - destruct s; (split; [intros _; eexists; reflexivity|reflexivity]).
  - destruct s as [|b s].
    + split; [discriminate|]. intros [r H]. discriminate H.
    + cbn [String.prefix]. destruct (Ascii.ascii_dec a b) as [->|N].
      * rewrite IH. split; intros [r H].
        -- exists r. cbn. now rewrite H.
        -- cbn in H. injection H as ->. exists r. reflexivity.
      * split; [discriminate|]. intros [r H]. cbn in H. injection H. congruence.
Qed.

Lemma contains_spec p : forall s, contains p s = true <-> exists a b, s = (a ++ p ++ b)%string.
Proof.
  induction s as [|c s IH]; cbn [contains].
  - rewrite orb_false_r, prefix_starts. split.
    + intros [r H]. exists "", r. exact H.
    + intros (a & b & H). destruct a; [|discriminate]. exists b. exact H.
  - rewrite orb_true_iff, prefix_starts, IH. split.
    + intros [[r H]|(a & b & ->)]; [exists "", r; exact H|]. exists (String c a), b. reflexivity.
    + intros (a & b & H). destruct a as [|d a]; [left; exists b; exact H|].
      cbn in H. injection H as -> ->. right. now exists a, b.
Qed.

(** ** What is run *)

Lemma bench_starts t : is_benchmark t = true <-> starts "bench-" (name t).
Proof. apply prefix_starts. Qed.

Lemma include_spec t : include t = true <->
  (for_test t /\ own t = true) \/ (~ for_test t /\ (name t = "main" \/ validations t <> [])).
Proof.
  unfold include, for_test.
  destruct (String.prefix "test" (name t) || is_benchmark t) eqn:E.
  - apply orb_true_iff in E. rewrite prefix_starts, bench_starts in E. tauto.
  - apply orb_false_iff in E. destruct E as [E1 E2].
    assert (N1 : ~ starts "test" (name t)) by (rewrite <- prefix_starts; congruence).
    assert (N2 : ~ starts "bench-" (name t)) by (rewrite <- bench_starts; congruence).
    rewrite orb_true_iff, String.eqb_eq, negb_true_iff.
    assert (V : (match validations t with [] => true | _ => false end) = false <-> validations t <> []).
    { destruct (validations t); split; congruence. }
    rewrite V. tauto.
Qed.

Lemma included f t : In t (filter include (targets f)) <-> selected f t.
Proof. rewrite filter_In, include_spec. reflexivity. Qed.

Definition jobs (f : file) : list (target * string) :=
  flat_map (fun tfs => map (fun x => (fst tfs, x)) (snd tfs)) (analyse f).

Lemma formats_spec f t x :
  In x (match format t with Some y => [y] | None => plan_formats f end) <-> in_format f t x.
Proof.
  unfold in_format, plan_formats. destruct (format t) as [y|].
  - cbn. split; [intros [->|[]]; auto|]. intros [H|[H _]]; [injection H; auto|discriminate].
  - destruct (formats f) as [|a r].
    + cbn. split; [intros [<-|[]]; auto 10|]. intros [H|[_ [[]|[_ ->]]]]; [discriminate|auto].
    + split; [auto|]. intros [H|[_ [H|[H _]]]]; [discriminate|exact H|discriminate].
Qed.

Lemma jobs_runs f t x : In (t, x) (jobs f) <-> runs f t x.
Proof.
  unfold jobs, analyse, runs. rewrite in_flat_map.
  destruct (filter include (targets f)) as [|t0 ts] eqn:E.
  - cbn [map]. assert (S : forall t', ~ selected f t').
    { intros t' H. apply included in H. rewrite E in H. destruct H. }
    split.
    + intros ([t1 fs] & [H|[]] & I). injection H as <- <-. cbn [fst snd] in I.
      apply in_map_iff in I. destruct I as (y & [= <- <-] & I). right. split; [exact S|]. split; [reflexivity|].
      apply (formats_spec f whole). exact I.
    + intros [[H _]|(_ & -> & I)]; [now apply S in H|].
      eexists. split; [now left|]. cbn [fst snd]. apply in_map_iff. exists x. split; [reflexivity|].
      now apply (formats_spec f whole) in I.
  - remember (t0 :: ts) as l. assert (L : l <> []) by (subst; discriminate).
    assert (M : forall X, match map (fun t => (t, match format t with Some y => [y] | None => plan_formats f end)) l
                  with [] => X | ts => ts end = map (fun t => (t, match format t with Some y => [y] | None => plan_formats f end)) l).
    { intros X. destruct l; [contradiction|reflexivity]. }
    rewrite M. split.
    + intros ([t1 fs] & H & I). apply in_map_iff in H. destruct H as (t2 & [= <- <-] & H). cbn [fst snd] in I.
      apply in_map_iff in I. destruct I as (y & [= <- <-] & I). left. split.
      * apply included. now rewrite E.
      * now apply formats_spec.
    + intros [[H I]|(N & _)].
      * eexists. split; [apply in_map_iff; exists t; split; [reflexivity|]; rewrite <- E; now apply included|].
        cbn [fst snd]. apply in_map_iff. exists x. split; [reflexivity|]. now apply formats_spec.
      * exfalso. apply (N t0). apply included. rewrite E. subst. now left.
Qed.

(** ** Verdicts *)

Lemma lookup_spec k es v : lookup k es = Some v <->
  exists before after, es = before ++ (k, v) :: after /\ ~ In k (map fst before).
Proof.
  induction es as [|[k' v'] es IH]; cbn [lookup].
  - split; [discriminate|]. intros (b & a & H & _). destruct b; discriminate.
  - destruct (String.eqb_spec k k') as [->|N].
    + split.
      * intros [= ->]. exists [], es. auto.
      * intros (b & a & H & I). destruct b as [|[k2 v2] b]; [injection H as -> ->; reflexivity|].
        cbn in H. injection H as -> -> _. exfalso. apply I. now left.
    + rewrite IH. split.
      * intros (b & a & -> & I). exists ((k', v') :: b), a. split; [reflexivity|]. intros [H|H]; [now apply N|contradiction].
      * intros (b & a & H & I). destruct b as [|[k2 v2] b]; [injection H; congruence|].
        cbn in H. injection H as <- <- ->. exists b, a. split; [reflexivity|]. intros J. apply I. now right.
Qed.

Lemma lookup_none k es : lookup k es = None <-> ~ In k (map fst es).
Proof.
  induction es as [|[k' v'] es IH]; cbn [lookup map In fst]; [tauto|].
  destruct (String.eqb_spec k k') as [->|N]; [split; [discriminate|tauto]|]. rewrite IH. intuition congruence.
Qed.

Lemma is_pass_spec v : is_pass v = true <-> v = VSym "PASS" \/ v = VStr "PASS".
Proof.
  split.
  - destruct v; cbn [is_pass]; intros H; try discriminate; apply String.eqb_eq in H; subst; auto.
  - intros [-> | ->]; reflexivity.
Qed.

Lemma verdict_spec r : is_pass (compute_verdict r) = true <-> says_pass r.
Proof.
  split.
  - destruct r as [b|s|s| | |es]; cbn [compute_verdict]; try discriminate.
    + destruct b; [constructor|discriminate].
    + destruct (lookup "RESULT" es) as [v|] eqn:E.
      * pose proof (proj1 (lookup_spec _ _ _) E) as L. intros H. apply (says_result es v L).
        destruct v as [[]|s|s| | |l]; cbn in H; try discriminate; auto; apply String.eqb_eq in H; subst; auto.
      * apply lookup_none in E. destruct (forallb is_true (map snd es)) eqn:F; [|discriminate]. intros _.
        apply says_all; [exact E|]. intros k v I. rewrite forallb_forall in F.
        specialize (F v (in_map snd _ _ I)). destruct v as [[]| | | | |]; try discriminate F. reflexivity.
  - intros [es v L V|es N A|].
    + apply lookup_spec in L. cbn [compute_verdict]. rewrite L. destruct V as [->|[-> | ->]]; reflexivity.
    + apply lookup_none in N. cbn [compute_verdict]. rewrite N.
      replace (forallb is_true (map snd es)) with true; [reflexivity|]. symmetry. apply forallb_forall.
      intros v I. apply in_map_iff in I. destruct I as ([k w] & <- & I). rewrite (A k w I). reflexivity.
    + reflexivity.
Qed.

Lemma failure_spec e : has_assertion_failure e = true <-> assertion_failed (stderr e).
Proof.
  unfold has_assertion_failure, assertion_failed. rewrite existsb_exists. split.
  - intros (l & I & C). apply contains_spec in C. destruct C as (a & b & ->). eauto.
  - intros (a & b & I). eexists. split; [exact I|]. apply contains_spec. eauto.
Qed.

Lemma wanted_spec t k : In k (expected t) <-> wanted t k.
Proof.
  unfold expected, wanted. destruct (validations t) as [|v vs].
  - destruct (is_benchmark t) eqn:B.
    + apply bench_starts in B. cbn. intuition congruence.
    + assert (~ starts "bench-" (name t)) by (rewrite <- bench_starts; congruence). cbn. intuition congruence.
  - split; [auto|]. intros [H|[[H _]|[H _]]]; [exact H|discriminate|discriminate].
Qed.

Section Tests.

Variable evaluate : file -> target -> string -> outcome.
Variable reread : string -> string -> option value.
Variable subject : file -> string -> option (evidence -> option value).

Notation gather := (gather evaluate reread).
Notation gather_all := (gather_all evaluate reread).
Notation apply_to := (apply_to subject).
Notation known := (known evaluate reread).
Notation holds := (holds subject).

Lemma built_in_library k : built_in k = None <-> ~ In k library.
Proof.
  unfold built_in, library. cbn [In].
  destruct (String.eqb_spec k "compute-verdict"); [subst; split; [discriminate|tauto]|].
  destruct (String.eqb_spec k "has-assertion-failure?"); [subst; split; [discriminate|tauto]|].
  destruct (String.eqb_spec k "default-expectation"); [subst; split; [discriminate|tauto]|].
  destruct (String.eqb_spec k "unguarded-expectation"); [subst; split; [discriminate|tauto]|].
  destruct (String.eqb_spec k "bench-expectation"); [subst; split; [discriminate|tauto]|].
  split; [intros _ H; decompose [or] H; congruence|reflexivity].
Qed.

Lemma holds_spec f e k : holds f e k <-> exists v, apply_to f e k = Some v /\ is_pass v = true.
Proof.
  split.
  - intros [A S|S| |k' g v N G E P].
    + eexists. split; [reflexivity|]. change (is_pass (default_expectation e) = true). unfold default_expectation.
      destruct (has_assertion_failure e) eqn:H; [apply failure_spec in H; contradiction|]. now apply verdict_spec.
    + eexists. split; [reflexivity|]. change (is_pass (compute_verdict (result e)) = true). now apply verdict_spec.
    + eexists. split; reflexivity.
    + exists v. split; [|now apply is_pass_spec]. unfold Model.apply_to.
      apply built_in_library in N. now rewrite N, G.
  - intros (v & A & P). unfold Model.apply_to in A.
    destruct (built_in k) as [g|] eqn:B.
    + injection A as <-. unfold built_in in B.
      destruct (String.eqb_spec k "compute-verdict"); [injection B as <-; discriminate P|].
      destruct (String.eqb_spec k "has-assertion-failure?"); [injection B as <-; discriminate P|].
      destruct (String.eqb_spec k "default-expectation") as [->|].
      { injection B as <-. unfold default_expectation in P.
        destruct (has_assertion_failure e) eqn:H; [discriminate P|]. constructor.
        - rewrite <- failure_spec. congruence.
        - now apply verdict_spec. }
      destruct (String.eqb_spec k "unguarded-expectation") as [->|].
      { injection B as <-. constructor. now apply verdict_spec. }
      destruct (String.eqb_spec k "bench-expectation") as [->|]; [constructor|discriminate].
    + apply built_in_library in B. destruct (subject f k) as [g|] eqn:G.
      * apply is_pass_spec in P. econstructor; eauto.
      * injection A as <-. discriminate P.
Qed.

Lemma named_spec f t : NoDup (map name (targets f)) -> In t (targets f) -> named f (name t) = t.
Proof.
  unfold named. intros N I. destruct (find (fun t' => String.eqb (name t') (name t)) (targets f)) as [t'|] eqn:F.
  - apply find_some in F. destruct F as [I' E]. apply String.eqb_eq in E.
    induction (targets f) as [|a l IH]; [destruct I|]. cbn [map] in N. inversion N as [|? ? Na N']; subst.
    destruct I as [->|I], I' as [->|I']; auto.
    + exfalso. apply Na. rewrite <- E. now apply in_map.
    + exfalso. apply Na. rewrite E. now apply in_map.
  - apply find_none with (x := t) in F; [|exact I]. rewrite String.eqb_refl in F. discriminate.
Qed.

Lemma named_runs f t x : distinct f -> runs f t x -> named f (name t) = t.
Proof.
  intros (N & W & _) [[[I _] _]|(_ & -> & _)]; [now apply named_spec|].
  unfold named. destruct (find _ _) as [t'|] eqn:F; [|reflexivity].
  apply find_some in F. destruct F as [I E]. apply String.eqb_eq in E. cbn in E.
  exfalso. apply W. rewrite <- E. now apply in_map.
Qed.

Lemma gather_known f t x e : named f (name t) = t -> (gather f t x = Some e <-> known f t x e).
Proof.
  intros N. unfold Model.gather. rewrite N. split.
  - destruct (evaluate f t x) as [c o er|o er|o er] eqn:E.
    + destruct (reread x o) eqn:R; [|discriminate]. intros [= <-]. econstructor; eauto.
    + intros [= <-]. now constructor.
    + destruct (reread x o) eqn:R; [|discriminate]. intros [= <-]. econstructor 2; eauto.
  - intros [c o er r E R|o er r E R|o er E]; rewrite E; rewrite ?R; reflexivity.
Qed.

(** ** Collecting evidence *)

Definition step (f : file) (acc : option (list (string * (evidence * list string)))) (tf : target * string) :=
  match acc, gather f (fst tf) (snd tf) with
  | Some l, Some e => Some (declare (entry_name (fst tf) (snd tf)) (e, expected (fst tf)) l)
  | _, _ => None
  end.

Lemma step_none f js : fold_left (step f) js None = None.
Proof. induction js; auto. Qed.

Lemma in_declare {A} k (x : A) l e : In e (declare k x l) <-> e = (k, x) \/ (In e l /\ fst e <> k).
Proof.
  unfold declare. rewrite in_app_iff, filter_In, negb_true_iff, String.eqb_neq. cbn. intuition congruence.
Qed.

(** All of the jobs are in the result, when jobs with the same entry name have the same entry. *)
Definition entry f (tf : target * string) (d : string * (evidence * list string)) : Prop :=
  exists e, gather f (fst tf) (snd tf) = Some e /\ d = (entry_name (fst tf) (snd tf), (e, expected (fst tf))).

Lemma collected f js : forall acc l,
  fold_left (step f) js (Some acc) = Some l ->
  (forall tf, In tf js -> exists d, entry f tf d) /\
  (forall d, In d l -> In d acc \/ exists tf, In tf js /\ entry f tf d) /\
  (forall d, In d acc -> (forall tf d', In tf js -> entry f tf d' -> fst d' = fst d -> d' = d) -> In d l) /\
  ((forall tf tf' d d', In tf js -> In tf' js -> entry f tf d -> entry f tf' d' -> fst d = fst d' -> d = d') ->
   forall tf d, In tf js -> entry f tf d -> In d l).
Proof.
  induction js as [|tf js IH]; intros acc l H.
  - injection H as <-. split; [|split; [|split]].
    + intros ? [].
    + auto.
    + auto.
    + intros _ ? ? [].
  - cbn [fold_left] in H. unfold step at 2 in H.
    destruct (gather f (fst tf) (snd tf)) as [e|] eqn:G; [|rewrite step_none in H; discriminate].
    destruct (IH _ _ H) as (A1 & A2 & A3 & A4). clear IH H.
    set (d0 := (entry_name (fst tf) (snd tf), (e, expected (fst tf)))) in *.
    assert (E0 : entry f tf d0) by (exists e; auto).
    split; [|split; [|split]].
    + intros tf' [<-|I]; [eauto|now apply A1].
    + intros d I. apply A2 in I. destruct I as [I|(tf' & I & E)].
      * apply in_declare in I. destruct I as [->|[I _]]; [right; exists tf; split; [now left|exact E0]|auto].
      * right. exists tf'. split; [now right|exact E].
    + intros d I U. destruct (String.eqb_spec (fst d) (fst d0)) as [Eq|Ne].
      * assert (Dd : d0 = d) by (apply (U tf d0); [now left|exact E0|now symmetry]). subst d.
        apply A3; [apply in_declare; now left|]. intros tf' d' I' E' F. apply (U tf' d'); auto. now right.
      * apply A3; [apply in_declare; right; split; [exact I|exact Ne]|].
        intros tf' d' I' E' F. apply (U tf' d'); auto. now right.
    + intros U tf' d [<-|I] E.
      * assert (d = d0) as ->. { apply (U tf tf); auto; try now left. destruct E as (e1 & _ & ->). reflexivity. }
        apply A3; [apply in_declare; now left|]. intros tf' d' I' E' F.
        apply (U tf' tf); auto; [now right|now left].
      * apply (A4 ltac:(intros t1 t2 d1 d2 I1 I2; apply U; now right) tf' d I E).
Qed.

Lemma collectable f js : forall acc, (forall tf, In tf js -> exists e, gather f (fst tf) (snd tf) = Some e) ->
  exists l, fold_left (step f) js (Some acc) = Some l.
Proof.
  induction js as [|tf js IH]; intros acc H; [eexists; reflexivity|].
  cbn [fold_left]. unfold step at 2. destruct (H tf (or_introl eq_refl)) as [e ->]. apply IH. intros; apply H; now right.
Qed.

Lemma all_results_spec l vs : all_results l = Some vs <-> l = map Some vs.
Proof.
  revert vs. induction l as [|[v|] l IH]; intros vs; cbn [all_results].
  - split; [intros [= <-]; reflexivity|]. destruct vs; [reflexivity|discriminate].
  - destruct (all_results l) as [ws|] eqn:E; cbn [option_map].
    + split.
      * intros [= <-]. cbn. f_equal. now apply IH.
      * destruct vs as [|w vs]; [discriminate|]. cbn. intros [= -> H]. apply IH in H. congruence.
    + split; [discriminate|]. destruct vs as [|w vs]; [discriminate|]. cbn. intros [= -> H]. apply IH in H. discriminate.
  - split; [discriminate|]. destruct vs; discriminate.
Qed.

Lemma summary_true f tests : summary subject f tests = Some true <->
  forall k e ks x, In (k, (e, ks)) tests -> In x ks -> holds f e x.
Proof.
  unfold summary. set (L := flat_map _ tests).
  assert (IL : forall o, In o L <-> exists k e ks x, In (k, (e, ks)) tests /\ In x ks /\ o = apply_to f e x).
  { intros o. unfold L. rewrite in_flat_map. split.
    - intros ([k [e ks]] & I & J). cbn in J. apply in_map_iff in J. destruct J as (x & <- & J). eauto 10.
    - intros (k & e & ks & x & I & J & ->). eexists. split; [exact I|]. cbn. now apply in_map. }
  split.
  - intros H k e ks x I J. destruct (all_results L) as [vs|] eqn:A; [|discriminate]. cbn in H.
    injection H as H. apply all_results_spec in A. rewrite forallb_forall in H.
    assert (In (apply_to f e x) L) as K by (apply IL; eauto 10).
    rewrite A in K. apply in_map_iff in K. destruct K as (v & E & K). apply holds_spec. exists v. split; [now symmetry|auto].
  - intros H. assert (S : exists vs, L = map Some vs /\ forallb is_pass vs = true).
    { assert (P : forall o, In o L -> exists v, o = Some v /\ is_pass v = true).
      { intros o I. apply IL in I. destruct I as (k & e & ks & x & I & J & ->).
        apply holds_spec. eapply H; eauto. }
      clear -P. induction L as [|o L IH]; [exists []; auto|].
      destruct (P o (or_introl eq_refl)) as (v & -> & Pv).
      destruct IH as (vs & -> & F); [intros o I; apply P; now right|].
      exists (v :: vs). cbn. rewrite Pv, F. auto. }
    destruct S as (vs & E & F). apply all_results_spec in E. rewrite E. cbn. now rewrite F.
Qed.

Lemma app_inj_left (s a b : string) : (s ++ a)%string = (s ++ b)%string -> a = b.
Proof. induction s as [|c s IH]; cbn; [auto|]. intros [= H]. auto. Qed.

Lemma same_entry f tf tf' : distinct f -> In tf (jobs f) -> In tf' (jobs f) ->
  entry_name (fst tf) (snd tf) = entry_name (fst tf') (snd tf') -> tf = tf'.
Proof.
  intros (N & W & D) I I' E. destruct tf as [t x], tf' as [t' x']. apply jobs_runs in I, I'.
  cbn [fst snd] in E. pose proof I as R. pose proof I' as R'.
  destruct I as [[[It S] F]|(No & -> & F)], I' as [[[It' S'] F']|(No' & -> & F')].
  - assert (Nt : name t <> "") by (intros Z; apply W; rewrite <- Z; now apply in_map).
    assert (Nt' : name t' <> "") by (intros Z; apply W; rewrite <- Z; now apply in_map).
    unfold entry_name in E. apply String.eqb_neq in Nt, Nt'. rewrite Nt, Nt' in E.
    destruct (D t x t' x' R R' E) as [En ->]. f_equal.
    rewrite <- (named_spec f t N It), <- (named_spec f t' N It'), En. reflexivity.
  - exfalso. apply (No' t). split; assumption.
  - exfalso. apply (No t'). split; assumption.
  - f_equal. unfold entry_name in E. cbn [name whole String.eqb] in E.
    apply (app_inj_left ("default" ++ "-")%string). exact E.
Qed.

Theorem pass_spec f : distinct f -> (test_file evaluate reread subject f = Some true <-> passes evaluate reread subject f).
Proof.
  intros D. unfold test_file. change (gather_all f) with (fold_left (step f) (jobs f) (Some [])).
  split.
  - destruct (fold_left (step f) (jobs f) (Some [])) as [l|] eqn:G; [|discriminate].
    intros S. rewrite summary_true in S. destruct (collected f _ _ _ G) as (A1 & _ & _ & A4).
    intros t x R. pose proof R as I. apply jobs_runs in I.
    destruct (A1 _ I) as [d Ed]. pose proof Ed as (e & Ge & ->). cbn [fst snd] in *.
    pose proof (named_runs f t x D R) as Nm. exists e. split; [now apply gather_known|].
    intros k Wk. eapply S; [|apply wanted_spec; exact Wk].
    eapply A4; [|exact I|exact Ed].
    intros tf tf' d d' I1 I2 (e1 & G1 & ->) (e2 & G2 & ->) Eq. cbn [fst] in Eq.
    pose proof (same_entry f tf tf' D I1 I2 Eq) as ->. congruence.
  - intros P.
    assert (GG : forall tf, In tf (jobs f) -> exists e, gather f (fst tf) (snd tf) = Some e).
    { intros [t x] I. apply jobs_runs in I. destruct (P t x I) as (e & K & _). exists e.
      apply gather_known; [|exact K]. now apply named_runs with x. }
    destruct (collectable f (jobs f) [] GG) as [l G]. rewrite G. apply summary_true.
    intros k e ks x I J. destruct (collected f _ _ _ G) as (_ & A2 & _ & _).
    destruct (A2 _ I) as [[]|([t y] & I' & (e' & Ge & [= -> -> ->]))]. cbn [fst snd] in *.
    apply jobs_runs in I'. destruct (P t y I') as (e2 & K & H).
    apply gather_known in Ge; [|now apply named_runs with y].
    assert (e2 = e') as ->.
    { apply gather_known in K, Ge; try (now apply named_runs with y). congruence. }
    apply H. now apply wanted_spec.
Qed.

End Tests.

(** ** Sidecar files *)

Lemma is_blank_space c : is_blank c = true <-> space c.
Proof.
  unfold is_blank, space. cbn [In]. cbv zeta. rewrite orb_true_iff, andb_true_iff, N.eqb_eq, !N.leb_le. lia.
Qed.

Lemma not_space c : ~ space c -> is_blank c = false.
Proof. rewrite <- is_blank_space. destruct (is_blank c); congruence. Qed.

Lemma blank_cons c s : blank (String c s) <-> is_blank c = true /\ blank s.
Proof.
  rewrite is_blank_space. unfold blank. cbn [list_ascii_of_string In]. split.
  - intros H. split; [apply H; now left|]. intros d I. apply H. now right.
  - intros [H1 H2] d [<-|I]; auto.
Qed.

Lemma trim_left_blank b s : blank b -> trim_left (b ++ s) = trim_left s.
Proof.
  induction b as [|c b IH]; [reflexivity|]. intros H. apply blank_cons in H. destruct H as [C B].
  cbn. rewrite C. auto.
Qed.

Lemma trim_right_all b : blank b -> trim_right b = "".
Proof.
  induction b as [|c b IH]; [reflexivity|]. intros H. apply blank_cons in H. destruct H as [C B].
  cbn. rewrite IH, C; auto.
Qed.

Lemma trim_right_blank b s : blank b -> trim_right (s ++ b) = trim_right s.
Proof.
  intros B. induction s as [|c s IH]; [cbn; now apply trim_right_all|]. cbn. now rewrite IH.
Qed.

Lemma trim_right_solid r c : is_blank c = false -> trim_right (r ++ String c "") = (r ++ String c "")%string.
Proof.
  intros C. induction r as [|a r IH]; cbn; [now rewrite C|]. rewrite IH. destruct (r ++ String c "")%string eqn:E; [|reflexivity].
  destruct r; discriminate.
Qed.

Lemma app_assoc_s (a b c : string) : ((a ++ b) ++ c = a ++ (b ++ c))%string.
Proof. induction a as [|x a IH]; cbn; [reflexivity|now rewrite IH]. Qed.

Lemma trim_solid b s b' : blank b -> blank b' -> solid s -> trim (b ++ s ++ b') = s.
Proof.
  intros B B' [(c & r & Es & C) (r' & c' & Es' & C')]. apply not_space in C, C'. unfold trim. rewrite trim_left_blank by exact B.
  rewrite Es at 1. cbn [append trim_left]. rewrite C. change (String c (r ++ b')) with (String c r ++ b')%string.
  rewrite <- Es, trim_right_blank by exact B'. rewrite Es'. now apply trim_right_solid.
Qed.

Lemma trim_blank b : blank b -> trim b = "".
Proof.
  intros B. unfold trim. replace (trim_left b) with ""; [reflexivity|].
  induction b as [|c b IH]; [reflexivity|]. apply blank_cons in B. destruct B as [C B]. cbn. rewrite C. auto.
Qed.

Lemma strip_prefix_app p s : strip_prefix p (p ++ s) = Some s.
Proof. induction p as [|a p IH]; [destruct s; reflexivity|]. cbn. now rewrite Ascii.eqb_refl. Qed.

Lemma strip_last_app c r : strip_last c (r ++ String c "") = Some r.
Proof.
  induction r as [|a r IH]; cbn; [now rewrite Ascii.eqb_refl|]. rewrite IH.
  destruct (r ++ String c "")%string eqn:E; [destruct r; discriminate|]. reflexivity.
Qed.

Lemma solid_more c p s : ~ space c -> solid s -> solid (String c (p ++ s)).
Proof.
  intros C [_ (r & d & -> & D)]. split; [exists c, (p ++ r ++ String d "")%string; auto|].
  exists (String c (p ++ r)), d. split; [|exact D]. cbn. now rewrite app_assoc_s.
Qed.

Lemma unquote_quoted p : unquote (String DQUOTE p ++ String DQUOTE "") = p.
Proof.
  unfold unquote. change (String DQUOTE p ++ String DQUOTE "")%string
    with (String DQUOTE "" ++ (p ++ String DQUOTE ""))%string.
  now rewrite strip_prefix_app, strip_last_app.
Qed.

Lemma unquote_plain p : ~ starts (String DQUOTE "") p -> unquote p = p.
Proof.
  intros H. unfold unquote. destruct p as [|c p]; [reflexivity|]. cbn [strip_prefix].
  destruct (Ascii.eqb_spec DQUOTE c) as [<-|N]; [|reflexivity]. exfalso. apply H. now exists p.
Qed.

Section Sidecars.

Variable parse_i32 : string -> option Z.
Variable matches : string -> string -> option bool.

Notation line_says := (line_says parse_i32).
Notation parse_lines := (parse_lines parse_i32).

Definition note (acc : error_expectation) (i : item) : error_expectation :=
  match i with
  | Nothing => acc
  | WantExit z => mkError (Some z) (want_stderr acc)
  | WantStderr p => mkError (want_exit acc) (Some p)
  end.

Lemma parse_line l i acc r : line_says l i -> parse_lines acc (l :: r) = parse_lines (note acc i) r.
Proof.
  intros H. cbn [Model.parse_lines]. destruct H as [b B|b s B|b b' s b'' z B B' B'' S P|b b' p b'' B B' B''|b b' p b'' B B' B'' S Q].
  - now rewrite trim_blank.
  - unfold trim. rewrite trim_left_blank by exact B. cbn [append trim_left]. change (is_blank "#"%char) with false. cbv iota.
    cbn [trim_right]. destruct (trim_right s) as [|c s'] eqn:E; reflexivity.
  - replace (b ++ "exit:" ++ b' ++ s ++ b'')%string with (b ++ ("exit:" ++ b' ++ s) ++ b'')%string
      by (rewrite !app_assoc_s; reflexivity).
    rewrite trim_solid; [|exact B|exact B''|exact (solid_more "e"%char ("xit:" ++ b') s ltac:(unfold space; cbn; intuition discriminate) S)].
    rewrite strip_prefix_app.
    replace (trim (b' ++ s)) with s.
    + rewrite P. reflexivity.
    + symmetry. transitivity (trim (b' ++ s ++ "")); [|apply trim_solid; auto; intros ? []].
      f_equal. f_equal. clear. induction s as [|c s IH]; cbn; congruence.
  - assert (Sq : solid (String DQUOTE p ++ String DQUOTE "")).
    { assert (D : ~ space DQUOTE) by (unfold space; cbn; intuition discriminate).
      split; [exists DQUOTE, (p ++ String DQUOTE "")%string; auto|]. now exists (String DQUOTE p), DQUOTE. }
    remember (String DQUOTE p ++ String DQUOTE "")%string as q eqn:Eq.
    replace (b ++ "stderr:" ++ b' ++ String DQUOTE p ++ String DQUOTE b'')%string with (b ++ ("stderr:" ++ b' ++ q) ++ b'')%string
      by (subst q; rewrite !app_assoc_s; reflexivity).
    rewrite trim_solid; [|exact B|exact B''|exact (solid_more "s"%char ("tderr:" ++ b') q ltac:(unfold space; cbn; intuition discriminate) Sq)].
    change (strip_prefix "exit:" ("stderr:" ++ b' ++ q)) with (@None string). cbv iota.
    rewrite strip_prefix_app.
    replace (trim (b' ++ q)) with q.
    + rewrite Eq, unquote_quoted. reflexivity.
    + symmetry. transitivity (trim (b' ++ q ++ "")); [|apply trim_solid; auto; intros ? []].
      f_equal. f_equal. clear. induction q as [|c s IH]; cbn; congruence.
  - replace (b ++ "stderr:" ++ b' ++ p ++ b'')%string with (b ++ ("stderr:" ++ b' ++ p) ++ b'')%string
      by (rewrite !app_assoc_s; reflexivity).
    rewrite trim_solid; [|exact B|exact B''|exact (solid_more "s"%char ("tderr:" ++ b') p ltac:(unfold space; cbn; intuition discriminate) S)].
    change (strip_prefix "exit:" ("stderr:" ++ b' ++ p)) with (@None string). cbv iota.
    rewrite strip_prefix_app.
    replace (trim (b' ++ p)) with p.
    + now rewrite unquote_plain.
    + symmetry. transitivity (trim (b' ++ p ++ "")); [|apply trim_solid; auto; intros ? []].
      f_equal. f_equal. clear. induction p as [|c s IH]; cbn; congruence.
Qed.

(** A bad exit code anywhere makes the file unreadable. *)
Lemma parse_bad ls b b' s b'' : blank b -> blank b' -> blank b'' -> solid s -> parse_i32 s = None ->
  In (b ++ "exit:" ++ b' ++ s ++ b'')%string ls -> forall acc, parse_lines acc ls = None.
Proof.
  intros B B' B'' S P. induction ls as [|l ls IH]; [intros []|]. intros I acc. cbn [Model.parse_lines].
  destruct I as [->|I].
  - replace (b ++ "exit:" ++ b' ++ s ++ b'')%string with (b ++ ("exit:" ++ b' ++ s) ++ b'')%string
      by (rewrite !app_assoc_s; reflexivity).
    rewrite trim_solid; [|exact B|exact B''|exact (solid_more "e"%char ("xit:" ++ b') s ltac:(unfold space; cbn; intuition discriminate) S)].
    rewrite strip_prefix_app.
    replace (trim (b' ++ s)) with s; [now rewrite P|].
    symmetry. transitivity (trim (b' ++ s ++ "")); [|apply trim_solid; auto; intros ? []].
    f_equal. f_equal. clear. induction s as [|c s IH]; cbn; congruence.
  - specialize (IH I). destruct (String.eqb (trim l) "" || String.prefix "#" (trim l)); [apply IH|].
    destruct (strip_prefix "exit:" (trim l)) as [v|]; [destruct (parse_i32 (trim v)); [apply IH|reflexivity]|].
    destruct (strip_prefix "stderr:" (trim l)); apply IH.
Qed.

Lemma parse_all ls items : Forall2 line_says ls items -> forall acc,
  parse_lines acc ls = parse_lines (fold_left note items acc) [].
Proof.
  induction 1 as [|l i ls items H _ IH]; intros acc; [reflexivity|]. rewrite (parse_line l i acc ls H), IH. reflexivity.
Qed.

Lemma note_exit items : forall acc, (forall z, ~ In (WantExit z) items) -> want_exit (fold_left note items acc) = want_exit acc.
Proof.
  induction items as [|i items IH]; intros acc H; [reflexivity|]. cbn [fold_left]. rewrite IH.
  - destruct i; cbn; try reflexivity. exfalso. apply (H z). now left.
  - intros z I. apply (H z). now right.
Qed.

Lemma note_stderr items : forall acc, (forall z, ~ In (WantStderr z) items) -> want_stderr (fold_left note items acc) = want_stderr acc.
Proof.
  induction items as [|i items IH]; intros acc H; [reflexivity|]. cbn [fold_left]. rewrite IH.
  - destruct i; cbn; try reflexivity. exfalso. apply (H p). now left.
  - intros z I. apply (H z). now right.
Qed.

Lemma noted items x p : last_exit items x -> last_stderr items p ->
  fold_left note items (mkError None None) = mkError x p.
Proof.
  intros X P. destruct (fold_left note items (mkError None None)) as [x' p'] eqn:E.
  assert (Ex : want_exit (mkError x' p') = x).
  { rewrite <- E. destruct X as [items N|b z a N]; [now rewrite note_exit|].
    rewrite fold_left_app. cbn [fold_left]. now rewrite note_exit. }
  assert (Ep : want_stderr (mkError x' p') = p).
  { rewrite <- E. destruct P as [items N|b z a N]; [now rewrite note_stderr|].
    rewrite fold_left_app. cbn [fold_left]. now rewrite note_stderr. }
  cbn in Ex, Ep. now subst.
Qed.

Theorem error_spec ls items x p code err :
  Forall2 line_says ls items -> last_exit items x -> last_stderr items p ->
  error_test parse_i32 matches (Some ls) code err =
    match x, p with
    | None, None => Error
    | _, _ => if validate matches (mkError x p) code err then Exit 0 else Exit 1
    end.
Proof.
  intros F X P. unfold error_test, parse. rewrite (parse_all _ _ F), (noted _ _ _ X P). cbn [Model.parse_lines].
  destruct x, p; reflexivity.
Qed.

Lemma validate_spec x p code err : validate matches (mkError x p) code err = true <->
  (forall z, x = Some z -> code = z) /\ (forall q, p = Some q -> matches q err = Some true).
Proof.
  unfold validate. cbn [want_exit want_stderr]. rewrite andb_true_iff. split.
  - intros [H1 H2]. split.
    + intros z ->. now apply Z.eqb_eq.
    + intros q ->. destruct (matches q err) as [[]|]; congruence.
  - intros [H1 H2]. split.
    + destruct x as [z|]; [|reflexivity]. apply Z.eqb_eq. now apply H1.
    + destruct p as [q|]; [|reflexivity]. now rewrite (H2 q eq_refl).
Qed.

End Sidecars.
