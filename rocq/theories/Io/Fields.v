(** * From fields to processes *)
From Coq Require Import String List NArith ZArith Bool Ascii Lia.
From Verif.Io Require Import Model Spec Proofs.
Import ListNotations.
Open Scope string_scope.
Open Scope list_scope.


Lemma split_not_nil : forall s, exists x xs, split s = x :: xs.
Proof.
  induction s as [ | c s (x & xs & IH)]; cbn; [eauto | ].
  destruct (Ascii.eqb c nul); [eauto | ]. rewrite IH. eauto.
Qed.

Lemma split_app : forall x rest, no_nul x -> split (x ++ String nul rest)%string = x :: split rest.
Proof.
  induction x as [ | c x IH]; intros rest H; cbn; [reflexivity | ].
  assert (no_nul x) as H' by (intros I; apply H; right; exact I).
  destruct (Ascii.eqb_spec c nul) as [-> | N]; [exfalso; apply H; left; reflexivity | ].
  rewrite (IH rest H'). reflexivity.
Qed.

Lemma split_one : forall x, no_nul x -> split x = [x].
Proof.
  induction x as [ | c x IH]; intros H; cbn; [reflexivity | ].
  assert (no_nul x) as H' by (intros I; apply H; right; exact I).
  destruct (Ascii.eqb_spec c nul) as [-> | N]; [exfalso; apply H; left; reflexivity | ].
  rewrite (IH H'). reflexivity.
Qed.

Lemma split_concat : forall ts, ts <> [] -> Forall no_nul ts -> split (String.concat (String nul "") ts) = ts.
Proof.
  induction ts as [ | x [ | y r] IH]; intros N H; [contradiction | | ].
  - apply split_one. inversion H. assumption.
  - inversion H as [ | ? ? Hx Hr]; subst.
    change (String.concat (String nul "") (x :: y :: r)) with (x ++ String nul (String.concat (String nul "") (y :: r)))%string.
    rewrite split_app by exact Hx. rewrite IH by (discriminate || assumption). reflexivity.
Qed.

Lemma concat_empty : forall ts, String.concat (String nul "") ts = "" -> ts = [] \/ ts = [""].
Proof.
  intros [ | x [ | y r]] H; [auto | cbn in H; subst; auto | ].
  cbn in H. destruct x; discriminate.
Qed.

Lemma all_forced_written : forall ds ts, Forall2 written ds ts -> all_forced ds = Some ds.
Proof.
  intros ds ts H. induction H as [ | d t ds ts W H IH]; cbn; [reflexivity | ].
  rewrite IH. destruct W; reflexivity.
Qed.
Lemma texts_written : forall ds ts, Forall2 written ds ts -> texts ds = ts.
Proof.
  intros ds ts H. induction H as [ | d t ds ts W H IH]; [reflexivity | ].
  unfold texts in *. cbn. rewrite IH. destruct W; reflexivity.
Qed.

Lemma evaluated_elements : forall s, evaluated s -> list_element_values s = elements s.
Proof. induction s as [ | d s IH | s IH]; cbn; intros H; [reflexivity | rewrite IH by exact H; reflexivity | contradiction]. Qed.
Lemma evaluated_fixed : forall s, evaluated s -> evaluate_spine s = s.
Proof. destruct s; cbn; intros H; [reflexivity | reflexivity | contradiction]. Qed.

Lemma rendered_args : forall args ts, evaluated args -> Forall2 written (elements args) ts ->
  rendered (DList args) = Some (match ts with [] => None | _ => Some (String.concat (String nul "") ts) end).
Proof.
  intros args ts E H. unfold rendered. cbn [force]. rewrite evaluated_fixed by exact E.
  rewrite evaluated_elements by exact E. rewrite (all_forced_written _ ts H), (texts_written _ ts H).
  destruct ts; reflexivity.
Qed.

Definition args_of (ts : list string) : option string :=
  match ts with [] => None | _ => Some (String.concat (String nul "") ts) end.
Lemma args_back : forall ts, Forall no_nul ts -> ts <> [""] ->
  match args_of ts with Some s => split_nul_args s | None => [] end = ts.
Proof.
  intros ts H N. unfold args_of. destruct ts as [ | t ts]; [reflexivity | ].
  unfold split_nul_args.
  destruct (String.eqb_spec (String.concat (String nul "") (t :: ts)) "") as [E | E].
  - apply concat_empty in E. destruct E as [E | E]; [discriminate | contradiction].
  - apply split_concat; [discriminate | exact H].
Qed.

(** ** Numbers *)

Lemma digits_value_spec : forall s acc,
  Forall (fun c => List.In c (list_ascii_of_string "0123456789")) (list_ascii_of_string s) ->
  (fold_left (fun acc c => (10 * acc + digit_of c)%N) (list_ascii_of_string s) acc < 18446744073709551616)%N ->
  digits_value acc s = Some (fold_left (fun acc c => (10 * acc + digit_of c)%N) (list_ascii_of_string s) acc).
Proof.
  induction s as [ | c s IH]; intros acc F L; [reflexivity | ].
  cbn [list_ascii_of_string fold_left digits_value] in *.
  inversion F as [ | ? ? Fc Fs]; subst.
  assert (forall l a, (a <= fold_left (fun acc c => (10 * acc + digit_of c)%N) l a)%N) as Mono.
  { induction l as [ | x l IHl]; intros a; cbn [fold_left]; [lia | ]. specialize (IHl (10 * a + digit_of x)%N). lia. }
  pose proof (Mono (list_ascii_of_string s) (10 * acc + digit_of c)%N) as M.
  assert (((48 <=? N_of_ascii c) && (N_of_ascii c <=? 57))%N = true) as D.
  { cbn in Fc. repeat (destruct Fc as [<- | Fc]; [reflexivity | ]). contradiction. }
  rewrite D. replace (acc * 10 + (N_of_ascii c - 48))%N with (10 * acc + digit_of c)%N by (unfold digit_of; lia).
  destruct (N.ltb_spec (10 * acc + digit_of c) 18446744073709551616) as [B | B]; [ | lia].
  apply IH; assumption.
Qed.

Lemma parse_digits : forall s, all_digits s -> (decimal s < 2 ^ 64)%N -> parse_u64 s = Some (decimal s).
Proof.
  intros [ | c s] [N F] L; [contradiction | ].
  change (2 ^ 64)%N with 18446744073709551616%N in L.
  pose proof (digits_value_spec (String c s) 0 F L) as D. unfold decimal. rewrite <- D.
  inversion F as [ | ? ? Fc Fs]; subst. cbn in Fc.
  repeat (destruct Fc as [<- | Fc]; [reflexivity | ]). contradiction.
Qed.

(** ** Processes *)

Section Processes.
Variable os : list launch -> reply.
Variable show : Z -> string.

Lemma run_command_starts : forall w l, exists r w',
  starts os show w l r w' /\
  match run_command os w l with
  | (Ok o, w1) => r = Ok (build_io_result_block show o) /\ w1 = w'
  | (Err e, w1) => r = Err e /\ w1 = w'
  end.
Proof.
  intros w l. unfold run_command, starts.
  destruct (os (log w ++ [l])) as [c m | ie e].
  - destruct c; do 2 eexists; (split; [ | split; reflexivity]); exists false; (split; [constructor | reflexivity]).
  - destruct (input l) as [i | ] eqn:I.
    + destruct ie as [m | ].
      * do 2 eexists. split; [ | split; reflexivity]. exists true. split; [econstructor; exact I | reflexivity].
      * destruct e as [o x [c | ] | m | ]; do 2 eexists; (split; [ | split; reflexivity]);
          first [ exists false; split; [constructor; right; reflexivity | reflexivity]
                | exists true; split; [constructor; right; reflexivity | reflexivity] ].
    + assert (forall A (x y : A), match ie with Some _ => x | None => x end = x) as K by (intros; destruct ie; reflexivity).
      destruct e as [o x [c | ] | m | ]; do 2 eexists; (split; [ | destruct ie; split; reflexivity]);
          first [ exists false; split; [constructor; left; assumption | reflexivity]
                | exists true; split; [constructor; left; assumption | reflexivity] ].
Qed.

Lemma action_starts : forall tag fields fs spec l w s,
  all_rendered fields = Some fs ->
  action_spec_from_fields tag fs = Ok spec ->
  run_spec os w spec = run_command os w l ->
  exists r w' s', io_run os show true 2 w s (Action tag fields) = Some (r, w', s') /\ starts os show w l r w'.
Proof.
  intros tag fields fs spec l w s R P Q.
  pose proof (evaluate_spec tag fields (EWorld :: s)) as F. rewrite R, P in F.
  destruct (run_command_starts w l) as (r & w' & S & H). rewrite <- Q in H.
  exists r, w'. cbn [io_run negb]. rewrite F.
  destruct (run_spec os w spec) as [[o | e] w1]; destruct H as [-> ->]; eexists; (split; [reflexivity | exact S]).
Qed.

Lemma input_text : forall opts i, asks_input opts i -> i <> Some "null" ->
  exists t, rendered (lookup_or "stdin" DNull opts) = Some (Some t)
    /\ (if String.eqb t "" || String.eqb t "null" then None else Some t) = i.
Proof.
  intros opts i H N. unfold lookup_or.
  destruct H as [H | s H E]; unfold option_of in H;
    destruct (find (fun e => String.eqb "stdin" (fst e)) opts) as [[k v] | ]; try discriminate.
  - exists "". split; reflexivity.
  - injection H as ->. exists s. split; [reflexivity | ].
    destruct (String.eqb_spec s ""); [contradiction | ].
    destruct (String.eqb_spec s "null") as [-> | ]; [exfalso; apply N; reflexivity | reflexivity].
Qed.

Lemma limit_text : forall opts t, asks_limit opts t ->
  exists s, rendered (lookup_or "timeout" (DNum "30") opts) = Some (Some s) /\ parse_u64 s = Some t.
Proof.
  intros opts t H. unfold lookup_or.
  destruct H as [H | s H A L]; unfold option_of in H;
    destruct (find (fun e => String.eqb "timeout" (fst e)) opts) as [[k v] | ]; try discriminate.
  - exists "30". split; reflexivity.
  - injection H as ->. exists s. split; [reflexivity | ]. apply parse_digits; assumption.
Qed.

Lemma exec_with_starts : forall visible opts c args ts i t w s,
  evaluated args -> Forall2 written (elements args) ts -> Forall no_nul ts -> ts <> [""] ->
  asks_input opts i -> i <> Some "null" -> asks_limit opts t ->
  exists r w' s', io_run os show true 2 w s (exec_with visible opts (DStr c) args) = Some (r, w', s')
    /\ starts os show w (Launch c ts i t) r w'.
Proof.
  intros visible opts c args ts i t w s E A F N I NI L.
  destruct (input_text opts i I NI) as (it & RI & EI).
  destruct (limit_text opts t L) as (lt & RL & EL).
  apply action_starts with (fs := [("cmd", Some c); ("args", args_of ts); ("timeout", Some lt); ("stdin", Some it)])
    (spec := Exec c ts i t).
  - cbn [all_rendered]. rewrite (rendered_args args ts E A), RI, RL. reflexivity.
  - unfold action_spec_from_fields. cbn [get2 get String.eqb Ascii.eqb Bool.eqb]. unfold get2.
    cbn [get String.eqb Ascii.eqb Bool.eqb]. rewrite EL, EI.
    assert ((match (if visible then Some "io-exec" else None) with Some x => Some x
             | None => infer_action_tag [("cmd", Some c); ("args", args_of ts); ("timeout", Some lt); ("stdin", Some it)] end)
            = Some "io-exec") as -> by (destruct visible; reflexivity).
    cbn [String.eqb Ascii.eqb Bool.eqb]. pose proof (args_back ts F N) as B.
    destruct (args_of ts); rewrite B; reflexivity.
  - reflexivity.
Qed.

Lemma exec_starts : forall visible c args ts w s,
  evaluated args -> Forall2 written (elements args) ts -> Forall no_nul ts -> ts <> [""] ->
  exists r w' s', io_run os show true 2 w s (exec visible (DStr c) args) = Some (r, w', s')
    /\ starts os show w (Launch c ts None 30) r w'.
Proof.
  intros visible c args ts w s E A F N.
  apply action_starts with (fs := [("cmd", Some c); ("args", args_of ts); ("timeout", Some "30")])
    (spec := Exec c ts None 30).
  - cbn [all_rendered]. rewrite (rendered_args args ts E A). reflexivity.
  - unfold action_spec_from_fields, get2. cbn [get String.eqb Ascii.eqb Bool.eqb].
    assert ((match (if visible then Some "io-exec" else None) with Some x => Some x
             | None => infer_action_tag [("cmd", Some c); ("args", args_of ts); ("timeout", Some "30")] end)
            = Some "io-exec") as -> by (destruct visible; reflexivity).
    cbn [String.eqb Ascii.eqb Bool.eqb]. pose proof (args_back ts F N) as B.
    destruct (args_of ts); rewrite B; reflexivity.
  - reflexivity.
Qed.

Lemma shell_with_starts : forall visible opts c i t w s,
  asks_input opts i -> i <> Some "null" -> asks_limit opts t ->
  exists r w' s', io_run os show true 2 w s (shell_with visible opts (DStr c)) = Some (r, w', s')
    /\ starts os show w (Launch "sh" ["-c"; c] i t) r w'.
Proof.
  intros visible opts c i t w s I NI L.
  destruct (input_text opts i I NI) as (it & RI & EI).
  destruct (limit_text opts t L) as (lt & RL & EL).
  apply action_starts with (fs := [("cmd", Some c); ("timeout", Some lt); ("stdin", Some it)]) (spec := Shell c i t).
  - cbn [all_rendered]. rewrite RI, RL. reflexivity.
  - unfold action_spec_from_fields, get2. cbn [get String.eqb Ascii.eqb Bool.eqb]. rewrite EL, EI.
    destruct visible; reflexivity.
  - reflexivity.
Qed.

Lemma shell_starts : forall visible c w s,
  exists r w' s', io_run os show true 2 w s (shell visible (DStr c)) = Some (r, w', s')
    /\ starts os show w (Launch "sh" ["-c"; c] None 30) r w'.
Proof.
  intros visible c w s.
  apply action_starts with (fs := [("cmd", Some c); ("timeout", Some "30")]) (spec := Shell c None 30).
  - reflexivity.
  - destruct visible; reflexivity.
  - reflexivity.
Qed.

End Processes.
