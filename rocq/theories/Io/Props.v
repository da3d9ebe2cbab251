(** * C101, C102, C103: IO programs, their processes, and checking them *)
From Coq Require Import String List NArith ZArith Bool Ascii Lia.
From Verif.Io Require Import Model Spec Proofs Fields.
Import ListNotations.
Open Scope string_scope.
Open Scope list_scope.

(** ** C101: IO programs do what they say, in order *)

(** The driver ends with a result exactly if the program gives it, having done to the world exactly
    what the program does: a bind's action first, then its continuation on the value; nothing after
    a failure. *)
Theorem C101_run : forall os show allow w p r w',
  (exists n s', io_run os show allow n w [] p = Some (r, w', s'))
  <-> performs (acts os show allow) w p r w'.
Proof.
  intros. split.
  - intros (n & s' & H). apply run_sound in H. apply H.
  - intros H. apply run_complete. exact H.
Qed.

(** A program gives one result, and does one thing to the world. *)
Theorem C101_deterministic : forall os show allow w p r1 w1 r2 w2,
  performs (acts os show allow) w p r1 w1 -> performs (acts os show allow) w p r2 w2 -> r1 = r2 /\ w1 = w2.
Proof.
  intros os show allow w p r1 w1 r2 w2 H1 H2.
  destruct (run_complete _ _ _ _ _ _ _ H1 []) as (n1 & s1 & E1).
  destruct (run_complete _ _ _ _ _ _ _ H2 []) as (n2 & s2 & E2).
  apply (run_more _ _ _ _ (Nat.max n1 n2)) in E1; [ | lia].
  apply (run_more _ _ _ _ (Nat.max n1 n2)) in E2; [ | lia].
  rewrite E1 in E2. injection E2 as -> -> _. auto.
Qed.

(** What is protected for the collector is given back. *)
Theorem C101_stash : forall os show allow n w s p v w' s',
  io_run os show allow n w s p = Some (Ok v, w', s') -> s' = s.
Proof. intros. apply run_sound in H. destruct H as [_ H]. exact (H v eq_refl). Qed.

(** Without permission nothing is started, whatever the program. *)
Theorem C101_not_allowed : forall os show n w s p r w' s',
  io_run os show false n w s p = Some (r, w', s') -> w' = w.
Proof.
  intros os show n w s p r w' s' H. apply run_sound in H. destruct H as [H _].
  remember (acts os show false) as act eqn:A.
  induction H as [ | w tag fields r w' H | | | | w a k v w1 r w2 D1 I1 D2 I2 | w a k e w1 D1 I1]; try reflexivity.
  - subst act. inversion H; subst; reflexivity || discriminate.
  - rewrite I2. exact I1.
  - exact I1.
Qed.

(** Nothing that was started is forgotten. *)
Theorem C101_log : forall os show allow n w s p r w' s',
  io_run os show allow n w s p = Some (r, w', s') -> exists more, log w' = log w ++ more.
Proof.
  intros os show allow n w s p r w' s' H. apply run_sound in H. destruct H as [H _].
  assert (forall w l, log (snd (run_command os w l)) = log w ++ [l]) as L.
  { intros w0 l. unfold run_command. destruct (os (log w0 ++ [l])) as [c m | ie e]; [reflexivity | ].
    destruct (input l), ie, e; reflexivity. }
  assert (forall w sp, exists more, log (snd (run_spec os w sp)) = log w ++ more) as R
    by (intros w0 [c i t | c a i t]; cbn [run_spec]; rewrite L; eexists; reflexivity).
  remember (acts os show allow) as act eqn:A.
  induction H as [w v | w tag fields r w' H | w d | w | w | w a k v w1 r w2 D1 I1 D2 I2 | w a k e w1 D1 I1];
    try (exists []; rewrite app_nil_r; reflexivity).
  - subst act. destruct H as [A | A F | fs e A F P | fs spec o w' A F P Q | fs spec e w' A F P Q];
      try (exists []; rewrite app_nil_r; reflexivity);
      destruct (R w spec) as [more H]; rewrite Q in H; eauto.
  - destruct I1 as [m1 E1]. destruct I2 as [m2 E2]. exists (m1 ++ m2). rewrite E2, E1, app_assoc. reflexivity.
  - exact I1.
Qed.

(** The same programs, whichever way they are put together. *)
Definition same (os : list launch -> reply) (show : Z -> string) (allow : bool) (p q : prog) : Prop :=
  forall w r w',
    (exists n s', io_run os show allow n w [] p = Some (r, w', s'))
    <-> (exists n s', io_run os show allow n w [] q = Some (r, w', s')).

Theorem C101_laws : forall os show allow,
  (forall v k, same os show allow (Bind (Return v) k) (k v))
  /\ (forall p, same os show allow (Bind p Return) p)
  /\ (forall p f g, same os show allow (Bind (Bind p f) g) (Bind p (fun v => Bind (f v) g))).
Proof.
  intros. split; [ | split]; intros; intros w r w'; rewrite !C101_run.
  - apply left_identity.
  - apply right_identity.
  - apply associativity.
Qed.

(** io.map and io.then. *)
Theorem C101_map : forall act w f p r w',
  performs act w (io_map f p) r w' <->
  exists r0, performs act w p r0 w' /\ r = match r0 with Ok v => Ok (f v) | Err e => Err e end.
Proof.
  intros. unfold io_map. rewrite does_bind. split.
  - intros [(v & w1 & A & B) | (e & -> & A)].
    + apply does_return in B. destruct B as [-> ->]. exists (Ok v). auto.
    + exists (Err e). auto.
  - intros ([v | e] & A & ->); [left | right; eauto]. exists v, w'. split; [exact A | constructor].
Qed.

Theorem C101_then : forall act w a b r w',
  performs act w (then_ b a) r w' <->
  (exists v w1, performs act w a (Ok v) w1 /\ performs act w1 b r w')
  \/ (exists e, r = Err e /\ performs act w a (Err e) w').
Proof. intros. unfold then_. apply does_bind. Qed.

(** io.sequence and io.map-m perform the programs in the order of the list, each once, up to the
    first that fails, and give the list of their values. *)
Theorem C101_sequence : forall act w ms w',
  (forall d, performs act w (sequence ms) (Ok d) w' -> exists s, d = DList s /\ in_turn act w ms (Ok (elements s)) w')
  /\ (forall vs, in_turn act w ms (Ok vs) w' -> exists s, elements s = vs /\ performs act w (sequence ms) (Ok (DList s)) w')
  /\ (forall e, performs act w (sequence ms) (Err e) w' <-> in_turn act w ms (Err e) w').
Proof.
  intros. split; [ | split; [ | split]].
  - intros d H. apply (does_sequence_forth act) in H. exact H.
  - intros vs H. apply (does_sequence_back act) in H. exact H.
  - intros H. apply (does_sequence_forth act) in H. exact H.
  - intros H. apply (does_sequence_back act) in H. exact H.
Qed.

Theorem C101_map_m : forall act w f xs w',
  (forall d, performs act w (map_m f xs) (Ok d) w' -> exists s, d = DList s /\ in_turn act w (map f xs) (Ok (elements s)) w')
  /\ (forall vs, in_turn act w (map f xs) (Ok vs) w' -> exists s, elements s = vs /\ performs act w (map_m f xs) (Ok (DList s)) w')
  /\ (forall e, performs act w (map_m f xs) (Err e) w' <-> in_turn act w (map f xs) (Err e) w').
Proof. intros. apply C101_sequence. Qed.

(** io.filter-m asks about every element in order and keeps those with the answer true. *)
Theorem C101_filter_m : forall act w p xs w',
  (forall bs, in_turn act w (map p xs) (Ok (map DBool bs)) w' ->
     exists s, elements s = map fst (filter snd (combine xs bs)) /\ performs act w (filter_m p xs) (Ok (DList s)) w')
  /\ (forall e, performs act w (filter_m p xs) (Err e) w' <-> in_turn act w (map p xs) (Err e) w').
Proof.
  intros act w p xs. revert w. induction xs as [ | x xs IH]; intros w w'.
  - split; [ | split]; cbn.
    + intros bs H. inversion H; subst. exists Nil. split; [reflexivity | constructor].
    + intros H. apply does_return in H. destruct H; discriminate.
    + intros H. inversion H.
  - split; [ | split].
    + intros [ | b bs] H; cbn in H; inversion H; subst.
      match goal with I : in_turn _ _ _ (Ok (map DBool bs)) _ |- _ => apply (proj1 (IH _ _)) in I; destruct I as (s & Es & I) end.
      destruct b; [exists (Cons x s) | exists s]; cbn; rewrite Es; (split; [reflexivity | ]);
        (eapply p_bind; [eassumption | ]); (eapply p_bind; [match goal with J : performs _ _ (filter_m _ _) _ _ |- _ => exact J end | ]); constructor.
    + intros H. cbn in H. apply does_bind in H. destruct H as [(v & w1 & A & B) | (e' & E & A)].
      * apply does_bind in B. destruct B as [(r & w2 & B & C) | (e' & E & B)].
        -- apply does_return in C. destruct C; discriminate.
        -- injection E as <-. eapply t_later; [exact A | ]. apply (proj2 (IH _ _)). exact B.
      * injection E as <-. apply t_stop. exact A.
    + intros H. cbn in H. inversion H; subst.
      * eapply p_bind; [eassumption | ]. apply p_stop. apply (proj2 (IH _ _)). assumption.
      * apply p_stop. assumption.
Qed.

(** Two commands, the second made from what the first gave. *)
Definition echo (h : list launch) : reply :=
  match rev h with
  | Launch p a _ _ :: _ => Started None (Ended (String.concat " " (p :: a)) "" (Some 0%Z))
  | [] => NotStarted NotFound ""
  end.
Definition show_zero (z : Z) : string := if Z.eqb z 0 then "0" else "?".
Example C101_example :
  io_run echo show_zero true 9 (World [] []) []
    (Bind (exec true (DStr "date") Nil) (fun r => exec_with false [] (DStr "ls") (Cons (field "stdout" r) Nil)))
  = Some (Ok (block show_zero "ls date" "" 0), World [Launch "date" [] None 30; Launch "ls" ["date"] None 30] [], []).
Proof. reflexivity. Qed.
Example C101_sequence_example :
  in_turn (acts echo show_zero true) (World [] []) [Return (DStr "a"); shell true (DStr "b"); Return DNull]
    (Ok [DStr "a"; block show_zero "sh -c b" "" 0; DNull]) (World [Launch "sh" ["-c"; "b"] None 30] []).
Proof.
  eapply t_next; [constructor | ]. eapply t_next; [ | eapply t_next; [constructor | constructor] ].
  apply p_action. change 0%Z with (exit_code (Output "sh -c b" "" 0)).
  eapply (a_ran _ _ _ _ _ _ _ _ (Output "sh -c b" "" 0)); reflexivity.
Qed.

(** ** C102: the process that is started is the one asked for *)

(** The text of a command, its arguments, input and time reach the process as they were given, and
    what the process comes to is the result.  Missing: arguments that are the empty text alone, or
    contain NUL, are lists or blocks, or stand in a part of the list not evaluated yet; the input
    "null"; times that are not whole numbers.  See the refutations below. *)
Theorem C102_exec_partial : forall os show visible c args ts w s,
  evaluated args -> Forall2 written (elements args) ts -> Forall no_nul ts -> ts <> [""] ->
  exists r w' s', io_run os show true 2 w s (exec visible (DStr c) args) = Some (r, w', s')
    /\ starts os show w (Launch c ts None 30) r w'.
Proof. exact exec_starts. Qed.

Theorem C102_exec_with_partial : forall os show visible opts c args ts i t w s,
  evaluated args -> Forall2 written (elements args) ts -> Forall no_nul ts -> ts <> [""] ->
  asks_input opts i -> i <> Some "null" -> asks_limit opts t ->
  exists r w' s', io_run os show true 2 w s (exec_with visible opts (DStr c) args) = Some (r, w', s')
    /\ starts os show w (Launch c ts i t) r w'.
Proof. exact exec_with_starts. Qed.

Theorem C102_shell : forall os show visible c w s,
  exists r w' s', io_run os show true 2 w s (shell visible (DStr c)) = Some (r, w', s')
    /\ starts os show w (Launch "sh" ["-c"; c] None 30) r w'.
Proof. exact shell_starts. Qed.

Theorem C102_shell_with_partial : forall os show visible opts c i t w s,
  asks_input opts i -> i <> Some "null" -> asks_limit opts t ->
  exists r w' s', io_run os show true 2 w s (shell_with visible opts (DStr c)) = Some (r, w', s')
    /\ starts os show w (Launch "sh" ["-c"; c] i t) r w'.
Proof. exact shell_with_starts. Qed.

(** Whether the tag of an action can be seen makes no difference. *)
Theorem C102_tags : forall os show allow n w s c opts args,
  io_run os show allow n w s (shell true c) = io_run os show allow n w s (shell false c)
  /\ io_run os show allow n w s (shell_with true opts c) = io_run os show allow n w s (shell_with false opts c)
  /\ io_run os show allow n w s (exec true c args) = io_run os show allow n w s (exec false c args)
  /\ io_run os show allow n w s (exec_with true opts c args) = io_run os show allow n w s (exec_with false opts c args)
  /\ io_run os show allow n w s (fail true c) = io_run os show allow n w s (fail false c).
Proof.
  intros.
  assert (forall t fields, (forall fs, all_rendered fields = Some fs ->
            action_spec_from_fields (Some t) fs = action_spec_from_fields None fs) ->
          io_run os show allow n w s (Action (Some t) fields) = io_run os show allow n w s (Action None fields)) as K.
  { intros t fields H. destruct n as [ | n]; [reflexivity | ]. cbn [io_run].
    destruct (negb allow); [reflexivity | ].
    unfold evaluate_spec_block. pose proof (render_fields_spec fields (EWorld :: s) []) as F.
    destruct (all_rendered fields) as [fs | ].
    - rewrite F, (H (([] : list (string * option string)) ++ fs) eq_refl). reflexivity.
    - destruct F as [s' F]. rewrite F. reflexivity. }
  repeat match goal with |- _ /\ _ => split end; apply K; intros fs; cbn [all_rendered];
    repeat match goal with
      | |- context [rendered ?d] => destruct (rendered d); [ | discriminate]
      end; intros H; injection H as <-; reflexivity.
Qed.

(** Arguments: the empty text alone is lost. *)
Theorem C102_empty_argument_refuted : ~ forall os show c ts w s,
  Forall no_nul ts ->
  exists r w' s', io_run os show true 2 w s (exec true (DStr c) (fold_right Cons Nil (map DStr ts))) = Some (r, w', s')
    /\ log w' = log w ++ [Launch c ts None 30].
Proof.
  intros H. destruct (H echo show_zero "f" [""] (World [] []) []) as (r & w' & s' & R & L).
  - constructor; [intros [] | constructor].
  - vm_compute in R. injection R as <- <- <-. discriminate.
Qed.

(** The rest of a list that is still to be computed is lost. *)
Theorem C102_computed_arguments_refuted : ~ forall os show c args ts w s,
  Forall2 written (elements args) ts -> Forall no_nul ts -> ts <> [""] ->
  exists r w' s', io_run os show true 2 w s (exec true (DStr c) args) = Some (r, w', s')
    /\ log w' = log w ++ [Launch c ts None 30].
Proof.
  intros H. destruct (H echo show_zero "rm" (Cons (DStr "-r") (Later (Cons (DStr "x") Nil))) ["-r"; "x"] (World [] []) [])
    as (r & w' & s' & R & L).
  - repeat constructor.
  - repeat constructor; intros I; cbn in I; intuition discriminate.
  - discriminate.
  - vm_compute in R. injection R as <- <- <-. discriminate.
Qed.

(** Arguments that have no text are left out, and the others move up, instead of an error. *)
Theorem C102_other_arguments_refuted : ~ forall os show c args r w w' s s',
  io_run os show true 2 w s (exec true (DStr c) args) = Some (r, w', s') -> evaluated args ->
  w' = w \/ exists l, log w' = log w ++ [l] /\ List.length (arguments l) = List.length (elements args).
Proof.
  intros H.
  destruct (H echo show_zero "cp" (Cons (DList Nil) (Cons (DStr "x") Nil)) _ (World [] []) _ [] _ eq_refl I) as [E | (l & E & L)].
  - discriminate.
  - cbn in E. injection E as <-. discriminate.
Qed.

(** An argument that contains NUL, which no process can be given, becomes two. *)
Theorem C102_nul_refuted : ~ forall os show c t r w w' s s',
  io_run os show true 2 w s (exec true (DStr c) (Cons (DStr t) Nil)) = Some (r, w', s') -> t <> "" ->
  w' = w \/ exists l, log w' = log w ++ [l] /\ arguments l = [t].
Proof.
  intros H.
  destruct (H echo show_zero "cp" (String "a" (String nul "b")) _ (World [] []) _ [] _ eq_refl) as [E | (l & E & L)].
  - discriminate.
  - discriminate.
  - cbn in E. injection E as <-. discriminate.
Qed.

(** The input "null" is not handed over. *)
Theorem C102_null_input_refuted : ~ forall os show c opts i t w s,
  asks_input opts i -> asks_limit opts t ->
  exists r w' s', io_run os show true 2 w s (shell_with false opts (DStr c)) = Some (r, w', s')
    /\ log w' = log w ++ [Launch "sh" ["-c"; c] i t].
Proof.
  intros H. destruct (H echo show_zero "jq ." [("stdin", DStr "null")] (Some "null") 30%N (World [] []) [])
    as (r & w' & s' & R & L).
  - apply i_text; [reflexivity | discriminate].
  - apply l_none. reflexivity.
  - vm_compute in R. injection R as <- <- <-. discriminate.
Qed.

(** A time that is not a whole number is replaced by half a minute. *)
Theorem C102_time_refuted : ~ forall os show c r w w' s s',
  io_run os show true 2 w s (shell_with false [("timeout", DNum "0.5")] (DStr c)) = Some (r, w', s') ->
  w' = w \/ exists l, log w' = log w ++ [l] /\ (limit l <= 1)%N.
Proof.
  intros H. destruct (H echo show_zero "x" _ (World [] []) _ [] _ eq_refl) as [E | (l & E & L)].
  - discriminate.
  - cbn in E. injection E as <-. cbn in L. lia.
Qed.

(** A process whose time is up is not ended: it is left running. *)
Theorem C102_killed_refuted : ~ forall os show c r w w' s s',
  io_run os show true 2 w s (shell true (DStr c)) = Some (r, w', s') -> left w' = left w.
Proof.
  intros H. pose proof (H (fun _ => Started None TooLong) show_zero "sleep 99" _ (World [] []) _ [] _ eq_refl) as E.
  discriminate.
Qed.

Example C102_example : forall os show w s, exists r w' s',
  io_run os show true 2 w s
    (exec_with false [("stdin", DStr "hello"); ("timeout", DNum "120")] (DStr "tr") (Cons (DStr "") (Cons (DNum "1") Nil)))
  = Some (r, w', s') /\ starts os show w (Launch "tr" [""; "1"] (Some "hello") 120) r w'.
Proof.
  intros. change 120%N with (decimal "120"). apply C102_exec_with_partial.
  - exact I.
  - repeat constructor.
  - repeat constructor; intros I; cbn in I; intuition discriminate.
  - discriminate.
  - apply i_text; [reflexivity | discriminate].
  - discriminate.
  - apply l_digits; [reflexivity | split; [discriminate | repeat (constructor; [cbn; auto 12 | ]); constructor] | reflexivity].
Qed.

(** ** C103: checked commands *)

(** A checked program gives the result if the exit code is zero, and fails with the error output
    otherwise; it starts nothing more. *)
Theorem C103_checked : forall os show visible w p out err code w',
  (forall z, show z = "0" <-> z = 0%Z) ->
  performs (acts os show true) w p (Ok (block show out err code)) w' ->
  performs (acts os show true) w (checked visible p)
    (if Z.eqb code 0 then Ok (block show out err code) else Err (EFail err)) w'.
Proof.
  intros os show visible w p out err code w' S H. unfold checked.
  eapply p_bind; [exact H | ]. unfold check, block, field, lookup_or. cbn.
  destruct (String.eqb_spec (show code) "0") as [E | E].
  - apply S in E. subst. constructor.
  - destruct (Z.eqb_spec code 0) as [-> | N]; [exfalso; apply E, S; reflexivity | ].
    apply p_action. destruct visible; (eapply a_unclear; [reflexivity | reflexivity | reflexivity]).
Qed.

(** And it does nothing else. *)
Theorem C103_only : forall os show visible w p out err code w' r w2,
  (forall z, show z = "0" <-> z = 0%Z) ->
  performs (acts os show true) w p (Ok (block show out err code)) w' ->
  performs (acts os show true) w (checked visible p) r w2 ->
  w2 = w' /\ (r = Ok (block show out err code) /\ code = 0%Z \/ r = Err (EFail err) /\ code <> 0%Z).
Proof.
  intros os show visible w p out err code w' r w2 S H C.
  pose proof (C103_checked os show visible _ _ _ _ _ _ S H) as C'.
  destruct (C101_deterministic _ _ _ _ _ _ _ _ _ C C') as [-> ->]. split; [reflexivity | ].
  destruct (Z.eqb_spec code 0); auto.
Qed.

(** Checked commands in sequence: the first that exits with another code than zero ends the
    program with its error output, and none of the following is started. *)
Theorem C103_sequence : forall os show visible w before w1 vs p out err code w2 after,
  (forall z, show z = "0" <-> z = 0%Z) ->
  in_turn (acts os show true) w (map (checked visible) before) (Ok vs) w1 ->
  performs (acts os show true) w1 p (Ok (block show out err code)) w2 -> code <> 0%Z ->
  performs (acts os show true) w (sequence (map (checked visible) (before ++ p :: after))) (Err (EFail err)) w2.
Proof.
  intros os show visible w before w1 vs p out err code w2 after S H P N.
  apply C101_sequence. rewrite map_app. cbn [map].
  assert (performs (acts os show true) w1 (checked visible p) (Err (EFail err)) w2) as C.
  { pose proof (C103_checked os show visible _ _ _ _ _ _ S P) as C.
    destruct (Z.eqb_spec code 0); [contradiction | exact C]. }
  revert w vs H. induction (map (checked visible) before) as [ | m ms IH]; intros w vs H; cbn [app].
  - inversion H; subst. apply t_stop. exact C.
  - inversion H; subst. eapply t_later; [eassumption | ]. eapply IH. eassumption.
Qed.

Definition one_bad (h : list launch) : reply :=
  match rev h with
  | Launch "sh" ["-c"; "bad"] _ _ :: _ => Started None (Ended "" "oops" (Some 2%Z))
  | _ => Started None (Ended "fine" "" (Some 0%Z))
  end.
Example C103_example : exists s,
  io_run one_bad show_zero true 9 (World [] []) []
    (sequence (map (checked false) [shell true (DStr "good"); shell true (DStr "bad"); shell true (DStr "more")]))
  = Some (Err (EFail "oops"), World [Launch "sh" ["-c"; "good"] None 30; Launch "sh" ["-c"; "bad"] None 30] [], s).
Proof. eexists. reflexivity. Qed.
Example C103_show : forall z, show_zero z = "0" <-> z = 0%Z.
Proof. intros z. unfold show_zero. destruct (Z.eqb_spec z 0); split; intros; auto; discriminate || contradiction. Qed.

Print Assumptions C101_run.
Print Assumptions C101_deterministic.
Print Assumptions C101_stash.
Print Assumptions C101_not_allowed.
Print Assumptions C101_log.
Print Assumptions C101_laws.
Print Assumptions C101_map.
Print Assumptions C101_then.
Print Assumptions C101_sequence.
Print Assumptions C101_map_m.
Print Assumptions C101_filter_m.
Print Assumptions C102_exec_partial.
Print Assumptions C102_exec_with_partial.
Print Assumptions C102_shell.
Print Assumptions C102_shell_with_partial.
Print Assumptions C102_tags.
Print Assumptions C102_empty_argument_refuted.
Print Assumptions C102_computed_arguments_refuted.
Print Assumptions C102_other_arguments_refuted.
Print Assumptions C102_nul_refuted.
Print Assumptions C102_null_input_refuted.
Print Assumptions C102_time_refuted.
Print Assumptions C102_killed_refuted.
Print Assumptions C103_checked.
Print Assumptions C103_only.
Print Assumptions C103_sequence.
