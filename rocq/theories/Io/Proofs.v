(** * Proofs about the driver of IO programs *)
From Coq Require Import String List NArith ZArith Bool Ascii Lia.
From Verif.Io Require Import Model Spec.
Import ListNotations.
Open Scope string_scope.
Open Scope list_scope.

(** ** Fields *)

Lemma join_concat : forall ts, join ts = String.concat (String nul "") ts.
Proof.
  induction ts as [ | x [ | y r] IH]; [reflexivity | reflexivity | ].
  change (join (x :: y :: r)) with (x ++ String nul (join (y :: r)))%string.
  rewrite IH. reflexivity.
Qed.

Lemma render_elements_spec : forall ds s parts,
  match all_forced ds with
  | Some fs => render_elements (List.length ds) (map EData ds ++ s) parts = (Ok (parts ++ texts fs), s)
  | None => exists s', render_elements (List.length ds) (map EData ds ++ s) parts = (Err EMachine, s')
  end.
Proof.
  induction ds as [ | d ds IH]; intros s parts; cbn.
  - unfold texts. cbn. rewrite app_nil_r. reflexivity.
  - destruct (force d) as [f | ]; [ | eexists; reflexivity].
    specialize (IH s (match scalar_string f with Some t => parts ++ [t] | None => parts end)).
    destruct (all_forced ds) as [fs | ]; [ | exact IH].
    rewrite IH. unfold texts. cbn. destruct (scalar_string f); [ | reflexivity].
    rewrite <- app_assoc. reflexivity.
Qed.

Lemma render_field_spec : forall d s,
  match rendered d with
  | Some t => render_field d s = (Ok t, s)
  | None => exists s', render_field d s = (Err EMachine, s')
  end.
Proof.
  intros d s. unfold rendered, render_field.
  destruct (force d) as [f | ]; [ | eexists; reflexivity].
  destruct f as [ | | | | | | l | | | ]; try reflexivity.
  pose proof (render_elements_spec (list_element_values l) s []) as H.
  destruct (all_forced (list_element_values l)) as [fs | ].
  - rewrite H. cbn [app]. destruct (texts fs) as [ | t ts] eqn:E; [reflexivity | ].
    rewrite join_concat. reflexivity.
  - destruct H as [s' ->]. eexists. reflexivity.
Qed.

Lemma render_fields_spec : forall fields s acc,
  match all_rendered fields with
  | Some fs => render_fields (map fst fields) (map (fun f => EData (snd f)) fields ++ s) acc = (Ok (acc ++ fs), s)
  | None => exists s', render_fields (map fst fields) (map (fun f => EData (snd f)) fields ++ s) acc = (Err EMachine, s')
  end.
Proof.
  induction fields as [ | [k d] r IH]; intros s acc; cbn.
  - rewrite app_nil_r. reflexivity.
  - pose proof (render_field_spec d (map (fun f => EData (snd f)) r ++ s)) as H.
    destruct (rendered d) as [t | ].
    + rewrite H. specialize (IH s (acc ++ [(k, t)])). destruct (all_rendered r) as [fs | ].
      * rewrite IH, <- app_assoc. reflexivity.
      * exact IH.
    + destruct H as [s' ->]. eexists. reflexivity.
Qed.

Lemma evaluate_spec : forall tag fields s,
  match all_rendered fields with
  | Some fs => evaluate_spec_block tag fields s = (action_spec_from_fields tag fs, s)
  | None => exists s', evaluate_spec_block tag fields s = (Err EMachine, s')
  end.
Proof.
  intros tag fields s. unfold evaluate_spec_block.
  pose proof (render_fields_spec fields s []) as H. destruct (all_rendered fields) as [fs | ].
  - rewrite H. reflexivity.
  - destruct H as [s' ->]. eexists. reflexivity.
Qed.

(** ** The loop *)

Section Loop.
Variable os : list launch -> reply.
Variable show : Z -> string.
Variable allow : bool.

Notation run := (io_run os show allow).
Notation does := (performs (acts os show allow)).

Lemma force_reason : forall e,
  match force e with
  | Some d => match scalar_string d with Some m => m | None => "IO monad failure" end
  | None => "IO monad failure"
  end = reason e.
Proof. intros [ | [] | | | | | | | | ]; reflexivity. Qed.

Lemma run_sound : forall n w s p r w' s',
  run n w s p = Some (r, w', s') ->
  does w p r w' /\ (forall v, r = Ok v -> s' = s).
Proof.
  induction n as [ | n IH]; intros w s p r w' s' H; [discriminate | ].
  destruct p as [v | a k | tag fields | e | | ]; cbn [io_run] in H.
  - injection H as <- <- <-. split; [constructor | reflexivity].
  - destruct (run n w (EWorld :: ECont k :: s) a) as [[[ra wa] sa] | ] eqn:E; [ | discriminate].
    apply IH in E. destruct E as [D S]. destruct ra as [v | e].
    + specialize (S v eq_refl). subst sa. apply IH in H. destruct H as [D2 S2].
      split; [eapply p_bind; eassumption | exact S2].
    + injection H as <- <- <-. split; [apply p_stop; exact D | intros v; discriminate].
  - destruct allow eqn:A; cbn [negb] in H.
    + pose proof (evaluate_spec tag fields (EWorld :: s)) as F.
      destruct (all_rendered fields) as [fs | ] eqn:R.
      * rewrite F in H. destruct (action_spec_from_fields tag fs) as [spec | e] eqn:P.
        -- destruct (run_spec os w spec) as [[o | e] w1] eqn:Q.
           ++ destruct n as [ | n]; [discriminate | ]. cbn in H. injection H as <- <- <-.
              split; [ | reflexivity]. apply p_action. eapply a_ran; eauto.
           ++ injection H as <- <- <-. split; [ | intros v; discriminate].
              apply p_action. eapply a_failed; eauto.
        -- injection H as <- <- <-. split; [ | intros v; discriminate]. apply p_action. eapply a_unclear; eauto.
      * destruct F as [s1 F]. rewrite F in H. injection H as <- <- <-. split; [ | intros v; discriminate].
        apply p_action. apply a_error; auto.
    + injection H as <- <- <-. split; [ | intros v; discriminate]. apply p_action. apply a_forbidden; auto.
  - injection H as <- <- <-. split; [ | intros v; discriminate]. rewrite force_reason. constructor.
  - injection H as <- <- <-. split; [constructor | intros v; discriminate].
  - injection H as <- <- <-. split; [constructor | intros v; discriminate].
Qed.

Lemma run_more : forall n m w s p x, run n w s p = Some x -> n <= m -> run m w s p = Some x.
Proof.
  induction n as [ | n IH]; intros m w s p x H L; [discriminate | ].
  destruct m as [ | m]; [lia | ]. assert (n <= m) as L' by lia.
  destruct p as [v | a k | tag fields | e | | ]; cbn [io_run] in *; try exact H.
  - destruct (run n w (EWorld :: ECont k :: s) a) as [[[ra wa] sa] | ] eqn:E; [ | discriminate].
    rewrite (IH _ _ _ _ _ E L').
    destruct ra as [v | e]; [ | exact H].
    destruct sa as [ | [ | | | ] [ | [ | k' | | ] sa]]; try exact H. apply IH; assumption.
  - destruct (negb allow); [exact H | ].
    destruct (evaluate_spec_block tag fields (EWorld :: s)) as [[spec | e] s1]; [ | exact H].
    destruct (run_spec os w spec) as [[o | e] w1]; [ | exact H].
    destruct s1 as [ | [ | | | ] s1]; try exact H. apply IH; assumption.
Qed.

Lemma run_complete : forall w p r w', does w p r w' ->
  forall s, exists n s', run n w s p = Some (r, w', s').
Proof.
  intros w p r w' D. induction D as [w v | w tag fields r w' A | w d | w | w | w a k v w1 r w2 D1 I1 D2 I2 | w a k e w1 D1 I1]; intros s.
  - exists 1, s. reflexivity.
  - pose proof (evaluate_spec tag fields (EWorld :: s)) as F.
    destruct A as [A | A R | fs e A R P | fs spec o w' A R P Q | fs spec e w' A R P Q].
    + exists 1, s. cbn. rewrite A. reflexivity.
    + rewrite R in F. destruct F as [s1 F]. exists 1, s1. cbn [io_run]. rewrite A, F. reflexivity.
    + rewrite R, P in F. exists 1, (EWorld :: s). cbn [io_run]. rewrite A, F. reflexivity.
    + rewrite R, P in F. exists 2, s. cbn [io_run]. rewrite A, F, Q. reflexivity.
    + rewrite R, P in F. exists 1, (EWorld :: s). cbn [io_run]. rewrite A, F, Q. reflexivity.
  - exists 1, s. cbn. rewrite force_reason. reflexivity.
  - exists 1, s. reflexivity.
  - exists 1, s. reflexivity.
  - destruct (I1 (EWorld :: ECont k :: s)) as (n1 & s1 & E1).
    pose proof (run_sound _ _ _ _ _ _ _ E1) as [_ S]. specialize (S v eq_refl). subst s1.
    destruct (I2 s) as (n2 & s2 & E2).
    exists (S (Nat.max n1 n2)), s2. cbn [io_run].
    rewrite (run_more _ (Nat.max n1 n2) _ _ _ _ E1) by lia.
    apply (run_more _ (Nat.max n1 n2) _ _ _ _ E2). lia.
  - destruct (I1 (EWorld :: ECont k :: s)) as (n1 & s1 & E1).
    exists (S n1), s1. cbn [io_run]. rewrite E1. reflexivity.
Qed.

End Loop.

(** ** Composition *)

Section Compose.
Variable act : option string -> list (string * data) -> world -> result data -> world -> Prop.
Notation does := (performs act).

Lemma does_return : forall w v r w', does w (Return v) r w' <-> r = Ok v /\ w' = w.
Proof. intros. split; [intros H; inversion H; auto | intros [-> ->]; constructor]. Qed.

Lemma does_bind : forall w a k r w', does w (Bind a k) r w' <->
  (exists v w1, does w a (Ok v) w1 /\ does w1 (k v) r w') \/ (exists e, r = Err e /\ does w a (Err e) w').
Proof.
  intros. split.
  - intros H. inversion H; subst; [left | right]; eauto.
  - intros [(v & w1 & A & B) | (e & -> & A)]; [eapply p_bind; eassumption | apply p_stop; exact A].
Qed.

Lemma left_identity : forall w v k r w', does w (Bind (Return v) k) r w' <-> does w (k v) r w'.
Proof.
  intros. rewrite does_bind. split.
  - intros [(v' & w1 & A & B) | (e & -> & A)]; apply does_return in A; destruct A as [A ->].
    + injection A as <-. exact B.
    + discriminate.
  - intros H. left. exists v, w. split; [constructor | exact H].
Qed.

Lemma right_identity : forall w p r w', does w (Bind p Return) r w' <-> does w p r w'.
Proof.
  intros. rewrite does_bind. split.
  - intros [(v & w1 & A & B) | (e & -> & A)]; [ | exact A].
    apply does_return in B. destruct B as [-> ->]. exact A.
  - intros H. destruct r as [v | e]; [left | right; eauto].
    exists v, w'. split; [exact H | constructor].
Qed.

Lemma associativity : forall w p f g r w',
  does w (Bind (Bind p f) g) r w' <-> does w (Bind p (fun v => Bind (f v) g)) r w'.
Proof.
  intros. rewrite !does_bind. split.
  - intros [(v & w1 & A & B) | (e & -> & A)]; apply does_bind in A.
    + destruct A as [(u & w0 & A1 & A2) | (e & A & _)]; [ | discriminate].
      left. exists u, w0. split; [exact A1 | ]. apply does_bind. left. eauto.
    + destruct A as [(u & w0 & A1 & A2) | (e' & A & A1)].
      * left. exists u, w0. split; [exact A1 | ]. apply does_bind. right. eauto.
      * injection A as <-. right. eauto.
  - intros [(u & w0 & A1 & A2) | (e & -> & A)].
    + apply does_bind in A2. destruct A2 as [(v & w1 & B1 & B2) | (e & -> & B1)].
      * left. exists v, w1. split; [ | exact B2]. apply does_bind. left. eauto.
      * right. exists e. split; [reflexivity | ]. apply does_bind. left. eauto.
    + right. exists e. split; [reflexivity | ]. apply does_bind. right. eauto.
Qed.

Lemma does_sequence_forth : forall ms w r w', does w (sequence ms) r w' ->
  match r with
  | Ok d => exists s, d = DList s /\ in_turn act w ms (Ok (elements s)) w'
  | Err e => in_turn act w ms (Err e) w'
  end.
Proof.
  induction ms as [ | m ms IH]; intros w r w' H; cbn in H.
  - apply does_return in H. destruct H as [-> ->]. exists Nil. split; [reflexivity | constructor].
  - apply does_bind in H. destruct H as [(v & w1 & A & B) | (e & -> & A)]; [ | apply t_stop; exact A].
    apply does_bind in B. destruct B as [(xs & w2 & B & C) | (e & -> & B)].
    + apply does_return in C. destruct C as [-> ->]. apply IH in B. destruct B as (s & -> & B).
      exists (Cons v s). split; [reflexivity | ]. eapply t_next; eassumption.
    + apply IH in B. eapply t_later; eassumption.
Qed.

Lemma does_sequence_back : forall ms w r w', in_turn act w ms r w' ->
  match r with
  | Ok vs => exists s, elements s = vs /\ does w (sequence ms) (Ok (DList s)) w'
  | Err e => does w (sequence ms) (Err e) w'
  end.
Proof.
  intros ms w r w' H. induction H as [w | w m ms v w1 vs w2 A B IH | w m ms v w1 e w2 A B IH | w m ms e w1 A]; cbn.
  - exists Nil. split; [reflexivity | constructor].
  - destruct IH as (s & <- & IH). exists (Cons v s). split; [reflexivity | ].
    eapply p_bind; [exact A | ]. eapply p_bind; [exact IH | constructor].
  - eapply p_bind; [exact A | ]. apply p_stop. exact IH.
  - apply p_stop. exact A.
Qed.

End Compose.
