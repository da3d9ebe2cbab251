(** Termination, filling, and the reading of trees as expressions. *)
From Coq Require Import List ZArith NArith Bool Lia Permutation.
From Verif.Shunt Require Import Model Spec Proofs.
Import ListNotations.
Open Scope Z_scope.

(** ** Termination and the "empty output" panic, for any input *)
Section Generic.
  Context {X : Type} (leaf : expr -> X) (ap0 : opr -> X)
    (ap1 : opr -> X -> option X) (ap2 : opr -> X -> X -> option X).
  Notation loop := (loop leaf ap0 ap1 ap2).
  Notation seat := (seat_op ap0 ap1 ap2).
  Notation clear := (clear_ops ap0 ap1 ap2).
  Notation apply := (apply_op ap0 ap1 ap2).
  Notation shunt_fuel := (shunt_fuel leaf ap0 ap1 ap2).
  Notation shunt := (shunt leaf ap0 ap1 ap2).

  Lemma loop_mono n : forall s k, loop n s <> NoFuel -> loop (n + k) s = loop n s.
  Proof.
    induction n as [|n IH]; intros s k H.
    - cbn [Nat.add] in *. destruct k; auto. cbn [Model.loop] in *.
      destruct (is_complete s); auto. congruence.
    - cbn [Nat.add Model.loop] in *. destruct (is_complete s); auto.
      destruct (shunt1 leaf ap0 ap1 ap2 s); auto.
  Qed.

  Lemma loop_mono_le n m s : loop n s <> NoFuel -> (n <= m)%nat -> loop m s = loop n s.
  Proof. intros H L. replace m with (n + (m - n))%nat by lia. now apply loop_mono. Qed.

  (** The second of two consecutive gaps around a filler is never filled. *)
  Lemma filler_after f l r :
    filler l r = FillSome f -> filler (Some f) r = FillNone.
  Proof.
    unfold filler.
    destruct (snd (bind_sides l)); destruct (fst (bind_sides r)) eqn:E; try discriminate.
    - destruct (negb (opt_smid r =? 0)%N).
      { intros [=<-]. cbn [bind_sides snd fst]. reflexivity. }
      destruct (negb (opt_smid l =? 0)%N); [|discriminate].
      intros [=<-]. reflexivity.
    - intros [=<-]. reflexivity.
  Qed.

  Lemma filler_before f l r :
    filler l r = FillSome f -> filler l (Some f) = FillNone.
  Proof.
    unfold filler.
    destruct (snd (bind_sides l)) eqn:E; destruct (fst (bind_sides r)); try discriminate.
    - destruct (negb (opt_smid r =? 0)%N).
      { intros [=<-]. reflexivity. }
      destruct (negb (opt_smid l =? 0)%N); [|discriminate].
      intros [=<-]. reflexivity.
    - intros [=<-]. reflexivity.
  Qed.

  Lemma loop_nofuel k : forall inp n out ops err, length inp = k ->
    (n >= 2 * k + 1)%nat -> loop n (mkSt inp out ops err) <> NoFuel.
  Proof.
    induction k as [k IH] using lt_wf_ind. intros inp n out ops err Hk Hn.
    destruct n as [|n]; [lia|].
    destruct inp as [|e inp].
    - rewrite loop_end. destruct (clear ops out err) as [[out' err']|]; [|discriminate].
      destruct err'; [discriminate|]. destruct out'; discriminate.
    - cbn [length] in Hk. subst k.
      cbn [Model.loop is_complete input Model.ops]. unfold shunt1.
      cbn [input Model.ops output error].
      (* one step in general *)
      assert (G : forall inp' out' ops' err',
                 (inp' = inp \/ exists f, filler (Some e) (hd_error inp) = FillSome f /\ inp' = f :: inp) ->
                 loop n (mkSt inp' out' ops' err') <> NoFuel).
      { intros inp' out' ops' err' [-> | (f & Ef & ->)].
        - apply (IH (length inp)); auto; lia.
        - destruct n as [|n]; [lia|].
          apply filler_after in Ef.
          destruct f as [v|o].
          + rewrite loop_val by auto. apply (IH (length inp)); auto; lia.
          + rewrite loop_op by auto. destruct (seat o ops' out' err') as [[[? ?] ?]|]; [|discriminate].
            apply (IH (length inp)); auto; lia. }
      unfold insert_fill. destruct (filler (Some e) (hd_error inp)) eqn:Ef; destruct e as [v|o];
        try (destruct (seat o ops out _) as [[[? ?] ?]|]; [|discriminate]);
        apply G; eauto.
  Qed.

  Lemma shunt_fuel_enough toks n :
    (n >= 2 * length toks + 3)%nat -> shunt_fuel n toks = shunt toks /\ shunt toks <> NoFuel.
  Proof.
    intros Hn. unfold Model.shunt.
    set (m := (2 * length toks + 3)%nat) in *.
    assert (H : shunt_fuel m toks <> NoFuel /\ (shunt_fuel m toks <> NoFuel -> shunt_fuel n toks = shunt_fuel m toks)).
    { unfold Model.shunt_fuel. destruct toks as [|x toks].
      - split.
        + apply (loop_nofuel 0); cbn; auto; lia.
        + intros H. now apply loop_mono_le.
      - unfold insert_fill. cbn [hd_error].
        destruct (filler None (Some x)) as [| |f] eqn:Ef.
        + split; [apply (loop_nofuel (length (x :: toks))); auto; lia|].
          intros H. now apply loop_mono_le.
        + split; [apply (loop_nofuel (length (x :: toks))); auto; lia|].
          intros H. now apply loop_mono_le.
        + split; [|intros H; now apply loop_mono_le].
          unfold m. cbn [length]. replace (2 * S (length toks) + 3)%nat with
            (S (2 * S (length toks) + 2))%nat by lia.
          apply filler_after in Ef. destruct f as [v|o].
          * rewrite loop_val by auto. apply (loop_nofuel (length (x :: toks))); cbn [length]; auto; lia.
          * rewrite loop_op by auto. destruct (seat o [] [] false) as [[[? ?] ?]|]; [|discriminate].
            apply (loop_nofuel (length (x :: toks))); cbn [length]; auto; lia. }
    intuition.
  Qed.

  (** Output, once there, stays; an operator met with no output is kept or
      reported. *)
  Lemma apply_nonempty o out err out' err' :
    apply o out err = Some (out', err') -> (out' = [] -> err' = true) /\ (err = true -> err' = true).
  Proof.
    unfold apply_op. destruct (arity (o_fix o)) as [|[|?]].
    - intros [=<- <-]. split; [discriminate|auto].
    - destruct out as [|x out]; [intros [=<- <-]; auto|].
      destruct (ap1 o x); [|discriminate]. intros [=<- <-]. split; [discriminate|auto].
    - destruct out as [|x [|y out]]; [intros [=<- <-]; auto..|].
      destruct (ap2 o y x); [|discriminate]. intros [=<- <-]. split; [discriminate|auto].
  Qed.

  Lemma seat_nonempty o : forall ops out err ops' out' err',
    seat o ops out err = Some (ops', out', err') ->
    ((ops' = [] /\ out' = []) -> err' = true) /\ (err = true -> err' = true).
  Proof.
    induction ops as [|top rest IH]; intros out err ops' out' err'; cbn [seat_op].
    - destruct (fixity_eqb (o_fix o) Nullary).
      + destruct (apply o out err) as [[? ?]|] eqn:E; [|discriminate].
        intros [=<- <- <-]. apply apply_nonempty in E. tauto.
      + intros [=<- <- <-]. split; [intros [? _]; discriminate|auto].
    - destruct (apply o out err) as [[o1 e1]|] eqn:E1;
        destruct (apply top out err) as [[o2 e2]|] eqn:E2;
        try apply apply_nonempty in E1; try apply apply_nonempty in E2;
        destruct (fixity_eqb (o_fix o) Nullary), (fixity_eqb (o_fix top) InfixLeft),
          (fixity_eqb (o_fix top) InfixRight), (fixity_eqb (o_fix top) UnaryPostfix),
          (fixity_eqb (o_fix o) UnaryPostfix),
          (o_prec o <=? o_prec top), (o_prec o <? o_prec top); try discriminate;
        intros H; try (apply IH in H; tauto);
        injection H as <- <- <-; split; try tauto; intros [? ?]; discriminate.
  Qed.

  Lemma clear_nonempty : forall ops out err out' err',
    clear ops out err = Some (out', err') ->
    (err = true -> err' = true) /\
    ((err = true \/ out <> [] \/ ops <> []) -> out' = [] -> err' = true).
  Proof.
    induction ops as [|o ops IH]; intros out err out' err'; cbn [clear_ops].
    - intros [=<- <-]. split; auto. intuition congruence.
    - destruct (apply o out err) as [[o1 e1]|] eqn:E; [|discriminate].
      intros H. apply IH in H. apply apply_nonempty in E. destruct H as [H1 H2], E as [E1 E2].
      split; auto. intros _ Ho. apply H2; auto.
      destruct o1; auto. right; left; discriminate.
  Qed.

  Lemma loop_not_empty n : forall s,
    error s = true \/ output s <> [] \/ ops s <> [] \/ input s <> [] ->
    (input s = [] -> error s = true \/ output s <> [] \/ ops s <> []) ->
    loop n s <> PanicEmpty.
  Proof.
    induction n as [|n IH]; intros s H H'; cbn [Model.loop].
    - destruct (is_complete s) eqn:C; [|discriminate].
      unfold is_complete in C. destruct (input s), (ops s); try discriminate.
      destruct (error s); [discriminate|]. destruct (output s); [|discriminate].
      destruct (H' eq_refl) as [?|[?|?]]; congruence.
    - destruct (is_complete s) eqn:C.
      { unfold is_complete in C. destruct (input s), (ops s); try discriminate.
        destruct (error s); [discriminate|]. destruct (output s); [|discriminate].
        destruct (H' eq_refl) as [?|[?|?]]; congruence. }
      destruct (shunt1 leaf ap0 ap1 ap2 s) as [s'|] eqn:E; [|discriminate].
      assert (G : error s' = true \/ output s' <> [] \/ ops s' <> []).
      { unfold shunt1 in E. destruct (input s) as [|e inp] eqn:Ei.
        - destruct (clear (ops s) (output s) (error s)) as [[o1 e1]|] eqn:Ec; [|discriminate].
          injection E as <-. cbn. apply clear_nonempty in Ec. destruct Ec as [_ Ec].
          destruct o1; [left; apply Ec; auto|right; left; discriminate].
        - destruct (insert_fill (Some e) inp (error s)) as [inp' err'].
          destruct e as [v|o].
          + injection E as <-. cbn. right; left; discriminate.
          + destruct (seat o (ops s) (output s) err') as [[[ops' out'] err'']|] eqn:Es; [|discriminate].
            injection E as <-. cbn. apply seat_nonempty in Es. destruct Es as [Es _].
            destruct ops'; [|right; right; discriminate].
            destruct out'; [|right; left; discriminate]. left. auto. }
      apply IH; tauto.
  Qed.

  Lemma shunt_not_empty toks : toks <> [] -> shunt toks <> PanicEmpty.
  Proof.
    intros H. unfold Model.shunt, Model.shunt_fuel. destruct toks as [|x toks]; [congruence|].
    destruct (insert_fill None (x :: toks) false) as [inp err] eqn:E.
    assert (inp <> []).
    { unfold insert_fill in E. destruct (filler None _); inversion E; discriminate. }
    apply loop_not_empty; cbn; tauto.
  Qed.

  (** ** Filling on the fly agrees with filling in advance *)
  Lemma loop_fill : forall inp e out n o p err,
    fill_rest e inp = Some out ->
    loop n (mkSt (e :: inp) o p err) = loop n (mkSt out o p err).
  Proof.
    induction inp as [|r inp IH]; intros e out n o p err H; cbn [fill_rest] in H.
    - unfold with_fill in H. destruct (filler (Some e) None) as [| |f] eqn:Ef; [discriminate| |].
      + now injection H as <-.
      + injection H as <-. destruct n as [|n]; [reflexivity|].
        pose proof (filler_before _ _ _ Ef) as Eb. pose proof (filler_after _ _ _ Ef) as Ea.
        cbn [Model.loop is_complete input Model.ops]. unfold shunt1.
        cbn [input Model.ops output error]. unfold insert_fill. cbn [hd_error].
        rewrite Ef, Eb. reflexivity.
    - unfold with_fill in H. destruct (filler (Some e) (Some r)) as [| |f] eqn:Ef; [discriminate| |].
      + destruct (fill_rest r inp) as [out'|] eqn:Er; [|discriminate]. injection H as <-.
        destruct n as [|n]; [reflexivity|]. cbn [app].
        assert (Eh : hd_error out' = Some r).
        { destruct inp; cbn [fill_rest] in Er; unfold with_fill in Er;
            destruct (filler (Some r) _); try discriminate;
            try (destruct (fill_rest t inp); try discriminate);
            injection Er as <-; reflexivity. }
        cbn [Model.loop is_complete input Model.ops]. unfold shunt1.
        cbn [input Model.ops output error]. unfold insert_fill. cbn [hd_error].
        rewrite Eh, Ef.
        destruct e as [v|op]; [now apply IH|].
        destruct (seat op p o err) as [[[? ?] ?]|]; [now apply IH|reflexivity].
      + destruct (fill_rest r inp) as [out'|] eqn:Er; [|discriminate]. injection H as <-.
        destruct n as [|n]; [reflexivity|]. cbn [app].
        assert (Eh : hd_error out' = Some r).
        { destruct inp; cbn [fill_rest] in Er; unfold with_fill in Er;
            destruct (filler (Some r) _); try discriminate;
            try (destruct (fill_rest t inp); try discriminate);
            injection Er as <-; reflexivity. }
        pose proof (filler_before _ _ _ Ef) as Eb. pose proof (filler_after _ _ _ Ef) as Ea.
        assert (Two : forall o p err,
          loop n (mkSt (f :: r :: inp) o p err) = loop n (mkSt (f :: out') o p err)).
        { intros o1 p1 err1. destruct n as [|n]; [reflexivity|].
          cbn [Model.loop is_complete input Model.ops]. unfold shunt1.
          cbn [input Model.ops output error]. unfold insert_fill. cbn [hd_error].
          rewrite Eh, Ea. destruct f as [v|op]; [now apply IH|].
          destruct (seat op p1 o1 err1) as [[[? ?] ?]|]; [now apply IH|reflexivity]. }
        cbn [Model.loop is_complete input Model.ops]. unfold shunt1.
        cbn [input Model.ops output error]. unfold insert_fill. cbn [hd_error].
        rewrite Ef, Eb.
        destruct e as [v|op]; [now apply Two|].
        destruct (seat op p o err) as [[[? ?] ?]|]; [now apply Two|reflexivity].
  Qed.

  Lemma fill_rest_length : forall xs e out,
    fill_rest e xs = Some out -> (length xs < length out)%nat.
  Proof.
    induction xs as [|r xs IH]; intros e out H; cbn [fill_rest] in H; unfold with_fill in H.
    - destruct (filler (Some e) None); try discriminate; injection H as <-; cbn; lia.
    - destruct (filler (Some e) (Some r)); try discriminate;
        (destruct (fill_rest r xs) eqn:E; [|discriminate]); injection H as <-;
        apply IH in E; cbn [length app]; lia.
  Qed.
  Lemma fill_rest_hd : forall xs e out, fill_rest e xs = Some out -> hd_error out = Some e.
  Proof.
    intros [|r xs] e out H; cbn [fill_rest] in H; unfold with_fill in H.
    - destruct (filler (Some e) None); try discriminate; now injection H as <-.
    - destruct (filler (Some e) (Some r)); try discriminate;
        (destruct (fill_rest r xs) eqn:E; [|discriminate]); now injection H as <-.
  Qed.

  Lemma shunt_fill toks out :
    fill_gaps toks = Some out -> shunt toks = shunt out.
  Proof.
    destruct toks as [|x toks]; cbn [fill_gaps]; [now intros [=<-]|].
    intros H. unfold with_fill in H.
    assert (L : forall n, (n >= 2 * length out + 3)%nat ->
                shunt_fuel n (x :: toks) = shunt_fuel n out /\ (length (x :: toks) <= length out)%nat).
    { intros n _. destruct (filler None (Some x)) as [| |f] eqn:Ef; [discriminate| |];
        (destruct (fill_rest x toks) as [out'|] eqn:Er; [|discriminate]);
        injection H as <-; pose proof (fill_rest_length _ _ _ Er) as Hl;
        pose proof (fill_rest_hd _ _ _ Er) as Hh; cbn [app length].
      - split; [|lia]. unfold Model.shunt_fuel, insert_fill. cbn [hd_error]. rewrite Ef.
        destruct out' as [|y out']; [discriminate|]. injection Hh as ->.
        cbn [hd_error]. rewrite Ef. now apply loop_fill.
      - split; [|lia].
        pose proof (filler_before _ _ _ Ef) as Eb. pose proof (filler_after _ _ _ Ef) as Ea.
        unfold Model.shunt_fuel, insert_fill. cbn [hd_error]. rewrite Ef, Eb.
        destruct n as [|n]; [reflexivity|].
        cbn [Model.loop is_complete input Model.ops]. unfold shunt1.
        cbn [input Model.ops output error]. unfold insert_fill. cbn [hd_error].
        rewrite Hh, Ea. destruct f as [v|op]; [now apply loop_fill|].
        destruct (seat op [] [] false) as [[[? ?] ?]|]; [now apply loop_fill|reflexivity]. }
    pose (n := (2 * length out + 3)%nat).
    destruct (L n) as [L1 L2]; [subst n; lia|].
    rewrite <- (proj1 (shunt_fuel_enough (x :: toks) n ltac:(subst n; lia))).
    rewrite <- (proj1 (shunt_fuel_enough out n ltac:(subst n; lia))). auto.
  Qed.
End Generic.

(** ** Properties of the filling itself *)

Lemma fill_rest_shape : forall xs e out,
  fill_rest e xs = Some out ->
  (starts_operand e -> operand_next out) /\ (~ starts_operand e -> operator_next out).
Proof.
  assert (Hsides : forall t, (snd (bind_sides (Some t)) = ValueLike <-> ends_operand t)
                          /\ (fst (bind_sides (Some t)) = ValueLike <-> starts_operand t)).
  { intros [v|o]; cbn; [tauto|]. destruct (o_fix o); cbn; intuition congruence. }
  (* shape of [e :: k] from shape of [k] *)
  assert (Hcons : forall e k,
    (ends_operand e -> operator_next k) -> (~ ends_operand e -> operand_next k) ->
    (starts_operand e -> operand_next (e :: k)) /\ (~ starts_operand e -> operator_next (e :: k))).
  { intros [v|o] k H1 H2; cbn in *.
    - split; [intros _; constructor; auto|tauto].
    - destruct (o_fix o) eqn:E; split; intros H.
      + apply on_nul; auto.
      + tauto.
      + apply on_pre; auto. apply H2. intuition congruence.
      + tauto.
      + intuition congruence.
      + apply op_post; auto.
      + intuition congruence.
      + apply op_bin; auto. apply H2. intuition congruence.
      + intuition congruence.
      + apply op_bin; auto. apply H2. intuition congruence. }
  induction xs as [|r xs IH]; intros e out H; cbn [fill_rest] in H; unfold with_fill in H.
  - destruct (Hsides e) as [Hs1 Hs2]. unfold filler in H; cbv zeta in H. change (fst (bind_sides None)) with OpLike in H.
    destruct (snd (bind_sides (Some e))) eqn:Es.
    + assert (Hne : ~ ends_operand e) by (rewrite <- Hs1; discriminate).
      destruct (negb (opt_smid None =? 0)%N), (negb (opt_smid (Some e) =? 0)%N); try discriminate;
        injection H as <-; apply Hcons; try tauto; intros _; repeat constructor.
    + injection H as <-. apply Hcons; try tauto; intros; constructor || tauto.
  - destruct (Hsides e) as [Hs1 Hs2], (Hsides r) as [Hr1 Hr2]. unfold filler in H; cbv zeta in H.
    destruct (fill_rest r xs) as [out'|] eqn:Er.
    2:{ destruct (snd (bind_sides (Some e))), (fst (bind_sides (Some r))); try discriminate.
        destruct (negb (opt_smid (Some r) =? 0)%N), (negb (opt_smid (Some e) =? 0)%N); discriminate. }
    destruct (IH _ _ Er) as [I1 I2].
    destruct (snd (bind_sides (Some e))) eqn:Es, (fst (bind_sides (Some r))) eqn:Fr.
    + assert (Hne : ~ ends_operand e) by (rewrite <- Hs1; discriminate).
      assert (Hnr : ~ starts_operand r) by (rewrite <- Hr2; discriminate).
      destruct (negb (opt_smid (Some r) =? 0)%N), (negb (opt_smid (Some e) =? 0)%N); try discriminate;
        injection H as <-; apply Hcons; try tauto; intros _; constructor; auto.
    + assert (Hne : ~ ends_operand e) by (rewrite <- Hs1; discriminate).
      assert (Hsr : starts_operand r) by tauto.
      injection H as <-. apply Hcons; auto; tauto.
    + assert (Hee : ends_operand e) by tauto.
      assert (Hnr : ~ starts_operand r) by (rewrite <- Hr2; discriminate).
      injection H as <-. apply Hcons; auto; tauto.
    + assert (Hee : ends_operand e) by tauto. assert (Hsr : starts_operand r) by tauto.
      injection H as <-. apply Hcons; try tauto. intros _. apply op_bin; cbn; auto.
Qed.

Lemma sides_fst t : fst (bind_sides (Some t)) = ValueLike <-> starts_operand t.
Proof. destruct t as [v|o]; cbn; [tauto|]. destruct (o_fix o); cbn; intuition congruence. Qed.
Lemma sides_snd t : snd (bind_sides (Some t)) = ValueLike <-> ends_operand t.
Proof. destruct t as [v|o]; cbn; [tauto|]. destruct (o_fix o); cbn; intuition congruence. Qed.

Lemma fill_gaps_filled xs out :
  xs <> [] -> fill_gaps xs = Some out -> operand_next out.
Proof.
  destruct xs as [|x xs]; [congruence|]. intros _ H. cbn [fill_gaps] in H. unfold with_fill in H.
  destruct (fill_rest x xs) as [out'|] eqn:Er.
  2:{ destruct (filler None (Some x)); discriminate. }
  destruct (fill_rest_shape _ _ _ Er) as [I1 I2].
  unfold filler in H; cbv zeta in H. change (snd (bind_sides None)) with OpLike in H.
  destruct (fst (bind_sides (Some x))) eqn:Ex.
  - assert (~ starts_operand x) by (rewrite <- sides_fst; congruence).
    destruct (negb (opt_smid (Some x) =? 0)%N); cbn in H; [|discriminate].
    injection H as <-. constructor. auto.
  - injection H as <-. apply I1. now apply sides_fst.
Qed.

Lemma filler_added orig l r f :
  (forall t, l = Some t -> In t orig) -> (forall t, r = Some t -> In t orig) ->
  filler l r = FillSome f -> added orig f.
Proof.
  intros Hl Hr. unfold filler.
  destruct (snd (bind_sides l)), (fst (bind_sides r)); try discriminate.
  - destruct (N.eqb_spec (opt_smid r) 0) as [E|E]; cbn [negb].
    + destruct (N.eqb_spec (opt_smid l) 0) as [E'|E']; cbn [negb]; [discriminate|].
      intros [=<-]. destruct l as [t|]; cbn in *; [|congruence]. apply add_ana; auto.
    + intros [=<-]. destruct r as [t|]; cbn in *; [|congruence]. apply add_ana; auto.
  - intros [=<-]. apply add_cat.
Qed.

Lemma fill_rest_ins orig : forall xs e out,
  incl (e :: xs) orig -> fill_rest e xs = Some out -> ins orig (e :: xs) out.
Proof.
  induction xs as [|r xs IH]; intros e out Hi H; cbn [fill_rest] in H; unfold with_fill in H.
  - destruct (filler (Some e) None) as [| |f] eqn:Ef; [discriminate| |]; injection H as <-.
    + repeat constructor.
    + apply ins_keep. apply ins_add; [|constructor]. eapply filler_added; eauto.
      * intros t [=<-]. apply Hi. now left.
      * discriminate.
  - destruct (filler (Some e) (Some r)) as [| |f] eqn:Ef; [discriminate| |];
      (destruct (fill_rest r xs) as [out'|] eqn:Er; [|discriminate]); injection H as <-;
      (assert (Hi' : incl (r :: xs) orig) by (intros z Hz; apply Hi; now right)).
    + apply ins_keep. now apply IH.
    + apply ins_keep. apply ins_add; [|now apply IH]. eapply filler_added; eauto.
      * intros t [=<-]. apply Hi. now left.
      * intros t [=<-]. apply Hi. right; now left.
Qed.

Lemma fill_gaps_ins xs out : fill_gaps xs = Some out -> ins xs xs out.
Proof.
  destruct xs as [|x xs]; cbn [fill_gaps]; [intros [=<-]; constructor|].
  unfold with_fill. intros H.
  destruct (filler None (Some x)) as [| |f] eqn:Ef; [discriminate| |];
    (destruct (fill_rest x xs) as [out'|] eqn:Er; [|discriminate]); injection H as <-;
    apply (fill_rest_ins (x :: xs)) in Er; auto using incl_refl.
  apply ins_add; auto. eapply filler_added; eauto; [discriminate|].
  intros t [=<-]. now left.
Qed.

Lemma fill_rest_id :
  (forall toks, operand_next toks -> forall e xs, toks = e :: xs -> fill_rest e xs = Some toks) /\
  (forall toks, operator_next toks -> forall e xs, toks = e :: xs -> fill_rest e xs = Some toks).
Proof.
  assert (C1 : forall e k, operator_next k -> snd (bind_sides (Some e)) = ValueLike ->
     (forall e' xs, k = e' :: xs -> fill_rest e' xs = Some k) -> fill_rest e k = Some (e :: k)).
  { intros e k Hk Hs IH. pose proof (filler_to_operator (Some e) k Hk Hs) as Hf.
    destruct k as [|r k]; cbn [fill_rest hd_error] in *; rewrite Hf; cbn [with_fill]; auto.
    now rewrite (IH r k eq_refl). }
  assert (C2 : forall e k, operand_next k -> snd (bind_sides (Some e)) = OpLike ->
     (forall e' xs, k = e' :: xs -> fill_rest e' xs = Some k) -> fill_rest e k = Some (e :: k)).
  { intros e k Hk Hs IH. pose proof (filler_to_operand (Some e) k Hk Hs) as Hf.
    destruct k as [|r k]; [inversion Hk|]. cbn [fill_rest hd_error] in *. rewrite Hf; cbn [with_fill]; auto.
    now rewrite (IH r k eq_refl). }
  apply soup_ind.
  - intros e rest Hr IH e' xs [=<- <-]. apply C1; auto.
  - intros o rest Ho Hr IH e' xs [=<- <-]. apply C1; auto using sides_nul.
  - intros o rest Ho Hr IH e' xs [=<- <-]. apply C2; auto using sides_pre.
  - discriminate.
  - intros o rest Ho Hr IH e' xs [=<- <-]. apply C1; auto using sides_post.
  - intros o rest Ho Hr IH e' xs [=<- <-]. apply C2; auto using sides_infix.
Qed.

Lemma fill_gaps_id xs : operand_next xs -> fill_gaps xs = Some xs.
Proof.
  intros H. destruct xs as [|x xs]; [reflexivity|]. cbn [fill_gaps].
  pose proof (filler_to_operand None _ H eq_refl) as Hf. cbn [hd_error] in Hf.
  rewrite Hf. cbn [with_fill].
  now rewrite (proj1 fill_rest_id _ H x xs eq_refl).
Qed.

Lemma filler_err l r : filler l r = FillErr <-> unnameable l r.
Proof.
  unfold filler, unnameable.
  assert (Hl : snd (bind_sides l) = OpLike <-> match l with Some t => ~ ends_operand t | None => True end).
  { destruct l as [t|]; [|cbn; tauto]. rewrite <- sides_snd. destruct (snd _); intuition congruence. }
  assert (Hr : fst (bind_sides r) = OpLike <-> match r with Some t => ~ starts_operand t | None => True end).
  { destruct r as [t|]; [|cbn; tauto]. rewrite <- sides_fst. destruct (fst _); intuition congruence. }
  assert (El : opt_smid l = 0%N <-> match l with Some t => tok_smid t = 0%N | None => True end)
    by (destruct l; cbn; tauto).
  assert (Er : opt_smid r = 0%N <-> match r with Some t => tok_smid t = 0%N | None => True end)
    by (destruct r; cbn; tauto).
  destruct (snd (bind_sides l)), (fst (bind_sides r)).
  - destruct (N.eqb_spec (opt_smid r) 0), (N.eqb_spec (opt_smid l) 0); cbn [negb];
      destruct l, r; intuition congruence.
  - assert (~ match r with Some t => ~ starts_operand t | None => True end) by (rewrite <- Hr; discriminate).
    destruct l, r; intuition congruence.
  - assert (~ match l with Some t => ~ ends_operand t | None => True end) by (rewrite <- Hl; discriminate).
    destruct l, r; intuition congruence.
  - assert (~ match l with Some t => ~ ends_operand t | None => True end) by (rewrite <- Hl; discriminate).
    destruct l, r; intuition congruence.
Qed.


Lemma fill_rest_err : forall xs e,
  fill_rest e xs = None <->
  exists before after, e :: xs = before ++ after /\ before <> []
    /\ unnameable (match rev before with [] => None | t :: _ => Some t end) (hd_error after).
Proof.
  induction xs as [|r xs IH]; intros e; cbn [fill_rest]; unfold with_fill.
  - split.
    + intros H. exists [e], []. split; [reflexivity|]. split; [discriminate|].
      cbn. apply filler_err. destruct (filler (Some e) None); congruence.
    + intros (b & a & E & Hb & Hu). destruct b as [|b0 b]; [congruence|].
      injection E as -> E. destruct b; [|destruct b; discriminate].
      cbn in E. subst a. cbn in Hu. apply filler_err in Hu. now rewrite Hu.
  - split.
    + intros H. destruct (filler (Some e) (Some r)) eqn:Ef.
      * exists [e], (r :: xs). split; [reflexivity|]. split; [discriminate|].
        cbn. now apply filler_err.
      * destruct (fill_rest r xs) eqn:Er; [discriminate|].
        apply IH in Er. destruct Er as (b & a & E & Hb & Hu).
        exists (e :: b), a. rewrite E. split; [reflexivity|]. split; [discriminate|].
        cbn [rev]. destruct (rev b) eqn:Erb; [|exact Hu].
        apply (f_equal (@rev tok)) in Erb. rewrite rev_involutive in Erb. now destruct Hb.
      * destruct (fill_rest r xs) eqn:Er; [discriminate|].
        apply IH in Er. destruct Er as (b & a & E & Hb & Hu).
        exists (e :: b), a. rewrite E. split; [reflexivity|]. split; [discriminate|].
        cbn [rev]. destruct (rev b) eqn:Erb; [|exact Hu].
        apply (f_equal (@rev tok)) in Erb. rewrite rev_involutive in Erb. now destruct Hb.
    + intros (b & a & E & Hb & Hu). destruct b as [|b0 b]; [congruence|].
      injection E as -> E. destruct b as [|b1 b].
      * cbn in E. subst a. cbn in Hu. apply filler_err in Hu. now rewrite Hu.
      * assert (Er : fill_rest r xs = None).
        { apply IH. exists (b1 :: b), a. split; [exact E|]. split; [discriminate|].
          cbn [rev] in Hu. destruct (rev (b1 :: b)) eqn:Erb; cbn [rev] in Erb.
          - destruct (rev b); discriminate.
          - rewrite Erb in Hu. exact Hu. }
        rewrite Er. destruct (filler (Some b0) (Some r)); reflexivity.
Qed.

Lemma fill_gaps_err xs :
  fill_gaps xs = None <->
  xs <> [] /\ exists l r, neighbours xs l r /\ unnameable l r.
Proof.
  destruct xs as [|x xs]; cbn [fill_gaps].
  - split; [discriminate|]. intros [H _]; congruence.
  - split.
    + intros H. split; [discriminate|]. unfold with_fill in H.
      destruct (filler None (Some x)) eqn:Ef.
      * exists None, (Some x). split; [exists [], (x :: xs); auto|]. now apply filler_err.
      * destruct (fill_rest x xs) eqn:Er; [discriminate|].
        apply fill_rest_err in Er. destruct Er as (b & a & E & Hb & Hu).
        eexists _, _. split; [|exact Hu]. exists b, a. auto.
      * destruct (fill_rest x xs) eqn:Er; [discriminate|].
        apply fill_rest_err in Er. destruct Er as (b & a & E & Hb & Hu).
        eexists _, _. split; [|exact Hu]. exists b, a. auto.
    + intros (_ & l & r & (b & a & E & -> & ->) & Hu). unfold with_fill.
      destruct b as [|b0 b].
      * cbn in E. subst a. cbn in Hu. apply filler_err in Hu. now rewrite Hu.
      * assert (Er : fill_rest x xs = None).
        { apply fill_rest_err. exists (b0 :: b), a. repeat split; auto; try discriminate; apply Hu. }
        rewrite Er. destruct (filler None (Some x)); reflexivity.
Qed.

(** ** No token lost, whatever the input *)

Notation tsht1 := (shunt1 Leaf Nul tap1 tap2).
Definition state_toks (s : st tree) : list tok :=
  flat_map reading (output s) ++ map TOp (ops s).

Lemma apply_perm o out out' err :
  tapply o out err = Some (out', false) ->
  err = false /\ Permutation (flat_map reading out') (TOp o :: flat_map reading out)
  /\ (length out' + arity (o_fix o) = S (length out))%nat.
Proof.
  unfold apply_op. destruct (arity (o_fix o)) as [|[|[|?]]] eqn:Ea;
    [| | |destruct (o_fix o); discriminate].
  - intros [=<- <-]. cbn [flat_map reading length app]. repeat split; auto; lia.
  - destruct out as [|x out]; [discriminate|]. cbn [tap1]. intros [=<- <-].
    cbn [flat_map length]. split; auto. split; [|lia].
    destruct (fixity_eqb (o_fix o) UnaryPostfix); cbn [reading].
    + rewrite <- app_assoc. cbn. symmetry. apply Permutation_middle.
    + reflexivity.
  - destruct out as [|x [|y out]]; try discriminate. cbn [tap2]. intros [=<- <-].
    cbn [flat_map reading length]. split; auto. split; [|lia].
    rewrite <- app_assoc. cbn.
    rewrite <- Permutation_middle. constructor. rewrite !app_assoc.
    apply Permutation_app_tail. apply Permutation_app_comm.
Qed.

Lemma seat_perm o : forall ops out err ops' out',
  tseat o ops out err = Some (ops', out', false) ->
  err = false /\
  Permutation (flat_map reading out' ++ map TOp ops') (TOp o :: flat_map reading out ++ map TOp ops)
  /\ (length out' + list_sum (map (fun o => arity (o_fix o)) ops) + arity (o_fix o) + length ops'
      = length out + list_sum (map (fun o => arity (o_fix o)) ops') + length ops + 1)%nat.
Proof.
  assert (App : forall ops out err out1,
    tapply o out err = Some (out1, false) ->
    err = false /\ Permutation (flat_map reading out1 ++ map TOp ops) (TOp o :: flat_map reading out ++ map TOp ops)
    /\ (length out1 + list_sum (map (fun o => arity (o_fix o)) ops) + arity (o_fix o) + length ops
      = length out + list_sum (map (fun o => arity (o_fix o)) ops) + length ops + 1)%nat).
  { intros ops out err out1 H. apply apply_perm in H. destruct H as (? & H & L). split; auto.
    split; [|lia]. rewrite H. reflexivity. }
  assert (Push : forall ops (out : list tree),
    Permutation (flat_map reading out ++ map TOp (o :: ops)) (TOp o :: flat_map reading out ++ map TOp ops)
    /\ (length out + list_sum (map (fun o => arity (o_fix o)) ops) + arity (o_fix o) + length (o :: ops)
      = length out + list_sum (map (fun o => arity (o_fix o)) (o :: ops)) + length ops + 1)%nat).
  { intros. split; [cbn; symmetry; apply Permutation_middle|].
    cbn [map length list_sum fold_right]. unfold list_sum. lia. }
  induction ops as [|top rest IH]; intros out err ops' out'; cbn [seat_op].
  - destruct (fixity_eqb (o_fix o) Nullary).
    + destruct (tapply o out err) as [[o1 e1]|] eqn:E; [|discriminate].
      intros [=<- <- ->]. now apply App with (ops := []) in E.
    + intros [=<- <- ->]. split; [reflexivity|apply Push].
  - assert (Re : forall ops' out', match tapply top out err with
             | Some (out1, err1) => tseat o rest out1 err1 | None => None end = Some (ops', out', false) ->
      err = false /\
      Permutation (flat_map reading out' ++ map TOp ops') (TOp o :: flat_map reading out ++ map TOp (top :: rest))
  /\ (length out' + list_sum (map (fun o => arity (o_fix o)) (top :: rest)) + arity (o_fix o) + length ops'
      = length out + list_sum (map (fun o => arity (o_fix o)) ops') + length (top :: rest) + 1)%nat).
    { intros ops1 out1. destruct (tapply top out err) as [[o2 e2]|] eqn:E; [|discriminate].
      intros H. apply IH in H. destruct H as (-> & H1 & H2). apply apply_perm in E.
      destruct E as (-> & E1 & E2). split; auto. split.
      - rewrite H1, E1. constructor. cbn. apply Permutation_middle.
      - cbn [map length list_sum fold_right]. unfold list_sum in *. lia. }
    pose proof (Push (top :: rest) out) as Pu.
    pose proof (App (top :: rest) out err) as Ap.
    destruct (fixity_eqb (o_fix o) Nullary).
    { destruct (tapply o out err) as [[o1 e1]|] eqn:E; [|discriminate].
      intros [=<- <- ->]. auto. }
    destruct (fixity_eqb (o_fix top) InfixLeft).
    { destruct (o_prec o <=? o_prec top); [apply Re|]. intros [=<- <- ->]. auto. }
    destruct (fixity_eqb (o_fix top) InfixRight).
    { destruct (o_prec o <? o_prec top); [apply Re|]. intros [=<- <- ->]. auto. }
    destruct (fixity_eqb (o_fix top) UnaryPostfix); [apply Re|].
    destruct (fixity_eqb (o_fix o) UnaryPostfix).
    { destruct (o_prec o <? o_prec top); [apply Re|].
      destruct (tapply o out err) as [[o1 e1]|] eqn:E; [|discriminate].
      intros [=<- <- ->]. auto. }
    destruct (o_prec o <? o_prec top); [apply Re|]. intros [=<- <- ->]. auto.
Qed.

Lemma clear_perm : forall ops out err out',
  tclear ops out err = Some (out', false) ->
  err = false /\ Permutation (flat_map reading out') (flat_map reading out ++ map TOp ops)
  /\ (length out' + list_sum (map (fun o => arity (o_fix o)) ops) = length out + length ops)%nat.
Proof.
  induction ops as [|o ops IH]; intros out err out'; cbn [clear_ops].
  - intros [=<- ->]. cbn. rewrite app_nil_r. split; auto.
  - destruct (tapply o out err) as [[o1 e1]|] eqn:E; [|discriminate].
    intros H. apply IH in H. destruct H as (-> & H1 & H2). apply apply_perm in E.
    destruct E as (-> & E1 & E2). split; auto. split.
    + rewrite H1, E1. cbn. apply Permutation_middle.
    + cbn [map length list_sum fold_right]. unfold list_sum in *. lia.
Qed.

(** Operands still owed by a soup. *)
Fixpoint balance (toks : list tok) : Z :=
  match toks with
  | [] => 0
  | TVal _ :: r => 1 + balance r
  | TOp o :: r => 1 - Z.of_nat (arity (o_fix o)) + balance r
  end.

Lemma balance_filled :
  (forall toks, operand_next toks -> balance toks = 1) /\
  (forall toks, operator_next toks -> balance toks = 0).
Proof.
  apply soup_ind; intros; cbn [balance]; try rewrite H; cbn [arity]; try lia.
  destruct H as [-> | ->]; cbn [arity]; lia.
Qed.

Definition st_balance (s : st tree) : Z :=
  Z.of_nat (length (output s)) + balance (map TOp (ops s)).

Lemma balance_ops os : balance (map TOp os) = Z.of_nat (length os)
  - Z.of_nat (list_sum (map (fun o => arity (o_fix o)) os)).
Proof.
  induction os as [|o os IH]; [reflexivity|]. cbn [map balance length list_sum fold_right].
  rewrite IH. unfold list_sum. lia.
Qed.

Lemma run_perm :
  forall n toks, (operand_next toks \/ operator_next toks) -> forall out ops t,
  tloop n (mkSt toks out ops false) = Done t ->
  Z.of_nat (length out) + balance (map TOp ops) + balance toks = 1 ->
  Permutation (reading t) (flat_map reading out ++ map TOp ops ++ toks).
Proof.
  assert (Tail : forall x toks, (operand_next (x :: toks) \/ operator_next (x :: toks)) ->
            filler (Some x) (hd_error toks) = FillNone /\ (operand_next toks \/ operator_next toks)).
  { intros x toks [H|H]; inversion H; subst; split; auto;
      solve [apply filler_to_operator; auto using sides_nul, sides_post
            |apply filler_to_operand; auto using sides_pre, sides_infix]. }
  induction n as [|n IH]; intros toks Hs out ops t.
  - cbn [Model.loop is_complete input Model.ops error output].
    destruct toks; [|discriminate]. destruct ops; [|discriminate]. destruct out as [|x out]; [discriminate|].
    intros [=<-]. cbn [length map balance]. intros H. assert (length out = 0)%nat by lia.
    destruct out; [|discriminate]. cbn. rewrite !app_nil_r. reflexivity.
  - destruct toks as [|[v|o] toks].
    + rewrite loop_end. destruct (tclear ops out false) as [[out' err']|] eqn:E; [|discriminate].
      destruct err'; [discriminate|]. destruct out' as [|x out']; [discriminate|].
      intros [=<-]. apply clear_perm in E. destruct E as (_ & E1 & E2).
      rewrite balance_ops. cbn [balance length] in *. intros H.
      assert (length out' = 0)%nat by lia. destruct out'; [|discriminate].
      cbn [flat_map] in E1. rewrite app_nil_r in E1. rewrite E1, app_nil_r. reflexivity.
    + destruct (Tail _ _ Hs) as [Hf Hs']. rewrite loop_val by auto.
      intros H Hb. apply IH in H; auto.
      * rewrite H. cbn [flat_map reading app].
        rewrite !app_assoc. apply Permutation_middle.
      * cbn [balance length] in *. lia.
    + destruct (Tail _ _ Hs) as [Hf Hs']. rewrite loop_op by auto.
      destruct (tseat o ops out false) as [[[ops' out'] err']|] eqn:E; [|discriminate].
      destruct err'.
      { intros H. exfalso. revert H.
        assert (St : forall n s t, error s = true -> tloop n s <> Done t).
        { clear. induction n as [|n IH]; intros s t He; cbn [Model.loop]; rewrite He.
          - destruct (is_complete s); discriminate.
          - destruct (is_complete s); [discriminate|].
            destruct (tsht1 s) as [s'|] eqn:E; [|discriminate]. apply IH.
            unfold shunt1 in E. rewrite He in E. destruct (input s) as [|e inp].
            + destruct (tclear (ops s) (output s) true) as [[? ?]|] eqn:Ec; [|discriminate].
              injection E as <-. cbn. destruct b; auto. apply clear_perm in Ec. destruct Ec; discriminate.
            + unfold insert_fill in E. destruct (filler (Some e) (hd_error inp)); destruct e as [v|o];
                try (injection E as <-; reflexivity);
                (destruct (tseat o (ops s) (output s) true) as [[[? ?] b]|] eqn:Ec; [|discriminate];
                 injection E as <-; cbn; destruct b; auto;
                 apply seat_perm in Ec; destruct Ec; discriminate). }
        now apply St. }
      intros H Hb. apply seat_perm in E. destruct E as (_ & E1 & E2).
      apply IH in H; auto.
      * rewrite H. rewrite !app_assoc. rewrite E1. cbn [app].
        rewrite <- app_assoc. rewrite <- !app_assoc.
        rewrite !app_assoc. rewrite <- app_assoc. 
        rewrite <- !app_assoc. rewrite !app_assoc. apply Permutation_middle.
      * rewrite balance_ops in *. cbn [balance] in *. lia.
Qed.

Lemma shunt_tree_perm toks t :
  operand_next toks -> shunt_tree toks = Done t -> Permutation (reading t) toks.
Proof.
  intros H E. unfold shunt_tree in E. rewrite shunt_filled in E by auto.
  apply run_perm in E; auto.
  cbn. now rewrite (proj1 balance_filled).
Qed.
