(** From trees to expressions: the resolver computes the meaning of the tree. *)
From Coq Require Import List ZArith NArith Bool Lia Permutation.
From Verif.Shunt Require Import Model Spec Proofs Proofs2.
Import ListNotations.
Open Scope Z_scope.

Section Hom.
  Variable merge : N -> N -> N.
  Notation meaning := (meaning merge).
  Notation eap1 := form_apply1.
  Notation eap2 := (form_apply2 merge).
  Notation eapply := (apply_op o_body eap1 eap2).
  Notation eseat := (seat_op o_body eap1 eap2).
  Notation eclear := (clear_ops o_body eap1 eap2).
  Notation eloop := (loop (fun e => e) o_body eap1 eap2).

  Fixpoint den (out : list tree) : option (list expr) :=
    match out with
    | [] => Some []
    | t :: out' => match meaning t, den out' with
                   | Some e, Some es => Some (e :: es)
                   | _, _ => None
                   end
    end.

  Lemma meaning_ap1 o x :
    match tap1 o x with Some t => meaning t | None => None end
    = match meaning x with Some a => eap1 o a | None => None end.
  Proof.
    unfold tap1, eap1. destruct (fixity_eqb (o_fix o) UnaryPostfix); cbn [Spec.meaning];
      destruct (meaning x); auto; destruct (o_body o); reflexivity.
  Qed.

  Lemma meaning_ap2 o x y :
    match tap2 o x y with Some t => meaning t | None => None end
    = match meaning x, meaning y with Some a, Some b => eap2 o a b | _, _ => None end.
  Proof.
    unfold tap2, eap2. cbn [Spec.meaning].
    destruct (meaning x); auto; destruct (meaning y) as [b|]; auto; destruct (o_body o); auto;
      destruct b; reflexivity.
  Qed.

  Definition lift_out (r : option (list tree * bool)) : option (list expr * bool) :=
    match r with
    | Some (out, err) => match den out with Some es => Some (es, err) | None => None end
    | None => None
    end.

  Lemma apply_hom o out err out' err' :
    tapply o out err = Some (out', err') ->
    match den out with
    | None => den out' = None
    | Some es => eapply o es err = match den out' with Some es' => Some (es', err') | None => None end
    end.
  Proof.
    unfold apply_op. destruct (arity (o_fix o)) as [|[|?]].
    - intros [=<- <-]. cbn [den Spec.meaning]. destruct (den out); reflexivity.
    - destruct out as [|x out].
      + intros [=<- <-]. reflexivity.
      + pose proof (meaning_ap1 o x) as M. unfold tap1 in *.
        intros [=<- <-]. cbn [den]. rewrite M.
        destruct (meaning x); auto. destruct (den out); auto.
        * destruct (eap1 o e); reflexivity.
        * destruct (eap1 o e); reflexivity.
    - destruct out as [|x [|y out]].
      + intros [=<- <-]. reflexivity.
      + intros [=<- <-]. cbn [den]. destruct (meaning x); reflexivity.
      + pose proof (meaning_ap2 o y x) as M. unfold tap2 in *.
        intros [=<- <-]. cbn [den]. rewrite M.
        destruct (meaning x); destruct (meaning y); auto. destruct (den out); auto.
        * destruct (eap2 o e0 e); reflexivity.
        * destruct (eap2 o e0 e); reflexivity.
  Qed.

  Lemma apply_total o out err : exists r, tapply o out err = Some r.
  Proof.
    unfold apply_op, tap1, tap2. destruct (arity (o_fix o)) as [|[|?]];
      [eauto|destruct out; eauto|destruct out as [|? [|? ?]]; eauto].
  Qed.

  Lemma seat_hom o : forall ops out err ops' out' err',
    tseat o ops out err = Some (ops', out', err') ->
    match den out with
    | None => den out' = None
    | Some es => eseat o ops es err
                 = match den out' with Some es' => Some (ops', es', err') | None => None end
    end.
  Proof.
    assert (App : forall (ops : list opr) out err ops' out' err',
      match tapply o out err with
        Some (o1, e1) => Some (ops, o1, e1) | None => None end = Some (ops', out', err') ->
      match den out with
      | None => den out' = None
      | Some es => match eapply o es err with
                   Some (o1, e1) => Some (ops, o1, e1) | None => None end
                   = match den out' with Some es' => Some (ops', es', err') | None => None end
      end).
    { intros ops out err ops' out' err'. destruct (tapply o out err) as [[o1 e1]|] eqn:E; [|discriminate].
      intros [=<- <- <-]. apply apply_hom in E. destruct (den out); auto. rewrite E.
      destruct (den o1); reflexivity. }
    assert (Push : forall (ops : list opr) (out : list tree) (err : bool) ops' out' err',
      Some (ops, out, err) = Some (ops', out', err') ->
      match den out with
      | None => den out' = None
      | Some es => Some (ops, es, err)
                   = match den out' with Some es' => Some (ops', es', err') | None => None end
      end).
    { intros ops out err ops' out' err' [=<- <- <-]. destruct (den out); reflexivity. }
    induction ops as [|top rest IH]; intros out err ops' out' err'; cbn [seat_op].
    - destruct (fixity_eqb (o_fix o) Nullary); [apply App|apply Push].
    - assert (Re : match tapply top out err with
             | Some (out1, err1) => tseat o rest out1 err1 | None => None end = Some (ops', out', err') ->
        match den out with
        | None => den out' = None
        | Some es => match eapply top es err with
                     | Some (out1, err1) => eseat o rest out1 err1 | None => None end
                     = match den out' with Some es' => Some (ops', es', err') | None => None end
        end).
      { destruct (tapply top out err) as [[o1 e1]|] eqn:E; [|discriminate].
        intros H. apply IH in H. apply apply_hom in E. destruct (den out).
        - rewrite E. destruct (den o1); auto. now rewrite H.
        - now rewrite E in H. }
      destruct (fixity_eqb (o_fix o) Nullary); [apply App|].
      destruct (fixity_eqb (o_fix top) InfixLeft).
      { destruct (o_prec o <=? o_prec top); [apply Re|apply Push]. }
      destruct (fixity_eqb (o_fix top) InfixRight).
      { destruct (o_prec o <? o_prec top); [apply Re|apply Push]. }
      destruct (fixity_eqb (o_fix top) UnaryPostfix); [apply Re|].
      destruct (fixity_eqb (o_fix o) UnaryPostfix).
      { destruct (o_prec o <? o_prec top); [apply Re|apply App]. }
      destruct (o_prec o <? o_prec top); [apply Re|apply Push].
  Qed.

  Lemma clear_hom : forall ops out err out' err',
    tclear ops out err = Some (out', err') ->
    match den out with
    | None => den out' = None
    | Some es => eclear ops es err = match den out' with Some es' => Some (es', err') | None => None end
    end.
  Proof.
    induction ops as [|o ops IH]; intros out err out' err'; cbn [clear_ops].
    - intros [=<- <-]. destruct (den out); reflexivity.
    - destruct (tapply o out err) as [[o1 e1]|] eqn:E; [|discriminate].
      intros H. apply IH in H. apply apply_hom in E. destruct (den out).
      + rewrite E. destruct (den o1); auto. now rewrite H.
      + now rewrite E in H.
  Qed.

  Lemma run_hom :
    forall n toks, (operand_next toks \/ operator_next toks) -> forall out ops t,
    tloop n (mkSt toks out ops false) = Done t ->
    Z.of_nat (length out) + balance (map TOp ops) + balance toks = 1 ->
    match den out with
    | None => meaning t = None
    | Some es => eloop n (mkSt toks es ops false)
                 = match meaning t with Some e => Done e | None => PanicApply end
    end.
  Proof.
    assert (Tail : forall x toks, (operand_next (x :: toks) \/ operator_next (x :: toks)) ->
            filler (Some x) (hd_error toks) = FillNone /\ (operand_next toks \/ operator_next toks)).
    { intros x toks [H|H]; inversion H; subst; split; auto;
        solve [apply filler_to_operator; auto using sides_nul, sides_post
              |apply filler_to_operand; auto using sides_pre, sides_infix]. }
    induction n as [|n IH]; intros toks Hs out ops t.
    - cbn [Model.loop is_complete input Model.ops error output].
      destruct toks; [|discriminate]. destruct ops; [|discriminate].
      destruct out as [|x out]; [discriminate|].
      intros [=<-]. cbn [length map balance]. intros H. assert (length out = 0)%nat by lia.
      destruct out; [|discriminate]. cbn [den]. destruct (meaning x); reflexivity.
    - destruct toks as [|[v|o] toks].
      + rewrite !loop_end.
        destruct (tclear ops out false) as [[out' err']|] eqn:E; [|discriminate].
        destruct err'; [discriminate|]. destruct out' as [|x out']; [discriminate|].
        intros [=<-]. pose proof (clear_hom _ _ _ _ _ E) as Hc.
        apply clear_perm in E. destruct E as (_ & E1 & E2).
        rewrite balance_ops. cbn [balance length] in *. intros H.
        assert (length out' = 0)%nat by lia. destruct out'; [|discriminate].
        cbn [den] in Hc. destruct (den out).
        * rewrite loop_end, Hc. destruct (meaning x); reflexivity.
        * destruct (meaning x); congruence.
      + destruct (Tail _ _ Hs) as [Hf Hs']. rewrite loop_val by auto.
        intros H Hb. apply IH in H; auto.
        * cbn [den Spec.meaning] in H. destruct (den out); auto. rewrite loop_val by auto. exact H.
        * cbn [balance length] in *. lia.
      + destruct (Tail _ _ Hs) as [Hf Hs']. rewrite loop_op by auto.
        destruct (tseat o ops out false) as [[[ops' out'] err']|] eqn:E; [|discriminate].
        destruct err'.
        { intros H. exfalso. revert H.
          assert (St : forall n s t, error s = true -> tloop n s <> Done t).
          { clear. induction n as [|n IH]; intros s t He; cbn [Model.loop]; rewrite He.
            - destruct (is_complete s); discriminate.
            - destruct (is_complete s); [discriminate|].
              destruct (tsht1 s) as [s'|] eqn:E; [|discriminate]. apply IH.
              unfold shunt1 in E. rewrite He in E. destruct (input s) as [|e inp].
              + destruct (tclear (ops s) (output s) true) as [[? ?]|] eqn:Ec; [|discriminate].
                injection E as <-. cbn. destruct b; auto. apply clear_perm in Ec. destruct Ec; discriminate.
              + unfold insert_fill in E. destruct (filler (Some e) (hd_error inp)); destruct e as [v|o];
                  try (injection E as <-; reflexivity);
                  (destruct (tseat o (ops s) (output s) true) as [[[? ?] b]|] eqn:Ec; [|discriminate];
                   injection E as <-; cbn; destruct b; auto;
                   apply seat_perm in Ec; destruct Ec; discriminate). }
          now apply St. }
        intros H Hb. pose proof (seat_hom _ _ _ _ _ _ _ E) as Hh.
        apply seat_perm in E. destruct E as (_ & E1 & E2).
        apply IH in H; auto.
        * destruct (den out) as [es|].
          -- rewrite loop_op by auto. rewrite Hh. destruct (den out'); auto. now rewrite H.
          -- now rewrite Hh in H.
        * rewrite balance_ops in *. cbn [balance] in *. lia.
  Qed.

  Lemma shunt_expr_meaning toks t :
    operand_next toks -> shunt_tree toks = Done t ->
    shunt_expr merge toks = match meaning t with Some e => Done e | None => PanicApply end.
  Proof.
    intros H E. unfold shunt_tree in E. unfold shunt_expr.
    rewrite shunt_filled in * by auto.
    apply run_hom in E; auto. cbn. now rewrite (proj1 balance_filled).
  Qed.

  (** ** Calls *)
  Lemma starts_with_value v : forall t k,
    arities_ok t -> reading t = TVal v :: k ->
    t = Leaf v \/ exists b k', In b (left_open t) /\ k = TOp b :: k'.
  Proof.
    induction t as [e|o|o x IH|o x IH|o l IHl r IHr]; intros k Ha H; cbn [reading] in H;
      cbn [arities_ok] in Ha.
    - left. congruence.
    - discriminate.
    - discriminate.
    - right. destruct (reading x) as [|y k1] eqn:E; [now apply reading_nonempty in E|].
      injection H as -> <-. destruct (IH k1 (proj2 Ha) eq_refl) as [-> | (b & k' & Hb & ->)].
      + injection E as <-. exists o, []. cbn. auto.
      + exists b, (k' ++ [TOp o]). cbn. auto.
    - right. destruct (reading l) as [|y k1] eqn:E; [now apply reading_nonempty in E|].
      injection H as -> <-.
      destruct (IHl k1 (proj1 (proj2 Ha)) eq_refl) as [-> | (b & k' & Hb & ->)].
      + injection E as <-. exists o, (reading r). cbn. auto.
      + exists b, (k' ++ TOp o :: reading r). cbn. auto.
  Qed.

  Lemma calls_meaning : forall t before after,
    arities_ok t -> entitled t -> calls_ok (before ++ reading t ++ after) ->
    exists e, meaning t = Some e /\
      (forall v, t = Leaf v -> e = v).
  Proof.
    induction t as [e|o|o x IH|o x IH|o l IHl r IHr]; intros before after Ha He Hc;
      cbn [arities_ok entitled reading] in *.
    - exists e. split; auto. intros v [=->]. reflexivity.
    - exists (o_body o). split; auto. discriminate.
    - destruct (IH (before ++ [TOp o]) after) as (a & Ea & _); try tauto.
      { rewrite <- app_assoc. exact Hc. }
      cbn [Spec.meaning]. rewrite Ea.
      destruct (Hc before o (reading x ++ after) eq_refl) as [Hp _].
      destruct Ha as [Ha _].
      destruct (o_body o) eqn:Eb; try (eexists; split; [reflexivity|discriminate]);
        (rewrite Hp in Ha; [discriminate|unfold is_pseudo; auto]).
    - destruct (IH before ([TOp o] ++ after)) as (a & Ea & _); try tauto.
      { rewrite <- app_assoc in Hc. exact Hc. }
      cbn [Spec.meaning]. rewrite Ea.
      rewrite <- app_assoc in Hc. rewrite app_assoc in Hc.
      destruct (Hc (before ++ reading x) o after eq_refl) as [Hp _].
      destruct Ha as [Ha _].
      destruct (o_body o) eqn:Eb; try (eexists; split; [reflexivity|discriminate]);
        (rewrite Hp in Ha; [discriminate|unfold is_pseudo; auto]).
    - rewrite <- app_assoc in Hc. cbn [app] in Hc.
      destruct (IHl before (TOp o :: reading r ++ after)) as (a & Ea & _); try tauto.
      destruct (IHr (before ++ reading l ++ [TOp o]) after) as (b & Eb & Hb); try tauto.
      { rewrite <- !app_assoc. exact Hc. }
      cbn [Spec.meaning]. rewrite Ea, Eb.
      destruct (o_body o) eqn:Eo;
        try (eexists; split; [reflexivity|discriminate]).
      + destruct b; (eexists; split; [reflexivity|discriminate]).
      + rewrite app_assoc in Hc.
        destruct (Hc _ o _ eq_refl) as [Hp Hcall].
        destruct (Hcall Eo) as (s & args & aft & E & Hnext). clear Hcall.
        destruct (reading r) as [|y k] eqn:Er; [now apply reading_nonempty in Er|].
        injection E as -> E.
        destruct (starts_with_value _ r k (proj2 (proj2 Ha)) Er) as [Hr | (c & k' & Hin & ->)].
        * rewrite (Hb _ Hr). eexists; split; [reflexivity|discriminate].
        * exfalso. destruct He as (_ & _ & _ & Hlo). rewrite Forall_forall in Hlo.
          apply (Hlo c Hin). unfold binds_left.
          rewrite Hp by (unfold is_pseudo; auto).
          eapply Hnext. rewrite <- E. reflexivity.
  Qed.

  Lemma shunt_expr_safe toks :
    operand_next toks -> prefixes_tight None toks -> calls_ok toks ->
    exists e, shunt_expr merge toks = Done e.
  Proof.
    intros Ho Hp Hc. destruct (shunt_tree_sound toks Ho Hp) as (t & E & Ha & He & Hr).
    rewrite (shunt_expr_meaning toks t Ho E).
    destruct (calls_meaning t [] [] Ha He) as (e & Em & _).
    { cbn. now rewrite app_nil_r, Hr. }
    rewrite Em. eauto.
  Qed.

  (** Whatever the soup, the resolver ends without the "empty output" panic. *)
  Lemma shunt_expr_ends toks :
    toks <> [] ->
    shunt_expr merge toks <> NoFuel /\ shunt_expr merge toks <> PanicEmpty.
  Proof.
    intros H. split.
    - eapply shunt_fuel_enough. apply le_n.
    - now apply shunt_not_empty.
  Qed.
End Hom.

(** Tactics for concrete soups. *)
Ltac infix_soup := repeat first [apply ie_one | apply ie_more; [cbn; tauto|]].
Ltac filled_soup :=
  repeat first [apply on_val | apply op_end
    | apply on_nul; [reflexivity|] | apply on_pre; [reflexivity|]
    | apply op_post; [reflexivity|] | apply op_bin; [cbn; tauto|]].

Lemma calls_ok_nil : calls_ok [].
Proof. intros [|? ?] o after E; discriminate. Qed.
Lemma calls_ok_val v xs : calls_ok xs -> calls_ok (TVal v :: xs).
Proof. intros H [|? before] o after E; [discriminate|]. injection E as _ E. eapply H; eauto. Qed.
Lemma calls_ok_op o xs : call_ok o xs -> calls_ok xs -> calls_ok (TOp o :: xs).
Proof.
  intros Ho H [|? before] o' after E; [now injection E as <- <-|].
  injection E as _ E. eapply H; eauto.
Qed.
