(** Calculating with programs that mean the same. *)
From Coq Require Import List Bool Arith NArith Lia.
From Verif.Bytecode Require Import Model Spec.
From Verif.Machine Require Import Model Spec Name Rel Chase Sim Steps Clean Correct Curry.
From Verif.Stg Require Import Model Spec.
Import ListNotations.
Open Scope nat_scope.

Section Rules.
Context {native : Type}.
Notation syn := (syn native).
Notation form := (form native).
Notation value := (value (native := native)).
Notation env := (Spec.env (native := native)).
Variable prim : N -> list native -> prim_result (native := native).
Variable merge : N.
Variable globals : list form.
Notation evals := (evals prim merge globals).
Notation strips := (strips prim merge globals).
Notation applies := (applies prim merge globals).
Notation variable := (variable globals).
Notation variables := (variables globals).
Notation same := (same prim merge globals).
Notation builds := (builds prim merge globals).
Notation is_native := (is_native prim merge globals).

Lemma same_refl p : same p p. Proof. intros v. tauto. Qed.
Lemma same_trans p q r : same p q -> same q r -> same p r.
Proof. intros H1 H2 v. rewrite (H1 v). apply H2. Qed.
Lemma same_sym p q : same p q -> same q p.
Proof. intros H v. symmetry. apply H. Qed.

Lemma strips_of p q w : same p q -> strips q w -> strips p w.
Proof.
  intros H Hs. inversion Hs; subst.
  - apply st_plain; [apply H; assumption | assumption].
  - eapply st_meta; [apply H; eassumption | eassumption | assumption].
Qed.
Lemma builds_of p q tag fs : same p q -> builds q tag fs -> builds p tag fs.
Proof. intros H (args & e & Hs & Hv). exists args, e. split; [eapply strips_of; eassumption | exact Hv]. Qed.
Lemma builds_data tag args e fs : variables e args = Some fs -> builds (VClo (SCons tag args) 0 e) tag fs.
Proof. intros H. exists args, e. split; [apply st_plain; [apply ev_data | reflexivity] | exact H]. Qed.
Lemma builds_unique p tag fs tag' fs' : builds p tag fs -> builds p tag' fs' -> tag = tag' /\ fs = fs'.
Proof.
  intros (args & e & Hs & Hv) (args' & e' & Hs' & Hv').
  pose proof (strips_unique prim merge globals _ _ _ Hs Hs') as E. injection E as -> -> ->.
  rewrite Hv in Hv'. injection Hv' as ->. auto.
Qed.
Lemma builds_not_native p tag fs n : builds p tag fs -> ~ is_native p n.
Proof. intros (args & e & Hs & _) Hn. pose proof (strips_unique prim merge globals _ _ _ Hs Hn). discriminate. Qed.

Lemma same_atom e r p : variable e r = Some p -> same (VClo (SAtom r) 0 e) p.
Proof.
  intros H v. split; intros Hv; [| econstructor; eassumption].
  inversion Hv; subst; try lia. rewrite H in *. congruence.
Qed.
Lemma same_case scr bs fb e tag fs b : builds (VClo scr 0 e) tag fs -> branch_for tag bs = Some b ->
  same (VClo (SCase scr bs fb) 0 e) (VClo b 0 (bind fs e)).
Proof.
  intros (args & e' & Hs & Hv) Hb v. split; intros H; [| econstructor; eassumption].
  inversion H; subst; try lia.
  - pose proof (strips_unique prim merge globals _ _ _ Hs ltac:(eassumption)) as E. injection E as <- <- <-.
    rewrite Hv in *. rewrite Hb in *. congruence.
  - pose proof (strips_unique prim merge globals _ _ _ Hs ltac:(eassumption)) as E. subst.
    cbn [selects] in *. congruence.
Qed.
Lemma same_fallback scr bs f e w : strips (VClo scr 0 e) w -> selects w bs = None ->
  same (VClo (SCase scr bs (Some f)) 0 e) (VClo f 0 (Vals [w] :: e)).
Proof.
  intros Hs Hn v. split; intros H; [| eapply ev_fallback; eassumption].
  inversion H; subst; try lia.
  - pose proof (strips_unique prim merge globals _ _ _ Hs ltac:(eassumption)) as E. subst.
    cbn [selects] in *. congruence.
  - pose proof (strips_unique prim merge globals _ _ _ Hs ltac:(eassumption)) as E. subst. assumption.
Qed.
Lemma same_letrec fs body e : same (VClo (SLet true fs body) 0 e) (VClo body 0 (Rec fs :: e)).
Proof. intros v. split; intros H; [inversion H; subst; [lia | assumption] | constructor; assumption]. Qed.
Lemma same_let fs body e : same (VClo (SLet false fs body) 0 e) (VClo body 0 (Vals (map (closure e) fs) :: e)).
Proof. intros v. split; intros H; [inversion H; subst; [lia | assumption] | constructor; assumption]. Qed.

Lemma strips_self_fun c n e : 0 < n -> strips (VClo c n e) (VClo c n e).
Proof. intros H. apply st_plain; [constructor; exact H |]. destruct n; [lia |]. destruct c; reflexivity. Qed.
Lemma applies_lambda p c e args v : strips p (VClo c (length args) e) -> 0 < length args ->
  (applies p args v <-> evals (VClo c 0 (Vals args :: e)) v).
Proof.
  intros Hs Hl. split; intros H; [| econstructor; eassumption].
  inversion H as [? ? c' e' ? Hs' Hl' He | ? ? f held ? Hs' Ht Hl' Ha | ? ? x Hs' Hl' | ? ? x u ? Hs' Hl' H1 H2 | ? ? fs e' m ? Hs' Hm Ha]; subst;
    pose proof (strips_unique prim merge globals _ _ _ Hs Hs') as E; subst; try discriminate.
  - injection E as <- <-. assumption.
  - cbn [takes] in Hl'. lia.
  - cbn [takes] in Hl'. lia.
  - injection E as -> E ->. lia.
Qed.

Lemma arguments_lazy e rs ps : variables e rs = Some ps -> arguments globals false e rs = Some ps.
Proof.
  unfold arguments. cbn. intros H. f_equal. revert ps H. induction rs as [|r rs IH]; intros ps H; cbn in *.
  - congruence.
  - destruct (variable e r) as [p|] eqn:E; [| discriminate]. destruct (variables e rs); [| discriminate].
    injection H as <-. unfold argument. rewrite E. f_equal. apply IH. reflexivity.
Qed.
Lemma variables_length e rs ps : variables e rs = Some ps -> length ps = length rs.
Proof.
  revert ps. induction rs as [|r rs IH]; intros ps H; cbn in *; [injection H as <-; reflexivity |].
  destruct (variable e r); [| discriminate]. destruct (variables e rs); [| discriminate].
  injection H as <-. cbn. f_equal. apply IH. reflexivity.
Qed.
Lemma same_app e r rs p c e' ps : variable e r = Some p -> strips p (VClo c (length rs) e') -> 0 < length rs ->
  variables e rs = Some ps -> same (VClo (app r rs) 0 e) (VClo c 0 (Vals ps :: e')).
Proof.
  intros Hr Hs Hl Hv v. pose proof (variables_length _ _ _ Hv) as Hlen.
  rewrite <- (applies_lambda p c e' ps v) by (rewrite Hlen; assumption).
  split; intros H.
  - inversion H; subst; try lia. rewrite Hr in *.
    match goal with H1 : arguments _ _ _ _ = _ |- _ => rewrite (arguments_lazy _ _ _ Hv) in H1 end. congruence.
  - eapply ev_apply; [exact Hr | apply arguments_lazy; exact Hv | exact H].
Qed.
(** Calling a wrapper. *)
Lemma same_call e i n body rs ps : nth_error globals (N.to_nat i) = Some (lambda n body) ->
  N.to_nat n = length rs -> 0 < length rs -> variables e rs = Some ps ->
  same (VClo (call i rs) 0 e) (VClo body 0 [Vals ps]).
Proof.
  intros Hg Hn Hl Hv. eapply same_app; [cbn; rewrite Hg; reflexivity | | exact Hl | exact Hv].
  unfold closure. cbn. rewrite Hn. apply strips_self_fun. exact Hl.
Qed.
(** Calling a function of the innermost recursive definitions. *)
Lemma same_call_rec e r rs fs e' n body ps :
  variable e r = Some (closure (Rec fs :: e') (lambda n body)) ->
  N.to_nat n = length rs -> 0 < length rs -> variables e rs = Some ps ->
  same (VClo (app r rs) 0 e) (VClo body 0 (Vals ps :: Rec fs :: e')).
Proof.
  intros Hr Hn Hl Hv. eapply same_app; [exact Hr | | exact Hl | exact Hv].
  unfold closure. cbn. rewrite Hn. apply strips_self_fun. exact Hl.
Qed.
Lemma delivered_evals r w v : delivered r = Some w -> (evals w v <-> v = w).
Proof.
  intros H. destruct r as [n | tag ns |]; cbn in H; try discriminate; injection H as <-; split; intros H.
  - inversion H; reflexivity.
  - subst. constructor.
  - inversion H; subst; [lia | reflexivity].
  - subst. apply ev_data.
Qed.
Lemma natives_unique ps ns : natives prim merge globals ps ns -> forall ns', natives prim merge globals ps ns' -> ns = ns'.
Proof.
  induction 1 as [| p n ps ns Hp _ IH]; intros ns' H; inversion H; subst; [reflexivity |].
  f_equal; [| apply IH; assumption].
  assert (E : VNat n = VNat n0); [| injection E; auto].
  apply (strips_unique prim merge globals p); apply st_plain; auto.
Qed.
Lemma same_prim e i rs ps ns w : variables e rs = Some ps -> natives prim merge globals ps ns ->
  delivered (prim i ns) = Some w -> same (VClo (app_bif i rs) 0 e) w.
Proof.
  intros Hv Hn Hd v. rewrite (delivered_evals _ _ v Hd). split; intros H.
  - inversion H; subst; try lia. rewrite Hv in *.
    match goal with H1 : Some ?a = Some ?b |- _ => injection H1 as <- end.
    match goal with H1 : natives _ _ _ ps ?k |- _ => rewrite <- (natives_unique _ _ Hn _ H1) in * end.
    congruence.
  - subst. eapply ev_primitive; eassumption.
Qed.

(** A value with metadata is not one without. *)
Lemma meta_exclusive p m b e w : evals p (VClo (SMeta m b) 0 e) -> evals p w -> is_meta w = false -> False.
Proof.
  intros Hm Hw Hn.
  set (K := [PDeMeta (SCons 0 []) (SCons 1 []) []] : list (pcont (native := native))).
  pose proof (proj1 (big_small prim merge globals) _ _ Hm K) as R1.
  pose proof (proj1 (big_small prim merge globals) _ _ Hw K) as R2.
  assert (F : final (VClo (SCons 1 []) 0 [Vals [w]], [])) by (repeat split).
  assert (R3 : reaches prim merge globals (p, K) (VClo (SCons 1 []) 0 [Vals [w]], [])).
  { eapply reaches_trans; [exact R2 |]. apply reaches_one.
    rewrite pstep_return; [reflexivity | | exact Hn]. exact (evals_whnf _ _ _ _ _ Hw). }
  destruct (pstep prim merge globals (VClo (SMeta m b) 0 e, K)) as [T|] eqn:E.
  - pose proof (reaches_trans _ _ _ _ _ _ R1 (reaches_one _ _ _ _ _ E)) as R4.
    change (pmeta globals m b e K = Some T) in E. unfold pmeta, K in E. destruct (Machine.Spec.variable globals e b); [| discriminate].
    destruct (Machine.Spec.variable globals e m); [| discriminate]. injection E as <-.
    pose proof (final_unique prim merge globals _ _ _ R3 F R4 eq_refl). discriminate.
  - pose proof (final_unique prim merge globals _ _ _ R3 F R1 E). discriminate.
Qed.
End Rules.
