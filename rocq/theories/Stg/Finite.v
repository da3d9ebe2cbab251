(** Evaluating a whole list has a result only if the list ends. *)
From Coq Require Import List Bool Arith NArith Lia.
From Verif.Bytecode Require Import Model Spec EncProofs.
From Verif.Machine Require Import Model Spec Name Curry.
From Verif.Stg Require Import Model Spec Rules Proofs Data WrapSpec Wrap.
Import ListNotations.
Open Scope nat_scope.

Section Finite.
Context {native : Type}.
Notation syn := (syn native).
Notation form := (form native).
Notation value := (Spec.value (native := native)).
Variable prim : N -> list native -> prim_result (native := native).
Variable merge : N.
Variable globals : list form.
Notation evals := (evals prim merge globals).
Notation strips := (strips prim merge globals).
Notation applies := (applies prim merge globals).
Notation operand := (operand prim merge globals).
Notation natives := (natives prim merge globals).
Notation same := (same prim merge globals).
Notation builds := (builds prim merge globals).
Notation is_list := (is_list prim merge globals).


Notation begins := (Spec.begins prim merge globals).
Variable ends : value -> Prop.

Variable self : N.
Variable body : syn.
Hypothesis Hg : nth_error globals (N.to_nat self) = Some (lambda 1 body).
(** [reach p t]: evaluating [p] takes evaluating the call of [self] on [t]. *)
Inductive reach : value -> value -> Prop :=
| re_call e r t : Spec.variable globals e r = Some t -> reach (VClo (call self [r]) 0 e) t
| re_scrutinee scr bs fb e t : reach (VClo scr 0 e) t -> reach (VClo (SCase scr bs fb) 0 e) t
| re_branch scr bs fb e t :
    (forall tag fs b, builds (VClo scr 0 e) tag fs -> branch_for tag bs = Some b -> reach (VClo b 0 (bind fs e)) t) ->
    (forall w f, strips (VClo scr 0 e) w -> selects w bs = None -> fb = Some f -> reach (VClo f 0 (Vals [w] :: e)) t) ->
    reach (VClo (SCase scr bs fb) 0 e) t.
Variable needed : value -> Prop.
Hypothesis Hshape : forall l v, evals (VClo body 0 [Vals [l]]) v ->
  ends l \/ exists h t, builds l cons_tag [h; t] /\ needed h /\ reach (VClo body 0 [Vals [l]]) t.
Definition finite (l : value) : Prop := exists ps e, begins l ps e /\ ends e /\ Forall needed ps.
Let code : value := VClo body 1 [].

Lemma finite_all :
  (forall p v, evals p v -> forall t, reach p t -> finite t) /\
  (forall p v, strips p v -> forall t, reach p t -> finite t) /\
  (forall p args v, applies p args v -> forall t, p = code -> args = [t] -> finite t) /\
  (forall p n, operand p n -> True) /\ (forall ps ns, natives ps ns -> True).
Proof.
  apply eval_mutual; try (intros; trivial; fail);
    try (intros until t; intros Hr; inversion Hr; fail).
  - intros c a e Ha t Hr. inversion Hr; subst; lia.
  - intros scr bs fb e tag args e' b vs v Hs IHs Hb Hv He IHe t Hr. inversion Hr; subst.
    + auto.
    + apply IHe. match goal with H : forall tag fs b, _ -> _ -> _ |- _ => eapply H end; [| exact Hb].
      exists args, e'. split; assumption.
  - intros scr bs f e w v Hs IHs Hn He IHe t Hr. inversion Hr; subst.
    + auto.
    + apply IHe. match goal with H : forall w f, _ -> _ -> _ -> _ |- _ => eapply H end; [exact Hs | exact Hn | reflexivity].
  - intros f args eager e p vs v Hf Ha Hap IH t Hr. inversion Hr; subst.
    apply (IH t).
    + cbn [Spec.variable] in Hf. rewrite Hg in Hf. injection Hf as <-. reflexivity.
    + rewrite (arguments_lazy globals e [r] [t]) in Ha; [injection Ha as <-; reflexivity |].
      cbn [Spec.variables]. match goal with H : Spec.variable _ _ _ = _ |- _ => rewrite H end. reflexivity.
  - intros p v Hv IH Hm t Hr. eauto.
  - intros p m b e q v Hv IH Hb Hs IHs t Hr. eauto.
  - intros p args c e v Hs _ Hl He IH t -> ->.
    pose proof (strips_unique prim merge globals _ _ _ Hs (strips_self_fun prim merge globals body 1 [] ltac:(lia))) as E.
    injection E as -> ->.
    destruct (Hshape t v He) as [Hend | (h & tl & Hb & Hn & Hr)].
    + exists [], t. split; [constructor | split; [exact Hend | constructor]].
    + destruct (IH tl Hr) as (ps & e1 & Hbe & Hend & Hf).
      exists (h :: ps), e1. split; [econstructor; eassumption | split; [exact Hend | constructor; assumption]].
  - intros p args f held v Hs _ _ _ _ _ t -> ->.
    pose proof (strips_unique prim merge globals _ _ _ Hs (strips_self_fun prim merge globals body 1 [] ltac:(lia))). discriminate.
  - intros p args w Hs _ Hl t -> ->.
    rewrite (strips_unique prim merge globals _ _ _ Hs (strips_self_fun prim merge globals body 1 [] ltac:(lia))) in Hl. cbn in Hl. lia.
  - intros p args w u v Hs _ Hl _ _ _ _ t -> ->.
    rewrite (strips_unique prim merge globals _ _ _ Hs (strips_self_fun prim merge globals body 1 [] ltac:(lia))) in Hl. cbn in Hl. lia.
  - intros p args fields e m v Hs _ _ _ _ t -> ->.
    pose proof (strips_unique prim merge globals _ _ _ Hs (strips_self_fun prim merge globals body 1 [] ltac:(lia))). discriminate.
Qed.
Lemma call_finite e r l v : Spec.variable globals e r = Some l -> evals (VClo (call self [r]) 0 e) v -> finite l.
Proof. intros Hr Hv. eapply (proj1 finite_all); [exact Hv | constructor; exact Hr]. Qed.
End Finite.

Section Instances.
Context {native : Type}.
Notation syn := (syn native).
Notation form := (form native).
Notation value := (Spec.value (native := native)).
Variable prim : N -> list native -> prim_result (native := native).
Variable merge : N.
Variable globals : list form.
Notation evals := (evals prim merge globals).
Notation strips := (strips prim merge globals).
Notation same := (same prim merge globals).
Notation builds := (builds prim merge globals).
Notation ends := (ends prim merge globals).

Lemma local_builds e r p tag fs : Spec.variable globals e (RL r) = Some p -> builds (VClo (local r) 0 e) tag fs -> builds p tag fs.
Proof. intros H. apply same_builds, same_atom. exact H. Qed.
Lemma branch_two t1 t2 tag (b1 b2 b : syn) : branch_for tag [(t1, b1); (t2, b2)] = Some b -> t1 <> t2 ->
  (tag = t1 /\ b = b1) \/ (tag = t2 /\ b = b2).
Proof. intros H _. apply branch_for_in in H. cbn in H. destruct H as [[= <- <-] | [[= <- <-] | []]]; auto. Qed.

Lemma spine_shape self l v : evals (VClo (switch (local 0) [(nil_tag, local 0); (cons_tag, force (call self [lref 1]) (local 0))]) 0 [Vals [l]]) v ->
  ends l \/ exists h t, builds l cons_tag [h; t] /\ True /\
    reach prim merge globals self (VClo (switch (local 0) [(nil_tag, local 0); (cons_tag, force (call self [lref 1]) (local 0))]) 0 [Vals [l]]) t.
Proof.
  intros H. destruct (case_needs _ _ _ _ _ _ _ _ H) as [(tag & fs & b & Hb & Hn & He) | (w & f & Hf & _)]; [| discriminate].
  apply (local_builds _ _ l) in Hb; [| reflexivity].
  apply branch_two in Hn as [[-> ->] | [-> ->]]; [| | discriminate].
  - left. left. destruct Hb as (args & e & Hs & _). eexists _, _. exact Hs.
  - destruct fs as [|h [|t [|x fs]]]; try (left; right; eexists; split; [exact Hb | cbn; lia]).
    right. exists h, t. split; [exact Hb |]. split; [exact I |].
    apply re_branch; [| discriminate]. intros tag fs b Hb' Hn'. apply (local_builds _ _ l) in Hb'; [| reflexivity].
    destruct (builds_unique prim merge globals _ _ _ _ _ Hb Hb') as [<- <-].
    injection Hn' as <-. cbn [bind]. apply re_scrutinee. constructor. reflexivity.
Qed.

(** The two that also evaluate the elements. *)
Definition seq_ends (p : value) : Prop := ends p \/ exists h t, builds p cons_tag [h; t] /\ ~ well_boxed prim merge globals h.
Definition seq_body (k : ty) (self : N) : syn :=
  switch (local 0)
    [(nil_tag, local 0);
     (cons_tag, evaluating k (local 0) (force (call self [lref 3]) (data cons_tag [lref 1; lref 0])))].
Lemma seq_shape k self l v tag : box_tag k = Some tag -> evals (VClo (seq_body k self) 0 [Vals [l]]) v ->
  seq_ends l \/ exists h t, builds l cons_tag [h; t] /\ (exists w, handed prim merge globals (k, true) h w) /\
    reach prim merge globals self (VClo (seq_body k self) 0 [Vals [l]]) t.
Proof.
  intros Hk H. destruct (case_needs _ _ _ _ _ _ _ _ H) as [(tag' & fs & b & Hb & Hn & He) | (w & f & Hf & _)]; [| discriminate].
  apply (local_builds _ _ l) in Hb; [| reflexivity].
  apply branch_two in Hn as [[-> ->] | [-> ->]]; [| | discriminate].
  - left. left. left. destruct Hb as (args & e & Hs & _). eexists _, _. exact Hs.
  - destruct fs as [|h [|t [|x fs]]]; try (left; left; right; eexists; split; [exact Hb | cbn; lia]).
    cbn [bind] in He.
    assert (Hcase : exists fb, evaluating k (local 0) (force (call self [lref 3]) (data cons_tag [lref 1; lref 0])) =
        SCase (local 0) [(tag, force (local 0) (force (call self [lref 3]) (data cons_tag [lref 1; lref 0])))] fb /\
        (fb = None \/ fb = Some (force (local 0) (force (call (native := native) self [lref 3]) (data cons_tag [lref 1; lref 0]))))).
    { destruct k; try discriminate Hk; injection Hk as <-; eexists; (split; [reflexivity | auto]). }
    destruct Hcase as (fb & Hev & Hfb).
    assert (Hreach : (forall fs, builds h tag fs -> exists r, fs = [r]) ->
      reach prim merge globals self (VClo (evaluating k (local 0) (force (call self [lref 3]) (data cons_tag [lref 1; lref 0]))) 0 [Vals [h; t]; Vals [l]]) t).
    { intros Hone. rewrite Hev. apply re_branch.
      - intros tag' fs b Hb' Hn'. apply branch_one in Hn' as [-> ->]. apply (local_builds _ _ h) in Hb'; [| reflexivity].
        destruct (Hone fs Hb') as [r ->]. cbn [bind].
        apply re_branch; [discriminate |]. intros w f _ _ [= <-]. apply re_scrutinee. constructor. reflexivity.
      - intros w f _ _ Hf. destruct Hfb as [Hfb | Hfb]; rewrite Hfb in Hf; [discriminate Hf | injection Hf as <-].
        apply re_branch; [discriminate |]. intros w' f _ _ [= <-]. apply re_scrutinee. constructor. reflexivity. }
    assert (Hlift : (forall fs, builds h tag fs -> exists r, fs = [r]) -> reach prim merge globals self (VClo (seq_body k self) 0 [Vals [l]]) t).
    { intros Hone. apply re_branch; [| discriminate]. intros tag' fs b Hb' Hn'. apply (local_builds _ _ l) in Hb'; [| reflexivity].
      destruct (builds_unique prim merge globals _ _ _ _ _ Hb Hb') as [<- <-].
      cbn in Hn'. injection Hn' as <-. cbn [bind]. apply Hreach. exact Hone. }
    pose proof He as He'. rewrite Hev in He'.
    assert (Hsame : same (VClo (local 0) 0 [Vals [h; t]; Vals [l]]) h) by (apply same_atom; reflexivity).
    destruct (case_needs _ _ _ _ _ _ _ _ He') as [(tag' & fs & b & Hb' & Hn' & Heb) | (w & f & Hf & Hw & Hsel & Heb)].
    + apply branch_one in Hn' as [-> ->]. apply (same_builds _ _ _ _ _ _ _ Hsame) in Hb'.
      assert (Hdec : (exists r, fs = [r]) \/ ~ exists r, fs = [r]).
      { destruct fs as [|r [|]]; [right; intros [r Hr]; discriminate | left; eauto | right; intros [r' Hr]; discriminate]. }
      destruct Hdec as [[r ->] | Hbad].
      * right. exists h, t. split; [exact Hb |]. split.
        { destruct (force_needs _ _ _ _ _ _ _ Heb) as [w Hw]. exists w. eapply ha_boxed; [exact Hk | exact Hb' |].
          eapply strips_of; [| exact Hw]. apply same_sym, same_atom. reflexivity. }
        apply Hlift. intros fs Hfs. destruct (builds_unique prim merge globals _ _ _ _ _ Hb' Hfs) as [_ <-]. eauto.
      * left. right. exists h, t. split; [exact Hb |]. intros Hwb. apply Hbad. eapply Hwb; eassumption.
    + assert (Hst : strips h w) by (eapply strips_of; [apply same_sym; exact Hsame | exact Hw]).
      assert (Hnot : ~ of_kind prim merge globals h tag).
      { intros (args & e & Hst'). rewrite (strips_unique prim merge globals _ _ _ Hst Hst') in Hsel.
        cbn [selects] in Hsel. rewrite branch_for_none in Hsel. eapply (Hsel (tag, _)); [left; reflexivity | reflexivity]. }
      right. exists h, t. split; [exact Hb |]. split.
      * destruct k; try discriminate Hk; injection Hk as <-; cbn [evaluating] in Hev; injection Hev as <-; try discriminate Hf.
        exists w. apply ha_bare; assumption.
      * apply Hlift. intros fs (args & e & Hs & _). exfalso. apply Hnot. eexists _, _. exact Hs.
Qed.
End Instances.
