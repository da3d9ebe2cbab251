(** Whatever the optimised program evaluates to, the program does, if no case only checks. *)
From Coq Require Import List Bool Arith NArith Lia.
From Verif.Bytecode Require Import Model Spec.
From Verif.Machine Require Import Model Spec Name.
From Verif.Optimise Require Import Model Spec Relate Forward.
Import ListNotations.
Open Scope nat_scope.

Section Backward.
Context {native : Type}.
Notation ref := (ref native).
Notation syn := (syn native).
Notation form := (form native).
Notation value := (value (native := native)).
Notation env := (env (native := native)).
Variable prim : N -> list native -> prim_result (native := native).
Variable merge : N.
Variables globals globals' : list form.
Notation opt := (opt (native := native) false).
Notation cong := (cong (native := native) false).
Notation brel := (brel (native := native) false).
Notation frel := (frel (native := native) false).
Notation vrel := (vrel (native := native) false).
Notation erel := (erel (native := native) false).
Hypothesis prims : regular_operators prim.
Hypothesis globals_related : Forall2 (fun f f' => vrel (closure [] f) (closure [] f')) globals globals'.
Notation evals := (evals prim merge globals).
Notation evals' := (Spec.evals prim merge globals').
Notation strips := (strips prim merge globals).
Notation strips' := (Spec.strips prim merge globals').

(** ** Following what was removed *)
Lemma unwind_code r d c c' e e' : opt r d c c' -> erel r d e e' ->
  exists c0 e0 r0 d0, erel r0 d0 e0 e' /\ cong r0 d0 c0 c' /\ forall v, evals (VClo c0 0 e0) v -> evals (VClo c 0 e) v.
Proof.
  intros Ho. revert e. induction Ho as [r d c c' Hc | r d fs m r' body body' Hm Hb Hs Ho IH | r d fs m r' body body' Hm Hb Hs Ho IH]; intros e He.
  - exists c, e, r, d. auto.
  - destruct (IH (Vals (map (closure e) fs) :: e)) as (c0 & e0 & r0 & d0 & He0 & Hc0 & Hv); [eapply er_let; eassumption |].
    exists c0, e0, r0, d0. split; [exact He0 |]. split; [exact Hc0 |]. intros v H. apply ev_let. apply Hv. exact H.
  - destruct (IH (Rec fs :: e)) as (c0 & e0 & r0 & d0 & He0 & Hc0 & Hv); [eapply er_letrec; eassumption |].
    exists c0, e0, r0, d0. split; [exact He0 |]. split; [exact Hc0 |]. intros v H. apply ev_letrec. apply Hv. exact H.
Qed.
Lemma through i e v w : lookup e (N.to_nat i) = Some v -> evals v w -> evals (VClo (SAtom (RL i)) 0 e) w.
Proof. intros Hl. apply ev_variable. exact Hl. Qed.
Lemma unwind p p' : vrel p p' ->
  match p' with
  | VNat n => evals p (VNat n)
  | VClo c' 0 e' => exists c e r d, erel r d e e' /\ cong r d c c' /\ forall v, evals (VClo c 0 e) v -> evals p v
  | VClo c' (S a) e' => exists c e, evals p (VClo c (S a) e) /\ vrel (VClo c (S a) e) p'
  | VPap _ _ => exists f vs, evals p (VPap f vs) /\ vrel (VPap f vs) p'
  end.
Proof.
  induction 1 as [n | c c' a e e' r d r' He Hs Ho | f f' vs vs' Ht Hf _ Hvs | i e v v' Hl Hv IH].
  - constructor.
  - destruct a as [|a].
    + eapply unwind_code; [exact Ho |]. eapply er_same; [exact He | eapply same_trans; [exact Hs | apply same_sym, lift0]].
    + exists c, e. split; [constructor; lia | eapply vr_clo; eassumption].
  - exists f, vs. split; [constructor | apply vr_pap; assumption].
  - destruct v' as [n|c' a e'|f' vs'].
    + eapply through; eassumption.
    + destruct a as [|a].
      * destruct IH as (c0 & e0 & r0 & d0 & He & Hc & H). exists c0, e0, r0, d0. split; [exact He |]. split; [exact Hc |].
        intros w Hw. eapply through; [exact Hl | apply H; exact Hw].
      * destruct IH as (c0 & e0 & H1 & H2). exists c0, e0. split; [eapply through; eassumption | exact H2].
    + destruct IH as (f & vs & H1 & H2). exists f, vs. split; [eapply through; eassumption | exact H2].
Qed.

(** ** The shapes of what values come from *)
Lemma from_native v n : whnf v = true -> vrel v (VNat n) -> v = VNat n.
Proof.
  intros W H. destruct (whnf_cases v W) as [(k & ->) | [(f & vs & ->) | [(c & a & e & -> & Ha) | [(tag & xs & e & ->) | (m & b & e & ->)]]]].
  - apply native_shape in H. congruence.
  - apply pap_shape in H. destruct H as (? & ? & ? & _). discriminate.
  - destruct (fun_shape _ _ _ _ _ Ha H) as (? & ? & ? & ? & ? & ? & _). discriminate.
  - apply data_shape in H. destruct H as (? & ? & ? & ? & ? & _). discriminate.
  - apply meta_shape in H. destruct H as (? & ? & ? & ? & ? & ? & _). discriminate.
Qed.
Lemma from_data v tag xs' e' : whnf v = true -> vrel v (VClo (SCons tag xs') 0 e') ->
  exists xs e r d, v = VClo (SCons tag xs) 0 e /\ erel r d e e' /\ Forall2 (rrel r d) xs xs' /\ has_fields tag (length xs).
Proof.
  intros W H. destruct (whnf_cases v W) as [(k & ->) | [(f & vs & ->) | [(c & a & e & -> & Ha) | [(t & xs & e & ->) | (m & b & e & ->)]]]].
  - apply native_shape in H. discriminate.
  - apply pap_shape in H. destruct H as (? & ? & ? & _). discriminate.
  - destruct (fun_shape _ _ _ _ _ Ha H) as (? & ? & ? & ? & ? & E & _). injection E as _ E _. lia.
  - apply data_shape in H. destruct H as (xs1 & e1 & r & d & E & He & Hxs & Hf). injection E as <- <- <-. eauto 10.
  - apply meta_shape in H. destruct H as (? & ? & ? & ? & ? & ? & _). discriminate.
Qed.
Lemma from_meta v m' b' e' : whnf v = true -> vrel v (VClo (SMeta m' b') 0 e') ->
  exists m b e r d, v = VClo (SMeta m b) 0 e /\ erel r d e e' /\ rrel r d m m' /\ rrel r d b b'.
Proof.
  intros W H. destruct (whnf_cases v W) as [(k & ->) | [(f & vs & ->) | [(c & a & e & -> & Ha) | [(t & xs & e & ->) | (m & b & e & ->)]]]].
  - apply native_shape in H. discriminate.
  - apply pap_shape in H. destruct H as (? & ? & ? & _). discriminate.
  - destruct (fun_shape _ _ _ _ _ Ha H) as (? & ? & ? & ? & ? & E & _). injection E as _ E _. lia.
  - apply data_shape in H. destruct H as (? & ? & ? & ? & ? & _). discriminate.
  - apply meta_shape in H. destruct H as (m1 & b1 & e1 & r & d & E & He & Hm & Hb). injection E as <- <- <-. eauto 10.
Qed.
Lemma from_fun v c' a e' : 0 < a -> whnf v = true -> vrel v (VClo c' a e') ->
  exists c e r d r', v = VClo c a e /\ erel r d e e' /\ same r' (lift a r) /\ opt r' (a + d) c c'.
Proof.
  intros Ha' W H. destruct (whnf_cases v W) as [(k & ->) | [(f & vs & ->) | [(c & n & e & -> & Ha) | [(t & xs & e & ->) | (m & b & e & ->)]]]].
  - apply native_shape in H. discriminate.
  - apply pap_shape in H. destruct H as (? & ? & ? & _). discriminate.
  - destruct (fun_shape _ _ _ _ _ Ha H) as (c1 & e1 & r & d & r1 & E & He & Hs & Ho). injection E as <- <- <-. eauto 10.
  - apply data_shape in H. destruct H as (? & ? & ? & ? & E & _). injection E as _ E _. lia.
  - apply meta_shape in H. destruct H as (? & ? & ? & ? & ? & E & _). injection E as _ E _. lia.
Qed.
Lemma from_pap v f' vs' : whnf v = true -> vrel v (VPap f' vs') ->
  exists f vs, v = VPap f vs /\ takes f = takes f' /\ vrel f f' /\ Forall2 vrel vs vs'.
Proof.
  intros W H. destruct (whnf_cases v W) as [(k & ->) | [(f & vs & ->) | [(c & n & e & -> & Ha) | [(t & xs & e & ->) | (m & b & e & ->)]]]].
  - apply native_shape in H. discriminate.
  - apply pap_shape in H. destruct H as (f1 & vs1 & E & Ht & Hf & Hvs). injection E as <- <-. eauto 10.
  - destruct (fun_shape _ _ _ _ _ Ha H) as (? & ? & ? & ? & ? & ? & _). discriminate.
  - apply data_shape in H. destruct H as (? & ? & ? & ? & ? & _). discriminate.
  - apply meta_shape in H. destruct H as (? & ? & ? & ? & ? & ? & _). discriminate.
Qed.

Ltac unwound H := apply unwind in H; cbn beta iota in H; destruct H as (?c & ?e0 & ?r & ?d & ?He & ?Hc & ?Hgo); inversion Hc; subst.
Ltac rel_to x n := match goal with R : Relate.opt _ _ _ _ x |- _ => rename R into n | R : rrel _ _ _ x |- _ => rename R into n
  | R : Forall2 (rrel _ _) _ x |- _ => rename R into n end.
Notation variable_backward := (variable_backward false globals globals' globals_related).
Notation variables_backward := (variables_backward false globals globals' globals_related).
Notation arguments_related := (arguments_related false globals globals' globals_related).
Notation vrel0 := (vrel0 false).

Theorem backward :
  (forall p' v', evals' p' v' -> forall p, vrel p p' -> exists v, evals p v /\ vrel v v') /\
  (forall p' v', strips' p' v' -> forall p, vrel p p' -> exists v, strips p v /\ vrel v v') /\
  (forall p' args' v', applies prim merge globals' p' args' v' -> forall p args, vrel p p' -> Forall2 vrel args args' ->
     exists v, applies prim merge globals p args v /\ vrel v v') /\
  (forall p' n, operand prim merge globals' p' n -> forall p, vrel p p' -> operand prim merge globals p n) /\
  (forall ps' ns, natives prim merge globals' ps' ns -> forall ps, Forall2 vrel ps ps' -> natives prim merge globals ps ns).
Proof.
  apply eval_mutual.
  - intros n p H. apply unwind in H. exists (VNat n). split; [exact H | constructor].
  - intros c a e Ha p H. apply unwind in H. destruct a as [|a]; [lia |]. destruct H as (c0 & e0 & H1 & H2). eauto.
  - intros f args p H. apply unwind in H. destruct H as (f0 & vs & H1 & H2). eauto.
  - intros tag args e' p H. unwound H. eexists. split; [apply Hgo, ev_data |]. eapply vrel0; [exact He | apply o_here; exact Hc].
  - intros m b e' p H. unwound H. eexists. split; [apply Hgo, ev_meta |]. eapply vrel0; [exact He | apply o_here; exact Hc].
  - intros x e' q v' Hx _ IH p H. unwound H. rel_to x R1.
    destruct (variable_backward _ _ _ _ _ _ _ He R1 Hx) as (q0 & Hq & Hr). destruct (IH q0 Hr) as (v & Hv & Hvv).
    exists v. split; [apply Hgo; eapply ev_variable; eassumption | exact Hvv].
  - intros scr' bs' fb' e' tag args' e1 b' vs' v' _ IHs Hb Hvs _ IHb p H.
    apply unwind in H. destruct H as (c & e & r & d & He & Hc & Hgo).
    assert (Hall : forall scr bs fb, opt r d scr scr' -> brel r d bs bs' ->
              exists v, evals (VClo (SCase scr bs fb) 0 e) v /\ vrel v v').
    { intros scr bs fb Hscr Hbs. destruct (IHs _ (vrel0 _ _ _ _ _ _ He Hscr)) as (w & Hw & Hww).
      apply from_data in Hww; [| apply (strips_whnf _ _ _ _ _ Hw)]. destruct Hww as (xs & e2 & r2 & d2 & -> & He2 & Hxs & Hf).
      pose proof (branches_related _ _ _ _ _ Hbs tag) as Hbr. rewrite Hb in Hbr.
      destruct (branch_for tag bs) as [b|] eqn:Eb; [| destruct Hbr]. destruct Hbr as (n & r' & Hn & Hsr & Hob).
      destruct (variables_backward _ _ _ _ _ _ He2 Hxs _ Hvs) as (vs & Hvs' & Hvv).
      pose proof (fields_unique _ _ _ Hn Hf) as ->. rewrite <- (variables_length _ _ _ _ Hvs') in *.
      destruct (IHb (VClo b 0 (bind vs e))) as (v & Hv & Hr).
      - eapply vrel0; [eapply bind_related; eassumption | exact Hob].
      - exists v. split; [eapply ev_branch; eassumption | exact Hr]. }
    inversion Hc; subst; try contradiction.
    all: match goal with Ho : Relate.opt _ _ _ _ _, Hb' : Relate.brel _ _ _ _ _ |- _ =>
           match goal with Hg : forall v, Spec.evals _ _ _ (VClo (SCase _ _ ?fb) 0 _) v -> _ |- _ =>
             destruct (Hall _ _ fb Ho Hb') as (v & Hv & Hr); exists v; split; [apply Hg; exact Hv | exact Hr] end end.
  - intros scr' bs' f' e' w' v' Hs' IHs Hsel _ IHf p H. unwound H; try contradiction. rel_to scr' R1.
    destruct (IHs _ (vrel0 _ _ _ _ _ _ He R1)) as (w & Hw & Hww). destruct (strips_whnf _ _ _ _ _ Hw) as [Wh Me].
    destruct (IHf (VClo f 0 (Vals [w] :: e0))) as (v & Hv & Hr).
    + eapply vrel0; [eapply one_related; eassumption | eassumption].
    + exists v. split; [| exact Hr]. apply Hgo. eapply ev_fallback; [exact Hw | | exact Hv].
      refine (proj2 (selects_related _ _ _ _ _ _ _ _ Wh Me Hww) Hsel); eassumption.
  - intros f' args' eager e' q vs' v' Hf Ha _ IH p H. unwound H. rel_to f' R1. rel_to args' R2.
    destruct (variable_backward _ _ _ _ _ _ _ He R1 Hf) as (q0 & Hq & Hr).
    destruct (arguments_related _ _ _ _ _ _ eager He R2) as (us & us' & E1 & E2 & Hus). rewrite E2 in Ha. injection Ha as ->.
    destruct (IH q0 us Hr Hus) as (v & Hv & Hvv). exists v. split; [apply Hgo; eapply ev_apply; eassumption | exact Hvv].
  - intros smid f' args' eager e' q vs' v' Hf Ha _ IH p H. unwound H. rel_to f' R1. rel_to args' R2.
    destruct (variable_backward _ _ _ _ _ _ _ He R1 Hf) as (q0 & Hq & Hr).
    destruct (arguments_related _ _ _ _ _ _ eager He R2) as (us & us' & E1 & E2 & Hus). rewrite E2 in Ha. injection Ha as ->.
    destruct (IH q0 us Hr Hus) as (v & Hv & Hvv). exists v. split; [apply Hgo; eapply ev_direct; eassumption | exact Hvv].
  - intros i args' e' ps' ns v' Hps _ IH Hd p H. unwound H. rel_to args' R1.
    destruct (variables_backward _ _ _ _ _ _ He R1 _ Hps) as (ps & Hps' & Hr). exists v'.
    split; [apply Hgo; eapply ev_primitive; [exact Hps' | apply IH; exact Hr | exact Hd] | eapply delivered_self; eassumption].
  - intros fs' body' e' v' _ IH p H. unwound H.
    destruct (IH (VClo body 0 (Vals (map (closure e0) fs) :: e0))) as (v & Hv & Hvv).
    + eapply vrel0; [| eassumption]. rewrite <- (map_length (closure e0) fs).
      eapply er_vals; [exact He | eapply closures_related; eassumption | rewrite map_length; assumption].
    + exists v. split; [apply Hgo, ev_let; exact Hv | exact Hvv].
  - intros fs' body' e' v' _ IH p H. unwound H.
    destruct (IH (VClo body 0 (Rec fs :: e0))) as (v & Hv & Hvv).
    + eapply vrel0; [eapply er_rec; eassumption | eassumption].
    + exists v. split; [apply Hgo, ev_letrec; exact Hv | exact Hvv].
  - intros smid body' e' v' _ IH p H. unwound H. rel_to body' R1.
    destruct (IH _ (vrel0 _ _ _ _ _ _ He R1)) as (v & Hv & Hvv). exists v. split; [apply Hgo, ev_annotated; exact Hv | exact Hvv].
  - intros scr' h' o' e' m' b' e1 p1 q1 v' _ IHs Hm Hb _ IHh p H. unwound H. rel_to scr' R1.
    destruct (IHs _ (vrel0 _ _ _ _ _ _ He R1)) as (w & Hw & Hww).
    apply from_meta in Hww; [| apply (evals_whnf _ _ _ _ _ Hw)]. destruct Hww as (m & b & e2 & r3 & d3 & -> & He2 & Hmm & Hbb).
    destruct (variable_backward _ _ _ _ _ _ _ He2 Hmm Hm) as (p2 & Hp2 & Hpp).
    destruct (variable_backward _ _ _ _ _ _ _ He2 Hbb Hb) as (q2 & Hq2 & Hqq).
    destruct (IHh (VClo h 0 (Vals [p2; q2] :: e0))) as (v & Hv & Hvv).
    + eapply vrel0; [eapply two_related; eassumption | eassumption].
    + exists v. split; [apply Hgo; eapply ev_has_meta; eassumption | exact Hvv].
  - intros scr' h' o' e' w' v' Hs IHs Hm _ IHo p H. unwound H. rel_to scr' R1.
    destruct (IHs _ (vrel0 _ _ _ _ _ _ He R1)) as (w & Hw & Hww).
    destruct (shape _ _ _ (evals_whnf _ _ _ _ _ Hw) Hww) as (_ & Hm' & _).
    destruct (IHo (VClo o 0 (Vals [w] :: e0))) as (v & Hv & Hvv).
    + eapply vrel0; [eapply one_related; eassumption | eassumption].
    + exists v. split; [apply Hgo; eapply ev_no_meta; [exact Hw | congruence | exact Hv] | exact Hvv].
  - intros scr' body' e' w' v' _ IHs _ IHb p H. unwound H. rel_to scr' R1. rel_to body' R2.
    destruct (IHs _ (vrel0 _ _ _ _ _ _ He R1)) as (w & Hw & _).
    destruct (IHb _ (vrel0 _ _ _ _ _ _ He R2)) as (v & Hv & Hvv).
    exists v. split; [apply Hgo; eapply ev_force; eassumption | exact Hvv].
  - intros i l' r' inner' e' a b v' _ IHl _ IHr Hd p H. unwound H. exists v'. split.
    + apply Hgo. eapply ev_fused; [| | exact Hd]; [apply IHl | apply IHr]; (eapply vrel0; [exact He | apply o_here, c_atom; assumption]).
    + eapply delivered_self; eassumption.
  - intros p' v' Hv' IH Hm p H. destruct (IH p H) as (v & Hv & Hvv). exists v.
    destruct (shape _ _ _ (evals_whnf _ _ _ _ _ Hv) Hvv) as (_ & Hm' & _). split; [apply st_plain; [exact Hv | congruence] | exact Hvv].
  - intros p' m' b' e' q' v' _ IH Hb _ IHq p H. destruct (IH p H) as (w & Hw & Hww).
    apply from_meta in Hww; [| apply (evals_whnf _ _ _ _ _ Hw)]. destruct Hww as (m & b & e & r & d & -> & He & _ & Hbb).
    destruct (variable_backward _ _ _ _ _ _ _ He Hbb Hb) as (q & Hq & Hqq).
    destruct (IHq q Hqq) as (v & Hv & Hvv). exists v. split; [eapply st_meta; eassumption | exact Hvv].
  - intros p' args' c' e' v' _ IH Hlen _ IHb p args H Hargs. destruct (IH p H) as (w & Hw & Hww).
    apply from_fun in Hww; [| exact Hlen | apply (strips_whnf _ _ _ _ _ Hw)].
    destruct Hww as (c & e & r & d & r' & -> & He & Hs & Ho). rewrite <- (Forall2_length _ _ _ Hargs) in *.
    destruct (IHb (VClo c 0 (Vals args :: e))) as (v & Hv & Hvv).
    + eapply vrel0; [eapply er_vals; eassumption | exact Ho].
    + exists v. split; [| exact Hvv]. eapply ap_saturated; eassumption.
  - intros p' args' f' held' v' Hs IH Ht Hlen _ IHa p args H Hargs. destruct (IH p H) as (w & Hw & Hww).
    pose proof (proj1 (strips_whnf _ _ _ _ _ Hw)) as Wh. destruct (shape _ _ _ Wh Hww) as (_ & _ & Ht').
    apply from_pap in Hww; [| exact Wh]. destruct Hww as (f & held & -> & Hff & Hf & Hh).
    destruct (IHa f (held ++ args) Hf (Forall2_app Hh Hargs)) as (v & Hv & Hvv). exists v. split; [| exact Hvv].
    rewrite <- (Forall2_length _ _ _ Hargs) in *. eapply ap_completed; [exact Hw | congruence | exact Hlen | exact Hv].
  - intros p' args' w' Hs IH Hlt p args H Hargs. destruct (IH p H) as (w & Hw & Hww).
    destruct (shape _ _ _ (proj1 (strips_whnf _ _ _ _ _ Hw)) Hww) as (_ & _ & Ht'). exists (VPap w args). split.
    + apply ap_partial; [exact Hw | rewrite (Forall2_length _ _ _ Hargs); lia].
    + apply vr_pap; [congruence | exact Hww | exact Hargs].
  - intros p' args' w' u' v' Hs IH Hlt _ IH1 _ IH2 p args H Hargs. destruct (IH p H) as (w & Hw & Hww).
    destruct (shape _ _ _ (proj1 (strips_whnf _ _ _ _ _ Hw)) Hww) as (_ & _ & Ht').
    assert (Hfn : forall n, Forall2 vrel (firstn n args) (firstn n args')).
    { clear - Hargs. induction Hargs; intros [|n]; simpl; constructor; auto. }
    assert (Hsn : forall n, Forall2 vrel (skipn n args) (skipn n args')).
    { clear - Hargs. induction Hargs; intros [|n]; simpl; try constructor; auto. }
    destruct (IH1 w _ Hww (Hfn (takes w'))) as (u & Hu & Huu). destruct (IH2 u _ Huu (Hsn (takes w'))) as (v & Hv & Hvv).
    exists v. split; [| exact Hvv]. rewrite Ht' in *.
    eapply ap_surplus; [exact Hw | rewrite (Forall2_length _ _ _ Hargs); lia | exact Hu | exact Hv].
  - intros p' args' fields' e' m' v' _ IH Hm _ IHm p args H Hargs. destruct (IH p H) as (w & Hw & Hww).
    pose proof Hww as Hd. apply from_data in Hd; [| apply (strips_whnf _ _ _ _ _ Hw)]. destruct Hd as (xs & e & r & d & -> & _).
    destruct (variable_backward (fun i => i) 0 [] [] (RG merge) (RG merge) m' (er_nil _ _) (rr_global _ _ _) Hm) as (m & Hm' & Hmm).
    destruct (IHm m (args ++ [VClo (SCons tag_block xs) 0 e]) Hmm) as (v & Hv & Hvv).
    + apply Forall2_app; [exact Hargs | repeat constructor; exact Hww].
    + exists v. split; [eapply ap_block; eassumption | exact Hvv].
  - intros p' n _ IH p H. destruct (IH p H) as (w & Hw & Hww). apply from_native in Hww; [| apply (strips_whnf _ _ _ _ _ Hw)].
    subst. apply op_native. exact Hw.
  - intros p' tag x' xs' e' q' n _ IH Hb Hx _ IHq p H. destruct (IH p H) as (w & Hw & Hww).
    apply from_data in Hww; [| apply (strips_whnf _ _ _ _ _ Hw)]. destruct Hww as (xs & e & r & d & -> & He & Hxs & _).
    inversion Hxs as [|x ? xs1 ? Hxx Hr]; subst. destruct (variable_backward _ _ _ _ _ _ _ He Hxx Hx) as (q & Hq & Hqq).
    eapply op_box; [exact Hw | exact Hb | exact Hq | apply IHq; exact Hqq].
  - intros ps H. inversion H; subst. constructor.
  - intros p' n ps' ns _ IH _ IHs ps H. inversion H as [|p ? ps1 ? Hp Hps]; subst. destruct (IH p Hp) as (w & Hw & Hww).
    apply from_native in Hww; [| apply (evals_whnf _ _ _ _ _ Hw)]. subst. constructor; [exact Hw | apply IHs; exact Hps].
Qed.

End Backward.
