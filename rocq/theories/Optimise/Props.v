(** C78: removing superfluous allocations does not change results. *)
From Coq Require Import List Bool Arith NArith Lia.
From Verif.Bytecode Require Import Model Spec.
From Verif.Machine Require Import Model Spec Name Sim Check Props.
From Verif.Optimise Require Import Model Spec Relate Forward Backward Applies Scopes.
Import ListNotations.
Open Scope nat_scope.

Section Props.
Context {native : Type}.
Notation syn := (syn native).
Notation form := (form native).
Notation value := (value (native := native)).
Notation view := (view (native := native)).
Variable prim : N -> list native -> prim_result (native := native).
Variable merge : N.
Variable globals : list form.

Section Views.
Variable forcing : bool.
Hypothesis prims : regular_operators prim.
Hypothesis globals_related : Forall2 (fun f f' => vrel forcing (closure [] f) (closure [] f')) globals globals.

Fixpoint view_induct (P : view -> Prop) (Hu : P Unseen) (Hn : forall n, P (SeenNative n)) (Hf : forall a, P (SeenFunction a))
  (Hd : forall tag vs, Forall P vs -> P (SeenData tag vs)) (v : view) {struct v} : P v.
Proof.
  pose (IH := view_induct P Hu Hn Hf Hd). destruct v; [exact Hu | apply Hn | apply Hf |].
  apply Hd. induction fields as [|v vs IHv]; constructor; [apply IH | exact IHv].
Qed.

Lemma result_forward p v : result prim merge globals p v -> forall p', vrel forcing p p' ->
  exists v', result prim merge globals p' v' /\ vrel forcing v v' /\ whnf v = true.
Proof.
  induction 1 as [p v Hv Hm | p m b e w q v Hv Hw Hq _ IH]; intros p' Hp.
  - destruct (proj1 (forward forcing prim merge globals globals prims globals_related) _ _ Hv _ Hp) as (v' & Hv' & Hr).
    pose proof (evals_whnf _ _ _ _ _ Hv) as Wh. destruct (shape _ _ _ Wh Hr) as (_ & Hm' & _).
    exists v'. split; [apply rs_plain; [exact Hv' | congruence] |]. auto.
  - destruct (proj1 (forward forcing prim merge globals globals prims globals_related) _ _ Hv _ Hp) as (v' & Hv' & Hr).
    apply meta_shape in Hr. destruct Hr as (m' & b' & e' & r & d & -> & He & Hmm & Hbb).
    destruct (variable_forward _ _ _ globals_related _ _ _ _ _ _ _ He Hmm Hw) as (w' & Hw' & _).
    destruct (variable_forward _ _ _ globals_related _ _ _ _ _ _ _ He Hbb Hq) as (q' & Hq' & Hqq).
    destruct (IH q' Hqq) as (u & Hu & Huu). exists u. split; [eapply rs_meta; eassumption | exact Huu].
Qed.
Lemma shows_forward (w : view) : forall p p', vrel forcing p p' -> shows prim merge globals p w -> shows prim merge globals p' w.
Proof.
  induction w as [|n|a|tag ws IH] using view_induct; intros p p' Hp H.
  - constructor.
  - inversion H as [|? ? Hr| |]; subst. destruct (result_forward _ _ Hr _ Hp) as (v' & Hv' & Hrel & _).
    apply native_shape in Hrel. subst. apply sh_native. exact Hv'.
  - inversion H as [| |? v Hr Ht|]; subst. destruct (result_forward _ _ Hr _ Hp) as (v' & Hv' & Hrel & Wh).
    destruct (shape _ _ _ Wh Hrel) as (_ & _ & Ht'). rewrite <- Ht'. apply sh_function; [exact Hv' | lia].
  - inversion H as [| | |? ? args e ps ? Hr Hps Hs]; subst. destruct (result_forward _ _ Hr _ Hp) as (v' & Hv' & Hrel & _).
    apply data_shape in Hrel. destruct Hrel as (xs' & e' & r & d & -> & He & Hxs & _).
    destruct (variables_forward _ _ _ globals_related _ _ _ _ _ _ He Hxs _ Hps) as (ps' & Hps' & Hpp).
    eapply sh_data; [exact Hv' | exact Hps' |]. clear - IH Hs Hpp. revert ps' Hpp.
    induction Hs as [|q x qs xs Hq _ IHs]; intros ps' Hpp; inversion Hpp; subst; constructor.
    + inversion IH as [|? ? Hx _]; subst. eapply Hx; eassumption.
    + inversion IH; subst. apply IHs; assumption.
Qed.
End Views.

Section Back.
Hypothesis prims : regular_operators prim.
Hypothesis globals_related : Forall2 (fun f f' => vrel false (closure [] f) (closure [] f')) globals globals.
Lemma result_backward p' v' : result prim merge globals p' v' -> forall p, vrel false p p' ->
  exists v, result prim merge globals p v /\ vrel false v v' /\ whnf v = true.
Proof.
  induction 1 as [p' v' Hv Hm | p' m' b' e' w' q' v' Hv Hw Hq _ IH]; intros p Hp.
  - destruct (proj1 (backward prim merge globals globals prims globals_related) _ _ Hv _ Hp) as (v & Hv' & Hr).
    pose proof (evals_whnf _ _ _ _ _ Hv') as Wh. destruct (shape _ _ _ Wh Hr) as (_ & Hm' & _).
    exists v. split; [apply rs_plain; [exact Hv' | congruence] |]. auto.
  - destruct (proj1 (backward prim merge globals globals prims globals_related) _ _ Hv _ Hp) as (v & Hv' & Hr).
    apply from_meta in Hr; [| apply (evals_whnf _ _ _ _ _ Hv')]. destruct Hr as (m & b & e & r & d & -> & He & Hmm & Hbb).
    destruct (variable_backward _ _ _ globals_related _ _ _ _ _ _ _ He Hmm Hw) as (w & Hw' & _).
    destruct (variable_backward _ _ _ globals_related _ _ _ _ _ _ _ He Hbb Hq) as (q & Hq' & Hqq).
    destruct (IH q Hqq) as (u & Hu & Huu). exists u. split; [eapply rs_meta; eassumption | exact Huu].
Qed.
Lemma shows_backward (w : view) : forall p p', vrel false p p' -> shows prim merge globals p' w -> shows prim merge globals p w.
Proof.
  induction w as [|n|a|tag ws IH] using view_induct; intros p p' Hp H.
  - constructor.
  - inversion H as [|? ? Hr| |]; subst. destruct (result_backward _ _ Hr _ Hp) as (v & Hv & Hrel & Wh).
    apply from_native in Hrel; [| exact Wh]. subst. apply sh_native. exact Hv.
  - inversion H as [| |? v Hr Ht|]; subst. destruct (result_backward _ _ Hr _ Hp) as (v' & Hv' & Hrel & Wh).
    destruct (shape _ _ _ Wh Hrel) as (_ & _ & Ht'). rewrite Ht' in *. apply sh_function; [exact Hv' | lia].
  - inversion H as [| | |? ? args e ps ? Hr Hps Hs]; subst. destruct (result_backward _ _ Hr _ Hp) as (v' & Hv' & Hrel & Wh).
    apply from_data in Hrel; [| exact Wh]. destruct Hrel as (xs' & e' & r & d & -> & He & Hxs & _).
    destruct (variables_backward _ _ _ globals_related _ _ _ _ _ _ He Hxs _ Hps) as (ps' & Hps' & Hpp).
    eapply sh_data; [exact Hv' | exact Hps' |]. clear - IH Hs Hpp. revert ps' Hpp.
    induction Hs as [|q x qs xs Hq _ IHs]; intros ps' Hpp; inversion Hpp; subst; constructor.
    + inversion IH as [|? ? Hx _]; subst. eapply Hx; eassumption.
    + inversion IH; subst. apply IHs; assumption.
Qed.
End Back.

Lemma globals_self forcing : Forall sound_global globals ->
  Forall2 (fun f f' => vrel forcing (closure [] f) (closure [] f')) globals globals.
Proof.
  assert (H : forall fs : list form, Forall sound_global fs ->
    Forall2 (fun f f' => vrel forcing (closure [] f) (closure [] f')) fs fs).
  { induction 1 as [|[k c] fs (H1 & H2 & H3) _ IH]; constructor; [| exact IH].
    simpl in *. unfold closure. simpl. eapply vr_clo with (d := 0) (r := fun i => i).
    - constructor.
    - apply lift_id. intros i. reflexivity.
    - rewrite Nat.add_0_r. apply left_alone; assumption. }
  apply H.
Qed.

(** The optimiser ends, without panicking, on code whose cases are on constructors. *)
Theorem C78_total (t : syn) : regular t -> exists t', optimise t = Some t'.
Proof. apply apply_total. Qed.

(** Whatever can be seen of the result of a program can be seen of the result of the optimised one. *)
Theorem C78_keeps t t' w : regular_operators prim -> Forall sound_global globals -> proper 0 t -> optimise t = Some t' ->
  shows prim merge globals (VClo t 0 []) w -> shows prim merge globals (VClo t' 0 []) w.
Proof.
  intros Hp Hg (P & S & R & U) E. apply (shows_forward true Hp (globals_self true Hg)).
  eapply vrel0; [constructor |]. eapply apply_related; try eassumption. left. exact I.
Qed.

(** And nothing else can, if no case has just a branch for a constructor without fields. *)
Theorem C78_adds_nothing t t' w : regular_operators prim -> Forall sound_global globals -> proper 0 t -> unchecked t ->
  optimise t = Some t' -> shows prim merge globals (VClo t' 0 []) w -> shows prim merge globals (VClo t 0 []) w.
Proof.
  intros Hp Hg (P & S & R & U) K E. apply (shows_backward Hp (globals_self false Hg)).
  eapply vrel0; [constructor |]. eapply apply_related; try eassumption. right. exact K.
Qed.

(** Every variable of the optimised program is in scope. *)
Theorem C78_scoped (t t' : syn) : scoped 0 t -> undecided t -> lookup_free t -> optimise t = Some t' -> scoped 0 t'.
Proof. intros S U L. apply apply_scoped with (d := 0); auto. intros i Hi. lia. Qed.

(** The optimised program makes no more definitions. *)
Theorem C78_no_growth (t t' : syn) : undecided t -> optimise t = Some t' -> definitions t' <= definitions t.
Proof. apply apply_definitions. Qed.
End Props.

(** * Examples *)
Lemma add_regular : regular_operators add.
Proof. intros [|i] ns tag fs; simpl; [| discriminate]. destruct ns as [|a [|b [|]]]; discriminate. Qed.

(** [let a = 1; b = 2 in let c = b; d = a in letrec k = c in case k + c of] the empty list [-> k] and
    otherwise [s -> let f x = let y = x in y + c; n = []; letrec r = f s in r :: f]. *)
Definition renamed : syn nat :=
  SLet false [(FValue, SAtom (RV 1)); (FValue, SAtom (RV 2))]
    (SLet false [(FThunk, SAtom (RL 1)); (FValue, SAtom (RL 0))]
      (SLet true [(FThunk, SAtom (RL 1))]
        (SCase (SFused 0 (RL 1) (RL 2) (SBif 0 [RL 1; RL 2])) [(6%N, SAtom (RL 0))]
          (Some (SLet false [(FLambda 1 0, SLet false [(FThunk, SAtom (RL 0))] (SFused 0 (RL 0) (RL 4) (SBif 0 [RL 0; RL 4])));
                             (FValue, SCons 6 [])]
            (SLet true [(FThunk, SApp (RL 1) [RL 3] false)] (SCons 7 [RL 0; RL 1]))))))).
Definition renamed' : syn nat :=
  SLet false [(FValue, SAtom (RV 1)); (FValue, SAtom (RV 2))]
        (SCase (SFused 0 (RL 1) (RL 0) (SBif 0 [RL 1; RL 0])) [(6%N, SAtom (RL 1))]
          (Some (SLet false [(FLambda 1 0, SFused 0 (RL 0) (RL 3) (SBif 0 [RL 0; RL 3]));
                             (FValue, SCons 6 [])]
            (SLet true [(FThunk, SApp (RL 1) [RL 3] false)] (SCons 7 [RL 0; RL 1]))))).
Definition renamed_view : view (native := nat) := SeenData 7 [SeenNative 5; SeenFunction 1].
Lemma renamed_proper : proper 0 renamed.
Proof.
  assert (H6 : forall n, has_fields 6 n -> n = 0) by (intros n [= <-]; reflexivity).
  repeat split; simpl; unfold bounds, bound; try lia; repeat constructor; simpl; try lia; try (intros n Hn; apply H6 in Hn; subst; simpl; lia).
  exists 0. reflexivity.
Qed.
Lemma renamed_shows : shows add 0%N [] (VClo renamed 0 []) renamed_view.
Proof.
  assert (H : exists h', show0 [] renamed renamed_view = Some h') by (eexists; vm_compute; reflexivity).
  destruct H as [h' H]. apply show0_spec in H. destruct H as [H _].
  eapply C41_machine_sound_partial; [split; [apply renamed_proper | exact I] | exact H].
Qed.
Example C78_total_example : regular renamed /\ optimise renamed = Some renamed'.
Proof. split; [apply renamed_proper | reflexivity]. Qed.
Example C78_keeps_example : proper 0 renamed /\ Forall sound_global [(FLambda 1 0, SAtom (RL 0)) : form nat] /\
  optimise renamed = Some renamed' /\ shows add 0%N [] (VClo renamed 0 []) renamed_view.
Proof.
  split; [exact renamed_proper |]. split; [repeat constructor; simpl; lia |]. split; [reflexivity | exact renamed_shows].
Qed.
Example C78_adds_nothing_example : unchecked renamed /\ shows add 0%N [] (VClo renamed' 0 []) renamed_view.
Proof.
  split.
  - repeat split; simpl; auto. intros (tag & b & _ & H & _). discriminate.
  - eapply C78_keeps; [exact add_regular | constructor | exact renamed_proper | reflexivity | exact renamed_shows].
Qed.
Example C78_scoped_example : lookup_free renamed /\ scoped 0 renamed'.
Proof. split; [repeat split | eapply C78_scoped; [apply renamed_proper | apply renamed_proper | repeat split | reflexivity]]. Qed.
Example C78_no_growth_example : definitions renamed = 9 /\ definitions renamed' = 5.
Proof. split; reflexivity. Qed.

(** ** What is not so *)

(** A case on a constructor that is written there: [let a = 10; b = 20 in let c = b in case Box c of
    Box x -> x] becomes [let a = 10; b = 20 in a]. *)
Definition known : syn nat :=
  SLet false [(FValue, SAtom (RV 10)); (FValue, SAtom (RV 20))]
    (SLet false [(FValue, SAtom (RL 1))] (SCase (SCons 3 [RL 0]) [(3%N, SAtom (RL 0))] None)).
Theorem C78_known_refuted : exists t t', plain t /\ scoped 0 t /\ regular t /\ unchecked t /\ optimise t = Some t' /\
  shows add 0%N [] (VClo t 0 []) (SeenNative 20) /\ shows add 0%N [] (VClo t' 0 []) (SeenNative 10) /\
  ~ shows add 0%N [] (VClo t' 0 []) (SeenNative 20).
Proof.
  exists known. eexists. split; [repeat split |]. split.
  { repeat split; simpl; auto; try lia; repeat constructor; simpl; try lia; intros n [= <-]; simpl; lia. }
  split. { repeat split; try (exists 1; reflexivity). }
  split. { repeat split. intros (tag & b & E & _ & Hf). injection E as <- <-. discriminate. }
  split; [reflexivity |].
  assert (H10 : result add 0%N [] (VClo (SLet false [(FValue, SAtom (RV 10)); (FValue, SAtom (RV 20))] (SAtom (RL 0))) 0 []) (VNat 10)).
  { apply rs_plain; [| reflexivity]. apply ev_let. eapply ev_variable; [reflexivity |]. eapply ev_variable; [reflexivity |]. constructor. }
  split; [| split].
  - apply sh_native, rs_plain; [| reflexivity]. apply ev_let, ev_let.
    eapply ev_branch; [apply st_plain; [apply ev_data | reflexivity] | reflexivity | reflexivity |].
    repeat (eapply ev_variable; [reflexivity |]). constructor.
  - apply sh_native. exact H10.
  - intros H. inversion H as [|? ? Hr| |]; subst.
    pose proof (C41_by_name_deterministic _ _ _ _ _ _ Hr H10). discriminate.
Qed.

(** A case that only checks: [let t = true in case t of false -> 5] has no value and becomes a program
    that has one. *)
Definition checking : syn nat :=
  SLet false [(FValue, SCons 1 [])] (SCase (SAtom (RL 0)) [(2%N, SAtom (RV 5))] None).
Theorem C78_checked_refuted : exists t t', proper 0 t /\ optimise t = Some t' /\
  shows add 0%N [] (VClo t' 0 []) (SeenNative 5) /\ forall v, ~ result add 0%N [] (VClo t 0 []) v.
Proof.
  exists checking. eexists. split; [| split; [reflexivity | split]].
  - repeat split; simpl; auto; try lia; try (exists 0; reflexivity); apply Forall_nil.
  - apply sh_native, rs_plain; [| reflexivity]. apply ev_let.
    eapply ev_fallback; [apply st_plain; [eapply ev_variable; [reflexivity | apply ev_data] | reflexivity] | | eapply ev_variable; [reflexivity | constructor]].
    reflexivity.
  - eapply no_result; [repeat (eapply reaches_step; [reflexivity |]); apply reaches_refl | reflexivity | apply not_final_stack].
Qed.

(** A lookup of a literal key under definitions that are removed: its variables are no longer there. *)
Theorem C78_lookup_refuted : exists t t' : syn nat, scoped 0 t /\ regular t /\ undecided t /\ optimise t = Some t' /\ ~ scoped 0 t'.
Proof.
  exists (SLet false [(FValue, SCons 6 [])] (SLet false [(FValue, SAtom (RL 0)); (FThunk, SAtom (RL 0))] (SLookupLit 0 (RV 1) (RL 2) (RL 1)))).
  eexists. split; [| split; [| split; [| split; [reflexivity |]]]].
  - repeat split; simpl; auto; try lia; apply Forall_nil.
  - repeat split.
  - repeat split.
  - simpl. unfold bound. simpl. intros (_ & _ & H & _). lia.
Qed.

Print Assumptions C78_total.
Print Assumptions C78_keeps.
Print Assumptions C78_adds_nothing.
Print Assumptions C78_scoped.
Print Assumptions C78_no_growth.
Print Assumptions C78_known_refuted.
Print Assumptions C78_checked_refuted.
Print Assumptions C78_lookup_refuted.
