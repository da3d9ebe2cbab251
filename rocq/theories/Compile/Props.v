(** C79: compiled code means what the expression means. *)
From Coq Require Import String List Bool Arith NArith Lia.
From Verif.Basics Require Model.
From Verif.Bytecode Require Import Model Spec.
From Verif.Machine Require Import Model Spec Name Sim Check.
From Verif.Machine Require Props.
From Verif.Optimise Require Props.
From Verif.Optimise Require Import Spec.
From Verif.Scope Require Import Model.
From Verif.Compile Require Import Model Spec Relate Reads Means Sound.
Import ListNotations.
Open Scope nat_scope.

Section Props.
Context {native : Type}.
Notation syn := (syn native).
Notation form := (form native).
Notation value := (value (native := native)).
Notation view := (view (native := native)).
Variable St : settings (native := native).
Variable prim : N -> list native -> prim_result (native := native).
Variable merge : N.
Variable globals : list form.
Notation direct := (direct (intrinsic_slot St) (prelude_slot St) (s_string St) (s_symbol St) (s_number St) ix_empty_list).

(** The compiler's settings fit the globals: globals are well formed; the names of intrinsics and of
    the prelude are those of globals; the intrinsics that are inlined are the globals of that
    position, of which those that are fused are themselves fused (src/eval/bytecode/encode.rs
    541-560); the intrinsics that render have the positions the compiler takes them to have. *)
Record fits := {
  f_sound : Forall sound_global globals;
  f_intrinsics : forall n i, intrinsic_slot St n = Some i -> N.to_nat i < List.length globals;
  f_prelude : forall n i, prelude_slot St n = Some i -> N.to_nat i < List.length globals;
  f_nil : N.to_nat ix_empty_list < List.length globals;
  f_inlined : forall n bif, nth_error (s_intrinsics St) n = Some bif -> i_inlinable bif = true ->
    exists a c, nth_error globals n = Some (FLambda (N.of_nat (i_arity bif)) a, c) /\
      (if i_fusible bif && (i_arity bif =? 2) && is_fusible_body (i_wrapper bif)
       then exists inner, c = SFused (u8 (N.of_nat n)) (RL 0) (RL 1) inner
       else c = i_wrapper bif);
  f_render : intrinsic_slot St "RENDER" = Some ix_render;
  f_render_doc : intrinsic_slot St "RENDER_DOC" = Some ix_render_doc }.
(** Nothing is to be forced ahead of its use: no definition of the expression is annotated as strict
    and not recursive, and no argument of a function in the compiler's tables is. *)
Definition lazily (e : expr) : Prop := quiet_tables St false /\ quiet false e.

Section Lift.
Variable forcing : bool.
Notation vrel := (vrel St forcing globals).
Notation variable := (Machine.Spec.variable globals).
Notation evals := (evals prim merge globals).
Notation result := (result prim merge globals).
Notation shows := (shows prim merge globals).
Notation out := (out St forcing globals).
Notation orel := (orel St forcing globals).

Section Forward.
Hypothesis step : forall p v, evals p v -> forall p', vrel p p' -> exists v', evals p' v' /\ out v v'.
Lemma result_forward p v : result p v -> forall p', vrel p p' -> exists v', result p' v' /\ out v v'.
Proof.
  induction 1 as [p v Hv Hm | p m b e w q v Hv Hw Hq _ IH]; intros p' Hp; destruct (step _ _ Hv _ Hp) as (v' & Hv' & Ho).
  - exists v'. split; [| exact Ho]. apply rs_plain; [exact Hv' |]. destruct (wrel_shape _ _ _ _ _ (proj2 Ho)) as (<- & _). exact Hm.
  - destruct Ho as (_ & Ho). inversion Ho as [| | ? ? ? ? ? Ha | | ? ? m' b' ? p2 Om Ob]; subst; [lia |].
    destruct (orel_some _ _ _ _ _ _ Om Hw) as (w' & Hw' & _). destruct (orel_some _ _ _ _ _ _ Ob Hq) as (q' & Hq' & Hqq).
    destruct (IH _ Hqq) as (u & Hu & Ho'). exists u. split; [eapply rs_meta; eassumption | exact Ho'].
Qed.
Lemma shows_forward (w : view) : forall p p', vrel p p' -> shows p w -> shows p' w.
Proof.
  induction w as [|n|a|tag ws IH] using Optimise.Props.view_induct; intros p p' Hp H.
  - constructor.
  - inversion H as [|? ? Hr| |]; subst. destruct (result_forward _ _ Hr _ Hp) as (v' & Hv' & _ & Hw). inversion Hw; subst.
    apply sh_native. exact Hv'.
  - inversion H as [| |? v Hr Ht|]; subst. destruct (result_forward _ _ Hr _ Hp) as (v' & Hv' & _ & Hw).
    destruct (wrel_shape _ _ _ _ _ Hw) as (_ & Ht' & _). rewrite Ht' in *. apply sh_function; assumption.
  - inversion H as [| | |? ? args e ps ? Hr Hps Hs]; subst. destruct (result_forward _ _ Hr _ Hp) as (v' & Hv' & _ & Hw).
    inversion Hw as [| | ? ? ? ? ? Ha | ? ? rs' ? p2 Hf Hfs |]; subst; [lia |].
    destruct (fields_related _ _ _ _ _ _ _ Hfs _ Hps) as (ps' & Hps' & Hpp).
    eapply sh_data; [exact Hv' | exact Hps' |]. clear - IH Hs Hpp. revert ps' Hpp.
    induction Hs as [|q x qs xs Hq _ IHs]; intros ps' Hpp; inversion Hpp; subst; constructor.
    + inversion IH as [|? ? Hx _]; subst. eapply Hx; eassumption.
    + inversion IH; subst. apply IHs; assumption.
Qed.
End Forward.
Section Backward.
Hypothesis step : forall p v, evals p v -> forall l, vrel l p -> exists x, evals l x /\ out x v.
Lemma result_backward p v : result p v -> forall l, vrel l p -> exists x, result l x /\ out x v.
Proof.
  induction 1 as [p v Hv Hm | p m b e w q v Hv Hw Hq _ IH]; intros l Hp; destruct (step _ _ Hv _ Hp) as (x & Hx & Ho).
  - exists x. split; [| exact Ho]. apply rs_plain; [exact Hx |]. destruct (wrel_shape _ _ _ _ _ (proj2 Ho)) as (-> & _). exact Hm.
  - apply out_right_meta in Ho. destruct Ho as (m' & b' & p2 & -> & Om & Ob).
    destruct (orel_some_r _ _ _ _ _ _ Om Hw) as (w' & Hw' & _). destruct (orel_some_r _ _ _ _ _ _ Ob Hq) as (q' & Hq' & Hqq).
    destruct (IH _ Hqq) as (u & Hu & Ho'). exists u. split; [eapply rs_meta; eassumption | exact Ho'].
Qed.
Lemma shows_backward (w : view) : forall l p, vrel l p -> shows p w -> shows l w.
Proof.
  induction w as [|n|a|tag ws IH] using Optimise.Props.view_induct; intros l p Hp H.
  - constructor.
  - inversion H as [|? ? Hr| |]; subst. destruct (result_backward _ _ Hr _ Hp) as (x & Hx & _ & Hw). inversion Hw; subst.
    apply sh_native. exact Hx.
  - inversion H as [| |? v Hr Ht|]; subst. destruct (result_backward _ _ Hr _ Hp) as (x & Hx & _ & Hw).
    destruct (wrel_shape _ _ _ _ _ Hw) as (_ & Ht' & _). rewrite <- Ht' in *. apply sh_function; assumption.
  - inversion H as [| | |? ? args e ps ? Hr Hps Hs]; subst. destruct (result_backward _ _ Hr _ Hp) as (x & Hx & Hw).
    apply out_right_data in Hw. destruct Hw as (rs' & p2 & -> & Hf & Hfs).
    destruct (fields_related_r _ _ _ _ _ _ _ Hfs _ Hps) as (ps' & Hps' & Hpp).
    eapply sh_data; [exact Hx | exact Hps' |]. clear - IH Hs Hpp. revert ps' Hpp.
    induction Hs as [|q y qs xs Hq _ IHs]; intros ps' Hpp; inversion Hpp; subst; constructor.
    + inversion IH as [|? ? Hy _]; subst. eapply Hy; eassumption.
    + inversion IH; subst. apply IHs; assumption.
Qed.
End Backward.
End Lift.

Lemma fits_sound : fits -> Forall sound globals.
Proof. intros H. eapply Forall_impl; [| exact (f_sound H)]. intros f (_ & H1 & H2). split; assumption. Qed.
Lemma fits_there : fits -> forall e r, global_of St e = Some r -> exists i f, r = RG i /\ nth_error globals (N.to_nat i) = Some f.
Proof.
  intros H e r Hg.
  assert (D : forall i, N.to_nat i < List.length globals -> exists i0 f, RG i = RG (native := native) i0 /\ nth_error globals (N.to_nat i0) = Some f).
  { intros i Hi. destruct (nth_error globals (N.to_nat i)) as [f|] eqn:E; [eauto |]. apply nth_error_None in E. lia. }
  destruct e as [[n|s b n]|bs body ty|inl ps body|k xs]; cbn [global_of] in Hg; try discriminate.
  - destruct (resolve_free St n) as [r'|] eqn:E; [| discriminate]. injection Hg as ->. unfold resolve_free in E.
    pose proof (f_prelude H n) as Hn. unfold prelude_slot in Hn. destruct (s_prelude_globals St) as [m|]; [| discriminate].
    destruct (find m n) as [i|]; [| discriminate]. injection E as <-. apply D. apply Hn. reflexivity.
  - destruct k as [kn| | | | | | | | | | | | | | | | | |]; try discriminate.
    + unfold intrinsic_index in Hg. pose proof (f_intrinsics H kn) as Hn. unfold intrinsic_slot in Hn.
      destruct (position (s_catalogue St) kn) as [i|]; [| discriminate]. injection Hg as <-. apply D. apply Hn. reflexivity.
    + destruct xs; [| discriminate]. injection Hg as <-. apply D. exact (f_nil H).
Qed.
Lemma slot_index name i : intrinsic_slot St name = Some i -> intrinsic_index St name = Ok (N.to_nat i).
Proof.
  unfold intrinsic_slot, intrinsic_index. destruct (position _ _); [| discriminate]. intros [= <-]. rewrite Nat2N.id. reflexivity.
Qed.
Lemma rendering_supported e : supported e -> supported (rendering St e).
Proof. unfold rendering. destruct (s_render St); cbn; auto. Qed.
Lemma compile_vrel forcing e self t : fits -> quiet_tables St forcing -> quiet forcing e -> supported e -> compile St e self = Ok t ->
  vrel St forcing globals (VClo t 0 []) (VClo (direct [] (rendering St e)) 0 []).
Proof.
  intros H Q1 Q2 Hs E. apply (vr_core _ _ _ [] [] t (rendering St e) [] []); [constructor | auto | | apply rendering_supported; exact Hs | constructor].
  eapply compile_reads_any; try eassumption; apply slot_index; [exact (f_render_doc H) | exact (f_render H)].
Qed.
Lemma forced_quiet_tables : quiet_tables St true.
Proof.
  assert (D : forall t, quiet_table true t).
  { intros t. apply Forall_forall. intros x _. apply Forall_forall. intros d _ _ _. exact Logic.I. }
  repeat split; apply D.
Qed.
Fixpoint forced_quiet (e : expr) : quiet true e.
Proof.
  destruct e as [v|bs body ty|inl ps body|k xs]; cbn; auto.
  - split; [| apply forced_quiet]. induction bs as [|b bs IH]; cbn; [exact Logic.I |]. split; [split; [intros _ _; exact Logic.I | apply forced_quiet] | exact IH].
  - induction xs as [|x xs IH]; cbn; [exact Logic.I |]. split; [apply forced_quiet | exact IH].
Qed.

(** Whatever the compiled code shows, the expression means. Missing: expressions with lookups of a
    literal key. *)
Theorem C79_sound_partial e self t w : regular_operators prim -> fits -> supported e -> compile St e self = Ok t ->
  shows prim merge globals (VClo t 0 []) w -> shows prim merge globals (VClo (direct [] (rendering St e)) 0 []) w.
Proof.
  intros Hp Hf Hs E. eapply shows_forward with (forcing := true).
  - apply (sound_evals St true prim merge globals (fits_sound Hf) (fits_there Hf) Hp (f_inlined Hf)).
  - eapply compile_vrel; try eassumption; [apply forced_quiet_tables | apply forced_quiet].
Qed.

(** Whatever the expression means, the compiled code shows, if nothing is forced ahead of its use
    (without which it is refuted below). Missing: expressions with lookups of a literal key. *)
Theorem C79_complete_partial e self t w : regular_operators prim -> fits -> supported e -> lazily e -> compile St e self = Ok t ->
  shows prim merge globals (VClo (direct [] (rendering St e)) 0 []) w -> shows prim merge globals (VClo t 0 []) w.
Proof.
  intros Hp Hf Hs (Q1 & Q2) E. eapply shows_backward with (forcing := false).
  - apply (complete_evals St false prim merge globals (fits_sound Hf) (fits_there Hf) Hp (f_inlined Hf) eq_refl).
  - eapply compile_vrel; eassumption.
Qed.
End Props.

Print Assumptions C79_sound_partial.
Print Assumptions C79_complete_partial.

(** * Examples. Natives are numbers, the only operator adds, and a literal is the length of its text. *)
Notation sum := (Machine.Props.add).
Definition add_wrapper : syn nat := SCase (SAtom (RL 0)) [] (Some (SBif 0 [RL 0; RL 2])).
Definition link_wrapper : syn nat := SCons 7 [RL 0; RL 1].
Definition some_settings (sigs : list (string * list demand)) : settings (native := nat) :=
  mkSettings true Headless false false (["ADD"%string; "LINK"%string; "RENDER"%string] ++ repeat ""%string 33 ++ ["RENDER_DOC"%string])%list
    [mkIntrinsic true 2 add_wrapper true; mkIntrinsic true 2 link_wrapper false] [] (Some [("one"%string, 46); ("first"%string, 47)]) [] sigs 5
    String.length String.length String.length.
Definition some_globals : list (form nat) :=
  [(FLambda 2 0, SFused 0 (RL 0) (RL 1) (SBif 0 [RL 0; RL 1])); (FLambda 2 0, link_wrapper)] ++ repeat (FLambda 1 0, SAtom (RL 0)) 80 ++
  [(FValue, SCons 6 []); (FValue, SCons 3 [RV 1]); (FLambda 2 0, SAtom (RL 0))].
Lemma some_fit sigs : fits (some_settings sigs) some_globals.
Proof.
  constructor.
  - apply Forall_app. split; [| apply Forall_app; split].
    + repeat constructor; cbn; try lia.
    + apply Forall_forall. intros f Hf. apply repeat_spec in Hf. subst f. repeat split; cbn; lia.
    + repeat constructor.
  - intros n i H. unfold intrinsic_slot in H. cbn [some_settings s_catalogue] in H. cbn in H.
    repeat (match type of H with context [if ?b then _ else _] => destruct b end; [injection H as <-; cbn; lia |]). discriminate.
  - intros n i H. unfold prelude_slot in H. cbn in H.
    repeat (match type of H with context [if ?b then _ else _] => destruct b end; [injection H as <-; cbn; lia |]). discriminate.
  - cbn. lia.
  - intros [|[|n]] bif H _; [injection H as <-; cbn; eauto 6 | injection H as <-; cbn; eauto 6 | destruct n; discriminate].
  - reflexivity.
  - reflexivity.
Qed.
(** [let f(x, y) = x ADD y; xs = [f(1, 22), "abc"]; ys = xs in {a: ys, b: f, c: LINK(one, xs)}] *)
Definition num (s : string) : expr := ENode (KLiteral (PNum s)) [].
Definition here (n : nat) : expr := EVar (Bound 0 n None).
Definition bound_as (d : demand) (e : expr) : binding expr := mkBinding ""%string e d.
Definition apply (f : expr) (xs : list expr) : expr := ENode KApp (f :: xs).
Definition sample : expr :=
  ELet [bound_as default_demand (ELam false ["x"; "y"]%string (apply (ENode (KIntrinsic "ADD"%string) []) [here 0; here 1]));
        bound_as default_demand (ENode KList [apply (here 0) [num "1"%string; num "22"%string]; ENode (KLiteral (PStr "abc"%string)) []]);
        bound_as default_demand (here 1)]
    (ENode (KBlock ["a"; "b"; "c"]%string) [here 2; here 0; apply (ENode (KIntrinsic "LINK"%string) []) [EVar (Free "one"%string); here 1]]) OtherLet.
Definition sample_view : view (native := nat) :=
  SeenData 8 [SeenData 7 [SeenData 9 [SeenNative 1; SeenData 7 [SeenNative 3; SeenData 7 [SeenData 5 [SeenNative 3]; SeenData 6 []]]];
              SeenData 7 [SeenData 9 [SeenNative 1; SeenFunction 2];
              SeenData 7 [SeenData 9 [SeenNative 1; SeenData 7 [SeenData 3 [SeenNative 1]; Unseen]]; SeenData 6 []]]]; SeenNative 1].
Definition code_of (r : res (syn nat)) : syn nat := match r with Ok t => t | Err _ => SBlackHole end.
Definition sample_code : syn nat := Eval vm_compute in code_of (compile (some_settings []) sample None).
Lemma some_plain root : plain root -> plain_program some_globals root.
Proof.
  intros H. split; [exact H |]. cbn. repeat split.
Qed.
Lemma sample_shows : shows sum 0%N some_globals (VClo sample_code 0 []) sample_view.
Proof.
  assert (H : exists h', Machine.Props.show0 some_globals sample_code sample_view = Some h') by (eexists; vm_compute; reflexivity).
  destruct H as [h' H]. apply Machine.Props.show0_spec in H. destruct H as [H _].
  eapply Machine.Props.C41_machine_sound_partial; [apply some_plain; cbn; repeat split | exact H].
Qed.

Lemma sample_supported : supported sample.
Proof. cbn. repeat split; try lia; discriminate. Qed.
Lemma no_strict_tables : quiet_tables (some_settings []) false.
Proof. repeat split; constructor. Qed.
Lemma sample_lazily : lazily (some_settings []) sample.
Proof. split; [exact no_strict_tables |]. cbn. repeat split; intros; discriminate. Qed.
Lemma sample_compiles : compile (some_settings []) sample None = Ok sample_code.
Proof. vm_compute. reflexivity. Qed.
Notation meant sigs e := (direct (intrinsic_slot (some_settings sigs)) (prelude_slot (some_settings sigs))
  String.length String.length String.length ix_empty_list [] e).
Example C79_sound_example : fits (some_settings []) some_globals /\ supported sample /\ compile (some_settings []) sample None = Ok sample_code /\
  shows sum 0%N some_globals (VClo sample_code 0 []) sample_view.
Proof. exact (conj (some_fit []) (conj sample_supported (conj sample_compiles sample_shows))). Qed.
Example C79_complete_example : lazily (some_settings []) sample /\
  shows sum 0%N some_globals (VClo (meant [] sample) 0 []) sample_view.
Proof.
  split; [exact sample_lazily |].
  exact (C79_sound_partial (some_settings []) sum 0%N some_globals sample None sample_code sample_view Optimise.Props.add_regular (some_fit []) sample_supported sample_compiles sample_shows).
Qed.

(** ** What is not so *)

(** [let x = [] ADD 1 in [x, x]], where [x] is annotated as strict because it occurs twice, fails,
    although neither element of the list is asked for. *)
Definition strictly : demand := Basics.Model.mkD Basics.Model.CMulti Basics.Model.SStrict false false.
Definition failing : expr := apply (ENode (KIntrinsic "ADD"%string) []) [ENode KList []; num "1"].
Definition eager : expr := ELet [bound_as strictly failing] (ENode KList [here 0; here 0]) OtherLet.
Definition eager_code : syn nat := Eval vm_compute in code_of (compile (some_settings []) eager None).
(** [first(1, [] ADD 1)], where the table has [first] strict in its second argument. *)
Definition tabled : expr := apply (EVar (Free "first"%string)) [num "1"; failing].
Definition tables : list (string * list demand) := [("first"%string, [default_demand; strictly])].
Definition tabled_code : syn nat := Eval vm_compute in code_of (compile (some_settings tables) tabled None).

Theorem C79_strict_refuted : exists e t, fits (some_settings []) some_globals /\ supported e /\ compile (some_settings []) e None = Ok t /\
  shows sum 0%N some_globals (VClo (meant [] e) 0 []) (SeenData 7 [Unseen; Unseen]) /\
  forall v, ~ result sum 0%N some_globals (VClo t 0 []) v.
Proof.
  exists eager, eager_code. split; [apply some_fit |]. split; [cbn; repeat split; lia |]. split; [vm_compute; reflexivity |]. split.
  - assert (H : exists h', Machine.Props.show0 some_globals (meant [] eager) (SeenData 7 [Unseen; Unseen]) = Some h') by (eexists; vm_compute; reflexivity).
    destruct H as [h' H]. apply Machine.Props.show0_spec in H. destruct H as [H _].
    eapply Machine.Props.C41_machine_sound_partial; [apply some_plain; cbn; repeat split | exact H].
  - eapply Machine.Props.no_result; [repeat (eapply reaches_step; [reflexivity |]); apply reaches_refl | reflexivity | apply not_final_stack].
Qed.
Theorem C79_table_refuted : exists sigs e t, fits (some_settings sigs) some_globals /\ supported e /\ quiet false e /\ compile (some_settings sigs) e None = Ok t /\
  shows sum 0%N some_globals (VClo (meant sigs e) 0 []) (SeenData 3 [SeenNative 1]) /\
  forall v, ~ result sum 0%N some_globals (VClo t 0 []) v.
Proof.
  exists tables, tabled, tabled_code. split; [apply some_fit |]. split; [cbn; repeat split; lia |]. split; [cbn; repeat split |]. split; [vm_compute; reflexivity |]. split.
  - assert (H : exists h', Machine.Props.show0 some_globals (meant tables tabled) (SeenData 3 [SeenNative 1]) = Some h') by (eexists; vm_compute; reflexivity).
    destruct H as [h' H]. apply Machine.Props.show0_spec in H. destruct H as [H _].
    eapply Machine.Props.C41_machine_sound_partial; [apply some_plain; cbn; repeat split | exact H].
  - eapply Machine.Props.no_result; [repeat (eapply reaches_step; [reflexivity |]); apply reaches_refl | reflexivity | apply not_final_stack].
Qed.
Print Assumptions C79_strict_refuted.
Print Assumptions C79_table_refuted.
