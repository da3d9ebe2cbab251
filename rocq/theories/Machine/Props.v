(** The evaluator: shared, updated environments give the answers of call by name. *)
From Coq Require Import List Bool Arith NArith Lia.
From Verif.Bytecode Require Import Model Spec.
From Verif.Machine Require Import Model Spec Name Rel Chase Sim Steps Clean Correct Curry Check.
Import ListNotations.
Open Scope nat_scope.

Section Props.
Context {native : Type}.
Notation syn := (syn native).
Notation form := (form native).
Notation value := (value (native := native)).
Notation view := (view (native := native)).
Notation state := (state (native := native)).
Variable prim : N -> list native -> prim_result (native := native).
Variable is_symbol : native -> bool.
Variable symbols_equal : native -> native -> bool.
Variable merge : N.
Variable globals : list form.
Notation step := (step prim is_symbol symbols_equal merge).
Notation stops := (stops prim is_symbol symbols_equal merge).
Notation stops_properly := (stops_properly prim is_symbol symbols_equal merge).
Notation visits := (visits prim is_symbol symbols_equal merge).
Notation looks := (looks prim is_symbol symbols_equal merge).
Notation ordinary := (ordinary prim is_symbol symbols_equal merge).
Notation copies_placeholder := (copies_placeholder prim is_symbol symbols_equal merge).
Notation begins := (begins prim is_symbol symbols_equal merge).
Notation result := (result prim merge globals).
Notation shows := (shows prim merge globals).
Notation strips := (strips prim merge globals).
Notation applies := (applies prim merge globals).

(** Whatever part of its output the machine renders, call by name gives the same. *)
Theorem C41_machine_sound_partial root view h' : plain_program globals root ->
  renders stops_properly (s_heap (start globals root)) (s_cur (start globals root)) view h' ->
  shows (VClo root 0 []) view.
Proof. apply program_sound. Qed.

(** Whatever call by name gives, the machine renders, unless it meets one of the three kinds of state
    that [ordinary] excludes. *)
Theorem C41_machine_complete_partial root view : plain_program globals root -> shows (VClo root 0 []) view ->
  (forall s, looks (s_heap (start globals root)) (s_cur (start globals root)) view s -> ordinary s) ->
  exists h', renders stops (s_heap (start globals root)) (s_cur (start globals root)) view h'.
Proof. apply program_complete. Qed.

(** Call by name gives at most one answer. *)
Theorem C41_by_name_deterministic p v w : result p v -> result p w -> v = w.
Proof. apply result_unique. Qed.

(** Supplying arguments to a function together, or first some and then the rest. *)
Theorem C42_stages p w xs ys v : strips p w -> length xs < takes w <= length xs + length ys ->
  (applies p (xs ++ ys) v <-> exists u, applies p xs u /\ applies u ys v).
Proof.
  intros Hw Hlen. pose proof (strips_self prim merge globals p w Hw) as Hself.
  rewrite (applies_strip prim merge globals p w _ _ Hw). rewrite <- (stages prim merge globals w xs ys v Hself Hlen).
  split.
  - intros H. exists (VPap w xs). split; [| exact H]. apply (applies_strip prim merge globals p w _ _ Hw).
    apply ap_partial; [exact Hself | lia].
  - intros (u & Hu & H). apply (applies_strip prim merge globals p w _ _ Hw) in Hu.
    assert (u = VPap w xs) as -> ; [| exact H].
    inversion Hu as [? ? c e ? Hs Hl He | ? ? f held ? Hs Ht Hl Ha | ? ? x Hs Hl | ? ? x u' ? Hs Hl H1 H2 | ? ? fs e m ? Hs Hm Ha];
      subst; pose proof (strips_unique prim merge globals _ _ _ Hself Hs) as E; subst; simpl in *; try lia. reflexivity.
Qed.
(** Supplying more arguments than a function takes. *)
Theorem C42_surplus p w xs ys v : strips p w -> length xs = takes w -> xs <> [] -> ys <> [] ->
  (applies p (xs ++ ys) v <-> exists u, applies p xs u /\ applies u ys v).
Proof.
  intros Hw Hlen Hx Hy. pose proof (strips_self prim merge globals p w Hw) as Hself.
  rewrite (applies_strip prim merge globals p w _ _ Hw).
  assert (0 < length xs) by (destruct xs; [congruence | simpl; lia]).
  assert (0 < length ys) by (destruct ys; [congruence | simpl; lia]).
  rewrite (surplus_iff prim merge globals w (xs ++ ys) v Hself) by (rewrite app_length; lia).
  rewrite <- Hlen, firstn_app, skipn_app, firstn_all, skipn_all, Nat.sub_diag. cbn [firstn skipn app]. rewrite app_nil_r.
  split; intros (u & H1 & H2); exists u; (split; [apply (applies_strip prim merge globals p w _ _ Hw); exact H1 | exact H2]).
Qed.
(** Arguments that do not suffice: the result is a function of the rest, and however they are
    divided it does the same with the rest. *)
Theorem C42_partial_arity p w xs : strips p w -> length xs < takes w ->
  exists u, applies p xs u /\ takes u = takes w - length xs /\ strips u u.
Proof.
  intros Hw Hl. exists (VPap w xs). split; [| split; [reflexivity | apply st_plain; [constructor | reflexivity]]].
  apply ap_partial; assumption.
Qed.
Theorem C42_three_stages p w xs ys zs v : strips p w -> length xs + length ys < takes w <= length xs + length ys + length zs ->
  (applies p (xs ++ ys ++ zs) v <-> exists u t, applies p xs u /\ applies u ys t /\ applies t zs v).
Proof.
  intros Hw Hlen. pose proof (strips_self prim merge globals p w Hw) as Hself.
  rewrite (C42_stages p w xs (ys ++ zs) v Hw) by (rewrite app_length; lia).
  assert (Hu : forall u, applies p xs u -> strips u (VPap w xs)).
  { intros u Ha. apply (applies_strip prim merge globals p w _ _ Hw) in Ha.
    assert (u = VPap w xs) as ->; [| apply st_plain; [constructor | reflexivity]].
    inversion Ha as [? ? c e ? Hs Hl He | ? ? f held ? Hs Ht Hl Hb | ? ? x Hs Hl | ? ? x u' ? Hs Hl H1 H2 | ? ? fs e m ? Hs Hm Hb];
      subst; pose proof (strips_unique prim merge globals _ _ _ Hself Hs) as E; subst; simpl in *; try lia. reflexivity. }
  split.
  - intros (u & Ha & Hb). exists u. apply (C42_stages u _ ys zs v (Hu u Ha)) in Hb; [| simpl; lia].
    destruct Hb as (t & H1 & H2). eauto.
  - intros (u & t & Ha & H1 & H2). exists u. split; [exact Ha |].
    apply (C42_stages u _ ys zs v (Hu u Ha)); [simpl; lia |]. eauto.
Qed.

(** An infinite-loop error means that the program has no value, as long as no placeholder has been
    copied. *)
Theorem C43_loop_error_is_real_partial root s : plain_program globals root -> visits (start globals root) s ->
  step s = Fail EBlackHole -> (forall t, visits (start globals root) t -> ~ copies_placeholder t) ->
  forall v, ~ result (VClo root 0 []) v.
Proof. apply loop_error. Qed.

(** Once the evaluation of the expression in a slot has begun, it is never begun again. *)
Theorem C44_slot_evaluated_once_partial s s' t a j v w : begins s a j v -> step s = Next s' -> visits s' t -> ~ begins t a j w.
Proof. apply begins_once. Qed.

(** Calling a function copies no expression and no placeholder, unless the arguments are marked for
    early fetching: what is passed is a reference to a variable, or a function. *)
Lemma lazy_args h e rs : forall vs, make_args h e false rs = Some vs -> Forall (passed (native := native)) vs.
Proof.
  induction rs as [|r rs IH]; intros vs; cbn [make_args]; [intros [= <-]; constructor |].
  destruct (make_arg h e false r) as [v|] eqn:Ev; [| discriminate].
  destruct (make_args h e false rs) as [ws|]; [| discriminate]. intros [= <-]. constructor; [| apply IH; reflexivity].
  destruct r as [i|i|n]; cbn [make_arg] in Ev; [| injection Ev as <-; exact I | injection Ev as <-; exact I].
  destruct (get h e (N.to_nat i)) as [w|]; [| injection Ev as <-; exact I].
  cbn [orb] in Ev. destruct (is_settled w) eqn:Es; injection Ev as <-; [| exact I].
  destruct w as [n|c a u' e']; [discriminate |]. destruct u'; [destruct c, a; discriminate |].
  destruct a; [| destruct c; exact I]. destruct c; try discriminate. exact I.
Qed.
Lemma set_at_length {A} (x : A) : forall l i, length (set_at i x l) = length l.
Proof. induction l as [|y l IH]; destruct i; simpl; auto. Qed.
Lemma entered K h e f (s' : state) : enter_callable K h e f = Next s' ->
  length (s_heap s') = length h /\ (s_stack s' = K \/ exists e' i, s_stack s' = KUpdate (native := native) e' i :: K).
Proof.
  assert (He : forall e i m, enter K h e i m = Next s' ->
            length (s_heap s') = length h /\ (s_stack s' = K \/ exists e' i, s_stack s' = KUpdate (native := native) e' i :: K)).
  { intros e0 i m. unfold enter. destruct (get h e0 i) as [v|]; [| discriminate].
    destruct v as [n|c a u' e']; [intros [= <-]; split; [reflexivity | left; reflexivity] |].
    destruct u'; [| intros [= <-]; split; [reflexivity | left; reflexivity]].
    unfold put. destruct (cell h e0 i) as [[a0 j0]|]; [| discriminate].
    destruct (j0 <? length (array h a0)); [| discriminate]. intros [= <-]. split; [apply set_at_length | right; do 2 eexists; reflexivity]. }
  destruct f; cbn [enter_callable]; [apply He | apply He | discriminate].
Qed.
Theorem C44_lazy_arguments_shared smid code f args u e K h s' v :
  code = SApp f args false \/ code = SDirectApp smid f args false ->
  step (mkState (MClo code 0 u e) K h) = Next s' ->
  (exists vs, In (KApply vs) (s_stack s') /\ ~ In (KApply vs) K /\ In v vs) \/
  (exists a, length h <= a /\ In v (array (s_heap s') a)) -> passed v.
Proof.
  intros Hc Hs Hv.
  assert (Hvs : exists vs, make_args h e false args = Some vs /\
            (enter_callable (KApply vs :: K) h e f = Next s' \/ direct_app K h e f vs = Next s')).
  { destruct Hc as [-> | ->]; cbn [Model.step handle_op] in Hs; destruct (make_args h e false args) as [vs|]; try discriminate; eauto. }
  destruct Hvs as (vs & Hm & Hs'). apply lazy_args in Hm. rewrite Forall_forall in Hm.
  assert (Hq : forall K' h', (K' = KApply vs :: K \/ exists e' i, K' = KUpdate (native := native) e' i :: KApply vs :: K) -> length h' = length h ->
             s_stack s' = K' -> s_heap s' = h' -> passed v).
  { intros K' h' HK Hh E1 E2. destruct Hv as [(ws & H1 & H2 & H3) | (a & H1 & H2)].
    - rewrite E1 in H1. apply Hm. assert (KApply ws = KApply vs \/ In (KApply ws) K) as [Hw|Hw].
      { destruct HK as [-> | (e' & i & ->)]; simpl in H1; intuition congruence. }
      + injection Hw as ->. exact H3.
      + contradiction.
    - rewrite E2 in H2. unfold array in H2. rewrite nth_overflow in H2 by lia. destruct H2. }
  assert (Hen : enter_callable (KApply vs :: K) h e f = Next s' -> passed v).
  { intros He. apply entered in He. destruct He as [H1 H2]. eapply Hq; [| exact H1 | reflexivity | reflexivity]. exact H2. }
  destruct Hs' as [He | Hd]; [auto |]. unfold direct_app in Hd.
  destruct f as [i|i|n]; try discriminate.
  all: destruct (resolve_ref _ _ _) as [[n|c a u' e']|]; try discriminate; destruct u'; [auto |].
  all: destruct (a =? length vs); [| injection Hd as <-; eapply Hq; [left; reflexivity | reflexivity | reflexivity | reflexivity]].
  all: unfold saturate, new_frame, alloc in Hd; injection Hd as <-; cbn [s_stack s_heap] in Hv.
  all: destruct Hv as [(ws & H1 & H2 & _) | (b & H1 & H2)]; [contradiction |]; apply Hm; unfold array in H2.
  all: destruct (Nat.eq_dec b (length h)) as [-> | Hne]; [rewrite nth_middle in H2; exact H2 |].
  all: rewrite nth_overflow in H2 by (rewrite app_length; simpl; lia); destruct H2.
Qed.

Lemma no_result p S : reaches prim merge globals (p, []) S -> pstep prim merge globals S = None -> ~ final S ->
  forall v, ~ result p v.
Proof.
  intros Hr HN Hf v Hv. apply result_iff in Hv. destruct Hv as (Hv & Hw & Hm).
  assert (final (v, [])) by (repeat split; assumption).
  rewrite <- (final_unique prim merge globals _ _ _ Hv H Hr HN) in Hf. contradiction.
Qed.
End Props.

(** * Examples. Natives are numbers, and the only operator adds. *)
Definition add (i : N) (ns : list nat) : prim_result (native := nat) :=
  match i, ns with 0%N, [a; b] => RNative (a + b) | _, _ => RError end.
Notation no_symbols := (fun _ : nat => false).
Notation never := (fun _ _ : nat => false).
Notation step0 := (step add no_symbols never 0%N).
Notation run0 := (run add no_symbols never 0%N).
Notation visits0 := (visits add no_symbols never 0%N).
Notation heap0 globals root := (s_heap (start globals root)).
Notation cur0 globals root := (s_cur (start globals root)).
Definition show0 (globals : list (form nat)) (root : syn nat) (view : view) : option heap :=
  show add no_symbols never 0%N Nat.eqb 100 view (heap0 globals root) (cur0 globals root).
Lemma show0_spec globals root view h' : show0 globals root view = Some h' ->
  renders (stops_properly add no_symbols never 0%N) (heap0 globals root) (cur0 globals root) view h' /\
  forall t, looks add no_symbols never 0%N (heap0 globals root) (cur0 globals root) view t -> ordinary add no_symbols never 0%N t.
Proof. apply show_spec. apply Nat.eqb_eq. Qed.

(** [letrec double x = x + x; y = double 21; l = y :: y :: l in l] *)
Definition cyclic : syn nat :=
  SLet true [(FLambda 1 0, SFused 0 (RL 0) (RL 0) (SBif 0 [RL 0; RL 0]));
             (FThunk, SApp (RL 0) [RV 21] false);
             (FThunk, SLet false [(FValue, SCons 7 [RL 1; RL 2])] (SCons 7 [RL 2; RL 0]))]
       (SAtom (RL 2)).
Definition cyclic_view : view := SeenData 7 [SeenNative 42; SeenData 7 [SeenNative 42; SeenData 7 [SeenNative 42; Unseen]]].
Lemma cyclic_plain : plain_program [] cyclic.
Proof. split; [| exact I]. repeat split. Qed.
Lemma cyclic_shown : exists h', show0 [] cyclic cyclic_view = Some h'.
Proof. eexists. vm_compute. reflexivity. Qed.
Example C41_sound_example : exists h', plain_program [] cyclic /\
  renders (stops_properly add no_symbols never 0%N) (heap0 [] cyclic) (cur0 [] cyclic) cyclic_view h'.
Proof.
  destruct cyclic_shown as [h' H]. exists h'. split; [exact cyclic_plain | apply (show0_spec [] cyclic cyclic_view h' H)].
Qed.
Example C41_complete_example : plain_program [] cyclic /\ shows add 0%N [] (VClo cyclic 0 []) cyclic_view /\
  forall s, looks add no_symbols never 0%N (heap0 [] cyclic) (cur0 [] cyclic) cyclic_view s -> ordinary add no_symbols never 0%N s.
Proof.
  destruct cyclic_shown as [h' H]. apply show0_spec in H. destruct H as [H1 H2].
  split; [exact cyclic_plain | split; [| exact H2]]. eapply C41_machine_sound_partial; [exact cyclic_plain | exact H1].
Qed.
(** By hand: the first element. *)
Example C41_result_example : shows add 0%N [] (VClo cyclic 0 []) (SeenData 7 [SeenNative 42; Unseen]).
Proof.
  eapply sh_data.
  - apply rs_plain; [| reflexivity]. apply ev_letrec. eapply ev_variable; [reflexivity |]. apply ev_let. apply ev_data.
  - reflexivity.
  - constructor; [| constructor; [apply sh_unseen | constructor]]. apply sh_native. apply rs_plain; [| reflexivity].
    eapply ev_apply; [reflexivity | reflexivity |].
    eapply ap_saturated; [apply st_plain; [apply ev_function; simpl; lia | reflexivity] | simpl; lia |].
    eapply ev_fused.
    + apply op_native. apply st_plain; [| reflexivity]. eapply ev_variable; [reflexivity |]. apply ev_native.
    + apply op_native. apply st_plain; [| reflexivity]. eapply ev_variable; [reflexivity |]. apply ev_native.
    + reflexivity.
Qed.

(** A variable that stands for a function is taken for the native found by following the
    function's body outside the function: with [x = 5] and [id y = y], [id + x] is 10 for the machine
    and an error by name. *)
Definition adds_function : syn nat :=
  SLet false [(FValue, SAtom (RV 5))]
    (SLet false [(FLambda 1 0, SAtom (RL 0))] (SFused 0 (RL 0) (RL 1) (SBif 0 [RL 0; RL 1]))).
Theorem C41_function_operand_refuted : exists root view h', plain_program [] root /\
  renders (stops add no_symbols never 0%N) (heap0 [] root) (cur0 [] root) view h' /\
  ~ shows add 0%N [] (VClo root 0 []) view.
Proof.
  exists adds_function, (SeenNative 10). eexists. split; [split; [repeat split | exact I] | split].
  - apply re_native. unfold stops.
    repeat (eapply run_next; [vm_compute; reflexivity |]). apply run_stop. vm_compute. reflexivity.
  - intros H. inversion H as [ | ? ? Hr | | ]; subst. revert Hr.
    eapply no_result; [repeat (eapply reaches_step; [reflexivity |]); apply reaches_refl | reflexivity | apply not_final_stack].
Qed.

(** [letrec t = let z = 5 in case K t of K u -> 1 :: u in tail t]: the field of [K] is two frames away
    from the constructor, so it is copied while [t] is being evaluated, and the copy of the
    placeholder is never overwritten. *)
Definition copied : syn nat :=
  SCase (SLet true [(FThunk, SLet false [(FValue, SAtom (RV 5))]
                       (SCase (SCons 20 [RL 1]) [(20%N, SCons 7 [RV 1; RL 0])] None))]
          (SAtom (RL 0)))
        [(7%N, SAtom (RL 1))] None.
Lemma copied_value : exists e, result add 0%N [] (VClo copied 0 []) (VClo (SCons 7 [RV 1; RL 0]) 0 e).
Proof.
  eexists. apply rs_plain; [| reflexivity].
  assert (Ht : forall e fs, evals add 0%N [] (VClo (SLet false [(FValue, SAtom (RV 5))]
                       (SCase (SCons 20 [RL 1]) [(20%N, SCons 7 [RV 1; RL 0])] None)) 0 (Rec fs :: e))
       (VClo (SCons 7 [RV 1; RL 0]) 0 (bind (match nth_error fs 0 with Some f => [closure (Rec fs :: e) f] | None => [] end)
          (Vals [VClo (SAtom (RV 5)) 0 (Rec fs :: e)] :: Rec fs :: e))) \/ length fs = 0).
  { intros e [|f fs]; [right; reflexivity | left]. apply ev_let.
    eapply ev_branch; [apply st_plain; [apply ev_data | reflexivity] | reflexivity | reflexivity | apply ev_data]. }
  eapply ev_branch.
  - apply st_plain; [| reflexivity]. apply ev_letrec. eapply ev_variable; [reflexivity |].
    edestruct Ht as [H|H]; [exact H | discriminate].
  - reflexivity.
  - reflexivity.
  - eapply ev_variable; [reflexivity |]. edestruct Ht as [H|H]; [exact H | discriminate].
Qed.
Theorem C41_copied_placeholder_refuted : exists root v, plain_program [] root /\
  result add 0%N [] (VClo root 0 []) v /\ run0 (start [] root) (Fail EBlackHole).
Proof.
  destruct copied_value as [e He]. exists copied. eexists. split; [split; [repeat split | exact I] | split; [exact He |]].
  repeat (eapply run_next; [vm_compute; reflexivity |]). apply run_fail. vm_compute. reflexivity.
Qed.
Theorem C43_loop_error_refuted : exists root v s, plain_program [] root /\ visits0 (start [] root) s /\
  step0 s = Fail EBlackHole /\ result add 0%N [] (VClo root 0 []) v.
Proof.
  destruct copied_value as [e He]. exists copied. do 2 eexists.
  split; [split; [repeat split | exact I] | split; [| split; [| exact He]]].
  - repeat (eapply vi_next; [vm_compute; reflexivity |]). apply vi_here.
  - vm_compute. reflexivity.
Qed.

(** A function of 18 arguments given one of them. *)
Theorem C41_wide_partial_application_refuted : exists root view, plain_program [] root /\
  shows add 0%N [] (VClo root 0 []) view /\ run0 (start [] root) (Fail EPap).
Proof.
  exists (SLet false [(FLambda 18 0, SAtom (RL 0))] (SApp (RL 0) [RV 1] false)), (SeenFunction 17).
  split; [split; [repeat split | exact I] | split].
  - apply (sh_function add 0%N [] _ (VPap (VClo (SAtom (RL 0)) 18 []) [VNat 1])); [| simpl; lia].
    apply rs_plain; [| reflexivity]. apply ev_let. eapply ev_apply; [reflexivity | reflexivity |].
    apply ap_partial; [apply st_plain; [apply ev_function; vm_compute; lia | reflexivity] | vm_compute; lia].
  - repeat (eapply run_next; [vm_compute; reflexivity |]). apply run_fail. vm_compute. reflexivity.
Qed.

(** ** Applying in stages *)
Definition three : value (native := nat) := VClo (SCons 20 [RL 2; RL 1; RL 0]) 3 [].
Example C42_example : strips add 0%N [] three three /\ takes three = 3 /\
  applies add 0%N [] three ([VNat 1] ++ [VNat 2; VNat 3]) (VClo (SCons 20 [RL 2; RL 1; RL 0]) 0 [Vals [VNat 1; VNat 2; VNat 3]]).
Proof.
  assert (Hs : strips add 0%N [] three three) by (apply st_plain; [apply ev_function; lia | reflexivity]).
  split; [exact Hs | split; [reflexivity |]]. eapply ap_saturated; [exact Hs | simpl; lia | apply ev_data].
Qed.
Example C42_staged_example : exists u, applies add 0%N [] three [VNat 1] u /\
  applies add 0%N [] u [VNat 2; VNat 3] (VClo (SCons 20 [RL 2; RL 1; RL 0]) 0 [Vals [VNat 1; VNat 2; VNat 3]]).
Proof.
  destruct C42_example as (Hs & Ht & Ha). apply (C42_stages add 0%N [] three three [VNat 1] [VNat 2; VNat 3] _ Hs); [simpl; lia |].
  exact Ha.
Qed.
(** A block applied to two values together is not the block applied to the first and then the
    second. Here the merge function makes a block of its two arguments. *)
Theorem C42_block_refuted : exists globals p xs ys u v v' n, xs <> [] /\ ys <> [] /\
  applies add 0%N globals p (xs ++ ys) v /\ applies add 0%N globals p xs u /\ applies add 0%N globals u ys v' /\
  shows add 0%N globals v' (SeenData 8 [SeenNative n; Unseen]) /\ ~ shows add 0%N globals v (SeenData 8 [SeenNative n; Unseen]).
Proof.
  set (m := (FLambda 2 0, SCons 8 [RL 0; RL 1]) : form nat). set (p := VClo (SCons 8 []) 0 [] : value (native := nat)).
  set (mv := VClo (SCons 8 [RL 0; RL 1]) 2 [] : value (native := nat)).
  set (out := fun x y : value (native := nat) => VClo (SCons 8 [RL 0; RL 1]) 0 [Vals [x; y]] : value (native := nat)).
  assert (Hm : strips add 0%N [m] mv mv) by (apply st_plain; [apply ev_function; lia | reflexivity]).
  assert (Hap : forall x y, applies add 0%N [m] mv [x; y] (out x y)).
  { intros x y. eapply ap_saturated; [exact Hm | simpl; lia | apply ev_data]. }
  assert (Hblock : forall x b fields e, b = VClo (SCons 8 fields) 0 e -> applies add 0%N [m] b [x] (out x b)).
  { intros x b fields e ->. eapply ap_block; [apply st_plain; [apply ev_data | reflexivity] | reflexivity | apply Hap]. }
  exists [m], p, [VNat 1], [VNat 2]. eexists. eexists. eexists. exists 2.
  split; [discriminate | split; [discriminate |]]. split; [| split; [| split; [| split]]].
  - eapply ap_block; [apply st_plain; [apply ev_data | reflexivity] | reflexivity |].
    eapply ap_surplus; [exact Hm | simpl; lia | apply Hap | eapply Hblock; reflexivity].
  - eapply Hblock. reflexivity.
  - eapply Hblock. reflexivity.
  - eapply sh_data; [apply rs_plain; [apply ev_data | reflexivity] | reflexivity |].
    constructor; [apply sh_native, rs_plain; [apply ev_native | reflexivity] | constructor; [apply sh_unseen | constructor]].
  - intros H. inversion H as [ | | | ? ? args e ps ? Hr Hv Hf]; subst.
    assert (Hr' : result add 0%N [m] (out p (out (VNat 1) (VNat 2))) (out p (out (VNat 1) (VNat 2))))
      by (apply rs_plain; [apply ev_data | reflexivity]).
    pose proof (result_unique add 0%N [m] _ _ _ Hr Hr') as E. injection E as -> ->.
    injection Hv as <-. inversion Hf as [ | ? ? ? ? Hs _]; subst. inversion Hs as [ | ? ? Hn | | ]; subst.
    assert (Hp : result add 0%N [m] p p) by (apply rs_plain; [apply ev_data | reflexivity]).
    pose proof (result_unique add 0%N [m] _ _ _ Hn Hp). discriminate.
Qed.

(** ** Loops *)
(** [letrec x = x + 1 in x] *)
Definition looping : syn nat := SLet true [(FThunk, SFused 0 (RL 0) (RV 1) (SBif 0 [RL 0; RV 1]))] (SAtom (RL 0)).
Fixpoint walk (fuel : nat) (s : state (native := nat)) : option err :=
  if copiesb add no_symbols never 0%N s then None
  else match step0 s with
       | Fail e => Some e
       | Stop _ => None
       | Next s' => match fuel with O => None | S fuel => walk fuel s' end
       end.
Lemma copies_checked s : copiesb add no_symbols never 0%N s = false -> ~ copies_placeholder add no_symbols never 0%N s.
Proof.
  intros Hc (s' & Hs & Hor). unfold copiesb in Hc. rewrite Hs in Hc. apply orb_false_iff in Hc. destruct Hc as [H1 H2].
  destruct Hor as [(a & v & Ha & Hin & Hv) | (args & v & Hin & Hv & Hh)].
  - assert (existsb (fun a => existsb holeb (array (s_heap s') a)) (seq (length (s_heap s)) (length (s_heap s') - length (s_heap s))) = true); [| congruence].
    apply existsb_exists. exists a. split.
    + apply in_seq. split; [exact Ha |]. destruct (Nat.lt_ge_cases a (length (s_heap s'))) as [H|H]; [lia |].
      unfold array in Hin. rewrite nth_overflow in Hin by exact H. destruct Hin.
    + apply existsb_exists. exists v. split; [exact Hin | apply holeb_spec, Hv].
  - assert (existsb (fun k => match k with KApply args => existsb holeb args | _ => false end) (s_stack s') = true); [| congruence].
    apply existsb_exists. exists (KApply args). split; [exact Hin |]. apply existsb_exists. exists v.
    split; [exact Hv | apply holeb_spec, Hh].
Qed.
Lemma walk_spec fuel : forall s e, walk fuel s = Some e ->
  (exists t, visits0 s t /\ step0 t = Fail e) /\ forall t, visits0 s t -> ~ copies_placeholder add no_symbols never 0%N t.
Proof.
  induction fuel as [|fuel IH]; intros s e; cbn [walk]; destruct (copiesb add no_symbols never 0%N s) eqn:Ec; try discriminate;
    apply copies_checked in Ec; destruct (step0 s) as [s1 | s1 | e1] eqn:Es; try discriminate.
  - intros [= ->]. split; [exists s; split; [apply vi_here | exact Es] |]. intros t Ht. inversion Ht; subst; [exact Ec | congruence].
  - intros H. destruct (IH _ _ H) as [(t & Ht & Hf) Hno]. split; [exists t; split; [eapply vi_next; eassumption | exact Hf] |].
    intros t' Ht'. inversion Ht' as [ | ? s2 ? Hs2 Hv2]; subst; [exact Ec |]. apply Hno. congruence.
  - intros [= ->]. split; [exists s; split; [apply vi_here | exact Es] |]. intros t Ht. inversion Ht; subst; [exact Ec | congruence].
Qed.
Example C43_example : exists s, plain_program [] looping /\ visits0 (start [] looping) s /\ step0 s = Fail EBlackHole /\
  forall t, visits0 (start [] looping) t -> ~ copies_placeholder add no_symbols never 0%N t.
Proof.
  destruct (walk_spec 20 (start [] looping) EBlackHole) as [(s & Hv & Hs) Hno]; [vm_compute; reflexivity |].
  exists s. split; [split; [repeat split | exact I] | auto].
Qed.

(** ** Evaluating once *)
Definition sum12 : syn nat := SFused 0 (RV 1) (RV 2) (SBif 0 [RV 1; RV 2]).
(** [let x = 1 + 2 in x + x]: the evaluation of [x] is begun. *)
Definition shared : syn nat := SLet false [(FThunk, sum12)] (SFused 0 (RL 0) (RL 0) (SBif 0 [RL 0; RL 0])).
Ltac begun := do 2 eexists; split; [vm_compute; reflexivity |]; split; [vm_compute; reflexivity |];
  split; [exact (fun H => H) | split; [intros [? ?]; discriminate | split; [vm_compute; reflexivity | eexists; reflexivity]]].
Example C44_example : exists s v, visits0 (start [] shared) s /\ begins add no_symbols never 0%N s 1 0 v.
Proof.
  do 2 eexists. split.
  - do 2 (eapply vi_next; [vm_compute; reflexivity |]). apply vi_here.
  - begun.
Qed.
(** [letrec x = 1 + 2 in let z = 5 in case K x of K y -> y + x]: [x] is copied before it is evaluated,
    and the same expression is then evaluated in both places. *)
Definition duplicated : syn nat :=
  SLet true [(FThunk, sum12)]
    (SLet false [(FValue, SAtom (RV 5))]
       (SCase (SCons 20 [RL 1]) [(20%N, SFused 0 (RL 0) (RL 2) (SBif 0 [RL 0; RL 2]))] None)).
Theorem C44_copied_expression_refuted : exists root s t a b v, plain_program [] root /\
  visits0 (start [] root) s /\ visits0 s t /\ a <> b /\
  begins add no_symbols never 0%N s a 0 v /\ begins add no_symbols never 0%N t b 0 v.
Proof.
  exists duplicated. do 2 eexists. exists 3, 1. eexists. split; [split; [repeat split | exact I] |].
  split; [do 5 (eapply vi_next; [vm_compute; reflexivity |]); apply vi_here |].
  split; [do 6 (eapply vi_next; [vm_compute; reflexivity |]); apply vi_here |].
  split; [discriminate | split; [begun | begun]].
Qed.

Print Assumptions C41_machine_sound_partial.
Print Assumptions C41_machine_complete_partial.
Print Assumptions C41_by_name_deterministic.
Print Assumptions C41_function_operand_refuted.
Print Assumptions C41_copied_placeholder_refuted.
Print Assumptions C41_wide_partial_application_refuted.
Print Assumptions C42_stages.
Print Assumptions C42_surplus.
Print Assumptions C42_partial_arity.
Print Assumptions C42_three_stages.
Print Assumptions C42_block_refuted.
Print Assumptions C43_loop_error_is_real_partial.
Print Assumptions C43_loop_error_refuted.
Print Assumptions C44_slot_evaluated_once_partial.
Print Assumptions C44_copied_expression_refuted.
Print Assumptions C44_lazy_arguments_shared.
