(** The simulation, case by case. *)
From Coq Require Import List Bool Arith NArith Lia.
From Verif.Bytecode Require Import Model Spec.
From Verif.Machine Require Import Model Spec Name Rel Chase Sim.
Import ListNotations.
Open Scope nat_scope.

Section Steps.
Context {native : Type}.
Notation ref := (ref native).
Notation syn := (syn native).
Notation form := (form native).
Notation value := (value (native := native)).
Notation env := (env (native := native)).
Notation mval := (mval (native := native)).
Notation heap := (heap (native := native)).
Notation ghost := (ghost (native := native)).
Variable prim : N -> list native -> prim_result (native := native).
Variable is_symbol : native -> bool.
Variable symbols_equal : native -> native -> bool.
Variable merge : N.
Variable globals : list form.
Notation variable := (variable globals).
Notation variables := (variables globals).
Notation argument := (argument globals).
Notation arguments := (arguments globals).
Notation steps := (steps prim merge globals).
Notation reaches := (reaches prim merge globals).
Notation pstep := (pstep prim merge globals).
Notation rel := (rel prim merge globals).
Notation rk := (rk prim merge globals).
Notation rs := (rs prim merge globals).
Notation hp := (hp prim merge globals).
Notation step := (step prim is_symbol symbols_equal merge).
Notation curr := (curr globals).
Notation inv := (inv prim merge globals).
Notation matched := (matched prim merge globals).
Notation grows := (grows (native := native)).
Notation stuck := (stuck prim merge globals).

(** A step is matched, unless it applies an operator to a function. *)
Definition good (G : ghost) (ib : nat) (s : state) (S : pstate) (o : outcome) : Prop :=
  matched G ib s S o \/ (stuck S /\ ~ no_function_operand s).
Lemma match_branch_for tag (bs : list (N * syn)) : match_branch tag bs = branch_for tag bs.
Proof.
  unfold match_branch, branch_for. rewrite <- fold_left_rev_right.
  induction (rev bs) as [|b l IH]; simpl; [reflexivity |].
  destruct (fst b =? tag)%N; [reflexivity | exact IH].
Qed.
Lemma branch_plain (bs : list (N * syn)) tag b : All (fun b => plain (snd b)) bs -> branch_for tag bs = Some b -> plain b.
Proof.
  unfold branch_for. intros H. destruct (find _ (rev bs)) as [[t c]|] eqn:E; [| discriminate].
  intros [= <-]. apply find_some in E. destruct E as [E _]. apply in_rev in E. clear tag.
  induction bs as [|x bs IH]; [destruct E |]. destruct H as [H1 H2]. destruct E as [->|E]; [exact H1 | auto].
Qed.

(** * Operators *)
Lemma prim_inv G h K i vs ns : hp G h -> natives_from h vs = Some ns ->
  match delivered (prim i ns) with
  | Some w => forall K', rs G true w [] K K' -> exists G' s', run_prim prim K h i vs = Next s' /\ inv G' 0 s' (w, K') /\ grows G G'
  | None => run_prim prim K h i vs = Fail EPrim
  end.
Proof.
  intros Hh Hn. unfold run_prim. rewrite Hn. destruct (prim i ns) as [n | tag fields | ]; simpl.
  - intros K' Hs. exists G. eexists. split; [reflexivity |]. split; [| apply grows_refl].
    apply inv_norm with (c := true); [assumption | apply cur_den; constructor | discriminate | assumption].
  - intros K' Hs. destruct fields as [|n fields].
    + exists G. eexists. split; [reflexivity |]. split; [| apply grows_refl]. apply clo_inv; [assumption | constructor | exact I | assumption].
    + exists (G ++ [map VNat (n :: fields)]). eexists. split; [reflexivity |]. split; [| apply grows_one].
      apply (new_inv prim merge globals G h (map MNat (n :: fields)) (map VNat (n :: fields)));
        [assumption | | constructor | exact I | assumption].
      clear. induction (n :: fields); simpl; constructor; [apply rel_den; constructor | assumption].
  - reflexivity.
Qed.
Lemma operand_cases G (m : mval) q fuel h n : den G m q -> whnf q = true -> native_from fuel h m = Some n ->
  (m = MNat n /\ q = VNat n) \/ (finds_function 0 h m = true /\ 0 < takes q).
Proof.
  intros Hd Hw Hn. destruct m as [k | c [|a] u e].
  - left. assert (k = n) as -> by (destruct fuel; injection Hn as ->; reflexivity).
    inversion Hd; auto.
  - destruct c; try (destruct fuel; discriminate).
    inversion Hd; subst. discriminate.
  - right. destruct (den_fun _ _ _ _ _ _ Hd) as (_ & _ & Ht). split; [destruct c; reflexivity | lia].
Qed.
Definition is_bif (m : mval) : bool := match m with MClo (SBif _ _) 0 _ _ => true | _ => false end.
Lemma no_fun_right m i f e K h : is_bif m = false ->
  no_function_operand (mkState m (KFusedRight i f e :: K) h) ->
  finds_function 0 h f = false /\ finds_function 0 h m = false.
Proof.
  unfold no_function_operand. destruct m as [k | c [|a] u e']; try (intros _; exact (fun H => H)).
  - destruct c; simpl; try discriminate; intros _ H; exact H.
  - destruct c; simpl; intros _ H; exact H.
Qed.
(** The second operand of a fused operator, [v], has arrived, as the native or value [m'] of [m]. *)
Lemma fused_sim G c ib m m' p v i f e K K' h : hp G h -> is_bif m = false -> finds_function 0 h m' = finds_function 0 h m ->
  den G m' v -> whnf v = true -> is_meta v = false -> box_field globals v = None ->
  (forall T, reaches (p, T) (v, T)) ->
  rs G c p [] (KFusedRight i f e :: K) K' ->
  good G ib (mkState m (KFusedRight i f e :: K) h) (p, K') (run_prim prim K h i [f; m']).
Proof.
  intros Hh Hb Hff Hd Hw Hm Hbox Hp Hs.
  inversion Hs as [ | c1 p0 seg k k' K0 K0' Hk Hs' | ]; subst.
  inversion Hk as [ | | | | | i' m0 q e' pe He Hq Hqw Hqm]; subst.
  assert (Hnext : pstep (v, PFusedRight i q pe :: K0') =
     match q, v with VNat a, VNat b => deliver prim i [a; b] K0' | _, _ => None end).
  { rewrite pstep_return by assumption. cbn [preturn]. rewrite Hbox. reflexivity. }
  destruct (natives_from h [f; m']) as [ns|] eqn:En.
  2: { left. unfold run_prim. rewrite En. eapply matched_stuck; [apply Hp | | apply not_final_stack].
       rewrite Hnext. destruct q as [a | |]; try reflexivity. destruct v as [b | |]; try reflexivity.
       inversion Hq; subst. inversion Hd; subst. discriminate. }
  pose proof En as En'. cbn [natives_from] in En'.
  destruct (native_from (chase_fuel h) h f) as [a|] eqn:Ea; [| discriminate].
  destruct (native_from (chase_fuel h) h m') as [b|] eqn:Eb; [| discriminate]. injection En' as <-.
  destruct (operand_cases G f q _ h a Hq Hqw Ea) as [[-> ->] | [Hf Ht]].
  2: { right. split.
       - eexists. split; [apply Hp |]. split; [| apply not_final_stack].
         rewrite Hnext. destruct q; [simpl in Ht; lia | reflexivity | reflexivity].
       - intros Hno. apply no_fun_right in Hno; [| assumption]. destruct Hno; congruence. }
  destruct (operand_cases G m' v _ h b Hd Hw Eb) as [[-> ->] | [Hf Ht]].
  2: { right. split.
       - eexists. split; [apply Hp |]. split; [| apply not_final_stack].
         rewrite Hnext. destruct v; [simpl in Ht; lia | reflexivity | reflexivity].
       - intros Hno. apply no_fun_right in Hno; [| assumption]. destruct Hno; congruence. }
  left. pose proof (prim_inv G h K i _ _ Hh En) as Hpr. unfold deliver in Hnext.
  destruct (delivered (prim i [a; b])) as [w|] eqn:Ed.
  - destruct (Hpr K0') as (G' & s' & -> & Hi & Hg).
    { eapply rs_pop; [exact Hs' |]. intros T. eapply strides_after; [apply Hp |]. apply strides_one.
      simpl. unfold deliver. rewrite Ed. reflexivity. }
    eapply matched_step; [apply Hp | exact Hnext | exact Hi | exact Hg].
  - rewrite Hpr. eapply matched_stuck; [apply Hp | exact Hnext | apply not_final_stack].
Qed.

(** * Binding a value *)
Lemma bind_inv G h K K' e pe ms ps code S0 S1 ib s : hp G h -> Forall2 (rel G (length G)) ms ps ->
  den_env G e pe -> plain code -> rs G true (VClo code 0 (Vals ps :: pe)) [] K K' ->
  reaches S0 S1 -> pstep S1 = Some (VClo code 0 (Vals ps :: pe), K') ->
  matched G ib s S0 (bind_values K h ms e code).
Proof.
  intros Hh Hf He Hp Hs Hr Hst. unfold bind_values, new_frame, alloc.
  eapply matched_step; [exact Hr | exact Hst | | apply grows_one].
  apply (new_inv prim merge globals G h ms ps e pe code K K'); assumption.
Qed.
Lemma clo_matched G h K K' e pe code S0 S1 ib s : hp G h ->
  den_env G e pe -> plain code -> rs G true (VClo code 0 pe) [] K K' ->
  reaches S0 S1 -> pstep S1 = Some (VClo code 0 pe, K') ->
  matched G ib s S0 (Next (mkState (clo code e) K h)).
Proof. intros Hh He Hp Hs Hr Hst. eapply matched_step; [exact Hr | exact Hst | | apply grows_refl].
  apply (clo_inv prim merge globals G h e pe code K K'); assumption. Qed.

(** * Returning a native *)
Lemma native_sim G c ib m p n K K' h : hp G h -> (forall h, curr G h ib m p) -> is_bif m = false ->
  finds_function 0 h m = false -> (forall T, reaches (p, T) (VNat n, T)) -> rs G c p [] K K' ->
  good G ib (mkState m K h) (p, K') (return_native prim m K h n).
Proof.
  intros Hh Hc Hb Hff Hp Hs.
  assert (Hrel : Forall2 (rel G (length G)) [MNat n] [VNat n]) by (constructor; [apply rel_den; constructor | constructor]).
  destruct K as [|[bs fb e | e i | ms | hd oe e | body e | key d | i r e | i f e] K];
    inversion Hs as [ | c1 p0 seg k k' K0 K0' Hk Hs' | ]; subst; cbn [return_native].
  - left. exists (VNat n). split; [apply Hp |]. repeat split; [constructor | | |]; apply Hh.
  - inversion Hk as [ ? ? ? pe He [_ Hpl] | | | | | ]; subst. left.
    destruct fb as [f|].
    + eapply bind_inv; [exact Hh | exact Hrel | exact He | exact Hpl | | apply Hp | reflexivity].
      eapply rs_pop; [exact Hs' |]. intros T. eapply strides_after; [apply Hp | apply strides_one; reflexivity].
    + eapply matched_stuck; [apply Hp | reflexivity | apply not_final_stack].
  - inversion Hk.
  - left. apply (update_sim prim merge globals G c ib m p (VNat n)); try assumption; [constructor | reflexivity].
  - inversion Hk; subst. left. eapply matched_stuck; [apply Hp | reflexivity | apply not_final_stack].
  - inversion Hk as [ | | ? ? ? pe He Hp1 Hp2 | | | ]; subst. left.
    eapply bind_inv; [exact Hh | exact Hrel | exact He | exact Hp2 | | apply Hp | reflexivity].
    eapply rs_pop; [exact Hs' |]. intros T. eapply strides_after; [apply Hp | apply strides_one; reflexivity].
  - inversion Hk as [ | | | ? ? pe He Hp1 | | ]; subst. left.
    eapply clo_matched; [exact Hh | exact He | exact Hp1 | | apply Hp | reflexivity].
    eapply rs_pop; [exact Hs' |]. intros T. eapply strides_after; [apply Hp | apply strides_one; reflexivity].
  - inversion Hk.
  - inversion Hk as [ | | | | ? ? ? pe He | ]; subst. left.
    eapply clo_matched; [exact Hh | exact He | exact I | | apply Hp | reflexivity].
    constructor; [constructor; [exact He | constructor | reflexivity | reflexivity] |].
    eapply rs_step; [exact Hs' |]. intros T. eapply strides_after; [apply Hp | apply strides_one; reflexivity].
  - eapply fused_sim; try eassumption; try reflexivity; [rewrite Hff; reflexivity | constructor].
Qed.

(** * Returning a data value *)
Lemma field_slots_spec G h f e pe args l : hp G h -> den_env G (f :: e) pe ->
  field_slots f (logical_len h f) args = Some l ->
  exists vs, variables pe args = Some vs /\ Forall2 (fun j v => gval G (fst f) j = Some v) l vs /\
             length l = length args.
Proof.
  intros Hh He. revert l. induction args as [|r args IH]; intros l; cbn [field_slots].
  - intros [= <-]. exists []. repeat split. constructor.
  - destruct r as [i| |]; try discriminate.
    destruct ((N.to_nat i <? logical_len h f) && (physical_index f (N.to_nat i) <=? 255)) eqn:E; [| discriminate].
    destruct (field_slots f (logical_len h f) args) as [l'|]; [| discriminate].
    intros [= <-]. destruct (IH l' eq_refl) as (vs & Hv & Hf & Hl).
    apply andb_true_iff in E. destruct E as [E _].
    assert (Hc : gcell G (f :: e) (N.to_nat i) = Some (fst f, physical_index f (N.to_nat i))).
    { rewrite <- (hp_cell prim merge globals G h _ _ Hh). cbn [cell]. rewrite E. reflexivity. }
    destruct (gcell_some G _ _ _ _ _ He Hc) as (_ & p & Hg & Hp).
    exists (p :: vs). split; [cbn [Spec.variables Spec.variable]; rewrite Hp, Hv; reflexivity |].
    split; [constructor; assumption | simpl; congruence].
Qed.
Lemma identity_seq l : identity l = true -> l = seq 0 (length l).
Proof.
  unfold identity. generalize 0. induction l as [|x l IH]; intros n; simpl; [reflexivity |].
  rewrite andb_true_iff, Nat.eqb_eq. simpl. intros [-> H]. f_equal. apply IH. exact H.
Qed.
Lemma all_slots (l : list value) vs n pre : Forall2 (fun j v => nth_error (pre ++ l) j = Some v) (seq n (length l)) vs ->
  n = length pre -> vs = l.
Proof.
  revert vs n pre. induction l as [|x l IH]; intros vs n pre H ->; simpl in H; inversion H as [|? y ? vs' Hy H']; subst; [reflexivity |].
  rewrite nth_error_app2, Nat.sub_diag in Hy by lia. injection Hy as <-. f_equal.
  apply (IH vs' (S (length pre)) (pre ++ [x])).
  - rewrite <- app_assoc. exact H'.
  - rewrite app_length; simpl; lia.
Qed.
Lemma data_env G h e pe args e2 pe2 : hp G h -> den_env G e pe -> den_env G e2 pe2 -> args <> [] ->
  match env_from_data_args h e args e2 with
  | Some (e3, h3) => exists vs G', variables pe args = Some vs /\ (G' = G \/ G' = G ++ [vs]) /\ hp G' h3 /\
                                   den_env G' e3 (Vals vs :: pe2)
  | None => variables pe args = None
  end.
Proof.
  intros Hh He He2 Ha. unfold env_from_data_args.
  assert (Hcopy : match (match resolve_refs h e args with Some vs => Some (new_frame h vs e2) | None => None end) with
  | Some (e3, h3) => exists vs G', variables pe args = Some vs /\ (G' = G \/ G' = G ++ [vs]) /\ hp G' h3 /\
                                   den_env G' e3 (Vals vs :: pe2)
  | None => variables pe args = None
  end).
  { pose proof (hp_resolves prim merge globals G h e pe args Hh He) as Hr.
    destruct (resolve_refs h e args) as [ms|]; [| exact Hr].
    destruct Hr as (ps & Hv & Hf). unfold new_frame, alloc. exists ps, (G ++ [ps]).
    split; [exact Hv | split; [right; reflexivity | split; [apply hp_ext; assumption |]]].
    constructor; [| apply den_env_ext; assumption].
    destruct Hh as (Hl & _). split; [rewrite app_length; simpl; lia |].
    rewrite Hl, app_nth2, Nat.sub_diag by lia. reflexivity. }
  destruct (4 <? length args); [exact Hcopy |].
  destruct e as [|f e']; [exact Hcopy |].
  destruct (field_slots f (logical_len h f) args) as [l|] eqn:El; [| exact Hcopy]. clear Hcopy.
  destruct (field_slots_spec G h f e' pe args l Hh He El) as (vs & Hv & Hf & Hl).
  exists vs, G. split; [exact Hv | split; [left; reflexivity | split; [exact Hh |]]].
  constructor; [| exact He2]. split; [inversion He; subst; [match goal with H : shows_vals _ _ _ _ |- _ => apply H end | assumption] |].
  destruct (identity l && (length l =? length (array h (fst f)))) eqn:Ei.
  - apply andb_true_iff in Ei. destruct Ei as [Ei En]. apply Nat.eqb_eq in En.
    apply identity_seq in Ei. unfold array in En. rewrite (hp_length prim merge globals G h _ Hh) in En.
    rewrite Ei, En in Hf. symmetry. apply (all_slots _ _ 0 []); [exact Hf | reflexivity].
  - destruct l; [destruct args; [congruence | discriminate] | exact Hf].
Qed.

Lemma rels_app G ms ps ms' ps' b : Forall2 (rel G b) ms ps -> Forall2 (rel G b) ms' ps' -> Forall2 (rel G b) (ms ++ ms') (ps ++ ps').
Proof. apply Forall2_app. Qed.

Lemma resolve_slot G h e pe r m p : hp G h -> den_env G e pe -> resolve_ref h e r = Some m -> variable pe r = Some p ->
  is_hole m -> in_slot G h m p.
Proof.
  intros Hh He Hr Hv [e0 ->].
  assert (Hget : forall e pe i, den_env G e pe -> get h e i = Some (hole e0) -> lookup pe i = Some p -> in_slot G h (hole e0) p).
  { intros e1 pe1 i He1 Hg Hl. pose proof (hp_get prim merge globals G h e1 pe1 i Hh He1) as Hx. rewrite Hg in Hx.
    destruct Hx as (a & j & p' & Hc & _ & Hgv & Hl' & _). assert (p' = p) as -> by congruence.
    exists a, j. split; [exact Hgv |]. unfold get in Hg. rewrite (hp_cell prim merge globals G h e1 i Hh), Hc in Hg. exact Hg. }
  destruct r as [i|i|n]; simpl in Hr, Hv; [eapply Hget; eassumption | | discriminate].
  rewrite <- (globals_lookup globals) in Hv.
  eapply Hget; [eapply globals_den; eassumption | exact Hr | exact Hv].
Qed.
Lemma enter_matched G h e pe r p K K' ib s S0 S1 : hp G h -> den_env G e pe -> variable pe r = Some p ->
  rs G true p [] K K' -> (forall n, r <> RV n) -> reaches S0 S1 -> pstep S1 = Some (p, K') ->
  matched G ib s S0 (enter_callable K h e r).
Proof.
  intros Hh He Hv Hs Hn Hr Hst.
  destruct (enter_var prim merge globals G h e pe r p K K' Hh He Hv Hs Hn) as (m & K2 & h2 & b & c & -> & Hrel & Hh2 & Hs2 & Hhole & Hth & _).
  destruct (settle_inv prim merge globals G c b m p K2 K' h2 Hh2 Hrel Hs2 Hhole Hth) as (q & ib' & _ & [k Hk] & Hi).
  destruct Hr as [k0 Hk0]. exists G, ib', (q, K'), (k0 + (1 + k)).
  split; [eapply steps_trans; [exact Hk0 | eapply steps_trans; [apply steps_one; exact Hst | exact Hk]] |].
  split; [exact Hi | split; [left; lia | apply grows_refl]].
Qed.
Lemma rel_matched G h m b p K K' ib s S0 S1 : hp G h -> rel G b m p -> (is_hole m -> in_slot G h m p) -> rs G true p [] K K' ->
  reaches S0 S1 -> pstep S1 = Some (p, K') ->
  matched G ib s S0 (Next (mkState m K h)).
Proof.
  intros Hh Hrel Hhole Hs Hr Hst.
  destruct (settle_inv prim merge globals G true b m p K K' h Hh Hrel Hs Hhole ltac:(discriminate)) as (q & ib' & _ & [k Hk] & Hi).
  destruct Hr as [k0 Hk0]. exists G, ib', (q, K'), (k0 + (1 + k)).
  split; [eapply steps_trans; [exact Hk0 | eapply steps_trans; [apply steps_one; exact Hst | exact Hk]] |].
  split; [exact Hi | split; [left; lia | apply grows_refl]].
Qed.

Lemma data_sim G c tag args u e pe K K' h : hp G h -> den_env G e pe ->
  let m := MClo (SCons tag args) 0 u e in let q := VClo (SCons tag args) 0 pe in
  rs G c q [] K K' -> good G 0 (mkState m K h) (q, K') (return_data prim is_symbol symbols_equal merge m K h tag args e).
Proof.
  intros Hh He m q Hs.
  assert (Hd : den G m q) by (constructor; [exact He | exact I]).
  assert (Hrel : Forall2 (rel G (length G)) [m] [q]) by (constructor; [apply rel_den; exact Hd | constructor]).
  destruct K as [|[bs fb e' | e' i | ms | hd oe e' | body e' | key d | i r e' | i f e'] K];
    inversion Hs as [ | c1 p0 seg k k' K0 K0' Hk Hs' | ]; subst; cbn [return_data].
  - left. exists q. split; [apply reaches_refl |]. split; [exact Hd |]. repeat split; apply Hh.
  - inversion Hk as [ ? ? ? pe' He' [Hbs Hpl] | | | | | ]; subst. left.
    rewrite match_branch_for.
    destruct (branch_for tag bs) as [body|] eqn:Eb.
    + assert (Hb : plain body) by (eapply branch_plain; eassumption).
      destruct args as [|r args].
      * eapply clo_matched; [exact Hh | exact He' | exact Hb | | apply reaches_refl |].
        -- eapply rs_pop; [exact Hs' |]. intros T. apply strides_one. simpl. rewrite Eb. reflexivity.
        -- simpl. rewrite Eb. reflexivity.
      * pose proof (data_env G h e pe (r :: args) e' pe' Hh He He' ltac:(discriminate)) as Hde.
        destruct (env_from_data_args h e (r :: args) e') as [[e3 h3]|].
        -- destruct Hde as (vs & G' & Hv & HG & Hh3 & He3).
           assert (Hvs : vs <> []) by (cbn [Spec.variables] in Hv; destruct (variable pe r); [destruct (variables pe args); [injection Hv as <-|]|]; discriminate).
           assert (Hst : forall T, pstep (q, PBranch bs fb pe' :: T) = Some (VClo body 0 (Vals vs :: pe'), T)).
           { intros T. unfold q. cbn [Name.pstep pcode preturn selects]. rewrite Eb, Hv.
             destruct vs; [congruence | reflexivity]. }
           assert (Hs2 : rs G' true (VClo body 0 (Vals vs :: pe')) [] K K0').
           { assert (rs G true (VClo body 0 (Vals vs :: pe')) [] K K0')
               by (eapply rs_pop; [exact Hs' | intros T; apply strides_one; apply Hst]).
             destruct HG as [-> | ->]; [assumption | apply rs_ext; assumption]. }
           eapply matched_step1; [apply Hst | | destruct HG as [-> | ->]; [apply grows_refl | apply grows_one]].
           apply (clo_inv prim merge globals G' h3 e3 _ body K K0'); assumption.
        -- eapply matched_stuck; [apply reaches_refl | | apply not_final_stack].
           unfold q. cbn [Name.pstep pcode preturn selects]. rewrite Eb, Hde. reflexivity.
    + destruct fb as [f|].
      * eapply bind_inv; [exact Hh | exact Hrel | exact He' | exact Hpl | | apply reaches_refl |].
        -- eapply rs_pop; [exact Hs' |]. intros T. apply strides_one. simpl. rewrite Eb. reflexivity.
        -- simpl. rewrite Eb. reflexivity.
      * eapply matched_stuck; [apply reaches_refl | simpl; rewrite Eb; reflexivity | apply not_final_stack].
  - inversion Hk.
  - left. apply (update_sim prim merge globals G c 0 m q q); try assumption;
      [intros; apply cur_den; exact Hd | reflexivity | intros; apply reaches_refl].
  - inversion Hk as [ | ? ps Hms | | | | ]; subst. left.
    destruct (N.eqb_spec tag tag_block) as [->|Hne].
    + destruct (variable [] (RG merge)) as [g|] eqn:Eg.
      * assert (Hst : forall T, pstep (q, PApply ps :: T) = Some (g, PApply (ps ++ [q]) :: T)).
        { intros T. unfold q. cbn [Name.pstep pcode preturn apply_value]. rewrite N.eqb_refl, Eg. reflexivity. }
        eapply enter_matched; [exact Hh | constructor | exact Eg | | discriminate | apply reaches_refl | apply Hst].
        constructor; [constructor; apply rels_app; assumption |].
        eapply rs_step; [exact Hs' |]. intros T. apply strides_one. apply Hst.
      * destruct (enter_unbound prim merge globals G h [] [] (RG merge) (KApply (ms ++ [m]) :: K) Hh (de_nil G) Eg) as [er ->].
        eapply matched_stuck; [apply reaches_refl | | apply not_final_stack].
        unfold q. cbn [Name.pstep pcode preturn apply_value]. rewrite N.eqb_refl, Eg. reflexivity.
    + eapply matched_stuck; [apply reaches_refl | | apply not_final_stack].
      unfold q. cbn [Name.pstep pcode preturn apply_value]. rewrite (proj2 (N.eqb_neq _ _)) by assumption. reflexivity.
  - inversion Hk as [ | | ? ? ? pe' He' Hp1 Hp2 | | | ]; subst. left.
    eapply bind_inv; [exact Hh | exact Hrel | exact He' | exact Hp2 | | apply reaches_refl | reflexivity].
    eapply rs_pop; [exact Hs' |]. intros T. apply strides_one; reflexivity.
  - inversion Hk as [ | | | ? ? pe' He' Hp1 | | ]; subst. left.
    eapply clo_matched; [exact Hh | exact He' | exact Hp1 | | apply reaches_refl | reflexivity].
    eapply rs_pop; [exact Hs' |]. intros T. apply strides_one; reflexivity.
  - inversion Hk.
  - inversion Hk as [ | | | | ? ? ? pe' He' | ]; subst. left.
    destruct (is_boxed tag) eqn:Ebox.
    + destruct args as [|r0 args].
      * eapply matched_stuck; [apply reaches_refl | | apply not_final_stack].
        unfold q. cbn [Name.pstep pcode preturn box_field]. rewrite Ebox. reflexivity.
      * pose proof (hp_resolve prim merge globals G h e pe r0 Hh He) as Hr.
        destruct (resolve_ref h e r0) as [v|] eqn:Er0.
        -- destruct Hr as (p & Hv & Hr).
           assert (Hst : forall T, pstep (q, PFusedLeft i r pe' :: T) = Some (p, PFusedLeft i r pe' :: T)).
           { intros T. unfold q. cbn [Name.pstep pcode preturn box_field]. rewrite Ebox, Hv. reflexivity. }
           eapply rel_matched; [exact Hh | exact Hr | exact (resolve_slot G h e pe r0 v p Hh He Er0 Hv) | | apply reaches_refl | apply Hst].
           constructor; [exact Hk |]. eapply rs_step; [exact Hs' |]. intros T. apply strides_one, Hst.
        -- eapply matched_stuck; [apply reaches_refl | | apply not_final_stack].
           unfold q. cbn [Name.pstep pcode preturn box_field]. rewrite Ebox, Hr. reflexivity.
    + assert (Hst : forall T, pstep (q, PFusedLeft i r pe' :: T) = Some (VClo (SAtom r) 0 pe', PFusedRight i q pe' :: T)).
      { intros T. unfold q. cbn [Name.pstep pcode preturn box_field]. rewrite Ebox. reflexivity. }
      eapply clo_matched; [exact Hh | exact He' | exact I | | apply reaches_refl | apply Hst].
      constructor; [constructor; [exact He' | exact Hd | reflexivity | reflexivity] |].
      eapply rs_step; [exact Hs' |]. intros T. apply strides_one, Hst.
  - inversion Hk as [ | | | | | ? f' qf ? pe' He' Hqf Hw Hm]; subst.
    destruct (is_boxed tag) eqn:Ebox.
    + left. destruct args as [|r0 args].
      * eapply matched_stuck; [apply reaches_refl | | apply not_final_stack].
        unfold q. cbn [Name.pstep pcode preturn box_field]. rewrite Ebox. reflexivity.
      * pose proof (hp_resolve prim merge globals G h e pe r0 Hh He) as Hr.
        destruct (resolve_ref h e r0) as [v|] eqn:Er0.
        -- destruct Hr as (p & Hv & Hr).
           assert (Hst : forall T, pstep (q, PFusedRight i qf pe' :: T) = Some (p, PFusedRight i qf pe' :: T)).
           { intros T. unfold q. cbn [Name.pstep pcode preturn box_field]. rewrite Ebox, Hv. reflexivity. }
           eapply rel_matched; [exact Hh | exact Hr | exact (resolve_slot G h e pe r0 v p Hh He Er0 Hv) | | apply reaches_refl | apply Hst].
           constructor; [exact Hk |]. eapply rs_step; [exact Hs' |]. intros T. apply strides_one, Hst.
        -- eapply matched_stuck; [apply reaches_refl | | apply not_final_stack].
           unfold q. cbn [Name.pstep pcode preturn box_field]. rewrite Ebox, Hr. reflexivity.
    + eapply fused_sim; try eassumption; try reflexivity; [| intros; apply reaches_refl].
      unfold q. cbn [box_field]. rewrite Ebox. reflexivity.
Qed.

(** * Returning a function *)
Lemma den_fun_env (G : ghost) c a u e (q : value) : den G (MClo c (S a) u e) q -> exists pe, den_env G e pe.
Proof.
  inversion 1; subst; [eauto |].
  exists (Vals (f :: held) :: pe). constructor; [split; assumption | assumption].
Qed.
Lemma saturate_inv G h c a u e q ms ps K K' : hp G h -> den G (MClo c (S a) u e) q ->
  Forall2 (rel G (length G)) ms ps -> length ps = S a ->
  (forall p' seg', (forall T, enter_fun q ps T = Some (p', seg' ++ T)) -> rs G true p' seg' K K') ->
  exists G' ib' S' s', saturate K h c e ms = Next s' /\ enter_fun q ps K' = Some S' /\ inv G' ib' s' S' /\ grows G G'.
Proof.
  intros Hh Hd Hf Hl Hs. unfold saturate, new_frame, alloc. inversion Hd; subst.
  - exists (G ++ [ps]), 0. do 2 eexists. split; [reflexivity | split; [reflexivity | split; [| apply grows_one]]].
    apply (new_inv prim merge globals G h ms ps e pe c K K'); try assumption.
    apply Hs. reflexivity.
  - exists (G ++ [ps]), (S (S a0)). do 2 eexists. split; [reflexivity | split; [reflexivity | split; [| apply grows_one]]].
    destruct Hh as (HL & Hh').
    eapply inv_tmpl with (f := f) (held := held) (args := ps) (pe := pe); try reflexivity.
    + apply hp_ext; [split; assumption | assumption].
    + rewrite app_length; simpl; lia.
    + rewrite app_length; simpl; lia.
    + rewrite nth_ext_app; assumption.
    + rewrite HL, app_nth2, Nat.sub_diag by lia. reflexivity.
    + exact Hl.
    + apply den_env_ext; assumption.
    + apply rs_ext. apply Hs. reflexivity.
Qed.
Lemma apply_inv G c0 h c a u e q ms ps K K' ib s S0 : hp G h -> den G (MClo c (S a) u e) q ->
  Forall2 (rel G (length G)) ms ps -> rs G c0 q [PApply ps] K K' -> reaches S0 (q, PApply ps :: K') ->
  (length ps < S a -> s = mkState (MClo c (S a) u e) (KApply ms :: K) h) ->
  matched G ib s S0
    match length ms ?= S a with
    | Eq => saturate K h c e ms
    | Lt => partially_apply K h (MClo c (S a) u e) (S a) e ms
    | Gt => saturate (KApply (skipn (S a) ms) :: K) h c e (firstn (S a) ms)
    end.
Proof.
  intros Hh Hd Hf Hs Hr Hst0. destruct (den_fun G c a u e q Hd) as (Hw & Hm & Ht).
  assert (Hl : length ms = length ps) by (eapply Forall2_length; exact Hf).
  assert (Hst : forall T, pstep (q, PApply ps :: T) =
    match length ps ?= S a with
    | Lt => Some (VPap q ps, T)
    | Eq => enter_fun q ps T
    | Gt => enter_fun q (firstn (S a) ps) (PApply (skipn (S a) ps) :: T)
    end).
  { intros T. rewrite pstep_return by assumption. cbn [preturn].
    rewrite apply_value_fun by (assumption || lia). unfold apply_fun. rewrite Ht. reflexivity. }
  rewrite Hl. destruct (Nat.compare_spec (length ps) (S a)) as [E | E | E].
  - destruct (saturate_inv G h c a u e q ms ps K K' Hh Hd Hf E) as (G' & ib' & S' & s' & -> & He & Hi & Hg).
    { intros p' seg' Hp. eapply rs_step; [exact Hs |]. intros T. apply strides_one.
      cbn [app]. rewrite Hst. apply Hp. }
    eapply matched_step; [exact Hr | rewrite Hst; exact He | exact Hi | exact Hg].
  - unfold partially_apply, new_frame, alloc. rewrite Hl.
    destruct ((1 <=? length ps) && (length ps <=? pap_max) && (1 <=? S a - length ps) && (S a - length ps <=? pap_max)) eqn:Eb.
    2: { left. left. split; [reflexivity |]. rewrite (Hst0 E). do 7 eexists. split; [reflexivity |].
         rewrite Hl. split; [exact E |].
         destruct ms as [|m0 ms0]; [left; reflexivity |]. right. unfold pap_max in Eb.
         rewrite !andb_false_iff, !Nat.leb_gt in Eb. rewrite <- Hl in *. cbn [length] in *. lia. }
    repeat (apply andb_true_iff in Eb; destruct Eb as [Eb ?Hb]).
    apply Nat.leb_le in Eb, Hb, Hb0, Hb1.
    destruct (den_fun_env G c a u e q Hd) as [pe He].
    eapply matched_step; [exact Hr | rewrite Hst; reflexivity | | apply grows_one].
    apply inv_norm with (G := G ++ [q :: ps]) (c := true).
    + apply hp_ext; [assumption |]. constructor; [apply rel_den; assumption | assumption].
    + apply cur_den. destruct Hh as (HL & _). rewrite HL. eapply den_pap; try eassumption; try lia.
      * rewrite app_length; simpl; lia.
      * rewrite app_nth2, Nat.sub_diag by lia. reflexivity.
      * apply den_env_ext; eassumption.
    + discriminate.
    + apply rs_ext. eapply rs_pop; [exact Hs |]. intros T. apply strides_one. rewrite Hst. reflexivity.
  - assert (Hfn : Forall2 (rel G (length G)) (firstn (S a) ms) (firstn (S a) ps) /\
                  Forall2 (rel G (length G)) (skipn (S a) ms) (skipn (S a) ps)).
    { clear - Hf. generalize (S a). clear a. induction Hf; intros [|k]; cbn [firstn skipn]; split; try constructor; auto.
      - apply IHHf.
      - apply IHHf. }
    destruct Hfn as [Hf1 Hf2].
    destruct (saturate_inv G h c a u e q _ _ (KApply (skipn (S a) ms) :: K) (PApply (skipn (S a) ps) :: K') Hh Hd Hf1)
      as (G' & ib' & S' & s' & Hsat & He & Hi & Hg).
    { rewrite firstn_length_le by lia. reflexivity. }
    { intros p' seg' Hp. constructor; [constructor; exact Hf2 |].
      eapply rs_step; [exact Hs |]. intros T. apply strides_one.
      cbn [app]. rewrite Hst. rewrite <- app_assoc. apply Hp. }
    rewrite Hsat. eapply matched_step; [exact Hr | rewrite Hst; exact He | exact Hi | exact Hg].
Qed.

Lemma fun_sim G c0 c a u e q K K' h : hp G h -> den G (MClo c (S a) u e) q ->
  rs G c0 q [] K K' -> good G 0 (mkState (MClo c (S a) u e) K h) (q, K') (return_fun prim (MClo c (S a) u e) K h c (S a) e).
Proof.
  intros Hh Hd Hs. set (m := MClo c (S a) u e) in *.
  destruct (den_fun G c a u e q Hd) as (Hw & Hm & Ht).
  assert (Hrel : Forall2 (rel G (length G)) [m] [q]) by (constructor; [apply rel_den; exact Hd | constructor]).
  assert (Hnd : forall bs, selects q bs = None).
  { intros bs. destruct q as [ | c' [|] e' | ]; try reflexivity; [simpl in Ht; lia | destruct c'; reflexivity]. }
  assert (Hnb : box_field globals q = None).
  { destruct q as [ | c' [|] e' | ]; try reflexivity; [simpl in Ht; lia | destruct c'; reflexivity]. }
  assert (Hst : forall T, pstep (q, T) = preturn prim merge globals q T) by (intros; apply pstep_return; assumption).
  destruct K as [|[bs fb e' | e' i | ms | hd oe e' | body e' | key d | i r e' | i f e'] K];
    inversion Hs as [ | c1 p0 seg k k' K0 K0' Hk Hs' | ]; subst; cbn [return_fun].
  - left. exists q. split; [apply reaches_refl |]. split; [exact Hd |]. repeat split; try assumption; apply Hh.
  - inversion Hk as [ ? ? ? pe' He' [Hbs Hpl] | | | | | ]; subst. left.
    destruct fb as [f|].
    + assert (Hq : forall T, pstep (q, PBranch bs (Some f) pe' :: T) = Some (VClo f 0 (Vals [q] :: pe'), T)).
      { intros T. rewrite Hst. cbn [preturn]. rewrite Hnd. reflexivity. }
      eapply bind_inv; [exact Hh | exact Hrel | exact He' | exact Hpl | | apply reaches_refl | apply Hq].
      eapply rs_pop; [exact Hs' |]. intros T. apply strides_one, Hq.
    + eapply matched_stuck; [apply reaches_refl | | apply not_final_stack].
      rewrite Hst. cbn [preturn]. rewrite Hnd. reflexivity.
  - inversion Hk.
  - left. apply (update_sim prim merge globals G c0 0 m q q); try assumption;
      [intros; apply cur_den; exact Hd | intros; apply reaches_refl].
  - inversion Hk as [ | ? ps Hms | | | | ]; subst. left.
    eapply apply_inv; try eassumption; [apply reaches_refl | reflexivity].
  - inversion Hk as [ | | ? ? ? pe' He' Hp1 Hp2 | | | ]; subst. left.
    assert (Hq : forall T, pstep (q, PDeMeta hd oe pe' :: T) = Some (VClo oe 0 (Vals [q] :: pe'), T))
      by (intros T; rewrite Hst; reflexivity).
    eapply bind_inv; [exact Hh | exact Hrel | exact He' | exact Hp2 | | apply reaches_refl | apply Hq].
    eapply rs_pop; [exact Hs' |]. intros T. apply strides_one, Hq.
  - inversion Hk as [ | | | ? ? pe' He' Hp1 | | ]; subst. left.
    assert (Hq : forall T, pstep (q, PSeq body pe' :: T) = Some (VClo body 0 pe', T))
      by (intros T; rewrite Hst; reflexivity).
    eapply clo_matched; [exact Hh | exact He' | exact Hp1 | | apply reaches_refl | apply Hq].
    eapply rs_pop; [exact Hs' |]. intros T. apply strides_one, Hq.
  - inversion Hk.
  - inversion Hk as [ | | | | ? ? ? pe' He' | ]; subst. left.
    assert (Hq : forall T, pstep (q, PFusedLeft i r pe' :: T) = Some (VClo (SAtom r) 0 pe', PFusedRight i q pe' :: T)).
    { intros T. rewrite Hst. cbn [preturn]. rewrite Hnb. reflexivity. }
    eapply clo_matched; [exact Hh | exact He' | exact I | | apply reaches_refl | apply Hq].
    constructor; [constructor; [exact He' | exact Hd | assumption | assumption] |].
    eapply rs_step; [exact Hs' |]. intros T. apply strides_one, Hq.
  - eapply fused_sim; try eassumption; try reflexivity; [| intros; apply reaches_refl].
    unfold m. destruct c; reflexivity.
Qed.

(** * Returning a value with metadata *)
Lemma enter_body_matched G h e pe r p K K' ib s S0 S1 : hp G h -> den_env G e pe -> variable pe r = Some p ->
  rs G true p [] K K' -> reaches S0 S1 -> pstep S1 = Some (p, K') ->
  matched G ib s S0 (enter_meta_body K h e r).
Proof.
  intros Hh He Hv Hs Hr Hst. destruct r as [i|i|n].
  - eapply (enter_matched G h e pe (RL i)); try eassumption. discriminate.
  - eapply (enter_matched G h e pe (RG i)); try eassumption. discriminate.
  - injection Hv as <-. eapply (rel_matched G h (MNat n) 0); try eassumption; [apply rel_den; constructor | intros [e0 He0]; discriminate].
Qed.
Lemma enter_body_unbound G h e pe r K : hp G h -> den_env G e pe -> variable pe r = None ->
  exists err, enter_meta_body K h e r = Fail err.
Proof.
  intros Hh He Hv. destruct r as [i|i|n]; [| | discriminate];
    exact (enter_unbound prim merge globals G h e pe _ K Hh He Hv).
Qed.

Lemma meta_sim G c mt b u e pe K K' h : hp G h -> den_env G e pe ->
  let m := MClo (SMeta mt b) 0 u e in let q := VClo (SMeta mt b) 0 pe in
  rs G c q [] K K' -> good G 0 (mkState m K h) (q, K') (return_meta m K h e mt b).
Proof.
  intros Hh He m q Hs.
  assert (Hd : den G m q) by (constructor; [exact He | exact I]).
  assert (Hst : forall T, pstep (q, T) = pmeta globals mt b pe T) by reflexivity.
  assert (Hthrough : forall k k' K0 K0', rk G k k' -> rs G c q [k'] K0 K0' ->
    (forall T, pstep (q, k' :: T) = match variable pe b with Some p => Some (p, k' :: T) | None => None end) ->
    matched G 0 (mkState m (k :: K0) h) (q, k' :: K0') (enter_meta_body (k :: K0) h e b)).
  { intros k k' K0 K0' Hk Hs' Hq. destruct (variable pe b) as [p|] eqn:Eb.
    - eapply enter_body_matched; [exact Hh | exact He | exact Eb | | apply reaches_refl | apply Hq].
      constructor; [exact Hk |]. eapply rs_step; [exact Hs' |]. intros T. apply strides_one, Hq.
    - destruct (enter_body_unbound G h e pe b (k :: K0) Hh He Eb) as [er ->].
      eapply matched_stuck; [apply reaches_refl | apply Hq | apply not_final_stack]. }
  pose proof (hp_resolve prim merge globals G h e pe mt Hh He) as Hmt.
  pose proof (hp_resolve prim merge globals G h e pe b Hh He) as Hbd.
  left.
  destruct K as [|[bs fb e' | e' i | ms | hd oe e' | body e' | key d | i r e' | i f e'] K];
    inversion Hs as [ | c1 p0 seg k k' K0 K0' Hk Hs' | ]; subst; cbn [return_meta].
  - destruct (resolve_ref h e mt) as [v|].
    + destruct Hmt as (pm & Hmt & _). destruct (variable pe b) as [p|] eqn:Eb.
      * eapply enter_body_matched; [exact Hh | exact He | exact Eb | constructor | apply reaches_refl |].
        rewrite Hst. unfold pmeta. rewrite Eb, Hmt. reflexivity.
      * destruct (enter_body_unbound G h e pe b [] Hh He Eb) as [er ->].
        eapply matched_stuck; [apply reaches_refl | | apply not_final_meta; reflexivity].
        rewrite Hst. unfold pmeta. rewrite Eb. reflexivity.
    + eapply matched_stuck; [apply reaches_refl | | apply not_final_meta; reflexivity].
      rewrite Hst. unfold pmeta. rewrite Hmt. destruct (variable pe b); reflexivity.
  - inversion Hk; subst. apply Hthrough; [exact Hk | exact Hs' |]. intros T. rewrite Hst. reflexivity.
  - inversion Hk.
  - apply (update_sim prim merge globals G c 0 m q q); try assumption;
      [intros; apply cur_den; exact Hd | reflexivity | intros; apply reaches_refl].
  - inversion Hk; subst. apply Hthrough; [exact Hk | exact Hs' |]. intros T. rewrite Hst. reflexivity.
  - inversion Hk as [ | | ? ? ? pe' He' Hp1 Hp2 | | | ]; subst.
    destruct (resolve_ref h e mt) as [v|].
    + destruct Hmt as (pm & Hmt & Hrm).
      destruct (resolve_ref h e b) as [w|].
      * destruct Hbd as (pb & Hbd & Hrb).
        assert (Hq : forall T, pstep (q, PDeMeta hd oe pe' :: T) = Some (VClo hd 0 (Vals [pm; pb] :: pe'), T)).
        { intros T. rewrite Hst. unfold pmeta. rewrite Hmt, Hbd. reflexivity. }
        eapply bind_inv; [exact Hh | | exact He' | exact Hp1 | | apply reaches_refl | apply Hq].
        -- constructor; [exact Hrm | constructor; [exact Hrb | constructor]].
        -- eapply rs_pop; [exact Hs' |]. intros T. apply strides_one, Hq.
      * eapply matched_stuck; [apply reaches_refl | | apply not_final_stack].
        rewrite Hst. unfold pmeta. rewrite Hbd. reflexivity.
    + eapply matched_stuck; [apply reaches_refl | | apply not_final_stack].
      rewrite Hst. unfold pmeta. rewrite Hmt. destruct (variable pe b); reflexivity.
  - inversion Hk; subst. apply Hthrough; [exact Hk | exact Hs' |]. intros T. rewrite Hst. reflexivity.
  - inversion Hk.
  - inversion Hk; subst. apply Hthrough; [exact Hk | exact Hs' |]. intros T. rewrite Hst. reflexivity.
  - inversion Hk; subst. apply Hthrough; [exact Hk | exact Hs' |]. intros T. rewrite Hst. reflexivity.
Qed.

(** * The body of a partial application *)
Lemma lrefs_args pe k l pre post : length pre = k -> (forall i, lookup pe i = nth_error (pre ++ l ++ post) i \/ length (pre ++ l ++ post) <= i) ->
  map (argument pe) (lrefs k (length l)) = l.
Proof.
  intros <- Hl. revert pre Hl. induction l as [|x l IH]; intros pre Hl; [reflexivity |].
  unfold lrefs. cbn [length seq map]. unfold Spec.argument at 1. cbn [Spec.variable]. rewrite Nat2N.id.
  destruct (Hl (length pre)) as [-> | H]; [| rewrite !app_length in H; simpl in H; lia].
  rewrite nth_error_app2, Nat.sub_diag by lia. cbn [nth_error app]. f_equal.
  specialize (IH (pre ++ [x])).
  replace (length (pre ++ [x])) with (S (length pre)) in IH by (rewrite app_length; simpl; lia).
  apply IH. intros i. rewrite <- app_assoc. exact (Hl i).
Qed.
Lemma tmpl_sim G s n a b e pe f held args K K' h :
  hp G h -> a < length G -> b < length G -> nth a G [] = f :: held -> nth b G [] = args ->
  length held = s -> length args = n -> den_env G e pe -> rs G true f [PApply (held ++ args)] K K' ->
  let st := mkState (MClo (pap_node s n) 0 false ((b, []) :: (a, []) :: e)) K h in
  good G (S (S a)) st (f, PApply (held ++ args) :: K') (step st).
Proof.
  intros Hh Ha Hb Hna Hnb Hs Hn He Hrs st. left. unfold st, pap_node. cbn [Model.step handle_op].
  set (e' := (b, []) :: (a, []) :: e). set (pe' := Vals args :: Vals (f :: held) :: pe).
  assert (He' : den_env G e' pe').
  { constructor; [split; assumption | constructor; [split; assumption | assumption]]. }
  assert (Hlk : forall i, i < n + S s -> lookup pe' i = nth_error (args ++ f :: held) i).
  { intros i Hi. unfold pe'. cbn [lookup]. destruct (Nat.ltb_spec i (length args)) as [H|H].
    - rewrite nth_error_app1 by assumption. reflexivity.
    - rewrite nth_error_app2 by assumption. rewrite (proj2 (Nat.ltb_lt _ _)); [reflexivity |]. simpl. lia. }
  pose proof (hp_make_args prim merge globals G h e' pe' false (lrefs (n + 1) s ++ lrefs 0 n) Hh He') as Hm.
  assert (Hargs : map (argument pe') (lrefs (n + 1) s ++ lrefs 0 n) = held ++ args).
  { rewrite map_app. f_equal.
    - rewrite <- Hs. apply (lrefs_args pe' (n + 1) held (args ++ [f]) []).
      + rewrite app_length. simpl. lia.
      + intros i. rewrite <- !app_assoc, app_nil_r. cbn [app].
        destruct (Nat.lt_ge_cases i (n + S s)); [left; apply Hlk; assumption |].
        right. rewrite app_length. simpl. lia.
    - rewrite <- Hn. apply (lrefs_args pe' 0 args [] (f :: held)); [reflexivity |].
      intros i. cbn [app]. destruct (Nat.lt_ge_cases i (n + S s)); [left; apply Hlk; assumption |].
      right. rewrite app_length. simpl. lia. }
  unfold Spec.arguments in Hm. cbn [andb] in Hm. rewrite Hargs in Hm.
  destruct (make_args h e' false (lrefs (n + 1) s ++ lrefs 0 n)) as [ms|]; [| discriminate].
  destruct Hm as (ps & [= <-] & Hms).
  assert (Hv : variable pe' (RL (N.of_nat n)) = Some f).
  { cbn [Spec.variable]. rewrite Nat2N.id, Hlk by lia. rewrite nth_error_app2 by lia.
    replace (n - length args) with 0 by lia. reflexivity. }
  destruct (enter_var prim merge globals G h e' pe' (RL (N.of_nat n)) f (KApply ms :: K) (PApply (held ++ args) :: K') Hh He' Hv)
    as (m & K2 & h2 & b' & c & Heq & Hrel & Hh2 & Hs2 & Hhole & Hth & Hold).
  { constructor; [constructor; exact Hms | exact Hrs]. }
  { discriminate. }
  rewrite Heq.
  assert (Hb' : b' < S a).
  { apply Hold. intros a0 j0. unfold e'. rewrite Nat2N.id. cbn [gcell glen fst snd].
    unfold glen. cbn [fst snd]. rewrite Hnb, Hna. rewrite (proj2 (Nat.ltb_ge _ _)) by lia.
    replace (n - length args) with 0 by lia. cbn [length Nat.ltb Nat.leb]. intros [= <- _]. lia. }
  destruct (settle_inv prim merge globals G c b' m f K2 (PApply (held ++ args) :: K') h2 Hh2 Hrel Hs2 Hhole Hth)
    as (q & ib' & Hib & [k Hk] & Hi).
  exists G, ib', (q, PApply (held ++ args) :: K'), k. split; [exact Hk | split; [exact Hi | split; [| apply grows_refl]]].
  right; left. lia.
Qed.

(** * Executing code *)
Lemma alias_sim G b r e pe p K K' h : hp G h -> den_env G e pe -> variable pe r = Some p -> older G e r b ->
  rs G true p [] K K' -> let st := mkState (clo (SAtom r) e) K h in good G (S b) st (p, K') (step st).
Proof.
  intros Hh He Hv Ho Hs st.
  assert (Hin : (forall n, r <> RV n) -> matched G (S b) st (p, K') (enter_callable K h e r)).
  { intros Hn. destruct (enter_var prim merge globals G h e pe r p K K' Hh He Hv Hs Hn)
      as (m & K2 & h2 & b' & c & -> & Hrel & Hh2 & Hs2 & Hhole & Hth & Hold).
    specialize (Hold b Ho).
    destruct (settle_inv prim merge globals G c b' m p K2 K' h2 Hh2 Hrel Hs2 Hhole Hth) as (q & ib' & Hib & [k Hk] & Hi).
    exists G, ib', (q, K'), k. split; [exact Hk | split; [exact Hi | split; [right; left; lia | apply grows_refl]]]. }
  destruct r as [i|i|n].
  - left. apply Hin. discriminate.
  - left. apply Hin. discriminate.
  - injection Hv as <-. apply native_sim with (c := true); try assumption; try reflexivity.
    + intros. eapply cur_alias; try eassumption. reflexivity.
    + intros T. apply reaches_refl.
Qed.

Lemma closures_rel G (e : menv) pe fs b : den_env G e pe -> All (fun f => plain (snd f)) fs ->
  Forall2 (rel G b) (map (close e) fs) (map (closure pe) fs).
Proof.
  intros He. induction fs as [|f fs IH]; intros Hp; [constructor |]. destruct Hp as [Hp1 Hp2].
  cbn [map]. constructor; [| exact (IH Hp2)]. apply rel_den. constructor; assumption.
Qed.

Lemma push_matched G c h K K' e pe k k' code S0 ib s : hp G h -> den_env G e pe -> plain code -> rk G k k' ->
  rs G c S0 [] K K' -> (forall T, pstep (S0, T) = Some (VClo code 0 pe, k' :: T)) ->
  matched G ib s (S0, K') (Next (mkState (clo code e) (k :: K) h)).
Proof.
  intros Hh He Hp Hk Hs Hst.
  eapply clo_matched; [exact Hh | exact He | exact Hp | | apply reaches_refl | apply Hst].
  eapply rs_push; [exact Hs | exact Hk |]. intros T. apply strides_one, Hst.
Qed.

Lemma direct_sim G h e pe f ms ps K K' p ib s S0 : hp G h -> den_env G e pe -> variable pe f = Some p ->
  Forall2 (rel G (length G)) ms ps -> ms <> [] -> rs G true p [PApply ps] K K' -> (forall T, pstep (S0, T) = Some (p, PApply ps :: T)) ->
  matched G ib s (S0, K') (direct_app K h e f ms).
Proof.
  intros Hh He Hv Hms Hne Hs Hst.
  assert (Hs2 : rs G true p [] (KApply ms :: K) (PApply ps :: K')) by (constructor; [constructor; exact Hms | exact Hs]).
  assert (Hnat : forall n0, variable pe f = Some (VNat n0) -> f = RV n0 \/ forall k, f <> RV k).
  { intros. destruct f; [right; discriminate | right; discriminate | left]. simpl in H. congruence. }
  assert (Hstk : forall n0, (forall T, reaches (p, T) (VNat n0, T)) -> matched G ib s (S0, K') (Fail ENotCallable)).
  { intros n0 Hr. eapply matched_stuck; [eapply reaches_step; [apply Hst | apply Hr] | reflexivity | apply not_final_stack]. }
  pose proof (hp_resolve prim merge globals G h e pe f Hh He) as Hres.
  assert (Hgen : (forall n, f <> RV n) -> matched G ib s (S0, K')
    match resolve_ref h e f with
         | None => Fail (ref_error f)
         | Some (MNat _) => Fail ENotCallable
         | Some (MClo _ _ true _) => enter_callable (KApply ms :: K) h e f
         | Some (MClo c a false e') =>
             if a =? length ms then saturate K h c e' ms
             else Next (mkState (MClo c a false e') (KApply ms :: K) h)
    end).
  { intros Hn. destruct (resolve_ref h e f) as [v|] eqn:Eres; [| congruence].
    destruct Hres as (p' & Hv' & Hr). assert (p' = p) as -> by congruence.
    destruct v as [n0 | c a u e'].
    - apply (Hstk n0). inversion Hr as [ | ? ? Hd | ? ? ? Hd _ Hq | ]; subst; inversion Hd; subst; [intros; apply reaches_refl | exact Hq].
    - destruct u.
      + eapply enter_matched; [exact Hh | exact He | exact Hv | exact Hs2 | exact Hn | apply reaches_refl | apply Hst].
      + destruct (Nat.eqb_spec a (length ms)) as [Ea|Ea].
        * destruct a as [|a]; [destruct ms; [congruence | discriminate] |].
          assert (Hq : exists q, den G (MClo c (S a) false e') q /\ forall T, reaches (p, T) (q, T)).
          { inversion Hr as [ | ? ? Hd | ? ? q Hd _ Hq | ]; subst; [exists p | exists q]; split; try assumption; intros; apply reaches_refl. }
          destruct Hq as (q & Hd & Hq).
          assert (Hs3 : rs G true q [PApply ps] K K').
          { eapply rs_move; [exact Hs |]. intros T. destruct (Hq (PApply ps :: T)) as [k Hk]. exists k. split; [auto | exact Hk]. }
          pose proof (apply_inv G true h c a false e' q ms ps K K' ib s (S0, K') Hh Hd Hms Hs3) as Happ.
          rewrite <- Ea, Nat.compare_refl in Happ. apply Happ.
          -- eapply reaches_step; [apply Hst | apply Hq].
          -- intros Hlt. rewrite <- (Forall2_length _ _ _ Hms) in Hlt. lia.
        * eapply rel_matched; [exact Hh | exact Hr | | exact Hs2 | apply reaches_refl | apply Hst].
          exact (resolve_slot G h e pe f _ p Hh He Eres Hv). }
  unfold direct_app. destruct f as [i|i|n0].
  - apply Hgen. discriminate.
  - apply Hgen. discriminate.
  - apply (Hstk n0). intros T. injection Hv as <-. apply reaches_refl.
Qed.

Lemma code_sim G c0 c u e pe K K' h : hp G h -> den_env G e pe -> plain c ->
  let st := mkState (MClo c 0 u e) K h in rs G c0 (VClo c 0 pe) [] K K' ->
  good G 0 st (VClo c 0 pe, K') (step st).
Proof.
  intros Hh He Hp st Hs. unfold st. cbn [Model.step]. fold st.
  assert (Hd : den G (MClo c 0 u e) (VClo c 0 pe)) by (constructor; assumption).
  destruct c as [r | scr bs fb | tag args | f args eager | smid f args eager | i args | [] fs body | smid body
                | mt b | scr hd oe | scr body | smid ky ob df | i l r inner | ];
    cbn [handle_op]; cbn [plain] in Hp.
  - (* variable *)
    assert (Hin : (forall n, r <> RV n) -> matched G 0 st (VClo (SAtom r) 0 pe, K') (enter_callable K h e r)).
    { intros Hn. destruct (variable pe r) as [p|] eqn:Ev.
      - assert (Hst : forall T, pstep (VClo (SAtom r) 0 pe, T) = Some (p, T)) by (intros T; simpl; rewrite Ev; reflexivity).
        eapply enter_matched; [exact Hh | exact He | exact Ev | | exact Hn | apply reaches_refl | apply Hst].
        eapply rs_on; [exact Hs | intros T; apply strides_one, Hst].
      - destruct (enter_unbound prim merge globals G h e pe r K Hh He Ev) as [er ->].
        eapply matched_stuck; [apply reaches_refl | simpl; rewrite Ev; reflexivity | apply not_final_code; reflexivity]. }
    destruct r as [i|i|n].
    + left. apply Hin. discriminate.
    + left. apply Hin. discriminate.
    + apply native_sim with (c := c0); try assumption; try reflexivity; [intros; apply cur_den; exact Hd |].
      intros T. apply reaches_one. reflexivity.
  - (* case *) left. destruct Hp as (Hp1 & Hp2 & Hp3).
    eapply push_matched; [exact Hh | exact He | exact Hp1 | | exact Hs | reflexivity].
    constructor; [exact He | split; assumption].
  - apply data_sim with (c := c0); assumption.
  - (* application *) left.
    pose proof (hp_make_args prim merge globals G h e pe eager args Hh He) as Hm.
    destruct (make_args h e eager args) as [ms|].
    + destruct Hm as (ps & Ha & Hms). destruct (variable pe f) as [p|] eqn:Ev.
      * assert (Hst : forall T, pstep (VClo (SApp f args eager) 0 pe, T) = Some (p, PApply ps :: T))
          by (intros T; simpl; rewrite Ev, Ha; reflexivity).
        assert (Hs2 : rs G true p [] (KApply ms :: K) (PApply ps :: K')).
        { eapply rs_push; [exact Hs | constructor; exact Hms | intros T; apply strides_one, Hst]. }
        destruct f as [i|i|n].
        -- eapply enter_matched; [exact Hh | exact He | exact Ev | exact Hs2 | discriminate | apply reaches_refl | apply Hst].
        -- eapply enter_matched; [exact Hh | exact He | exact Ev | exact Hs2 | discriminate | apply reaches_refl | apply Hst].
        -- injection Ev as <-. cbn [enter_callable].
           eapply matched_stuck; [apply reaches_one, Hst | reflexivity | apply not_final_stack].
      * destruct (enter_unbound prim merge globals G h e pe f (KApply ms :: K) Hh He Ev) as [er ->].
        eapply matched_stuck; [apply reaches_refl | simpl; rewrite Ev; reflexivity | apply not_final_code; reflexivity].
    + eapply matched_stuck; [apply reaches_refl | simpl; rewrite Hm; destruct (variable pe f); reflexivity | apply not_final_code; reflexivity].
  - (* direct application *) left.
    pose proof (hp_make_args prim merge globals G h e pe eager args Hh He) as Hm.
    destruct (make_args h e eager args) as [ms|] eqn:Em.
    + destruct Hm as (ps & Ha & Hms). destruct (variable pe f) as [p|] eqn:Ev.
      * assert (Hst : forall T, pstep (VClo (SDirectApp smid f args eager) 0 pe, T) = Some (p, PApply ps :: T))
          by (intros T; simpl; rewrite Ev, Ha; reflexivity).
        eapply direct_sim; [exact Hh | exact He | exact Ev | exact Hms | | | apply Hst].
        -- intros ->. destruct args; [congruence |]. cbn [make_args] in Em.
           destruct (make_arg h e eager r); [destruct (make_args h e eager args); discriminate | discriminate].
        -- eapply rs_step; [exact Hs |]. intros T. apply strides_one, Hst.
      * assert (direct_app K h e f ms = Fail (ref_error f) \/ exists n, f = RV n) as [-> | [n ->]].
        { pose proof (hp_resolve prim merge globals G h e pe f Hh He) as Hres.
          unfold direct_app. destruct (resolve_ref h e f); [destruct Hres as (p & H & _); congruence |].
          destruct f; [left; reflexivity | left; reflexivity | right; eauto]. }
        -- eapply matched_stuck; [apply reaches_refl | simpl; rewrite Ev; reflexivity | apply not_final_code; reflexivity].
        -- discriminate.
    + eapply matched_stuck; [apply reaches_refl | simpl; rewrite Hm; destruct (variable pe f); reflexivity | apply not_final_code; reflexivity].
  - (* intrinsic *)
    pose proof (hp_resolves prim merge globals G h e pe args Hh He) as Hr.
    destruct (resolve_refs h e args) as [vs|] eqn:Ers.
    2: { left. eapply matched_stuck; [apply reaches_refl | simpl; rewrite Hr; reflexivity | apply not_final_code; reflexivity]. }
    destruct Hr as (ps & Hv & Hf).
    destruct (natives_from h vs) as [ns|] eqn:En.
    2: { left. unfold run_prim. rewrite En. left. right. left. split; [reflexivity |].
         destruct (natives_none h vs En) as (v & Hin & Hno). exists i, args, u, e, K, h, vs, v. auto. }
    pose proof (prim_inv G h K i vs ns Hh En) as Hpr.
    destruct ps as [|p ps].
    + left. inversion Hf; subst. injection En as <-.
      assert (Hst : forall T, pstep (VClo (SBif i args) 0 pe, T) = deliver prim i [] T)
        by (intros T; simpl; rewrite Hv; reflexivity).
      unfold deliver in Hst. destruct (delivered (prim i [])) as [w|].
      * destruct (Hpr K') as (G' & s' & -> & Hi & Hg).
        { eapply rs_on; [exact Hs | intros T; apply strides_one, Hst]. }
        eapply matched_step1; [apply Hst | exact Hi | exact Hg].
      * rewrite Hpr. eapply matched_stuck; [apply reaches_refl | apply Hst | apply not_final_code; reflexivity].
    + destruct vs as [|v vs]; [inversion Hf |].
      assert (Hst : forall T, pstep (VClo (SBif i args) 0 pe, T) = Some (p, PBif i [] ps :: T))
        by (intros T; simpl; rewrite Hv; reflexivity).
      destruct (existsb (finds_function (chase_fuel h) h) (v :: vs)) eqn:Ef.
      * right. split.
        -- destruct (chase_all prim merge globals G h i K' Hh vs ps p [] ns v ns Hf En eq_refl) as [_ Hstk].
           destruct Hstk as (T & HT & Hrest).
           { intros Hall. apply existsb_exists in Ef. destruct Ef as (x & Hx & Hxf).
             rewrite Forall_forall in Hall. specialize (Hall x Hx). congruence. }
           exists T. split; [eapply reaches_step; [apply Hst | exact HT] | exact Hrest].
        -- intros Hno. cbn [no_function_operand st] in Hno. unfold st in Hno. cbn [no_function_operand] in Hno.
           specialize (Hno _ Ers). apply existsb_exists in Ef. destruct Ef as (x & Hx & Hxf).
           rewrite Forall_forall in Hno. specialize (Hno x Hx). congruence.
      * left.
        assert (Hall : Forall (fun v => finds_function (chase_fuel h) h v = false) (v :: vs)).
        { apply Forall_forall. intros x Hx. destruct (finds_function (chase_fuel h) h x) eqn:E; [| reflexivity].
          assert (existsb (finds_function (chase_fuel h) h) (v :: vs) = true) by (apply existsb_exists; eauto). congruence. }
        destruct (delivered (prim i ns)) as [w|] eqn:Ed.
        -- assert (Hrun : forall T, reaches (VClo (SBif i args) 0 pe, T) (w, T) /\ exists k, steps (S k) (VClo (SBif i args) 0 pe, T) (w, T)).
           { intros T. destruct (chase_all prim merge globals G h i T Hh vs ps p [] ns v ns Hf En eq_refl) as [Hgo _].
             specialize (Hgo Hall). rewrite Ed in Hgo. destruct Hgo as [Hg [k Hk]].
             split; [eapply reaches_step; [apply Hst | exact Hg] |].
             exists (S k). econstructor; [apply Hst | exact Hk]. }
           destruct (Hpr K') as (G' & s' & -> & Hi & Hg).
           { eapply rs_on; [exact Hs | intros T; apply Hrun]. }
           destruct (Hrun K') as (_ & k & Hk). exists G', 0, (w, K'), (S k).
           split; [exact Hk | split; [exact Hi | split; [left; lia | exact Hg]]].
        -- rewrite Hpr. right.
           destruct (chase_all prim merge globals G h i K' Hh vs ps p [] ns v ns Hf En eq_refl) as [Hgo _].
           specialize (Hgo Hall). rewrite Ed in Hgo. destruct Hgo as (T & HT & Hrest).
           exists T. split; [eapply reaches_step; [apply Hst | exact HT] | exact Hrest].
  - (* letrec *) left. destruct Hp as [Hp1 Hp2].
    set (e' := (length h, []) :: e).
    assert (HL : length h = length G) by apply Hh.
    eapply matched_step1; [reflexivity | | apply grows_one].
    apply inv_norm with (G := G ++ [map (closure (Rec fs :: pe)) fs]) (c := true).
    + cbn [snd alloc]. destruct Hh as (H1 & H2 & H3). split; [rewrite !app_length; simpl; lia |].
      split; [rewrite nth_error_app1; [exact H2 | apply nth_error_Some; congruence] |].
      intros a Ha. rewrite app_length in Ha. simpl in Ha.
      destruct (Nat.eq_dec a (length G)) as [->|Hne].
      * replace (nth (length G) (h ++ [map (close e') fs]) []) with (map (close e') fs)
          by (rewrite app_nth2 by lia; rewrite HL, Nat.sub_diag; reflexivity).
        replace (nth (length G) (G ++ [map (closure (Rec fs :: pe)) fs]) []) with (map (closure (Rec fs :: pe)) fs)
          by (rewrite app_nth2 by lia; rewrite Nat.sub_diag; reflexivity).
        apply closures_rel; [| exact Hp1]. unfold e'. rewrite HL. apply de_rec.
        -- rewrite app_length; simpl; lia.
        -- rewrite app_nth2, Nat.sub_diag by lia. reflexivity.
        -- apply den_env_ext; assumption.
      * rewrite !app_nth1 by lia. apply rels_ext, H3. lia.
    + apply cur_den. constructor; [| exact Hp2]. unfold e'. rewrite HL. apply de_rec.
      * rewrite app_length; simpl; lia.
      * rewrite app_nth2, Nat.sub_diag by lia. reflexivity.
      * apply den_env_ext; assumption.
    + discriminate.
    + apply rs_ext. eapply rs_on; [exact Hs | intros T; apply strides_one; reflexivity].
  - (* let *) left. destruct Hp as [Hp1 Hp2]. unfold new_frame, alloc.
    eapply matched_step1; [reflexivity | | apply grows_one].
    apply (new_inv prim merge globals G h); try assumption.
    + apply closures_rel; assumption.
    + eapply rs_on; [exact Hs | intros T; apply strides_one; reflexivity].
  - (* annotation *) left.
    eapply clo_matched; [exact Hh | exact He | exact Hp | | apply reaches_refl | reflexivity].
    eapply rs_on; [exact Hs | intros T; apply strides_one; reflexivity].
  - apply meta_sim with (c := c0); assumption.
  - left. destruct Hp as (Hp1 & Hp2 & Hp3).
    eapply push_matched; [exact Hh | exact He | exact Hp1 | | exact Hs | reflexivity].
    constructor; assumption.
  - left. destruct Hp as (Hp1 & Hp2).
    eapply push_matched; [exact Hh | exact He | exact Hp1 | | exact Hs | reflexivity].
    constructor; assumption.
  - destruct Hp.
  - left. eapply push_matched; [exact Hh | exact He | exact I | | exact Hs | reflexivity].
    constructor; assumption.
  - destruct Hp.
Qed.

Lemma good_weaken G ib s S0 o : good G 0 s S0 o -> good G ib s S0 o.
Proof.
  intros [H | H]; [left | right; exact H]. destruct o as [s' | s' | e]; try exact H.
  destruct H as (G' & ib' & S' & k & H1 & H2 & H3 & H4). exists G', ib', S', k.
  split; [exact H1 | split; [exact H2 | split; [| exact H4]]].
  destruct H3 as [H3 | [H3 | [H3 H3']]]; [left; exact H3 | lia |].
  destruct ib; [right; right; split; assumption | right; left; lia].
Qed.

Theorem step_sim G ib s S0 : inv G ib s S0 -> good G ib s S0 (step s).
Proof.
  intros H. inversion H as [c ib' m p K K' h Hh Hc Hcd Hs | ]; subst.
  - inversion Hc as [m' p' Hd | e p' a j Hg Hsl | b r e pe p' He Hv Ho]; subst.
    + destruct m as [n | c' [|a] u e].
      * inversion Hd; subst. apply native_sim with (c := c); try assumption; try reflexivity;
          intros; [apply cur_den; assumption | apply reaches_refl].
      * inversion Hd as [ | ? ? ? ? pe He Hp | ]; subst; [apply code_sim with (c0 := c); assumption | lia].
      * apply fun_sim with (c0 := c); assumption.
    + left. left. right. right. split; [reflexivity | exists e; reflexivity].
    + destruct c; [eapply alias_sim; eassumption |].
      specialize (Hcd eq_refl). inversion Hcd; subst. apply good_weaken. eapply code_sim; eassumption.
  - eapply tmpl_sim; try eassumption; reflexivity.
Qed.
End Steps.
