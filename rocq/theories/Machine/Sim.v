(** Each step of the machine is matched by steps of the call-by-name stack machine. *)
From Coq Require Import List Bool Arith NArith Lia.
From Verif.Bytecode Require Import Model Spec.
From Verif.Machine Require Import Model Spec Name Rel Chase.
Import ListNotations.
Open Scope nat_scope.

Section Sim.
Context {native : Type}.
Notation ref := (ref native).
Notation syn := (syn native).
Notation form := (form native).
Notation value := (value (native := native)).
Notation env := (env (native := native)).
Notation mval := (mval (native := native)).
Notation heap := (heap (native := native)).
Notation ghost := (ghost (native := native)).
Variable prim : N -> list native -> prim_result (native := native).
Variable is_symbol : native -> bool.
Variable symbols_equal : native -> native -> bool.
Variable merge : N.
Variable globals : list form.
Notation variable := (variable globals).
Notation variables := (variables globals).
Notation argument := (argument globals).
Notation arguments := (arguments globals).
Notation steps := (steps prim merge globals).
Notation reaches := (reaches prim merge globals).
Notation pstep := (pstep prim merge globals).
Notation rel := (rel prim merge globals).
Notation rk := (rk prim merge globals).
Notation rs := (rs prim merge globals).
Notation hp := (hp prim merge globals).
Notation step := (step prim is_symbol symbols_equal merge).

(** The current value, with a bound on how many variables standing for variables are ahead. A
    placeholder has just been read from a slot. *)
Inductive curr (G : ghost) (h : heap) : nat -> mval -> value -> Prop :=
| cur_den m p : den G m p -> curr G h 0 m p
| cur_hole e p a j : gval G a j = Some p -> slot h a j = Some (hole e) -> curr G h 0 (hole e) p
| cur_alias b r e pe p : den_env G e pe -> variable pe r = Some p -> older G e r b ->
                         curr G h (S b) (clo (SAtom r) e) p.

(** Only when a thunk has just been entered may no step have been taken since. *)
Inductive inv (G : ghost) : nat -> state -> pstate -> Prop :=
| inv_norm c ib m p K K' h : hp G h -> curr G h ib m p -> (c = false -> den G m p) -> rs G c p [] K K' ->
                             inv G ib (mkState m K h) (p, K')
| inv_tmpl s n a b e pe f held args K K' h :
    hp G h -> a < length G -> b < length G -> nth a G [] = f :: held -> nth b G [] = args ->
    length held = s -> length args = n -> den_env G e pe ->
    rs G true f [PApply (held ++ args)] K K' ->
    inv G (S (S a)) (mkState (MClo (pap_node s n) 0 false ((b, []) :: (a, []) :: e)) K h)
        (f, PApply (held ++ args) :: K').

Fixpoint updates (K : list (mcont (native := native))) : nat :=
  match K with KUpdate _ _ :: K => S (updates K) | _ => 0 end.
Definition closer (k ib ib' : nat) (s s' : state (native := native)) : Prop :=
  0 < k \/ ib' < ib \/ (ib' = ib /\ updates (s_stack s') < updates (s_stack s)).

(** Failures that do not show at once that the program has no value. *)
Definition excused (s : state (native := native)) (e : err) : Prop :=
  (e = EPap /\ too_wide s) \/ (e = ENotValue /\ unready s) \/ (e = EBlackHole /\ is_hole (s_cur s)).
Definition stuck (S : pstate) : Prop :=
  exists S', reaches S S' /\ pstep S' = None /\ ~ final S'.

(** Later values are only added. *)
Definition grows (G G' : ghost) : Prop := exists X, G' = G ++ X.
Lemma grows_refl G : grows G G.
Proof. exists []. symmetry. apply app_nil_r. Qed.
Lemma grows_one G x : grows G (G ++ [x]).
Proof. exists [x]. reflexivity. Qed.
Lemma grows_trans G1 G2 G3 : grows G1 G2 -> grows G2 G3 -> grows G1 G3.
Proof. intros [X ->] [Y ->]. exists (X ++ Y). symmetry. apply app_assoc. Qed.

Definition matched (G : ghost) (ib : nat) (s : state) (S : pstate) (o : outcome) : Prop :=
  match o with
  | Next s' => exists G' ib' S' k, steps k S S' /\ inv G' ib' s' S' /\ closer k ib ib' s s' /\ grows G G'
  | Stop s' => exists q, reaches S (q, []) /\ den G (s_cur s') q /\ whnf q = true /\ is_meta q = false /\
                         s_stack s' = [] /\ hp G (s_heap s')
  | Fail e => excused s e \/ stuck S
  end.

(** A machine step matched by at least one step. *)
Lemma matched_step G ib s S S' G' ib' s' S'' :
  reaches S S' -> pstep S' = Some S'' -> inv G' ib' s' S'' -> grows G G' -> matched G ib s S (Next s').
Proof.
  intros [n Hn] Hs Hi Hg. exists G', ib', S'', (n + 1).
  split; [eapply steps_trans; [exact Hn | apply steps_one; exact Hs] |].
  split; [exact Hi | split; [left; lia | exact Hg]].
Qed.
Lemma matched_step1 G ib s S G' ib' s' S'' :
  pstep S = Some S'' -> inv G' ib' s' S'' -> grows G G' -> matched G ib s S (Next s').
Proof. apply matched_step. apply reaches_refl. Qed.
Lemma matched_stuck G ib s S S' e :
  reaches S S' -> pstep S' = None -> ~ final S' -> matched G ib s S (Fail e).
Proof. intros H1 H2 H3. right. exists S'. repeat split; assumption. Qed.

Lemma not_final_stack (p : value) (k : pcont) K : ~ final (p, k :: K).
Proof. intros [H _]. discriminate. Qed.
Lemma not_final_code (p : value) K : whnf p = false -> ~ final (p, K).
Proof. intros H (_ & H' & _). simpl in H'. congruence. Qed.
Lemma not_final_meta (p : value) K : is_meta p = true -> ~ final (p, K).
Proof. intros H (_ & _ & H'). simpl in H'. congruence. Qed.

Lemma not_hole (G : ghost) e (p : value) : ~ den G (hole e) p.
Proof. inversion 1; subst. match goal with H : plain SBlackHole |- _ => destruct H end. Qed.

(** What is found in a slot, as a current value. *)
Definition in_slot (G : ghost) (h : heap) (m : mval) (p : value) : Prop :=
  exists a j, gval G a j = Some p /\ slot h a j = Some m.
Definition thunk (m : mval) : Prop := exists c a e, m = MClo c a true e.
Lemma settle_inv G c b m p K K' h : hp G h -> rel G b m p -> rs G c p [] K K' ->
  (is_hole m -> in_slot G h m p) -> (c = false -> thunk m) ->
  exists q ib, ib <= S b /\ reaches (p, K') (q, K') /\ inv G ib (mkState m K h) (q, K').
Proof.
  intros Hh Hr Hs Hhole Hth. destruct Hr as [e p | m p Hd | m p q Hd Hw Hr | r e pe p He Hv Ho].
  - destruct (Hhole (ex_intro _ e eq_refl)) as (a & j & Hg & Hsl).
    exists p, 0. split; [lia | split; [apply reaches_refl |]].
    apply inv_norm with (c := c); [assumption | eapply cur_hole; eassumption | | assumption].
    intros Hc. destruct (Hth Hc) as (? & ? & ? & ?). discriminate.
  - exists p, 0. split; [lia | split; [apply reaches_refl |]].
    apply inv_norm with (c := c); [assumption | apply cur_den; assumption | auto | assumption].
  - exists q, 0. split; [lia | split; [apply Hr |]].
    apply inv_norm with (c := c); [assumption | apply cur_den; assumption | auto |].
    eapply rs_reaches; [exact Hs | exact Hr].
  - exists p, (S b). split; [lia | split; [apply reaches_refl |]].
    apply inv_norm with (c := c); [assumption | eapply cur_alias; eassumption | | assumption].
    intros Hc. destruct (Hth Hc) as (? & ? & ? & ?). discriminate.
Qed.

(** Entering a slot. *)
Lemma enter_some G h e pe i p K K' err : hp G h -> den_env G e pe -> lookup pe i = Some p -> rs G true p [] K K' ->
  exists m K2 h2 a j c, enter K h e i err = Next (mkState m K2 h2) /\ gcell G e i = Some (a, j) /\
    rel G a m p /\ hp G h2 /\ rs G c p [] K2 K' /\ (is_hole m -> in_slot G h2 m p) /\ (c = false -> thunk m).
Proof.
  intros Hh He Hl Hs. unfold enter.
  pose proof (hp_get prim merge globals G h e pe i Hh He) as Hg. destruct (get h e i) as [m|] eqn:Eg; [| congruence].
  destruct Hg as (a & j & p' & Hc & Ha & Hgv & Hl' & Hr). rewrite Hl in Hl'. injection Hl' as <-.
  assert (plainly : exists m0 K2 h2 a0 j0 c,
     Next (mkState m K h) = Next (mkState m0 K2 h2) /\ gcell G e i = Some (a0, j0) /\
     rel G a0 m0 p /\ hp G h2 /\ rs G c p [] K2 K' /\ (is_hole m0 -> in_slot G h2 m0 p) /\ (c = false -> thunk m0)).
  { exists m, K, h, a, j, true. split; [reflexivity | split; [exact Hc | split; [exact Hr | split; [exact Hh | split; [exact Hs |]]]]].
    split; [| discriminate]. intros _. exists a, j. split; [exact Hgv |].
    unfold get in Eg. rewrite (hp_cell prim merge globals G h e i Hh), Hc in Eg. exact Eg. }
  destruct m as [n | c ar [] e']; try exact plainly.
  destruct (hp_put prim merge globals G h e pe i a j p (hole e) Hh He Hc Hgv) as (h2 & Hp & Hh2); [constructor |].
  rewrite Hp. exists (MClo c ar true e'), (KUpdate e i :: K), h2, a, j, false.
  split; [reflexivity | split; [exact Hc | split; [exact Hr | split; [exact Hh2 | split]]]].
  - econstructor; try eassumption. intros T. exists 0. split; [discriminate | constructor].
  - split; [intros [e0 H]; discriminate |]. intros _. exists c, ar, e'. reflexivity.
Qed.
Lemma enter_none G h e pe i K err : hp G h -> den_env G e pe -> lookup pe i = None -> enter K h e i err = Fail err.
Proof.
  intros Hh He Hl. unfold enter.
  pose proof (hp_get prim merge globals G h e pe i Hh He) as Hg. destruct (get h e i); [| reflexivity].
  destruct Hg as (a & j & p' & _ & _ & _ & Hl' & _). congruence.
Qed.

(** Entering a variable other than a literal. *)
Lemma enter_var G h e pe r p K K' : hp G h -> den_env G e pe -> variable pe r = Some p -> rs G true p [] K K' ->
  (forall n, r <> RV n) ->
  exists m K2 h2 b c, enter_callable K h e r = Next (mkState m K2 h2) /\ rel G b m p /\ hp G h2 /\ rs G c p [] K2 K' /\
    (is_hole m -> in_slot G h2 m p) /\ (c = false -> thunk m) /\ (forall b', older G e r b' -> b < b').
Proof.
  intros Hh He Hv Hs Hn. destruct r as [i | i | n]; [| | destruct (Hn n); reflexivity]; simpl.
  - destruct (enter_some G h e pe (N.to_nat i) p K K' EBadLocal Hh He Hv Hs) as (m & K2 & h2 & a & j & c & H1 & H2 & H3 & H4 & H5 & H6 & H7).
    exists m, K2, h2, a, c.
    split; [exact H1 | split; [exact H3 | split; [exact H4 | split; [exact H5 | split; [exact H6 | split; [exact H7 |]]]]]].
    intros b' Ho. apply (Ho _ _ H2).
  - simpl in Hv. rewrite <- (globals_lookup globals) in Hv.
    destruct (enter_some G h _ _ (N.to_nat i) p K K' EBadGlobal Hh (globals_den prim merge globals G h Hh) Hv Hs)
      as (m & K2 & h2 & a & j & c & H1 & H2 & H3 & H4 & H5 & H6 & H7).
    exists m, K2, h2, a, c.
    split; [exact H1 | split; [exact H3 | split; [exact H4 | split; [exact H5 | split; [exact H6 | split; [exact H7 |]]]]]].
    intros b' Ho. simpl in Ho.
    unfold globals_env in H2. cbn [gcell] in H2.
    destruct (N.to_nat i <? glen G (0, [])); [| discriminate]. injection H2 as <- _. exact Ho.
Qed.
Lemma enter_unbound G h e pe r K : hp G h -> den_env G e pe -> variable pe r = None ->
  exists err, enter_callable K h e r = Fail err.
Proof.
  intros Hh He Hv. destruct r as [i | i | n]; simpl in *.
  - eexists. eapply enter_none; eassumption.
  - rewrite <- (globals_lookup globals) in Hv.
    eexists. eapply enter_none; [eassumption | eapply globals_den; eassumption | exact Hv].
  - discriminate.
Qed.

(** An update. *)
Lemma rs_update_inv G c p e i K K' : rs G c p [] (KUpdate e i :: K) K' ->
  exists pe a j p0, den_env G e pe /\ gcell G e i = Some (a, j) /\ gval G a j = Some p0 /\
    (forall T, reaches (p0, T) (p, T)) /\ rs G true p0 [] K K'.
Proof.
  intros H; inversion H; subst; [match goal with H : rk _ (KUpdate _ _) _ |- _ => inversion H end |].
  do 4 eexists. repeat (split; [eassumption |]). split; [| eassumption].
  intros T. match goal with H : forall T, exists n, _ |- _ => destruct (H T) as (n & _ & Hn) end. exists n. exact Hn.
Qed.
Lemma update_sim G c ib m p q v e i K K' h :
  hp G h -> (forall h, curr G h ib m p) -> den G v q -> whnf q = true -> (forall T, reaches (p, T) (q, T)) ->
  rs G c p [] (KUpdate e i :: K) K' ->
  matched G ib (mkState m (KUpdate e i :: K) h) (p, K') (update m K h e i v).
Proof.
  intros Hh Hc Hd Hw Hq Hs. destruct (rs_update_inv _ _ _ _ _ _ _ Hs) as (pe & a & j & p0 & He & Hcell & Hg & Hr & Hs').
  unfold update.
  destruct (hp_put prim merge globals G h e pe i a j p0 v) as (h2 & Hp & Hh2); try assumption.
  { eapply rel_memo; [exact Hd | exact Hw |]. intros T. eapply reaches_trans; [apply Hr | apply Hq]. }
  rewrite Hp. exists G, ib, (p, K'), 0. split; [constructor | split].
  - apply inv_norm with (c := true); [assumption | apply Hc | discriminate |]. eapply rs_reaches; [eassumption | assumption].
  - split; [| apply grows_refl]. right; right. simpl. split; [reflexivity | lia].
Qed.

(** Running code in an environment with a new frame. *)
Lemma new_inv G h ms ps e pe code K K' : hp G h -> Forall2 (rel G (length G)) ms ps -> den_env G e pe ->
  plain code -> rs G true (VClo code 0 (Vals ps :: pe)) [] K K' ->
  inv (G ++ [ps]) 0 (mkState (clo code ((length h, []) :: e)) K (h ++ [ms])) (VClo code 0 (Vals ps :: pe), K').
Proof.
  intros Hh Hf He Hp Hs. apply inv_norm with (c := true).
  - apply hp_ext; assumption.
  - apply cur_den. constructor; [| assumption]. constructor; [| apply den_env_ext; assumption].
    destruct Hh as (Hl & _). split; [rewrite app_length; simpl; lia |].
    rewrite Hl, app_nth2, Nat.sub_diag by lia. reflexivity.
  - discriminate.
  - apply rs_ext. assumption.
Qed.
Lemma clo_inv G h e pe code K K' : hp G h -> den_env G e pe -> plain code -> rs G true (VClo code 0 pe) [] K K' ->
  inv G 0 (mkState (clo code e) K h) (VClo code 0 pe, K').
Proof.
  intros. apply inv_norm with (c := true); [assumption | apply cur_den; constructor; assumption | discriminate | assumption].
Qed.

Lemma den_fun (G : ghost) c a u e (q : value) : den G (MClo c (S a) u e) q -> whnf q = true /\ is_meta q = false /\ takes q = S a.
Proof.
  inversion 1; subst.
  - destruct c; repeat split.
  - split; [reflexivity | split; [reflexivity |]]. simpl. lia.
Qed.

(** The native an operand stands for. *)
Lemma chase G h fuel : hp G h -> forall b v p n, rel G b v p -> native_from fuel h v = Some n ->
  exists w, (forall T, reaches (p, T) (w, T)) /\ whnf w = true /\ is_meta w = false /\
            (finds_function fuel h v = false -> w = VNat n) /\ (finds_function fuel h v = true -> 0 < takes w).
Proof.
  intros Hh.
  assert (nat_case : forall fuel b k p n, rel G b (MNat k) p -> native_from fuel h (MNat k) = Some n ->
    exists w, (forall T, reaches (p, T) (w, T)) /\ whnf w = true /\ is_meta w = false /\
            (finds_function fuel h (MNat k) = false -> w = VNat n) /\ (finds_function fuel h (MNat k) = true -> 0 < takes w)).
  { intros f b k p n Hr Hn. exists (VNat n).
    assert (k = n) as -> by (destruct f; injection Hn as ->; reflexivity).
    assert (Hd : forall T, reaches (p, T) (VNat n, T)).
    { inversion Hr as [ | m q Hd | m p' q Hd Hw Hq | ]; subst.
      - inversion Hd; subst. intros; apply reaches_refl.
      - inversion Hd; subst. exact Hq. }
    split; [exact Hd |]. repeat split. destruct f; discriminate. }
  assert (fun_case : forall fuel b c a u e p n, rel G b (MClo c (S a) u e) p -> 
    exists w, (forall T, reaches (p, T) (w, T)) /\ whnf w = true /\ is_meta w = false /\
            (finds_function fuel h (MClo c (S a) u e) = false -> w = VNat n) /\
            (finds_function fuel h (MClo c (S a) u e) = true -> 0 < takes w)).
  { intros f b c a u e p n Hr.
    inversion Hr as [ | m q Hd | m p' q Hd Hw Hq | ]; subst; destruct (den_fun _ _ _ _ _ _ Hd) as (H1 & H2 & H3).
    - exists p. split; [intros; apply reaches_refl | repeat split; try assumption; [| lia]]. destruct f, c; discriminate.
    - exists q. split; [exact Hq | repeat split; try assumption; [| lia]]. destruct f, c; discriminate. }
  induction fuel as [|fuel IH]; intros b v p n Hr Hn.
  - destruct v as [k | c a u e]; [eapply nat_case; eassumption | destruct c; discriminate].
  - destruct v as [k | c a u e]; [eapply nat_case; eassumption |].
    destruct a; [| eapply fun_case; eassumption].
    destruct c as [r| | | | | | | | | | | | |]; try discriminate.
    cbn [native_from finds_function] in Hn |- *.
    destruct (resolve_ref h e r) as [v|] eqn:Er; [| discriminate].
    inversion Hr as [ | m q Hd | m p' q Hd Hw Hq | r' e' pe p' He Hv Ho]; subst.
    + inversion Hd as [ | c' a' u' e' pe He Hp | ]; subst.
      pose proof (hp_resolve prim merge globals G h e pe r Hh He) as Hres. rewrite Er in Hres.
      destruct Hres as (p' & Hv & Hr').
      destruct (IH _ _ _ _ Hr' Hn) as (w & Hw & Hrest). exists w. split; [| exact Hrest].
      intros T. eapply reaches_step; [simpl; rewrite Hv; reflexivity | apply Hw].
    + inversion Hd; subst. discriminate.
    + pose proof (hp_resolve prim merge globals G h e pe r Hh He) as Hres. rewrite Er in Hres.
      destruct Hres as (p' & Hv' & Hr'). assert (p' = p) as -> by congruence. eapply IH; eassumption.
Qed.

(** The operands of an intrinsic. *)
Lemma chase_all G h i K : hp G h -> forall vs ps p got ns v ms, Forall2 (rel G (length G)) (v :: vs) (p :: ps) ->
  natives_from h (v :: vs) = Some ns -> ms = got ++ ns ->
  (Forall (fun v => finds_function (chase_fuel h) h v = false) (v :: vs) ->
   match delivered (prim i ms) with
   | Some w => reaches (p, PBif i got ps :: K) (w, K) /\ exists k, steps (S k) (p, PBif i got ps :: K) (w, K)
   | None => stuck (p, PBif i got ps :: K)
   end) /\
  (~ Forall (fun v => finds_function (chase_fuel h) h v = false) (v :: vs) -> stuck (p, PBif i got ps :: K)).
Proof.
  intros Hh. induction vs as [|v' vs IH]; intros ps p got ns v ms Hf Hn ->.
  - inversion Hf as [|? ? ? ? Hr Hf']; subst. inversion Hf'; subst. cbn [natives_from] in Hn.
    destruct (native_from (chase_fuel h) h v) as [n|] eqn:En; [| discriminate]. injection Hn as <-.
    destruct (chase G h _ Hh _ _ _ _ Hr En) as (w & Hw & Hwh & Hm & H1 & H2).
    split; intros Hall.
    + inversion Hall as [|? ? Hff _]; subst. rewrite (H1 Hff) in *.
      destruct (delivered (prim i (got ++ [n]))) as [q|] eqn:Ed.
      * assert (Hs : pstep (VNat n, PBif i got [] :: K) = Some (q, K)) by (simpl; unfold deliver; rewrite Ed; reflexivity).
        split; [eapply reaches_trans; [apply Hw | apply reaches_one; exact Hs] |].
        destruct (Hw (PBif i got [] :: K)) as [k Hk]. exists k. replace (S k) with (k + 1) by lia.
        eapply steps_trans; [exact Hk | apply steps_one; exact Hs].
      * eexists. split; [apply Hw |]. split; [simpl; unfold deliver; rewrite Ed; reflexivity | apply not_final_stack].
    + destruct (finds_function (chase_fuel h) h v) eqn:Eff; [| destruct Hall; constructor; [exact Eff | constructor]].
      eexists. split; [apply Hw |]. split; [| apply not_final_stack].
      rewrite pstep_return by assumption. specialize (H2 eq_refl). destruct w; [simpl in H2; lia | reflexivity | reflexivity].
  - inversion Hf as [|? ? ? ? Hr Hf']; subst. destruct ps as [|p' ps]; [inversion Hf' |].
    cbn [natives_from] in Hn.
    destruct (native_from (chase_fuel h) h v) as [n|] eqn:En; [| discriminate].
    fold (natives_from h (v' :: vs)) in Hn.
    change (match natives_from h (v' :: vs) with Some ns => Some (n :: ns) | None => None end = Some ns) in Hn.
    destruct (natives_from h (v' :: vs)) as [ns'|] eqn:Ens; [| discriminate]. injection Hn as <-.
    destruct (chase G h _ Hh _ _ _ _ Hr En) as (w & Hw & Hwh & Hm & H1 & H2).
    destruct (IH ps p' (got ++ [n]) ns' v' (got ++ n :: ns') Hf' Ens) as [IH1 IH2];
      [rewrite <- app_assoc; reflexivity |].
    assert (Hone : w = VNat n -> reaches (p, PBif i got (p' :: ps) :: K) (p', PBif i (got ++ [n]) ps :: K)).
    { intros ->. eapply reaches_trans; [apply Hw |]. apply reaches_one. reflexivity. }
    assert (Hstk : w = VNat n -> stuck (p', PBif i (got ++ [n]) ps :: K) -> stuck (p, PBif i got (p' :: ps) :: K)).
    { intros Hwn (S' & Hr' & Hrest). exists S'. split; [| exact Hrest]. eapply reaches_trans; [apply Hone; exact Hwn | exact Hr']. }
    split; intros Hall.
    + inversion Hall as [|? ? Hff Hall']; subst. specialize (IH1 Hall').
      destruct (delivered (prim i (got ++ n :: ns'))) as [q|].
      * destruct IH1 as (IH1 & k & Hk). split; [eapply reaches_trans; [apply Hone; auto | exact IH1] |].
        destruct (Hone (H1 Hff)) as [k' Hk']. exists (k' + k). replace (S (k' + k)) with (k' + S k) by lia.
        eapply steps_trans; eassumption.
      * apply Hstk; auto.
    + destruct (finds_function (chase_fuel h) h v) eqn:Eff.
      * eexists. split; [apply Hw |]. split; [| apply not_final_stack].
        rewrite pstep_return by assumption. specialize (H2 eq_refl). destruct w; [simpl in H2; lia | reflexivity | reflexivity].
      * apply Hstk; [auto |]. apply IH2. intros Hall'. apply Hall. constructor; assumption.
Qed.
End Sim.
