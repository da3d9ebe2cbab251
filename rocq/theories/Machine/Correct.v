(** Whole runs: from the simulation of steps to results. *)
From Coq Require Import List Bool Arith NArith Lia.
From Verif.Bytecode Require Import Model Spec.
From Verif.Machine Require Import Model Spec Name Rel Chase Sim Steps Clean.
Import ListNotations.
Open Scope nat_scope.

Section Correct.
Context {native : Type}.
Notation ref := (ref native).
Notation syn := (syn native).
Notation form := (form native).
Notation value := (value (native := native)).
Notation view := (view (native := native)).
Notation mval := (mval (native := native)).
Notation heap := (heap (native := native)).
Notation ghost := (ghost (native := native)).
Variable prim : N -> list native -> prim_result (native := native).
Variable is_symbol : native -> bool.
Variable symbols_equal : native -> native -> bool.
Variable merge : N.
Variable globals : list form.
Notation variables := (variables globals).
Notation steps := (steps prim merge globals).
Notation reaches := (reaches prim merge globals).
Notation pstep := (pstep prim merge globals).
Notation rel := (rel prim merge globals).
Notation hp := (hp prim merge globals).
Notation step := (step prim is_symbol symbols_equal merge).
Notation run := (run prim is_symbol symbols_equal merge).
Notation stops := (stops prim is_symbol symbols_equal merge).
Notation visits := (visits prim is_symbol symbols_equal merge).
Notation stops_properly := (stops_properly prim is_symbol symbols_equal merge).
Notation looks := (looks prim is_symbol symbols_equal merge).
Notation looks_some := (looks_some prim is_symbol symbols_equal merge).
Notation ordinary := (ordinary prim is_symbol symbols_equal merge).
Notation inv := (inv prim merge globals).
Notation result := (result prim merge globals).
Notation shows := (shows prim merge globals).

Lemma rel_grows G G' b m p : grows G G' -> rel G b m p -> rel G' b m p.
Proof.
  intros [X ->]. revert G. induction X as [|x X IH]; intros G H; [rewrite app_nil_r; exact H |].
  replace (G ++ x :: X) with ((G ++ [x]) ++ X) by (rewrite <- app_assoc; reflexivity).
  apply IH, rel_ext, H.
Qed.
Lemma grows_length (G G' : ghost) : grows G G' -> length G <= length G'.
Proof. intros [X ->]. rewrite app_length. lia. Qed.
Lemma rels_grows G G' ms ps : grows G G' ->
  Forall2 (rel G (length G)) ms ps -> Forall2 (rel G' (length G')) ms ps.
Proof.
  intros Hg H. eapply Forall2_impl; [| exact H]. intros m p Hr.
  eapply rel_le; [eapply rel_grows; eassumption | apply grows_length; exact Hg].
Qed.

(** The pure machine stops only once. *)
Lemma final_stops S : final S -> pstep S = None.
Proof. destruct S as [v K]. intros (HK & Hw & Hm). simpl in HK, Hw, Hm. subst K. rewrite pstep_return by assumption. reflexivity. Qed.
Lemma steps_final n S T k S' : steps n S T -> final T -> steps k S S' -> k <= n.
Proof.
  intros Hn HT Hk. destruct (Nat.le_gt_cases k n) as [|Hlt]; [assumption |].
  pose proof (steps_split prim merge globals k S S' Hk n T Hn ltac:(lia)) as H.
  replace (k - n) with (1 + (k - n - 1)) in H by lia. inversion H; subst.
  pose proof (final_stops T HT). congruence.
Qed.
Lemma final_unique S T T' : reaches S T -> final T -> reaches S T' -> pstep T' = None -> T = T'.
Proof.
  intros [n Hn] HT [k Hk] HN. assert (k <= n) by (eapply steps_final; eassumption).
  pose proof (steps_split prim merge globals n S T Hn k T' Hk H) as Hs.
  inversion Hs; subst; [reflexivity | congruence].
Qed.

Definition ends (G : ghost) (s' : state) (v : value) : Prop :=
  s_stack s' = [] /\ hp G (s_heap s') /\ den G (s_cur s') v /\ whnf v = true /\ is_meta v = false.

Lemma run_sound s o : run s o -> forall s', o = Stop s' -> (forall t, visits s t -> no_function_operand t) ->
  forall G ib S, inv G ib s S -> exists G' q, reaches S (q, []) /\ grows G G' /\ ends G' s' q.
Proof.
  induction 1 as [s s1 Hs | s e Hs | s s1 o Hs Hr IH]; intros s' Ho Hv G ib S Hi; [| discriminate |].
  - injection Ho as <-. pose proof (step_sim prim is_symbol symbols_equal merge globals G ib s S Hi) as Hgood.
    destruct Hgood as [Hm | [_ Hno]]; [| destruct Hno; apply Hv; constructor]. rewrite Hs in Hm.
    destruct Hm as (q & Hq & Hd & Hw & Hm & Hst & Hh). exists G, q. split; [exact Hq | split; [apply grows_refl |]].
    repeat split; try assumption; apply Hh.
  - pose proof (step_sim prim is_symbol symbols_equal merge globals G ib s S Hi) as Hgood.
    destruct Hgood as [Hm | [_ Hno]]; [| destruct Hno; apply Hv; constructor]. rewrite Hs in Hm.
    destruct Hm as (G1 & ib1 & S1 & k & Hk & Hi1 & _ & Hg1).
    destruct (IH s' Ho) with (G := G1) (ib := ib1) (S := S1) as (G' & q & Hq & Hg & He).
    { intros t Ht. apply Hv. econstructor; eassumption. }
    { exact Hi1. }
    exists G', q. split; [eapply reaches_trans; [exists k; exact Hk | exact Hq] |].
    split; [eapply grows_trans; eassumption | exact He].
Qed.

Lemma hole_pending G ib s S v n : inv G ib s S -> tidy G s -> is_hole (s_cur s) -> steps n S (v, []) -> final (v, []) -> False.
Proof.
  intros Hi [Ht _] [e He] Hn Hf. inversion Hi as [c ib0 m p K K' h Hh Hcur Hcd Hs | ]; subst; cbn [s_cur] in He; [| discriminate].
  subst m. inversion Hcur as [m' p' Hd | e1 p' a j Hg Hsl | ]; subst; [exact (not_hole G e p Hd) |].
  destruct c; [| exact (not_hole G e p (Hcd eq_refl))].
  destruct (Ht a j e Hsl) as (e' & i & pe & Hin & _ & Hc). cbn [s_stack] in Hin.
  destruct (rs_pending prim merge globals G _ p [] K K' e' i a j p Hs eq_refl Hin Hc Hg) as (pre & post & _ & Hl).
  apply (loops prim merge globals p pre Hl n K' (v, []) Hn). apply final_stops, Hf.
Qed.

(** No placeholder is copied, and the step does not fail for want of a template or of natives. *)
Definition smooth (s : state) : Prop :=
  ~ copies_placeholder prim is_symbol symbols_equal merge s /\
  forall e, step s = Fail e -> ~ (e = EPap /\ too_wide s) /\ ~ (e = ENotValue /\ unready s).
Lemma ordinary_smooth s : ordinary s -> smooth s.
Proof. intros (H1 & H2 & H3). split; [exact H3 |]. intros e _. split; intros [_ H]; contradiction. Qed.

Lemma run_complete n : forall ib u G s S v, updates (s_stack s) <= u -> inv G ib s S -> tidy G s ->
  (forall t, visits s t -> smooth t) -> steps n S (v, []) -> final (v, []) ->
  exists G' s', run s (Stop s') /\ grows G G' /\ ends G' s' v /\ tidy G' s'.
Proof.
  induction n as [n IHn] using lt_wf_ind. induction ib as [ib IHib] using lt_wf_ind.
  induction u as [u IHu] using lt_wf_ind. intros G s S v Hu Hi Ht Hv Hn Hf.
  assert (Hm : matched prim merge globals G ib s S (step s)).
  { destruct (step_sim prim is_symbol symbols_equal merge globals G ib s S Hi) as [Hm | [(T & HT & HN & Hnf) _]]; [exact Hm |].
    destruct Hnf. rewrite <- (final_unique S (v, []) T); try assumption. exists n; exact Hn. }
  destruct (Hv s (vi_here _ _ _ _ s)) as (Hcopy & Hfail).
  destruct (step s) as [s1 | s1 | e] eqn:Es.
  - destruct Hm as (G1 & ib1 & S1 & k & Hk & Hi1 & Hc & Hg1).
    assert (Hle : k <= n) by (eapply steps_final; eassumption).
    pose proof (steps_split prim merge globals n S (v, []) Hn k S1 Hk Hle) as Hrest.
    assert (Ht1 : tidy G1 s1).
    { eapply tidy_grows; [exact Hg1 |]. eapply (tidy_step prim is_symbol symbols_equal merge globals); eassumption. }
    assert (Hv1 : forall t, visits s1 t -> smooth t) by (intros t Hvt; apply Hv; eapply vi_next; eassumption).
    assert (Hgo : exists G' s', run s1 (Stop s') /\ grows G1 G' /\ ends G' s' v /\ tidy G' s').
    { destruct (Nat.eq_dec k 0) as [-> | Hk0].
      - rewrite Nat.sub_0_r in Hrest. destruct Hc as [Hc | [Hc | [-> Hc]]]; [lia | |].
        + eapply IHib; try eassumption. apply le_n.
        + eapply (IHu (updates (s_stack s1))); try eassumption; [lia | apply le_n].
      - eapply (IHn (n - k)); try eassumption; [lia | apply le_n]. }
    destruct Hgo as (G' & s' & Hr & Hg & He). exists G', s'.
    split; [econstructor; eassumption | split; [eapply grows_trans; eassumption | exact He]].
  - destruct Hm as (q & Hq & Hd & Hw & Hm & Hst & Hh).
    assert (Heq : (v, []) = (q, []) :> pstate (native := native)).
    { eapply (final_unique S); [exists n; exact Hn | exact Hf | exact Hq |]. apply final_stops. repeat split; assumption. }
    injection Heq as <-. exists G, s1. split; [constructor; exact Es | split; [apply grows_refl |]].
    split; [repeat split; try assumption; apply Hh |].
    destruct (step_stop prim is_symbol symbols_equal merge s s1 Es) as [Hk Heq]. destruct Ht as [Ht1 Ht2].
    unfold tidy. rewrite Hst, Heq. rewrite Hk in Ht1, Ht2. split; assumption.
  - exfalso. destruct (Hfail e eq_refl) as [Hwide Hready]. destruct Hm as [[Hx | [Hx | [_ Hx]]] | (T & HT & HN & Hnf)].
    + exact (Hwide Hx).
    + exact (Hready Hx).
    + eapply hole_pending; eassumption.
    + destruct Hnf. rewrite <- (final_unique S (v, []) T); try assumption. exists n; exact Hn.
Qed.

(** * Rendering *)
Notation renders := (renders (native := native)).
Notation renders_all := (renders_all (native := native)).
Scheme renders_mind := Minimality for Spec.renders Sort Prop
  with renders_all_mind := Minimality for Spec.renders_all Sort Prop.
Combined Scheme renders_mutual from renders_mind, renders_all_mind.

Lemma finish_sound G h m p s' : hp G h -> rel G (length G) m p -> stops_properly (mkState m [] h) s' ->
  exists G' q, result p q /\ grows G G' /\ ends G' s' q.
Proof.
  intros Hh Hr [Hs Hv].
  destruct (settle_inv prim merge globals G true _ m p [] [] h Hh Hr) as (q0 & ib & _ & Hq0 & Hi); [constructor | | discriminate |].
  { intros [e ->]. exfalso. inversion Hs; discriminate. }
  destruct (run_sound _ _ Hs s' eq_refl Hv G ib _ Hi) as (G' & q & Hq & Hg & He).
  exists G', q. split; [| split; assumption].
  apply result_iff. destruct He as (_ & _ & _ & Hw & Hm).
  split; [eapply reaches_trans; eassumption | split; assumption].
Qed.

Lemma render_sound :
  (forall h m vw h', renders stops_properly h m vw h' ->
     forall G p, hp G h -> rel G (length G) m p -> exists G', grows G G' /\ hp G' h' /\ shows p vw) /\
  (forall h ms vws h', renders_all stops_properly h ms vws h' ->
     forall G ps, hp G h -> Forall2 (rel G (length G)) ms ps ->
     exists G', grows G G' /\ hp G' h' /\ Forall2 shows ps vws).
Proof.
  apply renders_mutual.
  - intros h m G p Hh Hr. exists G. split; [apply grows_refl | split; [exact Hh | constructor]].
  - intros h m n h' Hf G p Hh Hr. destruct (finish_sound G h m p _ Hh Hr Hf) as (G' & q & Hq & Hg & He).
    destruct He as (_ & Hh' & Hd & Hw & Hm). simpl in Hh', Hd. inversion Hd; subst.
    exists G'. split; [exact Hg | split; [exact Hh' | constructor; exact Hq]].
  - intros h m c [|a] u e h' Hf Ha G p Hh Hr; [lia |].
    destruct (finish_sound G h m p _ Hh Hr Hf) as (G' & q & Hq & Hg & He).
    destruct He as (_ & Hh' & Hd & Hw & Hm). simpl in Hh', Hd.
    destruct (den_fun G' c a u e q Hd) as (_ & _ & Ht).
    exists G'. split; [exact Hg | split; [exact Hh' |]]. rewrite <- Ht. constructor; [exact Hq | lia].
  - intros h m tag args u e ms views h' h'' Hf Hres _ IH G p Hh Hr.
    destruct (finish_sound G h m p _ Hh Hr Hf) as (G1 & q & Hq & Hg & He).
    destruct He as (_ & Hh' & Hd & Hw & Hm). simpl in Hh', Hd. inversion Hd as [ | ? ? ? ? pe Hpe _ | ]; subst.
    pose proof (hp_resolves prim merge globals G1 h' e pe args Hh' Hpe) as Hrs. rewrite Hres in Hrs.
    destruct Hrs as (ps & Hv & Hps).
    destruct (IH G1 ps Hh' Hps) as (G2 & Hg2 & Hh2 & Hsh).
    exists G2. split; [eapply grows_trans; eassumption | split; [exact Hh2 |]].
    econstructor; eassumption.
  - intros h G ps Hh Hf. inversion Hf; subst. exists G. split; [apply grows_refl | split; [exact Hh | constructor]].
  - intros h m ms v vs h' h'' _ IH1 _ IH2 G ps Hh Hf. inversion Hf as [ | ? p ? ps' Hr Hrs]; subst.
    destruct (IH1 G p Hh Hr) as (G1 & Hg1 & Hh1 & Hs1).
    destruct (IH2 G1 ps' Hh1) as (G2 & Hg2 & Hh2 & Hs2); [eapply rels_grows; eassumption |].
    exists G2. split; [eapply grows_trans; eassumption | split; [exact Hh2 | constructor; assumption]].
Qed.

Definition no_holes (h : heap) : Prop := forall a j v, slot h a j = Some v -> ~ is_hole v.
Lemma tidy_empty G m h : no_holes h -> tidy G (mkState m [] h).
Proof. intros H. split; [| intros args v []]. intros a j e Hs. destruct (H a j _ Hs). exists e. reflexivity. Qed.
Lemma empty_tidy G s : tidy G s -> s_stack s = [] -> no_holes (s_heap s).
Proof. intros [H _] Hk a j v Hs [e ->]. destruct (H a j e Hs) as (e' & i & pe & Hin & _). rewrite Hk in Hin. destruct Hin. Qed.
Lemma resolve_no_hole (h : heap) e r v : no_holes h -> resolve_ref h e r = Some v -> ~ is_hole v.
Proof.
  intros Hn Hr. destruct r as [i|i|n]; cbn [resolve_ref] in Hr.
  - unfold get in Hr. destruct (cell h e (N.to_nat i)) as [[a j]|]; [| discriminate]. exact (Hn _ _ _ Hr).
  - unfold get in Hr. destruct (cell h globals_env (N.to_nat i)) as [[a j]|]; [| discriminate]. exact (Hn _ _ _ Hr).
  - injection Hr as <-. intros [e0 H]. discriminate.
Qed.
Lemma resolves_no_hole (h : heap) e rs vs : no_holes h -> resolve_refs h e rs = Some vs -> Forall (fun v => ~ is_hole v) vs.
Proof.
  intros Hn. revert vs. induction rs as [|r rs IH]; intros vs; cbn [resolve_refs].
  - intros [= <-]. constructor.
  - destruct (resolve_ref h e r) as [v|] eqn:E; [| discriminate].
    destruct (resolve_refs h e rs) as [ws|]; [| discriminate]. intros [= <-].
    constructor; [eapply resolve_no_hole; eassumption | apply IH; reflexivity].
Qed.

Lemma finish_complete G h m p v : hp G h -> rel G (length G) m p -> no_holes h -> ~ is_hole m ->
  (forall t, visits (mkState m [] h) t -> smooth t) -> result p v ->
  exists G' s', stops (mkState m [] h) s' /\ grows G G' /\ ends G' s' v /\ no_holes (s_heap s').
Proof.
  intros Hh Hr Hno Hm0 Hvis Hv. apply result_iff in Hv. destruct Hv as (Hv & Hw & Hm).
  destruct (settle_inv prim merge globals G true _ m p [] [] h Hh Hr) as (q & ib & _ & Hq & Hi);
    [constructor | intros Hhole; contradiction | discriminate |].
  assert (Hf : final (v, [])) by (repeat split; assumption).
  destruct Hv as [n Hn], Hq as [k Hk].
  assert (Hle : k <= n) by (eapply steps_final; eassumption).
  destruct (run_complete (n - k) ib _ G _ _ v (le_n _) Hi (tidy_empty G m h Hno) Hvis) as (G' & s' & H1 & H2 & H3 & H4).
  - eapply steps_split; eassumption.
  - exact Hf.
  - exists G', s'. split; [exact H1 | split; [exact H2 | split; [exact H3 |]]].
    eapply empty_tidy; [exact H4 | apply H3].
Qed.

Lemma render_complete vw : forall G h m p, hp G h -> rel G (length G) m p -> no_holes h -> ~ is_hole m ->
  (forall t, looks h m vw t -> ordinary t) -> shows p vw ->
  exists G' h', grows G G' /\ hp G' h' /\ no_holes h' /\ renders stops h m vw h'.
Proof.
  revert vw. fix IH 1. intros vw G h m p Hh Hr Hno Hm0 Hvis Hs. destruct vw as [ | n | a | tag vws].
  - exists G, h. split; [apply grows_refl | split; [exact Hh | split; [exact Hno | constructor]]].
  - inversion Hs as [ | ? ? Hv | | ]; subst.
    destruct (finish_complete G h m p (VNat n) Hh Hr Hno Hm0) as (G' & [m' st h'] & Hst & Hg & He & Hno');
      [intros t Ht; apply ordinary_smooth, Hvis; apply lo_here; [discriminate | exact Ht] | exact Hv |].
    destruct He as (Hk & Hh' & Hd & _). cbn [s_stack s_heap s_cur] in Hk, Hh', Hd, Hno'. subst st. inversion Hd; subst.
    exists G', h'. split; [exact Hg | split; [exact Hh' | split; [exact Hno' | constructor; exact Hst]]].
  - inversion Hs as [ | | ? v Hv Ht | ]; subst.
    destruct (finish_complete G h m p v Hh Hr Hno Hm0) as (G' & [m' st h'] & Hst & Hg & He & Hno');
      [intros t Hvt; apply ordinary_smooth, Hvis; apply lo_here; [discriminate | exact Hvt] | exact Hv |].
    destruct He as (Hk & Hh' & Hd & Hw & Hm). cbn [s_stack s_heap s_cur] in Hk, Hh', Hd, Hno'. subst st.
    exists G', h'. split; [exact Hg | split; [exact Hh' | split; [exact Hno' |]]].
    destruct m' as [n | c [|a] u e].
    + inversion Hd; subst. simpl in Ht. lia.
    + inversion Hd; subst; [simpl in Ht; lia | lia].
    + destruct (den_fun G' c a u e v Hd) as (_ & _ & ->). econstructor; [exact Hst | lia].
  - inversion Hs as [ | | | ? ? args pe ps ? Hv Hvs Hsh]; subst.
    destruct (finish_complete G h m p (VClo (SCons tag args) 0 pe) Hh Hr Hno Hm0)
      as (G1 & [m' st h'] & Hst & Hg & He & Hno');
      [intros t Hvt; apply ordinary_smooth, Hvis; apply lo_here; [discriminate | exact Hvt] | exact Hv |].
    destruct He as (Hk & Hh' & Hd & _). cbn [s_stack s_heap s_cur] in Hk, Hh', Hd, Hno'. subst st.
    inversion Hd as [ | ? ? u e ? Hpe Hpl | ]; subst.
    pose proof (hp_resolves prim merge globals G1 h' e pe args Hh' Hpe) as Hrs.
    destruct (resolve_refs h' e args) as [ms|] eqn:Eres; [| congruence].
    destruct Hrs as (ps' & Hv' & Hps). assert (ps' = ps) as -> by congruence.
    pose proof (resolves_no_hole h' e args ms Hno' Eres) as Hms.
    assert (Hall : forall vws G h ms ps, hp G h -> Forall2 (rel G (length G)) ms ps -> no_holes h ->
      Forall (fun v => ~ is_hole v) ms -> (forall t, looks_some h ms vws t -> ordinary t) -> Forall2 shows ps vws ->
      exists G' h', grows G G' /\ hp G' h' /\ no_holes h' /\ renders_all stops h ms vws h').
    { clear - IH. fix IHl 1. intros vws G h ms ps Hh Hf Hno Hms Hvis Hsh. destruct vws as [|w vws].
      - inversion Hsh; subst. inversion Hf; subst. exists G, h.
        split; [apply grows_refl | split; [exact Hh | split; [exact Hno | constructor]]].
      - inversion Hsh as [ | p ? ps' ? Hs1 Hs2]; subst. inversion Hf as [ | m ? ms' ? Hr1 Hr2]; subst.
        inversion Hms as [ | ? ? Hm1 Hm2]; subst.
        destruct (IH w G h m p Hh Hr1 Hno Hm1) as (G1 & h1 & Hg1 & Hh1 & Hno1 & Hre);
          [intros t Ht; apply Hvis, lo_first, Ht | exact Hs1 |].
        destruct (IHl vws G1 h1 ms' ps' Hh1) as (G2 & h2 & Hg2 & Hh2 & Hno2 & Hre2);
          [eapply rels_grows; eassumption | exact Hno1 | exact Hm2
          | intros t Ht; apply Hvis; eapply lo_later; eassumption | exact Hs2 |].
        exists G2, h2. split; [eapply grows_trans; eassumption | split; [exact Hh2 | split; [exact Hno2 |]]].
        econstructor; eassumption. }
    destruct (Hall vws G1 h' ms ps Hh' Hps Hno' Hms) as (G2 & h2 & Hg2 & Hh2 & Hno2 & Hre);
      [intros t Ht; apply Hvis; eapply lo_inside; eassumption | exact Hsh |].
    exists G2, h2. split; [eapply grows_trans; eassumption | split; [exact Hh2 | split; [exact Hno2 |]]].
    econstructor; eassumption.
Qed.

Definition initial_heap : heap := [map (close []) globals].
Lemma start_hp : All (fun f => plain (snd f)) globals -> hp [map (closure []) globals] initial_heap.
Proof.
  intros Hp. split; [reflexivity | split; [reflexivity |]]. intros a Ha.
  destruct a; [| simpl in Ha; lia]. cbn [nth initial_heap].
  apply (closures_rel prim merge globals); [constructor | exact Hp].
Qed.
Lemma start_rel root : plain root -> forall G b, rel G b (clo root []) (VClo root 0 []).
Proof. intros Hp G b. apply rel_den. constructor; [constructor | exact Hp]. Qed.

Theorem program_sound root vw h' : plain_program globals root ->
  renders stops_properly (s_heap (start globals root)) (s_cur (start globals root)) vw h' -> shows (VClo root 0 []) vw.
Proof.
  intros [Hr Hg] H. destruct (proj1 render_sound _ _ _ _ H _ _ (start_hp Hg) (start_rel root Hr _ _)) as (G' & _ & _ & Hs).
  exact Hs.
Qed.
Lemma plain_not_hole code a u (e : menv) : plain code -> ~ is_hole (native := native) (MClo code a u e).
Proof. intros Hp [e0 H]. injection H as -> _ _ _. destruct Hp. Qed.
Lemma start_no_holes : All (fun f => plain (snd f)) globals -> no_holes initial_heap.
Proof.
  intros Hp a j v. unfold slot, array, initial_heap. destruct a as [|[|a]]; cbn [nth]; [| destruct j; discriminate | destruct j; discriminate].
  intros Hn. apply nth_error_In in Hn. apply in_map_iff in Hn. destruct Hn as (f & <- & Hf).
  apply plain_not_hole. clear - Hp Hf. induction globals as [|g gs IH]; [destruct Hf |].
  destruct Hp as [H1 H2]. destruct Hf as [<- | Hf]; [exact H1 | exact (IH H2 Hf)].
Qed.
Theorem program_complete root vw : plain_program globals root -> shows (VClo root 0 []) vw ->
  (forall s, looks (s_heap (start globals root)) (s_cur (start globals root)) vw s -> ordinary s) ->
  exists h', renders stops (s_heap (start globals root)) (s_cur (start globals root)) vw h'.
Proof.
  intros [Hr Hg] H Hvis.
  destruct (render_complete vw _ _ _ _ (start_hp Hg) (start_rel root Hr _ _) (start_no_holes Hg)
              (plain_not_hole root 0 false [] Hr) Hvis H) as (G' & h' & _ & _ & _ & Hre).
  exists h'. exact Hre.
Qed.
(** * Determinism *)
Lemma result_unique p v w : result p v -> result p w -> v = w.
Proof.
  intros Hv Hw. apply result_iff in Hv. apply result_iff in Hw.
  destruct Hv as (Hv & Hv1 & Hv2), Hw as (Hw & Hw1 & Hw2).
  assert (Heq : (v, []) = (w, []) :> pstate (native := native)).
  { eapply final_unique; [exact Hv | repeat split; assumption | exact Hw |]. apply final_stops. repeat split; assumption. }
  injection Heq as ->. reflexivity.
Qed.
Lemma visits_end s t : visits s t -> forall e, step t = Fail e -> run s (Fail e).
Proof. induction 1 as [s | s s1 t Hs Hv IH]; intros e He; [apply run_fail, He | eapply run_next; [exact Hs | apply IH, He]]. Qed.
Lemma run_unique s o : run s o -> forall o', run s o' -> o = o'.
Proof.
  induction 1 as [s s1 Hs | s e Hs | s s1 o Hs Hr IH]; intros o' H; inversion H; subst; try congruence.
  apply IH. congruence.
Qed.

Theorem loop_error root s : plain_program globals root -> visits (start globals root) s -> step s = Fail EBlackHole ->
  (forall t, visits (start globals root) t -> ~ copies_placeholder prim is_symbol symbols_equal merge t) ->
  forall v, ~ result (VClo root 0 []) v.
Proof.
  intros [Hr Hg] Hv Hs Hno v Hres.
  pose proof (visits_end _ _ Hv _ Hs) as Hrun.
  destruct (finish_complete _ _ _ _ v (start_hp Hg) (start_rel root Hr _ _) (start_no_holes Hg)
              (plain_not_hole root 0 false [] Hr)) as (G' & s' & Hst & _).
  - intros t Ht. split; [apply Hno, Ht |]. intros e He.
    pose proof (run_unique _ _ Hrun _ (visits_end _ _ Ht _ He)) as Heq. injection Heq as <-.
    split; intros [H _]; discriminate.
  - exact Hres.
  - pose proof (run_unique _ _ Hrun _ Hst). discriminate.
Qed.
End Correct.
