From Coq Require Import NArith ZArith List Bool Lia ZifyN ZifyNat ZifyBool.
From Verif.Heap Require Import Lines LinesSpec LinesProofs Model Spec HeapProofs AllocProofs TraceProofs EvacProofs.
Import ListNotations.
Local Open Scope N_scope.
Ltac Zify.zify_post_hook ::= Z.div_mod_to_equations.
Local Arguments N.add _ _ : simpl never.
Local Arguments N.sub _ _ : simpl never.
Local Arguments block_new _ : simpl never.

Definition tgt (m : memory) (a : addr) : addr :=
  match mget m a with Some o => match o_fwd o with Some c => c | None => a end | None => a end.
Definition mapv (g : addr -> addr) (v : val) : val := match v with VData n => VData n | VPtr a => VPtr (g a) end.

(** Two memories with the same headers on [E]. *)
Definition headers (E : addr -> Prop) (m m' : memory) : Prop :=
  forall a, E a -> exists o p, mget m a = Some o /\ mget m' a = Some p /\
    o_len p = o_len o /\ o_mark p = o_mark o /\ o_fwd p = o_fwd o.

Section Collect.
  Variables (dbg : bool) (h0 : heap) (L : addr -> Prop) (cands : list nat) (pinned : list N).
  Hypothesis W0 : wf h0 L.
  Hypothesis C0 : clean h0 L.
  Hypothesis CL : closed (mem h0) L.
  Notation core := (core h0 L cands pinned).
  Notation ext_live := (ext_live L).

  Lemma tgt_cases h ml a : core h ml -> L a ->
    exists o, mget (mem h) a = Some o /\
      ((o_fwd o = None /\ tgt (mem h) a = a) \/ (o_fwd o = Some (tgt (mem h) a) /\ fresh h0 <= fst (tgt (mem h) a))).
  Proof.
    intros C La. destruct (co_old _ _ _ _ _ _ C a La) as (_ & o & _ & G & _). exists o. split; auto.
    unfold tgt. rewrite G. destruct (o_fwd o) as [c|] eqn:F; [right|left; auto].
    destruct (co_copy _ _ _ _ _ _ C a o c La G F). auto.
  Qed.
  Lemma tgt_live h ml a : core h ml -> L a -> ext_live h (tgt (mem h) a).
  Proof.
    intros C La. destruct (tgt_cases _ _ _ C La) as (o & G & [(_ & ->)|(F & _)]); [left; auto|].
    right. exists a, o. auto.
  Qed.
  Lemma tgt_inj h ml a b : core h ml -> L a -> L b -> tgt (mem h) a = tgt (mem h) b -> a = b.
  Proof.
    intros C La Lb E. pose proof (live_below h0 L W0 a La). pose proof (live_below h0 L W0 b Lb).
    destruct (tgt_cases _ _ _ C La) as (o & G & [(_ & E1)|(F1 & N1)]);
    destruct (tgt_cases _ _ _ C Lb) as (p & Gp & [(_ & E2)|(F2 & N2)]).
    - congruence.
    - rewrite <- E, E1 in N2. lia.
    - rewrite E, E2 in N1. lia.
    - eapply (co_inj _ _ _ _ _ _ C a b o p); eauto. congruence.
  Qed.
  (** What the forwarded object looks like before updating. *)
  Lemma tgt_obj h ml a o0 : core h ml -> In a ml -> mget (mem h0) a = Some o0 ->
    exists p, mget (mem h) (tgt (mem h) a) = Some p /\ o_len p = o_len o0 /\ o_fields p = o_fields o0 /\
      o_mark p = mark_state h0 /\ o_fwd p = None.
  Proof.
    intros C Ia G0. assert (La : L a) by (apply (co_marked _ _ _ _ _ _ C); auto).
    destruct (co_old _ _ _ _ _ _ C a La) as (q & o & Gq & G & E1 & E2 & M1 & _). assert (q = o0) by congruence. subst q.
    destruct (tgt_cases _ _ _ C La) as (o' & G' & [(F & E)|(F & _)]); assert (o' = o) by congruence; subst o'.
    - exists o. rewrite E. repeat (split; auto).
    - destruct (co_copy _ _ _ _ _ _ C a o _ La G F) as (_ & p & Gp & R1 & R2 & R3 & R4 & _). exists p.
      split; auto. split; [congruence|]. split; [congruence|]. auto.
  Qed.

  Lemma forward_vals_spec h ml m fs : core h ml -> headers (ext_live h) (mem h) m ->
    (forall b, In (VPtr b) fs -> L b) -> forward_vals m fs = Some (map (mapv (tgt (mem h))) fs).
  Proof.
    intros C H. induction fs as [|v fs IH]; intros HL; auto. cbn [forward_vals map].
    assert (E : forward_val m v = Some (mapv (tgt (mem h)) v)).
    { destruct v as [n|a]; auto. cbn. assert (La : L a) by (apply HL; left; auto).
      destruct (H a (or_introl La)) as (o & p & Go & Gp & _ & _ & F). rewrite Gp, F. unfold tgt. rewrite Go.
      destruct (o_fwd o); auto. }
    rewrite E, IH; auto. intros; apply HL; right; auto.
  Qed.

  Lemma update_all_spec h ml : core h ml -> forall todo m,
    NoDup todo -> (forall a, In a todo -> In a ml) ->
    headers (ext_live h) (mem h) m ->
    (forall a o0, In a todo -> mget (mem h0) a = Some o0 -> exists p, mget m (tgt (mem h) a) = Some p /\ o_fields p = o_fields o0) ->
    exists m', update_all m todo = Some m' /\ headers (ext_live h) (mem h) m' /\
      (forall a o0, In a todo -> mget (mem h0) a = Some o0 ->
        exists p, mget m' (tgt (mem h) a) = Some p /\ o_fields p = map (mapv (tgt (mem h))) (o_fields o0)) /\
      (forall a, L a -> ~ In a todo -> mget m' (tgt (mem h) a) = mget m (tgt (mem h) a)).
  Proof.
    intros C. induction todo as [|a todo IH]; intros m ND Sub H Fd.
    - exists m. split; auto. split; auto. split; [contradiction|auto].
    - cbn [update_all]. apply NoDup_cons_iff in ND. destruct ND as (Na & ND).
      assert (La : L a) by (apply (co_marked _ _ _ _ _ _ C), Sub; left; auto).
      destruct (co_old _ _ _ _ _ _ C a La) as (o0 & o & G0 & G & _).
      destruct (H a (or_introl La)) as (o' & p & Go & Gp & _ & _ & F). assert (o' = o) by congruence. subst o'.
      destruct (Fd a o0 (or_introl eq_refl) G0) as (t & Gt & Ft).
      set (fs := map (mapv (tgt (mem h))) (o_fields o0)).
      set (m1 := mset m (tgt (mem h) a) (mkObj (o_mark t) (o_len t) (o_fwd t) fs)).
      assert (E : update_obj m a = Some m1).
      { unfold update_obj. rewrite Gp, F.
        assert (ET : match o_fwd o with Some a' => a' | None => a end = tgt (mem h) a) by (unfold tgt; rewrite G; auto).
        rewrite ET, Gt, Ft, (forward_vals_spec h ml m _ C H); auto. intros b Hb. eapply CL; eauto. }
      rewrite E.
      assert (H1 : headers (ext_live h) (mem h) m1).
      { intros x Ex. destruct (H x Ex) as (ox & px & Gx & Gpx & X1 & X2 & X3). exists ox.
        destruct (addr_dec (tgt (mem h) a) x) as [<-|Nx].
        - exists (mkObj (o_mark t) (o_len t) (o_fwd t) fs). split; auto. split; [apply (mget_mset_eq _ _ _ _ Gt)|].
          assert (px = t) by congruence. subst px. auto.
        - exists px. split; auto. split; auto. unfold m1. rewrite mget_mset_ne; auto. }
      assert (NT : forall b, L b -> b <> a -> mget m1 (tgt (mem h) b) = mget m (tgt (mem h) b)).
      { intros b Lb Nb. unfold m1. apply mget_mset_ne. intros Q. apply Nb. symmetry. eapply tgt_inj; eauto. }
      destruct (IH m1) as (m' & E' & H' & D & K); auto.
      + intros b Hb. apply Sub; right; auto.
      + intros b ob Ib Gb. rewrite NT; [apply Fd; auto; right; auto| |intros ->; contradiction].
        apply (co_marked _ _ _ _ _ _ C), Sub; right; auto.
      + exists m'. split; auto. split; auto. split.
        * intros b ob [<-|Ib] Gb; [|auto]. assert (ob = o0) by congruence. subst ob.
          rewrite K by auto. exists (mkObj (o_mark t) (o_len t) (o_fwd t) fs). split; auto. apply (mget_mset_eq _ _ _ _ Gt).
        * intros b Lb Nb. rewrite K by (auto; intros ?; apply Nb; right; auto).
          apply NT; auto. intros ->. apply Nb. left; auto.
  Qed.

  (** Corresponding blocks. *)
  Lemma skel_in l l' k : map skel l = map skel l' -> In k l -> exists k', In k' l' /\ skel k' = skel k.
  Proof.
    intros E K. apply (in_map skel) in K. rewrite E in K. apply in_map_iff in K. destruct K as (k' & E' & K'). exists k'. auto.
  Qed.
  Lemma actives_skel h ml : core h ml -> map skel (actives h) = map skel (actives h0).
  Proof.
    intros C. unfold actives. rewrite !map_app. rewrite (co_recycled _ _ _ _ _ _ C).
    pose proof (co_head _ _ _ _ _ _ C). pose proof (co_overflow _ _ _ _ _ _ C). f_equal; [|f_equal].
    - destruct (head h), (head h0); cbn in *; congruence.
    - destruct (overflow h), (overflow h0); cbn in *; congruence.
  Qed.

  Lemma wf_final h ml m' : core h ml -> headers (ext_live h) (mem h) m' ->
    let h' := flip_mark_state (defer_sweep (finalise_evacuation (set_mem h m'))) in
    let L' := fun c => exists a, In a ml /\ c = tgt (mem h) a in
    wf h' L' /\ clean h' L'.
  Proof.
    intros C H h' L'. pose proof (co_space _ _ _ _ _ _ C) as S.
    assert (SubL : forall c, L' c -> ext_live h c).
    { intros c (a & Ia & ->). eapply tgt_live; eauto. apply (co_marked _ _ _ _ _ _ C); auto. }
    assert (Hdr : forall c p, L' c -> mget m' c = Some p -> exists o, mget (mem h) c = Some o /\ o_len p = o_len o /\ o_mark p = o_mark o /\ o_fwd p = o_fwd o).
    { intros c p Lc Gp. destruct (H c (SubL c Lc)) as (o & p' & G1 & G2 & X). assert (p' = p) by congruence. subst p'. exists o. auto. }
    (** a live object in an old block was not moved *)
    assert (Stay : forall k c, In k (old h) -> L' c -> fst c = base k -> In c ml).
    { intros k c K (a & Ia & ->) E. assert (La : L a) by (apply (co_marked _ _ _ _ _ _ C); auto).
      destruct (tgt_cases _ _ _ C La) as (o & G & [(_ & E1)|(F & N1)]); [congruence|]. exfalso.
      destruct (co_copy _ _ _ _ _ _ C a o _ La G F) as (_ & p & _ & _ & _ & _ & _ & (k' & K' & E') & _).
      pose proof (sp_unique _ _ _ _ _ _ _ S (base k)) as U. rewrite map_app, cnt_app in U.
      apply cnt_base in K. unfold evs in K'. apply in_app_iff in K'.
      destruct K' as [K'|K']; apply cnt_base in K'; rewrite E', E in K'; lia. }
    assert (Moved : forall k c p x, In k (evs h) -> L' c -> mget (mem h) c = Some p -> fst c = base k -> bytes_of c p x -> lines k (x / LINE) = true).
    { intros k c p x K (a & Ia & ->) Gp E B. assert (La : L a) by (apply (co_marked _ _ _ _ _ _ C); auto).
      destruct (tgt_cases _ _ _ C La) as (o & G & [(_ & E1)|(F & N1)]).
      - exfalso. rewrite E1 in E. pose proof (co_evs _ _ _ _ _ _ C k K). pose proof (live_below h0 L W0 a La). lia.
      - destruct (co_copy _ _ _ _ _ _ C a o _ La G F) as (_ & q & Gq & _ & _ & _ & _ & _ & R).
        assert (q = p) by congruence. subst q. eapply R; eauto. }
    pose proof (wf_space _ _ W0) as S0.
    assert (EA : actives h' = actives h) by reflexivity.
    assert (EU : unswept h' = unswept h ++ rest h ++ olist (evac_target h) ++ filled h) by (cbn; destruct (evac_target h); auto).
    assert (ER : rest h' = []) by reflexivity.
    assert (OldU : forall k, In k (unswept h') <-> In k (unswept h) \/ In k (rest h) \/ In k (evs h)).
    { intros k. rewrite EU, !in_app_iff. unfold evs. rewrite in_app_iff. tauto. }
    assert (CNT : forall x, (cnt x (map base (actives h')) + cnt x (map base (unswept h')) + cnt x (map base (rest h')) =
       cnt x (map base (olist (evac_target h))) + cnt x (map base []) + cnt x (map base (filled h ++ old h)))%nat).
    { intros x. rewrite EA, EU, ER. unfold old. cnts. }
    assert (Lines : forall k c p x, In k (old h) -> L' c -> mget m' c = Some p -> fst c = base k -> bytes_of c p x -> lines k (x / LINE) = true).
    { intros k c p x K Lc Gp E B. destruct (Hdr c p Lc Gp) as (o & G & El & _).
      eapply (co_lines _ _ _ _ _ _ C c o); eauto. unfold bytes_of in *. congruence. }
    split.
    - constructor; auto.
      2:{ intros k K. destruct (skel_in _ _ _ (co_recycled _ _ _ _ _ _ C) K) as (k0 & K0 & E).
          pose proof (wf_roomy _ _ W0 k0 K0). unfold roomy, skel in *. congruence. }
      change (lobs h') with (lobs h). change (fresh h') with (fresh h). change (mem h') with m'. constructor.
      + intros x. rewrite CNT. apply (sp_unique _ _ _ _ _ _ _ S).
      + intros x. rewrite CNT. apply (sp_fresh _ _ _ _ _ _ _ S).
      + intros k K. rewrite EA in K. destruct (skel_in _ _ _ (actives_skel _ _ C) K) as (k0 & K0 & E).
        pose proof (sp_shape _ _ _ _ _ _ _ S0 k0 K0) as [X1 X2]. unfold shape, skel in *. split; congruence.
      + intros c Lc. destruct (sp_live _ _ _ _ _ _ _ S c (SubL c Lc)) as (o & G & Hh & Ho).
        destruct (H c (SubL c Lc)) as (o1 & p & G1 & Gp & El & _). assert (o1 = o) by congruence. subst o1.
        exists p. split; auto. split; auto. rewrite CNT, El. auto.
      + intros k c p x K Lc Gp E B [U1 U2]. rewrite EA in K.
        assert (Ko : In k (old h)) by (unfold old; apply in_app_iff; auto).
        destruct U2 as [U2|U2]; [|rewrite (Lines k c p x) in U2; auto; discriminate].
        assert (Ic : In c ml) by (eapply Stay; eauto).
        destruct (skel_in _ _ _ (actives_skel _ _ C) K) as (k0 & K0 & Es).
        assert (Lc0 : L c) by (apply (co_marked _ _ _ _ _ _ C); auto).
        destruct (co_old _ _ _ _ _ _ C c Lc0) as (o0 & o & G0 & G & El & _).
        destruct (Hdr c p Lc Gp) as (o1 & G1 & El1 & _). assert (o1 = o) by congruence. subst o1.
        eapply (sp_act _ _ _ _ _ _ _ S0 k0 c o0 x); eauto.
        * unfold skel in Es. congruence.
        * unfold bytes_of in *. congruence.
        * unfold usable, skel in *. replace (cursor k0) with (cursor k) by congruence. replace (lower k0) with (lower k) by congruence. auto.
      + intros k c p x K Lc Gp E B. apply OldU in K. destruct K as [K|[K|K]].
        * eapply Lines; eauto. unfold old. rewrite !in_app_iff. auto.
        * eapply Lines; eauto. unfold old. rewrite !in_app_iff. auto.
        * destruct (Hdr c p Lc Gp) as (o & G & El & _). eapply Moved; eauto. unfold bytes_of in *. congruence.
      + intros a b o p x La Lb Ne Ga Gb E B1 B2.
        destruct (Hdr a o La Ga) as (o' & G1 & El1 & _). destruct (Hdr b p Lb Gb) as (p' & G2 & El2 & _).
        eapply (sp_disj _ _ _ _ _ _ _ S a b o' p' x); eauto; unfold bytes_of in *; congruence.
    - intros c p Lc Gp. change (mem h') with m' in Gp. change (mark_state h') with (negb (mark_state h)). rewrite negb_involutive.
      destruct (Hdr c p Lc Gp) as (o & G & _ & Em & Ef). destruct Lc as (a & Ia & ->).
      assert (La : L a) by (apply (co_marked _ _ _ _ _ _ C); auto).
      destruct (co_old _ _ _ _ _ _ C a La) as (o0 & _ & G0 & _).
      destruct (tgt_obj _ _ _ _ C Ia G0) as (q & Gq & _ & _ & Mq & Fq). assert (q = o) by congruence. subst q.
      rewrite Em, Ef, Mq, (co_ms _ _ _ _ _ _ C). auto.
  Qed.

  (** A collection moves the reachable objects by an injection [g] and rewrites their
      fields and the roots along it. *)
  Lemma collect_spec roots : (forall a, In (VPtr a) roots -> L a) ->
    exists h' visited g, collect dbg cands pinned h0 roots = Some (h', map (mapv g) roots) /\
      (forall a, In a visited <-> reach (mem h0) roots a) /\
      (forall a b, In a visited -> In b visited -> g a = g b -> a = b) /\
      wf h' (fun c => exists a, In a visited /\ c = g a) /\
      clean h' (fun c => exists a, In a visited /\ c = g a) /\
      (forall a o, In a visited -> mget (mem h0) a = Some o ->
        exists p, mget (mem h') (g a) = Some p /\ o_len p = o_len o /\ o_fields p = map (mapv g) (o_fields o)) /\
      mark_state h' = negb (mark_state h0) /\
      (forall a, In a visited -> In (fst a) pinned -> g a = a).
  Proof.
    intros RL. destruct (mark_phase_spec dbg h0 L cands pinned W0 C0 CL roots RL) as (h & visited & E & C & ND & R).
    assert (VL : forall a, In a visited -> L a) by apply (co_marked _ _ _ _ _ _ C).
    assert (PN : forall a, In a visited -> In (fst a) pinned -> tgt (mem h) a = a).
    { intros a Ia Ip. destruct (tgt_cases h visited a C (VL a Ia)) as (o & G & [(_ & T)|(F & _)]); auto.
      exfalso. pose proof (co_pinned _ _ _ _ _ _ C a o _ (VL a Ia) G F) as Q.
      assert (existsb (N.eqb (fst a)) pinned = true); [|congruence].
      apply existsb_exists. exists (fst a). split; auto. apply N.eqb_refl. }
    assert (HR : headers (ext_live h) (mem h) (mem h)).
    { intros a La. destruct (sp_live _ _ _ _ _ _ _ (co_space _ _ _ _ _ _ C) a La) as (o & G & _). exists o, o. auto. }
    destruct cands as [|c0 cs] eqn:Ec.
    - destruct (co_cands _ _ _ _ _ _ C eq_refl) as (T1 & T2 & T3).
      assert (TI : forall a, L a -> tgt (mem h) a = a).
      { intros a La. destruct (co_old _ _ _ _ _ _ C a La) as (_ & o & _ & G & _). unfold tgt. rewrite G, (T3 a o La G). auto. }
      assert (MI : forall vs, (forall a, In (VPtr a) vs -> L a) -> map (mapv (tgt (mem h))) vs = vs).
      { induction vs as [|v vs IH]; intros HL; auto. cbn. rewrite IH by (intros; apply HL; right; auto). f_equal.
        destruct v as [n|a]; auto. cbn. rewrite TI; auto. apply HL; left; auto. }
      assert (FE : finalise_evacuation (set_mem h (mem h)) = h).
      { unfold finalise_evacuation. cbn. rewrite T1, T2. cbn. rewrite app_nil_r. destruct h; cbn in *; congruence. }
      exists (flip_mark_state (defer_sweep h)), visited, (tgt (mem h)). rewrite MI by auto.
      assert (HT : mark_phase dbg [] [] h0 roots = mark_phase dbg [] pinned h0 roots).
      { unfold mark_phase. destruct (scan (reset_region_marks h0) roots) as [[h1 q]|]; auto.
        generalize (length (mem h1)) ([] : list addr). intros n. revert h1 q.
        induction n as [|n IH]; intros h1 q v; cbn [trace]; destruct q; auto.
        unfold try_evacuate. rewrite is_candidate_nil. cbn [andb].
        destruct (mget (mem h1) a) as [o|]; auto. destruct (scan h1 (o_fields o)) as [[h2 q2]|]; auto. }
      split. { unfold collect, collect_mark_in_place. rewrite HT, E. auto. }
      split; auto. split. { intros a b Ia Ib. rewrite !TI by auto. auto. }
      destruct (wf_final h visited (mem h)) as (Wf & Cf). { rewrite Ec. exact C. } { auto. }
      rewrite FE in Wf, Cf. split; auto. split; auto. split; [|split; [cbn; rewrite (co_ms _ _ _ _ _ _ C); auto|auto]].
      intros a o Ia G. destruct (tgt_obj h visited a o) as (p & Gp & X1 & X2 & _); auto. { rewrite Ec. exact C. }
      exists p. split; auto. split; auto. rewrite MI; auto. intros b Hb. eapply CL; eauto.
    - rewrite <- Ec in *.
      destruct (update_all_spec h visited C visited (mem h) ND) as (m' & E' & H' & D & _); auto.
      { intros a o0 Ia G0. destruct (tgt_obj h visited a o0 C Ia G0) as (p & Gp & _ & X2 & _). exists p. auto. }
      exists (flip_mark_state (defer_sweep (finalise_evacuation (set_mem h m')))), visited, (tgt (mem h)).
      split.
      { unfold collect. rewrite Ec at 1. unfold collect_with_evacuation. rewrite E.
        rewrite (forward_vals_spec h visited (mem h) roots C HR) by auto. rewrite E'. auto. }
      split; auto. split. { intros a b Ia Ib. eapply tgt_inj; eauto. }
      destruct (wf_final h visited m' C H') as (Wf & Cf). split; auto. split; auto.
      split; [|split; [cbn; rewrite (co_ms _ _ _ _ _ _ C); auto|auto]].
      intros a o Ia G. destruct (D a o Ia G) as (p & Gp & X). exists p. split; auto. split; auto.
      destruct (tgt_obj h visited a o C Ia G) as (q & Gq & X1 & _).
      destruct (H' (tgt (mem h) a)) as (q' & p' & Gq' & Gp' & X2 & _); [eapply tgt_live; eauto|]. congruence.
  Qed.
End Collect.
