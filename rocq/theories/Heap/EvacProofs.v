From Coq Require Import NArith ZArith List Bool Lia ZifyN ZifyNat ZifyBool.
From Verif.Heap Require Import Lines LinesSpec LinesProofs Model Spec HeapProofs AllocProofs TraceProofs.
Import ListNotations.
Local Open Scope N_scope.
Ltac Zify.zify_post_hook ::= Z.div_mod_to_equations.
Local Arguments N.add _ _ : simpl never.
Local Arguments N.sub _ _ : simpl never.
Local Arguments block_new _ : simpl never.

(** No object begins where bytes have just been overwritten. *)
Lemma mget_clobber_none m b lo hi a : fst a = b -> HEADER <= snd a -> snd a - HEADER = lo -> lo < hi ->
  mget (clobber m b lo hi) a = None.
Proof.
  intros E H1 H2 H3. unfold mget. destruct (find _ (clobber m b lo hi)) as [[c o]|] eqn:F; auto. exfalso.
  apply find_some in F. destruct F as (I & Q). cbn in Q. apply addr_eqb_eq in Q. subst c.
  unfold clobber in I. apply filter_In in I. destruct I as (_ & I). unfold overlaps in I. cbn in I.
  unfold HEADER in *. rewrite E, N.eqb_refl in I. cbn [andb] in I.
  rewrite (proj2 (N.ltb_lt _ _)) in I by lia. rewrite (proj2 (N.ltb_lt _ _)) in I by lia. discriminate.
Qed.

Lemma space_mono act uns rst lobs fr m (P Q : addr -> Prop) : space act uns rst lobs fr m P ->
  (forall a, Q a -> P a) -> space act uns rst lobs fr m Q.
Proof.
  intros [U F Sh V A N D] Sub. constructor; auto.
  - intros k b p x K Lb. eauto.
  - intros k b p x K Lb. eauto.
  - intros b c p q x Lb Lc. eauto.
Qed.

Section Evac.
  Variables (dbg : bool) (h0 : heap) (L : addr -> Prop) (cands : list nat) (pinned : list N).
  Hypothesis W0 : wf h0 L.
  Hypothesis C0 : clean h0 L.
  Hypothesis CL : closed (mem h0) L.
  Notation core := (core h0 L cands pinned).

  (** A step in the target keeps everything the collector relies on. *)
  Lemma target_core h ml h' : cands <> [] -> core h ml -> target_step (ext_live L h) h h' -> core h' ml.
  Proof.
    intros NC [c1 c2 c3 c4 c5 c6 c7 c8 c9 c10 c11 c12 c13 c14 c15 c16 cp c17] [t1 t2 t3 t4 t5 t6 t7 t8 t9 t10 t11].
    assert (EO : old h' = old h) by (unfold old, actives; congruence).
    assert (GL : forall a, L a -> mget (mem h') a = mget (mem h) a) by (intros a La; apply t11; left; auto).
    assert (Ev : forall k', In k' (evs h') -> fresh h0 <= base k').
    { intros k' K'. destruct (proj2 t9 k' K') as [(k & K & E1 & E2)|G]; [rewrite E1; auto|lia]. }
    assert (EX : forall a, ext_live L h' a -> ext_live L h a).
    { intros a [La|(b & o & Lb & G & F)]; [left; auto|]. right. exists b, o. rewrite GL in G by auto. auto. }
    constructor; auto.
    - rewrite t1; auto.
    - rewrite t2; auto.
    - rewrite t3; auto.
    - rewrite t4; auto.
    - rewrite t5; auto.
    - congruence.
    - congruence.
    - lia.
    - eapply space_mono; eauto.
    - intros a La. rewrite GL by auto. auto.
    - intros a o k x Ia Ga. rewrite GL in Ga by auto. rewrite EO. eauto.
    - intros k l. rewrite EO. intros K Hl. destruct (c14 k l K Hl) as (a & o & x & I & G & R). exists a, o, x.
      rewrite GL by auto. auto.
    - intros a o c La Ga Fa. rewrite GL in Ga by auto. destruct (c15 a o c La Ga Fa) as (R0 & p & Gp & R1 & R2 & R3 & R4 & R5 & R6).
      split; auto. exists p. rewrite t11 by (right; exists a, o; auto). split; auto. split; auto. split; auto. split; auto. split; auto.
      destruct R5 as (k & K & Ek). split.
      + destruct (proj1 t9 k K) as (k' & K' & E1 & E2). exists k'. split; auto. congruence.
      + intros k' x K' E B. destruct (proj2 t9 k' K') as [(k2 & K2 & E1 & E2)|G].
        * rewrite E2. apply (R6 k2); auto; congruence.
        * exfalso. assert (base k < fresh h); [|lia]. apply (sp_fresh _ _ _ _ _ _ _ c10).
          unfold evs in K. apply in_app_iff in K. rewrite map_app, cnt_app.
          destruct K as [K|K]; apply cnt_base in K; lia.
    - intros a b o p c La Lb Ga Gb. rewrite GL in Ga, Gb by auto. eauto.
    - intros a o c La Ga. rewrite GL in Ga by auto. eauto.
    - intros E. contradiction.
  Qed.

  Lemma evacuate_core h ml a : cands <> [] -> existsb (N.eqb (fst a)) pinned = false -> core h ml -> In a ml ->
    exists h', evacuate dbg h a = Some h' /\ core h' ml.
  Proof.
    intros NC NP C Ia. assert (La : L a) by (apply (co_marked _ _ _ _ _ _ C); auto).
    destruct (co_old _ _ _ _ _ _ C a La) as (o0 & o & G0 & G & E1 & E2 & M1 & _). specialize (M1 Ia).
    unfold evacuate. rewrite G. destruct (o_fwd o) as [c|] eqn:Fo; [exists h; auto|].
    set (size := (HEADER + o_len o + 15) / 16 * 16).
    assert (Hs : HEADER + o_len o <= size) by (unfold size; lia).
    pose proof (target_spec dbg (ext_live L h) h size (co_space _ _ _ _ _ _ C)) as T.
    destruct (bump_allocate_in_target dbg h size) as [h1 r]. destruct T as (T & P).
    pose proof (target_core _ _ _ NC C T) as C1.
    destruct r as [[b off]|]; [|exists h1; auto].
    destruct (P b off eq_refl) as (k & K1 & K2 & K3 & K4 & K5). clear P. clearbody size.
    pose proof T as [_ _ _ _ _ _ t7 _ _ _ t11].
    assert (GL : forall x, ext_live L h x -> mget (mem h1) x = mget (mem h) x) by (intros x Lx; apply t11; auto).
    assert (G1 : mget (mem h1) a = Some o) by (rewrite GL; auto; left; auto).
    set (m1 := clobber (mem h1) b off (off + HEADER + o_len o)).
    pose proof (ts_space _ _ _ T) as S1. rewrite K1 in S1. cbn [olist] in S1.
    assert (AG : agree (ext_live L h) (mem h1) m1).
    { intros x Lx. destruct (sp_live _ _ _ _ _ _ _ S1 x Lx) as (p & Gp & Hp & _). rewrite Gp.
      apply mget_clobber; auto. { unfold HEADER; lia. } intros Ex y By Q. apply (K5 x p y); auto. lia. }
    assert (Gm : mget m1 a = Some o) by (rewrite AG; [auto|left; auto]). rewrite Gm.
    set (a' := (b, off + HEADER)). set (copy := mkObj (mark_state h1) (o_len o) None (o_fields o)).
    set (fo := mkObj (o_mark o) (o_len o) (Some a') (o_fields o)).
    set (f := marking b off (HEADER + o_len o)). assert (Gf : grows f) by apply marking_grows.
    set (m2 := mset ((a', copy) :: m1) a fo).
    eexists. split; [reflexivity|]. change (mark_region_in_block (set_mem h1 m2) b off (HEADER + o_len o)) with (map_blocks f (set_mem h1 m2)).
    set (h2 := set_mem h1 m2).
    assert (Na : mget m1 a' = None).
    { apply mget_clobber_none; auto; cbn; unfold HEADER; lia. }
    assert (Bk : fresh h0 <= b).
    { rewrite <- K2. apply (co_evs _ _ _ _ _ _ C1). unfold evs. rewrite K1. left; auto. }
    pose proof (live_below h0 L W0 a La) as Ba.
    assert (Naa : a <> a') by (intros ->; cbn in Ba; lia).
    assert (Gc : mget ((a', copy) :: m1) a = Some o) by (rewrite mget_cons, addr_eqb_neq by auto; auto).
    assert (M2a : mget m2 a = Some fo) by (apply (mget_mset_eq _ _ _ _ Gc)).
    assert (M2c : mget m2 a' = Some copy).
    { unfold m2. rewrite mget_mset_ne by auto. rewrite mget_cons, addr_eqb_refl. auto. }
    assert (M2o : forall x, x <> a -> ext_live L h x -> mget m2 x = mget (mem h1) x).
    { intros x Nx Lx. unfold m2. rewrite mget_mset_ne by auto. rewrite mget_cons, addr_eqb_neq; [apply AG; auto|].
      intros <-. destruct (sp_live _ _ _ _ _ _ _ S1 _ Lx) as (p & Gp & _). rewrite <- AG in Gp by auto. congruence. }
    assert (ExL : forall x, ext_live L h1 x -> ext_live L h x).
    { intros x [Lx|(y & p & Ly & Gy & Fy)]; [left; auto|]. right. exists y, p. rewrite GL in Gy by (left; auto). auto. }
    assert (SP : space [k] [] (filled h1 ++ old h1) (lobs h1) (fresh h1) m2 (fun x => x = a' \/ ext_live L h x)).
    { eapply space_remark; [apply (space_add k [] [] _ _ _ m1 (ext_live L h) a' copy)|exact Gc|reflexivity|auto].
      - eapply space_agree; eauto.
      - auto.
      - cbn. auto.
      - cbn. unfold HEADER. lia.
      - cbn. lia.
      - cbn. unfold HEADER in *. lia.
      - intros x p y Lx Gx Ex By By'. rewrite AG in Gx by auto. apply (K5 x p y); auto; [congruence|].
        unfold bytes_of, HEADER in By. cbn in By. unfold HEADER in *. lia. }
    assert (Cp : forall x p c, L x -> mget m2 x = Some p -> o_fwd p = Some c ->
                 (x = a /\ c = a' /\ p = fo) \/ (x <> a /\ mget (mem h1) x = Some p)).
    { intros x p c Lx Gx Fx. destruct (addr_dec x a) as [->|Nx].
      - left. rewrite M2a in Gx. injection Gx as <-. cbn in Fx. injection Fx as <-. auto.
      - right. rewrite M2o in Gx by (auto; left; auto). auto. }
    assert (kold : forall j, In j (old h1) -> base j <> b).
    { intros j J E. pose proof (sp_unique _ _ _ _ _ _ _ S1 b) as U. cbn [map] in U. rewrite cnt_cons, K2 in U.
      unfold one in U. rewrite N.eqb_refl, map_app, cnt_app in U. apply cnt_base in J. rewrite E in J. lia. }
    pose proof C1 as [c1 c2 c3 c4 c5 c6 c7 c8 c9 c10 c11 c12 c13 c14 c15 c16 cp c17].
    constructor.
    - cbn. rewrite skel_map; auto.
    - cbn. rewrite skel_map; auto.
    - cbn. rewrite skel_maps; auto.
    - cbn. rewrite skel_maps; auto.
    - cbn. rewrite skel_maps; auto.
    - auto.
    - auto.
    - auto.
    - rewrite evs_map. intros j J. apply in_map_iff in J. destruct J as (k0 & <- & J). rewrite grows_base by auto. auto.
    - rewrite old_map. cbn. rewrite olist_map. change (@nil bblock) with (map f []). rewrite <- map_app.
      apply space_map; auto. change (old h2) with (old h1). rewrite K1. cbn [olist].
      eapply space_mono; [exact SP|]. intros x [Lx|(y & p & Ly & Gy & Fy)]; [right; left; auto|].
      cbn in Gy. destruct (Cp y p x Ly Gy Fy) as [(_ & -> & _)|(_ & Gy1)]; [left; auto|right].
      apply ExL. right. exists y, p. auto.
    - auto.
    - intros x Lx. destruct (c12 x Lx) as (q0 & q & Q0 & Q & Q1 & Q2 & Q3 & Q4). exists q0. cbn [mem map_blocks h2 set_mem].
      destruct (addr_dec x a) as [->|Nx].
      + exists fo. split; auto. split; auto. cbn. split; [congruence|]. split; [congruence|]. split; auto. intros; contradiction.
      + exists q. rewrite M2o by (auto; left; auto). exact (conj Q0 (conj Q (conj Q1 (conj Q2 (conj Q3 Q4))))).
    - rewrite old_map. intros x p j y Ix Gx J Ex By. apply in_map_iff in J. destruct J as (k0 & <- & J).
      rewrite grows_base in Ex by auto. apply (gr_lines f Gf). change (mget m2 x = Some p) in Gx. destruct (addr_dec x a) as [->|Nx].
      + rewrite M2a in Gx. injection Gx as <-. exact (c13 a o k0 y Ix G1 J Ex By).
      + rewrite M2o in Gx by (auto; left; auto). exact (c13 x p k0 y Ix Gx J Ex By).
    - rewrite old_map. intros j l J Hl. apply in_map_iff in J. destruct J as (k0 & <- & J). rewrite grows_base by auto.
      assert (Hl' : lines k0 l = true).
      { unfold f, marking in Hl. pose proof (kold k0 J) as Nb. apply N.eqb_neq in Nb. rewrite Nb in Hl. auto. }
      destruct (c14 k0 l J Hl') as (x & p & y & Ix & Gx & R1 & R2 & R3). cbn [mem map_blocks h2 set_mem].
      destruct (addr_dec x a) as [->|Nx].
      + exists a, fo, y. split; auto. split; auto. split; auto. split; auto. assert (p = o) by congruence. subst p. exact R2.
      + exists x, p, y. rewrite M2o by (auto; left; auto). auto.
    - intros x p c Lx Gx Fx. cbn [mem map_blocks h2 set_mem] in *. rewrite evs_map. change (evs h2) with (evs h1).
      destruct (Cp x p c Lx Gx Fx) as [(-> & -> & ->)|(Nx & Gx1)].
      + split; auto. exists copy. split; auto. split; [exact c7|]. split; auto. split; auto. split; auto.
        assert (Ik : In k (evs h1)) by (unfold evs; rewrite K1; left; auto). split.
        * exists (f k). split; [apply in_map; auto|]. rewrite grows_base by auto. auto.
        * intros j y J Ej By. apply in_map_iff in J. destruct J as (k0 & <- & J). rewrite grows_base in Ej by auto.
          unfold f. replace b with (fst a') by auto. replace off with (snd a' - HEADER) by (cbn; lia).
          apply (marking_lines k0 a' copy); auto; cbn; unfold HEADER in *; lia.
      + destruct (c15 x p c Lx Gx1 Fx) as (R0 & q & Gq & R1 & R2 & R3 & R4 & R5 & R6). split; auto. exists q.
        assert (Nc : c <> a) by (intros ->; lia).
        rewrite M2o; auto; [|apply ExL; right; exists x, p; auto].
        split; auto. split; auto. split; auto. split; auto. split; auto. split.
        * destruct R5 as (j & J & Ej). exists (f j). split; [apply in_map; auto|]. rewrite grows_base; auto.
        * intros j y J Ej By. apply in_map_iff in J. destruct J as (k0 & <- & J). rewrite grows_base in Ej by auto.
          apply (gr_lines f Gf). eapply R6; eauto.
    - intros x y p q c Lx Ly Gx Gy Fx Fy. cbn [mem map_blocks h2 set_mem] in *.
      assert (Fresh : forall z r, z <> a -> L z -> mget (mem h1) z = Some r -> o_fwd r = Some a' -> False).
      { intros z r Nz Lz Gz Fz. assert (X : ext_live L h a') by (apply ExL; right; exists z, r; auto).
        destruct (sp_live _ _ _ _ _ _ _ S1 _ X) as (s & Gs & _). rewrite <- AG in Gs by auto. congruence. }
      destruct (Cp x p c Lx Gx Fx) as [(-> & -> & ->)|(Nx & Gx1)]; destruct (Cp y q _ Ly Gy Fy) as [(-> & E & ->)|(Ny & Gy1)]; auto.
      + exfalso. eauto.
      + subst c. exfalso. eauto.
      + apply (c16 x y p q c); auto.
    - intros x p c Lx Gx Fx. cbn [mem map_blocks h2 set_mem] in *.
      destruct (Cp x p c Lx Gx Fx) as [(-> & _ & _)|(_ & Gx1)]; auto. eapply cp; eauto.
    - intros; contradiction.
  Qed.

  Lemma is_candidate_nil h b : is_candidate h [] b = false.
  Proof. reflexivity. Qed.

  Lemma try_evacuate_core h ml a : core h ml -> In a ml ->
    exists h', try_evacuate dbg h cands pinned a = Some h' /\ core h' ml.
  Proof.
    intros C Ia. unfold try_evacuate.
    destruct (is_candidate h cands (fst a) && negb (existsb (N.eqb (fst a)) pinned)) eqn:E; [|exists h; auto].
    apply andb_true_iff in E. destruct E as (E & Np). apply negb_true_iff in Np.
    apply evacuate_core; auto. intros Ec. rewrite Ec in E. discriminate.
  Qed.

  Lemma L_bounded ml : NoDup ml -> (forall a, In a ml -> L a) -> (length ml <= length (mem h0))%nat.
  Proof.
    intros ND HL. rewrite <- (map_length fst (mem h0)). apply NoDup_incl_length; auto.
    intros a Ia. destruct (sp_live _ _ _ _ _ _ _ (wf_space _ _ W0) a (HL a Ia)) as (o & G & _).
    unfold mget in G. destruct (find _ (mem h0)) as [[c p]|] eqn:F; [|discriminate].
    apply find_some in F. destruct F as (I & Q). cbn in Q. apply addr_eqb_eq in Q. subst c.
    apply in_map_iff. exists (a, p). auto.
  Qed.

  (** The marking loop terminates with everything reachable marked, and nothing else. *)
  Lemma trace_spec roots : forall fuel h queue visited,
    (forall a, In (VPtr a) roots -> L a) ->
    core h (visited ++ queue) -> NoDup (visited ++ queue) ->
    (forall a, In a (visited ++ queue) -> reach (mem h0) roots a) ->
    (forall a, In (VPtr a) roots -> In a (visited ++ queue)) ->
    (forall a o b, In a visited -> mget (mem h0) a = Some o -> In (VPtr b) (o_fields o) -> In b (visited ++ queue)) ->
    (length (mem h0) <= fuel + length visited)%nat ->
    exists h' visited', trace dbg fuel cands pinned h queue visited = Some (h', visited') /\
      core h' visited' /\ NoDup visited' /\ (forall a, In a visited' <-> reach (mem h0) roots a).
  Proof.
    induction fuel as [|fuel IH]; intros h queue visited RL C ND Rch Rt Cl Fu.
    - destruct queue as [|a queue].
      + cbn. rewrite app_nil_r in *. exists h, visited. split; auto. split; auto. split; auto.
        intros a. split; auto. induction 1 as [a Ha|a b o Ha IHa G I]; auto. eapply Cl; eauto.
      + exfalso. pose proof (L_bounded _ ND (co_marked _ _ _ _ _ _ C)) as B. rewrite app_length in B. cbn in *. lia.
    - destruct queue as [|a queue].
      + cbn. rewrite app_nil_r in *. exists h, visited. split; auto. split; auto. split; auto.
        intros a. split; auto. induction 1 as [a Ha|a b o Ha IHa G I]; auto. eapply Cl; eauto.
      + cbn [trace]. assert (Ia : In a (visited ++ a :: queue)) by (apply in_app_iff; right; left; auto).
        destruct (try_evacuate_core h _ a C Ia) as (h1 & E1 & C1). rewrite E1.
        assert (La : L a) by (apply (co_marked _ _ _ _ _ _ C); auto).
        destruct (co_old _ _ _ _ _ _ C1 a La) as (o0 & o & G0 & G & _ & Ef & _). rewrite G, Ef.
        destruct (scan_core h0 L cands pinned W0 (o_fields o0) h1 _ C1 ND) as (h2 & q & E2 & C2 & ND2 & Q1 & Q2 & _).
        { intros b Hb. eapply CL; eauto. }
        rewrite E2.
        assert (EL : (visited ++ [a]) ++ queue ++ q = (visited ++ a :: queue) ++ q) by (rewrite <- !app_assoc; reflexivity).
        apply IH; rewrite ?EL; auto.
        * intros b Hb. apply in_app_iff in Hb. destruct Hb as [Hb|Hb]; auto.
          eapply reach_step; [apply Rch; exact Ia|exact G0|auto].
        * intros b Hb. apply in_app_iff. left. auto.
        * intros x p b Ix Gx Hb. apply in_app_iff in Ix. destruct Ix as [Ix|[<-|[]]].
          -- apply in_app_iff. left. eapply Cl; eauto.
          -- assert (p = o0) by congruence. subst p. auto.
        * rewrite app_length. cbn. lia.
  Qed.

  (** Resetting the line marks starts a collection. *)
  Lemma skel_reset k : skel (reset_marks k) = skel k. Proof. reflexivity. Qed.
  Lemma core_init : core (reset_region_marks h0) [].
  Proof.
    assert (EO : old (reset_region_marks h0) = map reset_marks (old h0)).
    { unfold old, actives. cbn. rewrite !map_app. destruct (head h0), (overflow h0); auto. }
    assert (EB : forall l, map base (map reset_marks l) = map base l) by (intros; rewrite map_map; apply map_ext; auto).
    assert (ES : forall l, map skel (map reset_marks l) = map skel l) by (intros; rewrite map_map; apply map_ext; auto).
    assert (NF : forall a, copies L h0 a -> False).
    { intros a (b & o & Lb & G & F). destruct (C0 b o Lb G). congruence. }
    constructor.
    - cbn. destruct (head h0); auto.
    - cbn. destruct (overflow h0); auto.
    - apply ES.
    - apply ES.
    - apply ES.
    - auto.
    - auto.
    - cbn. lia.
    - unfold evs. cbn. rewrite (wf_target _ _ W0), (wf_filled _ _ W0). contradiction.
    - cbn. rewrite (wf_target _ _ W0), (wf_filled _ _ W0), EO. cbn [olist app].
      apply space_mono with (P := L); [|intros a [La|Ca]; auto; exfalso; eapply NF; eauto].
      apply space_ext with (act := []) (uns := []) (rst := old h0); auto.
      + eapply space_ext; [exact (wf_space _ _ W0)|contradiction|contradiction|]. intros x. unfold old. cnts.
      + intros x. rewrite EB. auto.
    - contradiction.
    - intros a La. destruct (sp_live _ _ _ _ _ _ _ (wf_space _ _ W0) a La) as (o & G & _). exists o, o. cbn.
      split; auto. split; auto. split; auto. split; auto. split; [contradiction|]. intros _. apply (C0 a o La G).
    - contradiction.
    - rewrite EO. intros k l K Hl. apply in_map_iff in K. destruct K as (k0 & <- & _). discriminate.
    - intros a o c La G F. cbn in G. destruct (C0 a o La G). congruence.
    - intros a b o p c La Lb Ga Gb F. cbn in Ga. destruct (C0 a o La Ga). congruence.
    - intros a o c La Ga F. cbn in Ga. destruct (C0 a o La Ga). congruence.
    - intros _. cbn. split; [apply (wf_target _ _ W0)|]. split; [apply (wf_filled _ _ W0)|].
      intros a o La G. apply (C0 a o La G).
  Qed.

  Lemma mark_phase_spec roots : (forall a, In (VPtr a) roots -> L a) ->
    exists h' visited, mark_phase dbg cands pinned h0 roots = Some (h', visited) /\
      core h' visited /\ NoDup visited /\ (forall a, In a visited <-> reach (mem h0) roots a).
  Proof.
    intros RL. unfold mark_phase.
    destruct (scan_core h0 L cands pinned W0 roots _ _ core_init (NoDup_nil _) RL) as (h1 & q & E & C1 & ND & Q1 & Q2 & Len).
    rewrite E. cbn [app] in *. apply trace_spec; cbn [app]; auto.
    - intros a Ia. apply reach_root. auto.
    - contradiction.
    - rewrite Len. cbn. lia.
  Qed.
End Evac.
