From Coq Require Import NArith ZArith List Bool Lia ZifyN ZifyNat ZifyBool.
From Verif.Heap Require Import Lines LinesSpec LinesProofs Model Spec HeapProofs AllocProofs.
Import ListNotations.
Local Open Scope N_scope.
Local Arguments N.add _ _ : simpl never.
Local Arguments N.sub _ _ : simpl never.
Local Arguments block_new _ : simpl never.

Definition skel (k : bblock) : N * N * N := (base k, lower k, cursor k).
Definition old (h : heap) : list bblock := actives h ++ unswept h ++ rest h.
Definition evs (h : heap) : list bblock := olist (evac_target h) ++ filled h.

(** A change of blocks that only adds line marks. *)
Record grows (f : bblock -> bblock) : Prop := {
  gr_skel : forall k, skel (f k) = skel k;
  gr_lines : forall k l, lines k l = true -> lines (f k) l = true }.
Lemma grows_base f k : grows f -> base (f k) = base k.
Proof. intros G. pose proof (gr_skel f G k) as E. unfold skel in E. congruence. Qed.
Lemma map_base f l : grows f -> map base (map f l) = map base l.
Proof. intros G. rewrite map_map. apply map_ext. intros; apply grows_base; auto. Qed.
Lemma grows_usable f k x : grows f -> usable (f k) x -> usable k x.
Proof.
  intros G [U1 U2]. pose proof (gr_skel f G k) as E. unfold skel in E.
  assert (lower (f k) = lower k) as E1 by congruence. assert (cursor (f k) = cursor k) as E2 by congruence.
  rewrite E1, E2 in *. split; auto. destruct U2 as [U2|U2]; auto. right.
  destruct (lines k (x / LINE)) eqn:E3; auto. apply (gr_lines f G) in E3. congruence.
Qed.
Lemma space_map f act uns rst lobs fr m L : grows f -> space act uns rst lobs fr m L ->
  space (map f act) (map f uns) (map f rst) lobs fr m L.
Proof.
  intros G [U F S V A N D]. constructor; rewrite ?map_base by auto; auto.
  - intros k K. apply in_map_iff in K. destruct K as (k0 & <- & K). specialize (S k0 K).
    pose proof (gr_skel f G k0) as E. unfold skel, shape in *. destruct S. split; congruence.
  - intros k a o x K La Ga E B Us. apply in_map_iff in K. destruct K as (k0 & <- & K).
    rewrite grows_base in E by auto. apply grows_usable in Us; auto. eapply A; eauto.
  - intros k a o x K La Ga E B. apply in_map_iff in K. destruct K as (k0 & <- & K).
    rewrite grows_base in E by auto. apply (gr_lines f G). eapply N; eauto.
Qed.

Definition marking (b off bytes : N) (k : bblock) : bblock := if base k =? b then mark_region k off bytes else k.
Lemma marking_grows b off bytes : grows (marking b off bytes).
Proof.
  constructor; intros k.
  - unfold marking, skel. destruct (base k =? b); auto.
    destruct (mark_region_frame k off bytes) as (-> & -> & ->). auto.
  - intros l H. unfold marking. destruct (base k =? b); auto. apply mark_region_mono; auto.
Qed.
(** Marking an object's region marks the lines of its bytes, and no others. *)
Lemma marking_lines k a o x : base k = fst a -> HEADER <= snd a -> snd a + o_len o <= BLOCK -> bytes_of a o x ->
  lines (marking (fst a) (snd a - HEADER) (HEADER + o_len o) k) (x / LINE) = true.
Proof.
  intros E H1 H2 B. unfold marking. rewrite E, N.eqb_refl. unfold bytes_of, HEADER in *. apply mark_region_lines.
  - lia.
  - lia.
  - right. exists x. split; auto. lia.
Qed.
Lemma marking_only k a o l : HEADER <= snd a -> snd a + o_len o <= BLOCK ->
  lines (marking (fst a) (snd a - HEADER) (HEADER + o_len o) k) l = true ->
  lines k l = true \/ (base k = fst a /\ exists x, bytes_of a o x /\ x / LINE = l).
Proof.
  intros H1 H2. unfold marking. destruct (N.eqb_spec (base k) (fst a)); auto. intros H.
  unfold HEADER in *. apply mark_region_lines in H; [|lia|lia]. destruct H as [H|(x & H & <-)]; auto.
  right. split; auto. exists x. split; auto. unfold bytes_of, HEADER. lia.
Qed.

(** A heap ready for collection: nothing marked with the current state, nothing forwarded. *)
Definition clean (h : heap) (L : addr -> Prop) : Prop :=
  forall a o, L a -> mget (mem h) a = Some o -> o_mark o = negb (mark_state h) /\ o_fwd o = None.
Definition closed (m : memory) (L : addr -> Prop) : Prop :=
  forall a o b, L a -> mget m a = Some o -> In (VPtr b) (o_fields o) -> L b.

Section Trace.
  Variables (dbg : bool) (h0 : heap) (L : addr -> Prop) (cands : list nat) (pinned : list N).
  Hypothesis W0 : wf h0 L.
  Hypothesis C0 : clean h0 L.
  Hypothesis CL : closed (mem h0) L.

  Definition copies (h : heap) (c : addr) : Prop := exists a o, L a /\ mget (mem h) a = Some o /\ o_fwd o = Some c.
  Definition ext_live (h : heap) (a : addr) : Prop := L a \/ copies h a.

  Record core (h : heap) (ml : list addr) : Prop := {
    co_head : option_map skel (head h) = option_map skel (head h0);
    co_overflow : option_map skel (overflow h) = option_map skel (overflow h0);
    co_recycled : map skel (recycled h) = map skel (recycled h0);
    co_unswept : map skel (unswept h) = map skel (unswept h0);
    co_rest : map skel (rest h) = map skel (rest h0);
    co_lobs : lobs h = lobs h0;
    co_ms : mark_state h = mark_state h0;
    co_fresh : fresh h0 <= fresh h;
    co_evs : forall k, In k (evs h) -> fresh h0 <= base k;
    co_space : space (olist (evac_target h)) [] (filled h ++ old h) (lobs h) (fresh h) (mem h) (ext_live h);
    co_marked : forall a, In a ml -> L a;
    co_old : forall a, L a -> exists o p, mget (mem h0) a = Some o /\ mget (mem h) a = Some p /\
      o_len p = o_len o /\ o_fields p = o_fields o /\
      (In a ml -> o_mark p = mark_state h0) /\ (~ In a ml -> o_mark p = negb (mark_state h0) /\ o_fwd p = None);
    co_lines : forall a o k x, In a ml -> mget (mem h) a = Some o -> In k (old h) -> base k = fst a ->
      bytes_of a o x -> lines k (x / LINE) = true;
    co_precise : forall k l, In k (old h) -> lines k l = true ->
      exists a o x, In a ml /\ mget (mem h) a = Some o /\ fst a = base k /\ bytes_of a o x /\ x / LINE = l;
    co_copy : forall a o c, L a -> mget (mem h) a = Some o -> o_fwd o = Some c ->
      fresh h0 <= fst c /\
      exists p, mget (mem h) c = Some p /\ o_mark p = mark_state h0 /\ o_len p = o_len o /\
        o_fields p = o_fields o /\ o_fwd p = None /\
        (exists k, In k (evs h) /\ base k = fst c) /\
        (forall k x, In k (evs h) -> base k = fst c -> bytes_of c p x -> lines k (x / LINE) = true);
    co_inj : forall a b o p c, L a -> L b -> mget (mem h) a = Some o -> mget (mem h) b = Some p ->
      o_fwd o = Some c -> o_fwd p = Some c -> a = b;
    co_pinned : forall a o c, L a -> mget (mem h) a = Some o -> o_fwd o = Some c ->
      existsb (N.eqb (fst a)) pinned = false;
    co_cands : cands = [] -> evac_target h = None /\ filled h = [] /\
      (forall a o, L a -> mget (mem h) a = Some o -> o_fwd o = None) }.

  Lemma core_ext h ml ml' : (forall a, In a ml <-> In a ml') -> core h ml -> core h ml'.
  Proof.
    intros E []. constructor; auto.
    - intros a. rewrite <- E. auto.
    - intros a La. destruct (co_old0 a La) as (o & p & H1 & H2 & H3 & H4 & H5 & H6). exists o, p.
      rewrite <- E. repeat (split; auto); apply H6; auto.
    - intros a o k x. rewrite <- E. eauto.
    - intros k l K1 K2. destruct (co_precise0 k l K1 K2) as (a & o & x & I & J). exists a, o, x. rewrite <- E. auto.
  Qed.

  (** Live objects lie below the blocks the collection may add. *)
  Lemma live_below a : L a -> fst a < fresh h0.
  Proof.
    intros La. destruct (sp_live _ _ _ _ _ _ _ (wf_space _ _ W0) a La) as (o & _ & _ & I).
    apply (sp_fresh _ _ _ _ _ _ _ (wf_space _ _ W0)). lia.
  Qed.
  (** In a block, a live object fits; in no block, its lines do not matter. *)
  Lemma live_fits h ml a o : core h ml -> L a -> mget (mem h) a = Some o ->
    HEADER <= snd a /\ ((exists k, In k (old h) /\ base k = fst a) -> snd a + o_len o <= BLOCK).
  Proof.
    intros C La G. destruct (sp_live _ _ _ _ _ _ _ (co_space _ _ C) a (or_introl La)) as (p & Gp & H & I).
    assert (p = o) by congruence. subst p. split; auto. intros (k & K & E). destruct I as [[_ I]|I]; auto.
    exfalso. pose proof (sp_unique _ _ _ _ _ _ _ (co_space _ _ C) (fst a)) as U.
    rewrite map_app, cnt_app in U. pose proof (cnt_base _ _ K) as B. rewrite E in B. lia.
  Qed.

  Lemma skel_map f (o : option bblock) : grows f -> option_map skel (option_map f o) = option_map skel o.
  Proof. intros G. destruct o; cbn; auto. rewrite (gr_skel f G). auto. Qed.
  Lemma skel_maps f l : grows f -> map skel (map f l) = map skel l.
  Proof. intros G. rewrite map_map. apply map_ext, (gr_skel f G). Qed.
  Lemma olist_map {A B} (f : A -> B) o : olist (option_map f o) = map f (olist o).
  Proof. destruct o; auto. Qed.
  Lemma old_map f h : old (map_blocks f h) = map f (old h).
  Proof. unfold old, actives. cbn. rewrite !olist_map, !map_app. auto. Qed.
  Lemma evs_map f h : evs (map_blocks f h) = map f (evs h).
  Proof. unfold evs. cbn. rewrite olist_map, map_app. auto. Qed.

  (** Changing an old object's mark only. *)
  Lemma space_remark act uns rst lobs fr m (P Q : addr -> Prop) a o o' :
    space act uns rst lobs fr m P -> mget m a = Some o -> o_len o' = o_len o -> (forall b, Q b -> P b) ->
    space act uns rst lobs fr (mset m a o') Q.
  Proof.
    intros S G E Sub.
    assert (X : space act uns rst lobs fr (mset m a o') P).
    { eapply space_mem; eauto. intros b Pb. destruct (sp_live _ _ _ _ _ _ _ S b Pb) as (p & Gp & _). exists p.
      destruct (addr_eqb a b) eqn:Eab.
      - apply addr_eqb_eq in Eab. subst b. exists o'. rewrite (mget_mset_eq _ _ _ _ G). split; auto. split; auto. congruence.
      - exists p. rewrite mget_mset_ne; auto. intros ->. rewrite addr_eqb_refl in Eab. discriminate. }
    destruct X as [U F Sh V A N D]. constructor; auto.
    - intros k b p x K Lb. eauto.
    - intros k b p x K Lb. eauto.
    - intros b c p q x Lb Lc. eauto.
  Qed.

  Lemma addr_dec (a b : addr) : {a = b} + {a <> b}.
  Proof. decide equality; apply N.eq_dec. Qed.

  Lemma mark_core h ml a : core h ml -> L a ->
    (In a ml /\ mark h a = Some (h, false)) \/
    (~ In a ml /\ exists h', mark h a = Some (h', true) /\ core h' (a :: ml) /\ length (mem h') = length (mem h)).
  Proof.
    intros C La. destruct (co_old _ _ C a La) as (o0 & o & G0 & G & E1 & E2 & M1 & M2). unfold mark. rewrite G, (co_ms _ _ C).
    destruct (in_dec addr_dec a ml) as [I|I].
    { left. split; auto. rewrite (M1 I), eqb_reflx. auto. }
    right. split; auto. destruct (M2 I) as (M3 & F3). rewrite M3, eqb_negb1.
    set (o' := set_mark (mark_state h0) o).
    set (h1 := set_mem h (mset (mem h) a o')).
    set (f := marking (fst a) (snd a - HEADER) (HEADER + o_len o)).
    assert (Gf : grows f) by apply marking_grows.
    eexists. split; [reflexivity|]. change (mark_region_in_block h1 _ _ _) with (map_blocks f h1).
    destruct (live_fits _ _ _ _ C La G) as (Hh & Hf).
    assert (MG : forall b p, mget (mset (mem h) a o') b = Some p -> exists q, mget (mem h) b = Some q /\
                 o_len p = o_len q /\ o_fields p = o_fields q /\ o_fwd p = o_fwd q /\ (b <> a -> p = q) /\ (b = a -> p = o')).
    { intros b p Gb. destruct (addr_dec a b) as [<-|Ne].
      - rewrite (mget_mset_eq _ _ _ _ G) in Gb. injection Gb as <-. exists o. unfold o', set_mark. cbn. split; auto. split; auto. split; auto. split; auto. split; auto. congruence.
      - rewrite mget_mset_ne in Gb by auto. exists p. split; auto. split; auto. split; auto. split; auto. split; auto. congruence. }
    assert (OldL : forall k b x p, In k (old h) -> In b (a :: ml) -> mget (mset (mem h) a o') b = Some p -> base k = fst b ->
                   bytes_of b p x -> lines (f k) (x / LINE) = true).
    { intros k b x p K Ib Gb Eb B. destruct (MG b p Gb) as (q & Gq & El & _).
      assert (B' : bytes_of b q x) by (unfold bytes_of in *; congruence).
      destruct Ib as [<-|Ib].
      - assert (q = o) by congruence. subst q. apply marking_lines; auto. apply Hf. exists k; auto.
      - apply (gr_lines f Gf). eapply co_lines; eauto. }
    split; [|cbn; unfold mset; apply map_length].
    pose proof C as [c1 c2 c3 c4 c5 c6 c7 c8 c9 c10 c11 c12 c13 c14 c15 c16 cp c17].
    constructor.
    - cbn. rewrite skel_map; auto.
    - cbn. rewrite skel_map; auto.
    - cbn. rewrite skel_maps; auto.
    - cbn. rewrite skel_maps; auto.
    - cbn. rewrite skel_maps; auto.
    - auto.
    - auto.
    - auto.
    - rewrite evs_map. intros k K. apply in_map_iff in K. destruct K as (k0 & <- & K). rewrite grows_base by auto. auto.
    - rewrite old_map. cbn. rewrite olist_map. change (@nil bblock) with (map f []). rewrite <- map_app.
      apply space_map; auto. change (old h1) with (old h).
      eapply space_remark; [exact c10|exact G|reflexivity|].
      intros b [Lb|(c & p & Lc & Gc & Fc)]; [left; auto|right]. cbn in Gc. destruct (MG _ _ Gc) as (q & Gq & _ & _ & Fq & _).
      exists c, q. split; auto. split; auto. congruence.
    - intros b [<-|Ib]; auto.
    - intros b Lb. destruct (c12 b Lb) as (q0 & q & Q0 & Q & Q1 & Q2 & Q3 & Q4). exists q0. cbn [mem map_blocks h1 set_mem].
      destruct (addr_dec a b) as [<-|Ne].
      + exists o'. rewrite (mget_mset_eq _ _ _ _ G). assert (q = o) by congruence. subst q. unfold o', set_mark. cbn.
        do 4 (split; auto). split; [auto|]. intros NI. exfalso. apply NI. left; auto.
      + exists q. rewrite mget_mset_ne by auto. do 4 (split; auto). split.
        * intros [?|I']; [contradiction|auto].
        * intros NI. apply Q4. intros ?. apply NI. right; auto.
    - rewrite old_map. intros b p k x Ib Gb K Eb B. apply in_map_iff in K. destruct K as (k0 & <- & K).
      rewrite grows_base in Eb by auto. eapply OldL; eauto.
    - rewrite old_map. intros k l K Hl. apply in_map_iff in K. destruct K as (k0 & <- & K). rewrite grows_base by auto.
      assert (X : lines k0 l = true \/ (base k0 = fst a /\ exists x, bytes_of a o x /\ x / LINE = l)).
      { destruct (N.eq_dec (base k0) (fst a)) as [Eq|Ne].
        - apply marking_only in Hl; auto. apply Hf. exists k0; auto.
        - left. unfold f, marking in Hl. apply N.eqb_neq in Ne. rewrite Ne in Hl. auto. }
      cbn [mem map_blocks h1 set_mem]. destruct X as [X|(Eq & x & B & E)].
      + destruct (c14 k0 l K X) as (b & p & x & I1 & G1 & R1 & B1 & E4). destruct (addr_dec a b) as [<-|Ne]; [contradiction|].
        exists b, p, x. rewrite mget_mset_ne by auto. split; [right; auto|auto].
      + exists a, o', x. rewrite (mget_mset_eq _ _ _ _ G). split; [left; auto|auto].
    - intros b p c Lb Gb Fb. cbn [mem map_blocks h1 set_mem] in *. destruct (MG _ _ Gb) as (q & Gq & El & Ef & Ew & _).
      rewrite Ew in Fb. destruct (c15 b q c Lb Gq Fb) as (Fc & r & Gr & R1 & R2 & R3 & R4 & R5 & R6). split; auto.
      exists r. pose proof (live_below a La). rewrite mget_mset_ne by (intros <-; lia).
      split; auto. split; auto. split; [congruence|]. split; [congruence|]. split; auto. rewrite evs_map. split.
      + destruct R5 as (k & K & E). exists (f k). split; [apply in_map; auto|]. rewrite grows_base; auto.
      + intros k x K E B. apply in_map_iff in K. destruct K as (k0 & <- & K). rewrite grows_base in E by auto.
        apply (gr_lines f Gf). eapply R6; eauto.
    - intros b1 b2 p1 p2 c L1 L2 G1 G2 F1 F2. cbn [mem map_blocks h1 set_mem] in *.
      destruct (MG _ _ G1) as (q1 & Gq1 & _ & _ & Ew1 & _). destruct (MG _ _ G2) as (q2 & Gq2 & _ & _ & Ew2 & _).
      apply (c16 b1 b2 q1 q2 c); auto; congruence.
    - intros b p c Lb Gb Fb. cbn [mem map_blocks h1 set_mem] in *. destruct (MG _ _ Gb) as (q & Gq & El & Ef & Ew & _).
      apply (cp b q c); auto. congruence.
    - intros Ec. destruct (c17 Ec) as (T1 & T2 & T3). cbn. rewrite T1, T2. split; auto. split; auto.
      intros b p Lb Gb. destruct (MG _ _ Gb) as (q & Gq & _ & _ & Ew & _). rewrite Ew. eauto.
  Qed.

  Lemma scan_core : forall fs h ml, core h ml -> NoDup ml -> (forall b, In (VPtr b) fs -> L b) ->
    exists h' q, scan h fs = Some (h', q) /\ core h' (ml ++ q) /\ NoDup (ml ++ q) /\
      (forall b, In b q -> In (VPtr b) fs) /\ (forall b, In (VPtr b) fs -> In b (ml ++ q)) /\
      length (mem h') = length (mem h).
  Proof.
    induction fs as [|v fs IH]; intros h ml C ND HL; cbn [scan].
    - exists h, []. rewrite app_nil_r. split; auto. split; auto. split; auto. split; [contradiction|]. split; [contradiction|auto].
    - destruct v as [n|a].
      + destruct (IH h ml C ND) as (h' & q & E & C' & ND' & Q1 & Q2 & Q3). { intros; apply HL; right; auto. }
        exists h', q. split; auto. split; auto. split; auto. split; [intros; right; auto|]. split; auto.
        intros b [Hb|Hb]; [discriminate|auto].
      + destruct (mark_core h ml a C) as [(I & E)|(I & h1 & E & C1 & Len)]. { apply HL; left; auto. }
        * rewrite E. destruct (IH h ml C ND) as (h' & q & E' & C' & ND' & Q1 & Q2 & Q3). { intros; apply HL; right; auto. }
          rewrite E'. exists h', q. split; auto. split; auto. split; auto. split; [intros; right; auto|]. split; auto.
          intros b [Hb|Hb]; [|auto]. injection Hb as <-. apply in_app_iff; auto.
        * rewrite E. destruct (IH h1 (ml ++ [a])) as (h' & q & E' & C' & ND' & Q1 & Q2 & Q3).
          -- eapply core_ext; eauto. intros b. rewrite in_app_iff. cbn. tauto.
          -- apply NoDup_Add with (a := a) (l := ml). { pose proof (Add_app a ml []) as X. rewrite app_nil_r in X. exact X. } auto.
          -- intros; apply HL; right; auto.
          -- rewrite E'. exists h', (a :: q). rewrite <- app_assoc in *. cbn [app] in *. split; auto. split; auto. split; auto.
             split. { intros b [<-|Hb]; [left; auto|right; auto]. } split; [|congruence].
             intros b [Hb|Hb]; [|auto]. injection Hb as <-. apply in_app_iff. right; left; auto.
  Qed.

  (** ** Evacuation *)
  Definition evs_ext (h h' : heap) : Prop :=
    (forall k, In k (evs h) -> exists k', In k' (evs h') /\ base k' = base k /\ lines k' = lines k) /\
    (forall k', In k' (evs h') -> (exists k, In k (evs h) /\ base k' = base k /\ lines k' = lines k) \/ fresh h <= base k').
  Record target_step (E : addr -> Prop) (h h' : heap) : Prop := {
    ts_head : head h' = head h; ts_overflow : overflow h' = overflow h; ts_recycled : recycled h' = recycled h;
    ts_unswept : unswept h' = unswept h; ts_rest : rest h' = rest h; ts_lobs : lobs h' = lobs h;
    ts_ms : mark_state h' = mark_state h; ts_fresh : fresh h <= fresh h';
    ts_evs : evs_ext h h';
    ts_space : space (olist (evac_target h')) [] (filled h' ++ old h') (lobs h') (fresh h') (mem h') E;
    ts_agree : agree E (mem h) (mem h') }.
  Definition target_placed (E : addr -> Prop) (h' : heap) (size b o : N) : Prop :=
    exists k, evac_target h' = Some k /\ base k = b /\ cursor k = o /\ o + size <= BLOCK /\
      forall a p x, E a -> mget (mem h') a = Some p -> fst a = b -> bytes_of a p x -> ~ (o <= x < o + size).

  Lemma bump_in_lines h k size h' k' r : bump_in dbg h k size = (h', k', r) -> lines k' = lines k.
  Proof.
    unfold bump_in. destruct (bump k size) as [[b' r'] fills] eqn:B. intros [= _ <- _].
    destruct (bump_spec _ _ _ _ _ B) as ((E & _) & _). auto.
  Qed.
  Lemma evs_ext_trans h1 h2 h3 : fresh h1 <= fresh h2 -> evs_ext h1 h2 -> evs_ext h2 h3 -> evs_ext h1 h3.
  Proof.
    intros F [A1 B1] [A2 B2]. split.
    - intros k K. destruct (A1 k K) as (k2 & K2 & E1 & E2). destruct (A2 k2 K2) as (k3 & K3 & E3 & E4).
      exists k3. split; auto. split; congruence.
    - intros k3 K3. destruct (B2 k3 K3) as [(k2 & K2 & E1 & E2)|G]; [|right; lia].
      destruct (B1 k2 K2) as [(k1 & K1 & E3 & E4)|G]; [left; exists k1; split; auto; split; congruence|right; rewrite E1; auto].
  Qed.

  Definition retry_in (h : heap) (size : N) : heap * option addr :=
      let h := match evac_target h with
               | Some full => set_target h None (filled h ++ [full])
               | None => h
               end in
      let '(h, b) := new_block h in
      let '(h, b, r) := bump_in dbg h b size in
      (set_target h (Some b) (filled h), match r with Some o => Some (base b, o) | None => None end).
  Lemma retry_spec E h size :
    space (olist (evac_target h)) [] (filled h ++ old h) (lobs h) (fresh h) (mem h) E ->
    let '(h', r) := retry_in h size in
    target_step E h h' /\ (forall b o, r = Some (b, o) -> target_placed E h' size b o).
  Proof.
    intros S. unfold retry_in. set (h1 := match evac_target h with Some full => set_target h None (filled h ++ [full]) | None => h end).
    assert (X : head h1 = head h /\ overflow h1 = overflow h /\ recycled h1 = recycled h /\ unswept h1 = unswept h /\
                rest h1 = rest h /\ lobs h1 = lobs h /\ mark_state h1 = mark_state h /\ fresh h1 = fresh h /\ mem h1 = mem h /\
                evac_target h1 = None /\ (forall k, In k (filled h1) <-> In k (evs h)) /\
                space [] [] (filled h1 ++ old h1) (lobs h) (fresh h) (mem h) E).
    { unfold h1, evs. destruct (evac_target h) as [t|] eqn:Et; cbn.
      - repeat (split; [reflexivity|]). split. { intros k. rewrite in_app_iff. cbn. tauto. }
        eapply space_ext; eauto.
        + contradiction.
        + intros x. change (old (set_target h None (filled h ++ [t]))) with (old h). cnts.
      - repeat (split; [reflexivity|]). split; auto. split; [tauto|]. cbn in S. auto. }
    clearbody h1. destruct X as (X1 & X2 & X3 & X4 & X5 & X6 & X7 & X8 & X9 & X10 & X11 & X12). cbv zeta.
    change (new_block h1) with (fst (new_block h1), block_new (fresh h1)). cbv iota.
    destruct (bump_in dbg (fst (new_block h1)) (block_new (fresh h1)) size) as [[h2 b2] r] eqn:B.
    pose proof (bump_in_lines _ _ _ _ _ _ B) as BL.
    apply space_new in X12. rewrite <- X9, <- X8 in X12.
    change (mem h1) with (mem (fst (new_block h1))) in X12.
    destruct (bump_in_space dbg (fun _ _ => None) E _ _ _ _ _ _ _ _ _ _ _ X12 B) as (m' & -> & A & S' & Eb & P).
    assert (Old : forall m k f, old (set_target (set_mem (fst (new_block h1)) m) k f) = old h1) by reflexivity.
    split.
    - constructor; rewrite ?Old; cbn; auto.
      + rewrite X8. lia.
      + split; unfold evs at 1; cbn.
        * intros k K. exists k. split; auto. right. apply X11. auto.
        * intros k' [<-|K]; [right; rewrite Eb; change (base (block_new (fresh h1))) with (fresh h1); lia|]. left. exists k'. split; auto. apply X11. auto.
      + rewrite X6. auto.
      + rewrite <- X9. auto.
    - intros b o Ho. destruct r as [o'|]; [|discriminate]. injection Ho as <- <-. destruct (P o' eq_refl) as (P1 & P2 & P3).
      exists b2. cbn. rewrite Eb. split; auto. 
  Qed.

  Lemma target_spec E h size :
    space (olist (evac_target h)) [] (filled h ++ old h) (lobs h) (fresh h) (mem h) E ->
    let '(h', r) := bump_allocate_in_target dbg h size in
    target_step E h h' /\ (forall b o, r = Some (b, o) -> target_placed E h' size b o).
  Proof.
    intros S. unfold bump_allocate_in_target. destruct (evac_target h) as [t|] eqn:Et.
    2:{ match goal with |- let '(_, _) := ?X in _ => change X with (let h1 := match (None : option bblock) with Some full => set_target h None (filled h ++ [full]) | None => h end in
      let '(h, b) := new_block h1 in
      let '(h, b, r) := bump_in dbg h b size in
      (set_target h (Some b) (filled h), match r with Some o => Some (base b, o) | None => None end)) end.
        pose proof (retry_spec E h size) as R. unfold retry_in in R. rewrite Et in R. apply R. auto. }
    cbv zeta. destruct (bump_in dbg h t size) as [[h1 t1] r] eqn:B.
    pose proof (bump_in_lines _ _ _ _ _ _ B) as BL. cbn in S.
    destruct (bump_in_space dbg (fun _ _ => None) E _ _ _ _ _ _ _ _ _ _ _ S B) as (m' & -> & A & S' & Eb & P).
    set (h2 := set_target (set_mem h m') (Some t1) (filled (set_mem h m'))).
    assert (T : target_step E h h2).
    { constructor; cbn; auto; [lia|]. split; unfold evs; cbn; rewrite Et; cbn.
      - intros k [<-|K]; [exists t1; auto|]. exists k; auto.
      - intros k' [<-|K]; left; [exists t; auto|exists k'; auto]. }
    destruct r as [o|].
    - split; auto. intros b o' [= <- <-]. destruct (P o eq_refl) as (P1 & P2 & P3). exists t1. cbn. rewrite Eb. auto.
    - pose proof (retry_spec E h2 size (ts_space _ _ _ T)) as R.
      match goal with |- let '(_, _) := ?X in _ => change X with (retry_in h2 size) end.
      destruct (retry_in h2 size) as [h3 r3]. destruct R as (T3 & P3). split; auto.
      destruct T, T3. constructor; try congruence.
      + lia.
      + apply (evs_ext_trans h h2 h3); auto.
      + eapply agree_trans; eauto.
  Qed.
End Trace.
