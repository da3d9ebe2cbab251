From Coq Require Import NArith ZArith List Bool Lia ZifyN ZifyNat ZifyBool.
From Verif.Heap Require Import Lines LinesSpec LinesProofs Model Spec HeapProofs.
Import ListNotations.
Local Open Scope N_scope.
Ltac Zify.zify_post_hook ::= Z.div_mod_to_equations.

Local Arguments N.add _ _ : simpl never.
Local Arguments block_new _ : simpl never.

Definition olist {A} (o : option A) : list A := match o with Some x => [x] | None => [] end.
Definition actives (h : heap) : list bblock := olist (head h) ++ olist (overflow h) ++ recycled h.
Definition roomy (k : bblock) : Prop := lower k + LINE <= cursor k.

(** A heap between collections whose live objects are [L]. *)
Record wf (h : heap) (L : addr -> Prop) : Prop := {
  wf_space : space (actives h) (unswept h) (rest h) (lobs h) (fresh h) (mem h) L;
  wf_roomy : forall k, In k (recycled h) -> roomy k;
  wf_target : evac_target h = None;
  wf_filled : filled h = [] }.

Definition agree (L : addr -> Prop) (m m' : memory) : Prop := forall a, L a -> mget m' a = mget m a.
Lemma agree_refl L m : agree L m m. Proof. intros a _; auto. Qed.
Lemma agree_trans L m1 m2 m3 : agree L m1 m2 -> agree L m2 m3 -> agree L m1 m3.
Proof. intros A B a La. rewrite (B a La). auto. Qed.

Lemma space_agree act uns rst lobs fr m m' L : space act uns rst lobs fr m L -> agree L m m' ->
  space act uns rst lobs fr m' L.
Proof.
  intros S A. eapply space_mem; eauto. intros a La. destruct (sp_live _ _ _ _ _ _ _ S a La) as (o & G & _).
  exists o, o. rewrite (A a La). auto.
Qed.

Lemma bump_fuel_fills fuel : forall b size b' r fills, bump_fuel fuel b size = (b', r, fills) ->
  forall lo hi, In (lo, hi) fills -> lo < hi.
Proof.
  induction fuel as [|f IH]; intros b size b' r fills H lo hi I; cbn [bump_fuel] in H.
  - injection H as _ _ <-. contradiction.
  - destruct (cursor b <? size). { injection H as _ _ <-. contradiction. }
    destruct (cursor b - size <? lower b).
    + destruct (find_hole (lines b) (cursor b)) as [[a c]|] eqn:E; [|injection H as _ _ <-; contradiction].
      destruct (bump_fuel f _ size) as [[b1 r1] f1] eqn:B. injection H as _ _ <-.
      destruct I as [I|I]; [|eapply IH; eauto]. injection I as <- <-.
      pose proof (find_hole_bytes _ _ _ _ E). unfold LINE in *. lia.
    + injection H as _ _ <-. contradiction.
Qed.

Lemma recycle_facts b b' ok : recycle b = (b', ok) ->
  base b' = base b /\ lower b' <= cursor b' /\ (ok = true -> roomy b').
Proof.
  intros E. pose proof (recycle_spec b) as K. rewrite E in K. destruct K as (K1 & K2 & K3 & K4 & K5 & K6). auto.
Qed.
Lemma LINE_pos : 0 < LINE. Proof. unfold LINE. lia. Qed.
Lemma new_roomy b : roomy (block_new b). Proof. unfold roomy, block_new, LINE, BLOCK. cbn. lia. Qed.
Lemma new_lower b : lower (block_new b) <= cursor (block_new b). Proof. unfold block_new, BLOCK. cbn. lia. Qed.
Opaque recycle bump find_hole BLOCK LINE.

Ltac cnts := repeat (progress (cbn [map app olist]; rewrite ?map_app, ?cnt_app, ?cnt_cons, ?cnt_nil)); lia.

Section Alloc.
  Variables (dbg : bool) (choose : list bblock -> N -> option nat).
  Variable L : addr -> Prop.

  Lemma bump_in_space h k act uns rst lobs fr size h' k' r :
    space (k :: act) uns rst lobs fr (mem h) L -> bump_in dbg h k size = (h', k', r) ->
    exists m', h' = set_mem h m' /\ agree L (mem h) m' /\ space (k' :: act) uns rst lobs fr m' L /\ base k' = base k /\
      (forall o, r = Some o -> cursor k' = o /\ o + size <= BLOCK /\
        forall a p x, L a -> mget m' a = Some p -> fst a = base k -> bytes_of a p x -> ~ (o <= x < o + size)).
  Proof.
    intros S H. unfold bump_in in H. destruct (bump k size) as [[b' r'] fills] eqn:B. injection H as <- -> ->.
    pose proof (bump_fuel_fills _ _ _ _ _ _ B) as FN.
    destruct (bump_spec _ _ _ _ _ B) as ((E1 & E2 & E3 & E4) & S1 & S2 & S3).
    set (m' := if dbg then clobber_all (mem h) (base k) fills else mem h).
    destruct (sp_shape _ _ _ _ _ _ _ S k (or_introl eq_refl)) as [Sh1 Sh2].
    assert (A : agree L (mem h) m').
    { unfold m'. destruct dbg; [|apply agree_refl]. intros a La.
      destruct (live_clobber_all lobs (mem h) L k _ _ _ _ fills S (or_introl eq_refl) FN) with (a := a) as (o & G1 & G2); auto.
      - intros lo hi I x Hx. apply (S3 lo hi I x Hx).
      - congruence. }
    exists m'. split; auto. split; auto. split; [|split]; auto.
    - eapply space_agree; eauto. eapply space_bump; eauto.
      + split; auto. lia.
      + intros x [X1 [X2|X2]]; [apply S2; auto|]. rewrite E1 in X2. split; [lia|auto].
    - intros o ->. destruct (S1 o eq_refl) as (C1 & C2 & C3 & C4). split; auto. split; [lia|].
      intros a p x La G E Bx Q. rewrite (A a La) in G.
      eapply (sp_act _ _ _ _ _ _ _ S k a p x); eauto; [left; auto|]. apply C4. lia.
  Qed.
  Lemma bump_in_fits h k size h' k' r : bump_in dbg h k size = (h', k', r) ->
    size <= current_hole_size k -> lower k <= cursor k -> exists o, r = Some o.
  Proof.
    intros H A B. unfold bump_in in H. rewrite (bump_fits k size A B) in H. injection H as _ _ <-. eauto.
  Qed.

  Lemma lazy_sweep_space : forall uns m rc rs act lobs fr m' rc' rs' us',
    space (act ++ rc) uns rs lobs fr m L -> (forall k, In k rc -> roomy k) ->
    lazy_sweep dbg m rc rs uns = (m', rc', rs', us') ->
    space (act ++ rc') us' rs' lobs fr m' L /\ agree L m m' /\ (forall k, In k rc' -> roomy k).
  Proof.
    induction uns as [|b us IH]; intros m rc rs act lobs fr m' rc' rs' us' S R H; cbn [lazy_sweep] in H.
    - injection H as <- <- <- <-. split; auto. split; auto. apply agree_refl.
    - unfold recycle_in in H. destruct (recycle b) as [b' ok] eqn:E.
      destruct (recycle_facts _ _ _ E) as (K2 & K3 & K5).
      destruct ok.
      + injection H as <- <- <- <-.
        pose proof (space_sweep_ok _ _ _ _ _ _ _ _ _ S E) as S'.
        set (m1 := if dbg && true then clobber m (base b) (lower b') (cursor b') else m).
        assert (A : agree L m m1).
        { unfold m1. destruct dbg; [|apply agree_refl]. cbn [andb]. intros a La. rewrite <- K2.
          destruct (live_clobber lobs m L b' _ _ _ _ (lower b') (cursor b') S' (or_introl eq_refl)) with (a := a) as (o & G1 & G2); auto.
          - specialize (K5 eq_refl). unfold roomy in K5. pose proof LINE_pos. lia.
          - intros x Hx. split; [lia|left; lia].
          - congruence. }
        split; [|split]; auto.
        * eapply space_ext; [eapply space_agree; eauto|..].
          -- intros k. rewrite !in_app_iff. cbn. rewrite in_app_iff. tauto.
          -- auto.
          -- intros x. cnts.
        * intros k. rewrite in_app_iff. cbn. intros [I|[<-|[]]]; auto.
      + rewrite andb_false_r in H. eapply IH in H; eauto.
        apply (space_sweep_full _ _ _ _ b' _ _ _ _) in S; auto.
        eapply space_ext; eauto. intros x. cnts.
  Qed.

  Lemma wf_new_head h : wf h L -> head h = None -> wf (set_head (fst (new_block h)) (block_new (fresh h))) L.
  Proof.
    intros [S R T F] E. constructor; auto. unfold actives in *. cbn. rewrite E in S. cbn in S.
    apply space_new. auto.
  Qed.
  Lemma get_head_wf h : wf h L -> let '(h', b) := get_head h in
    wf h' L /\ head h' = Some b /\ mem h' = mem h /\ mark_state h' = mark_state h.
  Proof.
    intros W. unfold get_head. destruct (head h) eqn:E; auto. cbn. split; auto.
    apply wf_new_head; auto.
  Qed.
  Lemma get_overflow_wf h : wf h L -> let '(h', b) := get_overflow h in
    wf h' L /\ overflow h' = Some b /\ mem h' = mem h /\ mark_state h' = mark_state h.
  Proof.
    intros W. unfold get_overflow. destruct (overflow h) eqn:E; auto. cbn. split; auto.
    destruct W as [S R T F]. constructor; auto. unfold actives in *. cbn. rewrite E in S. cbn in S.
    eapply space_ext; [apply space_new; exact S|..]; auto.
    - intros k. rewrite in_app_iff. cbn. rewrite in_app_iff. tauto.
    - intros x. cnts.
  Qed.

  (** Bumping the head or the overflow block of a heap. *)
  Definition placed (h' : heap) (size b o : N) : Prop :=
    exists k, (head h' = Some k \/ overflow h' = Some k) /\ base k = b /\ cursor k = o /\ o + size <= BLOCK /\
      forall a p x, L a -> mget (mem h') a = Some p -> fst a = b -> bytes_of a p x -> ~ (o <= x < o + size).

  Lemma bump_head_wf h k size h' k' r : wf h L -> head h = Some k -> bump_in dbg h k size = (h', k', r) ->
    wf (set_head h' k') L /\ agree L (mem h) (mem h') /\ mark_state h' = mark_state h /\
    (forall o, r = Some o -> placed (set_head h' k') size (base k') o).
  Proof.
    intros [S R T F] E B. unfold actives in S. rewrite E in S. cbn [olist app] in S.
    destruct (bump_in_space _ _ _ _ _ _ _ _ _ _ _ S B) as (m' & -> & A & S' & Eb & P).
    split; [|split; [|split]]; auto.
    - constructor; auto.
    - intros o Ho. destruct (P o Ho) as (P1 & P2 & P3). exists k'. cbn. rewrite Eb.
      repeat (split; auto).
  Qed.
  Lemma bump_overflow_wf h k size h' k' r : wf h L -> overflow h = Some k -> bump_in dbg h k size = (h', k', r) ->
    wf (set_overflow h' k') L /\ agree L (mem h) (mem h') /\ mark_state h' = mark_state h /\
    (forall o, r = Some o -> placed (set_overflow h' k') size (base k') o).
  Proof.
    intros [S R T F] E B. unfold actives in S. rewrite E in S. cbn [olist app] in S.
    assert (S0 : space (k :: olist (head h) ++ recycled h) (unswept h) (rest h) (lobs h) (fresh h) (mem h) L).
    { eapply space_ext; eauto.
      - intros j. cbn. rewrite !in_app_iff. cbn. tauto.
      - intros x. cnts. }
    destruct (bump_in_space _ _ _ _ _ _ _ _ _ _ _ S0 B) as (m' & -> & A & S' & Eb & P).
    split; [|split; [|split]]; auto.
    - constructor; auto. unfold actives. cbn. eapply space_ext; eauto.
      + intros j. cbn. rewrite !in_app_iff. cbn. tauto.
      + intros x. cnts.
    - intros o Ho. destruct (P o Ho) as (P1 & P2 & P3). exists k'. cbn. rewrite Eb.
      repeat (split; auto).
  Qed.

  Lemma lazy_sweep_next_wf h : wf h L ->
    wf (lazy_sweep_next dbg h) L /\ agree L (mem h) (mem (lazy_sweep_next dbg h)) /\
    mark_state (lazy_sweep_next dbg h) = mark_state h.
  Proof.
    intros [S R T F]. unfold lazy_sweep_next.
    destruct (lazy_sweep dbg (mem h) (recycled h) (rest h) (unswept h)) as [[[m' rc'] rs'] us'] eqn:E.
    unfold actives in S. rewrite app_assoc in S.
    destruct (lazy_sweep_space _ _ _ _ _ _ _ _ _ _ _ S R E) as (S' & A & R'). cbn.
    split; [|split]; auto. constructor; auto. unfold actives. cbn. rewrite app_assoc. auto.
  Qed.

  Lemma wf_new_swap_head h : wf h L -> wf (swap_head (fst (new_block h)) (block_new (fresh h))) L.
  Proof.
    intros [S R T F]. unfold swap_head. cbn. unfold actives in S. destruct (head h) as [old|] eqn:E; cbn in *.
    - constructor; auto. unfold actives. cbn. eapply space_ext.
      + apply space_new. apply space_retire. exact S.
      + auto.
      + auto.
      + intros x. cnts.
    - constructor; auto. unfold actives. cbn. apply space_new. auto.
  Qed.
  Lemma wf_new_swap_overflow h : wf h L -> wf (swap_overflow (fst (new_block h)) (block_new (fresh h))) L.
  Proof.
    intros [S R T F]. unfold swap_overflow. cbn. unfold actives in S. destruct (overflow h) as [old|] eqn:E; cbn in *.
    - constructor; auto. unfold actives. cbn. eapply space_ext.
      + apply space_new. exact S.
      + intros k. rewrite !in_app_iff. cbn. rewrite !in_app_iff. cbn. tauto.
      + auto.
      + intros x. cnts.
    - constructor; auto. unfold actives. cbn. eapply space_ext; [apply space_new; exact S|..]; auto.
      + intros k. rewrite !in_app_iff. cbn. rewrite !in_app_iff. tauto.
      + intros x. cnts.
  Qed.
  Lemma remove_nth_spec {A} (l : list A) i x l' : remove_nth l i = Some (x, l') ->
    exists l1 l2, l = l1 ++ x :: l2 /\ l' = l1 ++ l2.
  Proof.
    unfold remove_nth. destruct (nth_error l i) eqn:E; [|discriminate]. intros [= -> <-].
    exists (firstn i l), (skipn (S i) l). split; auto. clear - E.
    revert l E; induction i as [|i IH]; intros [|y l] E; try discriminate; cbn in *.
    - congruence.
    - f_equal. auto.
  Qed.
  Lemma wf_recycled_swap_head h l1 b l2 : wf h L -> recycled h = l1 ++ b :: l2 ->
    wf (swap_head (set_recycled h (l1 ++ l2)) b) L /\ roomy b.
  Proof.
    intros [S R T F] E. unfold swap_head. cbn. unfold actives in S.
    assert (Rb : roomy b) by (apply R; rewrite E, in_app_iff; cbn; auto). split; auto.
    assert (Rr : forall k, In k (l1 ++ l2) -> roomy k) by (intros k K; apply R; rewrite E; rewrite in_app_iff in *; cbn; tauto).
    destruct (head h) as [old|] eqn:Eh; cbn in *.
    - constructor; auto. unfold actives. cbn. eapply space_ext; eauto.
      + intros k. rewrite E. cbn. rewrite !in_app_iff. cbn. tauto.
      + intros x. rewrite E. cnts.
    - constructor; auto. unfold actives. cbn. eapply space_ext; eauto.
      + intros k. rewrite E. cbn. rewrite !in_app_iff. cbn. tauto.
      + intros x. rewrite E. cnts.
  Qed.
  Lemma swap_head_fields h b : head (swap_head h b) = Some b /\ mem (swap_head h b) = mem h /\
    mark_state (swap_head h b) = mark_state h.
  Proof. unfold swap_head. destruct (head h); auto. Qed.
  Lemma swap_overflow_fields h b : overflow (swap_overflow h b) = Some b /\ mem (swap_overflow h b) = mem h /\
    mark_state (swap_overflow h b) = mark_state h.
  Proof. unfold swap_overflow. destruct (overflow h); auto. Qed.

  Lemma replace_head_wf h size : wf h L -> let '(h', b) := replace_head_targeted dbg choose h size in
    wf h' L /\ head h' = Some b /\ roomy b /\ agree L (mem h) (mem h') /\ mark_state h' = mark_state h.
  Proof.
    intros W0. unfold replace_head_targeted.
    set (h1 := match recycled h with [] => lazy_sweep_next dbg h | _ => h end).
    assert (W : wf h1 L /\ agree L (mem h) (mem h1) /\ mark_state h1 = mark_state h).
    { unfold h1. destruct (recycled h); [apply lazy_sweep_next_wf; auto|]. split; auto. split; auto. apply agree_refl. }
    destruct W as (W & A & M). clearbody h1. clear W0.
    assert (NB : wf (swap_head (fst (new_block h1)) (block_new (fresh h1))) L /\
                 head (swap_head (fst (new_block h1)) (block_new (fresh h1))) = Some (block_new (fresh h1)) /\
                 roomy (block_new (fresh h1)) /\
                 agree L (mem h) (mem (swap_head (fst (new_block h1)) (block_new (fresh h1)))) /\
                 mark_state (swap_head (fst (new_block h1)) (block_new (fresh h1))) = mark_state h).
    { destruct (swap_head_fields (fst (new_block h1)) (block_new (fresh h1))) as (F1 & F2 & F3).
      split; [apply wf_new_swap_head; auto|]. rewrite F1, F2, F3. split; auto. split; auto.
      apply new_roomy. }
    assert (RB : forall l1 b l2, recycled h1 = l1 ++ b :: l2 ->
                 wf (swap_head (set_recycled h1 (l1 ++ l2)) b) L /\
                 head (swap_head (set_recycled h1 (l1 ++ l2)) b) = Some b /\ roomy b /\
                 agree L (mem h) (mem (swap_head (set_recycled h1 (l1 ++ l2)) b)) /\
                 mark_state (swap_head (set_recycled h1 (l1 ++ l2)) b) = mark_state h).
    { intros l1 b l2 E. destruct (swap_head_fields (set_recycled h1 (l1 ++ l2)) b) as (F1 & F2 & F3).
      destruct (wf_recycled_swap_head _ _ _ _ W E) as (W1 & R1). rewrite F1, F2, F3. auto. }
    destruct (recycled h1) as [|b0 bs] eqn:E; [exact NB|].
    destruct (size =? 0). { apply (RB [] b0 bs); auto. }
    unfold find_best.
    assert (X : forall i, let '(h', b) := (let '(h0, b) := match remove_nth (b0 :: bs) i with
                | Some (b, rs) => (set_recycled h1 rs, b) | None => new_block h1 end in
                (swap_head h0 b, b)) in
                wf h' L /\ head h' = Some b /\ roomy b /\ agree L (mem h) (mem h') /\ mark_state h' = mark_state h).
    { intros i. destruct (remove_nth (b0 :: bs) i) as [[b rs]|] eqn:Q.
      - destruct (remove_nth_spec _ _ _ _ Q) as (l1 & l2 & Q1 & ->). apply RB. congruence.
      - exact NB. }
    destruct (choose (b0 :: bs) size) as [i|]; [apply (X i)|apply (X 0%nat)].
  Qed.

  Definition large_at (h' : heap) (b o : N) : Prop :=
    o = 0 /\ In b (lobs h') /\ forall a, L a -> fst a <> b.

  (** Allocation of space: it always succeeds, disturbs no live object, and the space
      is free. *)
  Lemma try_allocate_spec h size : wf h L -> let '(h', r) := try_allocate dbg choose h size in
    wf h' L /\ agree L (mem h) (mem h') /\ mark_state h' = mark_state h /\
    exists b o, r = Some (b, o) /\ (placed h' size b o \/ large_at h' b o).
  Proof.
    intros W. unfold try_allocate. pose proof (get_head_wf h W) as G. destruct (get_head h) as [h1 hd].
    destruct G as (W1 & E1 & M1 & K1). clear W.
    assert (OH : for_size size = Small \/ size <= current_hole_size hd ->
      let '(h', r) := let '(h, b, r) := bump_in dbg h1 hd size in
      let h := set_head h b in
      match r with
      | Some o => (h, Some (base b, o))
      | None =>
          let '(h, b) := replace_head_targeted dbg choose h size in
          let '(h, b, r) := bump_in dbg h b size in
          (set_head h b, match r with Some o => Some (base b, o) | None => None end)
      end in
      wf h' L /\ agree L (mem h) (mem h') /\ mark_state h' = mark_state h /\
      exists b o, r = Some (b, o) /\ (placed h' size b o \/ large_at h' b o)).
    { intros Sz. cbv zeta. destruct (bump_in dbg h1 hd size) as [[h2 b2] r2] eqn:B.
      destruct (bump_head_wf _ _ _ _ _ _ W1 E1 B) as (W2 & A2 & K2 & P2).
      destruct r2 as [o|].
      - split; [auto|]. split; [rewrite <- M1; auto|]. split; [cbn; congruence|]. exists (base b2), o. split; auto.
      - assert (Sm : size < LINE).
        { destruct Sz as [Sz|Sz]. { unfold for_size in Sz. destruct (N.ltb_spec size LINE); auto. destruct (size <? BLOCK); discriminate. }
          pose proof (sp_shape _ _ _ _ _ _ _ (wf_space _ _ W1) hd) as [Sh _].
          { unfold actives. rewrite E1. left. reflexivity. }
          destruct (bump_in_fits _ _ _ _ _ _ B Sz Sh) as (? & ?). discriminate. }
        pose proof (replace_head_wf _ size W2) as RH.
        destruct (replace_head_targeted dbg choose (set_head h2 b2) size) as [h3 b3].
        destruct RH as (W3 & E3 & R3 & A3 & K3).
        destruct (bump_in dbg h3 b3 size) as [[h4 b4] r4] eqn:B4.
        destruct (bump_head_wf _ _ _ _ _ _ W3 E3 B4) as (W4 & A4 & K4 & P4).
        destruct (bump_in_fits _ _ _ _ _ _ B4) as (o & ->); [unfold roomy, current_hole_size in *; lia|unfold roomy in R3; pose proof LINE_pos; lia|].
        split; auto. split. { rewrite <- M1. eapply agree_trans; eauto. eapply agree_trans; eauto. }
        split; [cbn in *; congruence|]. exists (base b4), o. split; auto. }
    destruct (for_size size) eqn:FS.
    - apply OH; auto.
    - destruct (N.ltb_spec (current_hole_size hd) size); [|apply OH; auto]. clear OH. cbv zeta.
      pose proof (get_overflow_wf h1 W1) as G. destruct (get_overflow h1) as [h2 ov]. destruct G as (W2 & E2 & M2 & K2).
      destruct (bump_in dbg h2 ov size) as [[h3 b3] r3] eqn:B.
      destruct (bump_overflow_wf _ _ _ _ _ _ W2 E2 B) as (W3 & A3 & K3 & P3). destruct r3 as [o|].
      + split; auto. split; [rewrite <- M1, <- M2; auto|]. split; [cbn; congruence|]. exists (base b3), o. auto.
      + assert (Sm : size < BLOCK) by (unfold for_size in FS; destruct (size <? LINE); [discriminate|]; destruct (N.ltb_spec size BLOCK); [auto|discriminate]).
        unfold replace_overflow. pose proof (wf_new_swap_overflow _ W3) as W4.
        change (new_block (set_overflow h3 b3)) with (fst (new_block (set_overflow h3 b3)), block_new (fresh (set_overflow h3 b3))).
        cbv iota. set (k := block_new (fresh (set_overflow h3 b3))) in *.
        destruct (swap_overflow_fields (fst (new_block (set_overflow h3 b3))) k) as (F1 & F2 & F3).
        set (h4 := swap_overflow (fst (new_block (set_overflow h3 b3))) k) in *.
        destruct (bump_in dbg h4 k size) as [[h5 b5] r5] eqn:B5.
        destruct (bump_overflow_wf _ _ _ _ _ _ W4 F1 B5) as (W5 & A5 & K5 & P5).
        destruct (bump_in_fits _ _ _ _ _ _ B5) as (o & ->); [unfold current_hole_size, k, block_new; cbn; lia|apply new_lower|].
        split; auto. split. { rewrite <- M1, <- M2. eapply agree_trans; eauto. }
        split; [cbn in *; congruence|]. exists (base b5), o. auto.
    - clear OH. cbn. split; [|split; [|split]].
      + destruct W1 as [[U F S V A N D] R T Fi]. constructor; auto. cbn. change (actives _) with (actives h1).
        assert (Z : (cnt (fresh h1) (map base (actives h1)) + cnt (fresh h1) (map base (unswept h1)) + cnt (fresh h1) (map base (rest h1)) + cnt (fresh h1) (lobs h1) = 0)%nat).
        { destruct (Nat.eq_dec (cnt (fresh h1) (map base (actives h1)) + cnt (fresh h1) (map base (unswept h1)) + cnt (fresh h1) (map base (rest h1)) + cnt (fresh h1) (lobs h1)) 0); auto.
          specialize (F (fresh h1) ltac:(lia)). lia. }
        constructor; auto.
        * intros x. rewrite cnt_app, cnt_cons, cnt_nil. unfold one. specialize (U x).
          destruct (N.eqb_spec (fresh h1) x); subst; lia.
        * intros x. rewrite cnt_app, cnt_cons, cnt_nil. unfold one. specialize (F x).
          destruct (N.eqb_spec (fresh h1) x); subst; lia.
        * intros a La. destruct (V a La) as (o & G & H & I). exists o. split; auto. split; auto.
          destruct I as [I|I]; auto. right. rewrite cnt_app. lia.
      + rewrite M1. apply agree_refl.
      + auto.
      + exists (fresh h1), 0. split; auto. right. split; auto. cbn. split; [rewrite in_app_iff; cbn; auto|].
        intros a La E. destruct W1 as [[U F S V A N D] R T Fi].
        destruct (V a La) as (o & G & H & I). specialize (F (fst a)). rewrite E in *. lia.
  Qed.
End Alloc.
