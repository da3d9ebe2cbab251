(** Theorems about memory management. *)
From Coq Require Import NArith ZArith List Bool Lia ZifyN ZifyNat ZifyBool.
From Verif.Heap Require Import Lines LinesSpec LinesProofs Model Spec HeapProofs AllocProofs TraceProofs EvacProofs CollectProofs SimProofs.
Import ListNotations.
Local Open Scope N_scope.
Ltac Zify.zify_post_hook ::= Z.div_mod_to_equations.

(** ** C12: searching for a hole *)

(** The search returns the highest run of at least two unmarked lines below the
    offset, less its top line, and reports none only when there is none. *)
Theorem C12_find_hole : forall m off,
  match find_hole m off with
  | Some r => exists lo hi, r = (lo * LINE, hi * LINE) /\ is_hole m (off / LINE) lo hi
  | None => no_hole m (off / LINE)
  end.
Proof. exact find_hole_spec. Qed.
Print Assumptions C12_find_hole.

(** The bytes of a hole lie in unmarked lines, whole lines, below the offset. *)
Theorem C12_hole_bytes : forall m off a b, find_hole m off = Some (a, b) ->
  a + LINE <= b /\ b + LINE <= off /\ (forall x, a <= x < b -> m (x / LINE) = false) /\
  a mod LINE = 0 /\ b mod LINE = 0.
Proof. exact find_hole_bytes. Qed.
Print Assumptions C12_hole_bytes.

Example C12_example :
  find_hole (fun l => (l =? 0) || (l =? 7) || (l =? 9)) (10 * LINE) = Some (1 * LINE, 6 * LINE).
Proof. reflexivity. Qed.

(** ** C13: bump allocation in a block *)

(** Requests served from a new or recycled block get regions inside the block that
    avoid every marked line and each other. *)
Theorem C13_regions : forall b sizes,
  (exists id, b = block_new id) \/ (exists b0, b = fst (recycle b0)) ->
  Forall (fun r => fst r <= snd r /\ snd r <= BLOCK /\
                   forall x, fst r <= x < snd r -> lines b (x / LINE) = false) (bump_all b sizes) /\
  ForallOrdPairs disjoint (bump_all b sizes).
Proof.
  intros b sizes Hb.
  assert (X : cursor b <= BLOCK /\ forall x, usable b x -> lines b (x / LINE) = false).
  { destruct Hb as [(id & ->)|(b0 & ->)].
    - cbn. split; [lia|]. intros; reflexivity.
    - pose proof (recycle_spec b0) as K. destruct (recycle b0) as [b' ok]. destruct K as (K1 & K2 & K3 & K4 & _ & K6). cbn.
      split; auto. intros x [X1 [X2|X2]]; auto. rewrite K1. apply K6. lia. }
  destruct X as (X1 & X2). split.
  - apply Forall_forall. intros r Hr. destruct (bump_all_inv _ _ _ Hr) as (A1 & A2 & A3). split; auto. split; [lia|]. auto.
  - assert (W : forall l, ForallOrdPairs (fun r s : N * N => snd s <= fst r) l -> ForallOrdPairs disjoint l).
    { induction 1; constructor; auto. eapply Forall_impl; [|exact H]. unfold disjoint. intros; auto. }
    apply W, bump_all_disjoint.
Qed.
Print Assumptions C13_regions.

(** A request fails only when no free run below the cursor has room. *)
Theorem C13_complete : forall b size lo hi, free_run (lines b) lo hi -> hi < cursor b / LINE ->
  size <= (hi - lo) * LINE -> exists b' o fills, bump b size = (b', Some o, fills).
Proof. exact bump_complete. Qed.
Print Assumptions C13_complete.

(** Marking an object's bytes marks exactly the lines they touch. *)
Theorem C13_mark_region : forall b off bytes l, off < BLOCK -> 0 < bytes ->
  (lines (mark_region b off bytes) l = true <-> lines b l = true \/ touches off (off + bytes) l).
Proof. exact mark_region_lines. Qed.
Print Assumptions C13_mark_region.

Lemma holes_def b : holes b = holes_fuel 257 (lines b) BLOCK. Proof. reflexivity. Qed.
Lemma holes_complete b lo hi : free_run (lines b) lo hi -> hi < BLOCK / LINE ->
  exists a c, In (a, c) (holes b) /\ a <= lo * LINE /\ hi * LINE <= c.
Proof. intros R H. rewrite holes_def. apply holes_fuel_complete; auto. unfold BLOCK, LINE. lia. Qed.
Lemma holes_sound b a c : In (a, c) (holes b) ->
  exists lo hi, a = lo * LINE /\ c = hi * LINE /\ free_run (lines b) lo hi /\ hi < BLOCK / LINE.
Proof. rewrite holes_def. apply holes_fuel_sound. Qed.
Opaque holes holes_fuel find_hole.
(** The reported largest hole is a hole, is the largest, and a recycled block can
    serve a request of its size. *)
Theorem C13_largest_hole : forall b,
  match find_largest_hole b with
  | Some (o, s) => 0 < s /\ (exists lo hi, o = lo * LINE /\ o + s = hi * LINE /\ free_run (lines b) lo hi /\ hi < BLOCK / LINE) /\
      (forall lo hi, free_run (lines b) lo hi -> hi < BLOCK / LINE -> (hi - lo) * LINE <= s) /\
      (let '(b', ok) := recycle b in ok = true /\ exists b2 o2 fills, bump b' s = (b2, Some o2, fills))
  | None => forall lo hi, ~ (free_run (lines b) lo hi /\ hi < BLOCK / LINE)
  end.
Proof.
  intros b. rewrite find_largest_hole_fold. pose proof (largest_fold (holes b) None) as F.
  assert (Cp : forall lo hi, free_run (lines b) lo hi -> hi < BLOCK / LINE ->
    exists a c, In (a, c) (holes b) /\ a <= lo * LINE /\ hi * LINE <= c) by apply holes_complete.
  destruct (fold_left bigger (holes b) None) as [[o s]|].
  - destruct F as ([F|(up & Iu & ->)] & F2 & _); [discriminate|].
    destruct (holes_sound _ _ _ Iu) as (lo & hi & -> & -> & R & Hb).
    assert (Lt : lo < hi) by apply R.
    split; [unfold LINE; lia|]. split.
    { exists lo, hi. split; auto. split; [unfold LINE; lia|]. auto. }
    split.
    { intros l2 h2 R2 H2. destruct (Cp l2 h2 R2 H2) as (a & c & I & A1 & A2). specialize (F2 a c I). unfold LINE in *. lia. }
    pose proof (recycle_spec b) as K. unfold recycle in *.
    destruct (find_hole (lines b) BLOCK) as [[a c]|] eqn:E.
    + split; auto. destruct K as (K1 & K2 & K3 & K4 & _ & K6). cbn [fst snd lines base lower cursor] in *.
      destruct (find_hole_some _ _ _ _ E) as (l1 & h1 & -> & -> & H1 & H2 & H3 & H4 & H5).
      destruct (N.leb_spec (hi * LINE - lo * LINE) (h1 * LINE - l1 * LINE)) as [Le|Gt].
      * eexists _, _, _. apply bump_fits; unfold current_hole_size; cbn [lower cursor]; auto.
      * (* the largest run lies below the first hole *)
        assert (hi < h1).
        { destruct (N.ltb_spec hi h1); auto. exfalso.
          destruct R as (R1 & R2). destruct (N.eq_dec hi h1) as [->|Ne].
          - destruct (N.leb_spec l1 lo). { unfold LINE in *. lia. }
            destruct H4 as [H4|H4]; [lia|]. rewrite R2 in H4; [discriminate|]. lia.
          - destruct (H5 (hi - 1)) as [Q|Q]; try lia.
            + rewrite R2 in Q; [discriminate|]. lia.
            + replace (hi - 1 + 1) with hi in Q by lia. rewrite R2 in Q; [discriminate|]. lia. }
        apply (bump_complete _ _ lo hi); cbn [lines cursor]; auto; unfold LINE in *; lia.
    + exfalso. pose proof (find_hole_spec (lines b) BLOCK) as S. rewrite E in S. destruct R as (R1 & R2).
      destruct (S (hi - 1)) as [Q|Q]; try lia.
      * rewrite R2 in Q; [discriminate|lia].
      * replace (hi - 1 + 1) with hi in Q by lia. rewrite R2 in Q; [discriminate|lia].
  - destruct F as (F & _). intros lo hi (R & H). destruct (Cp lo hi R H) as (a & c & I & _). rewrite F in I. contradiction.
Qed.
Print Assumptions C13_largest_hole.

(** Marked and free line counts. *)
Theorem C13_stats : forall m, let '(_, free, marked) := stats m in
  marked = count_below m 256 /\ free + marked = 256.
Proof.
  intros m. unfold stats. pose proof (stats_scan_spec 256 m 0 true) as S.
  destruct (stats_scan m 0 256 true) as [[h f] k]. destruct S as (S1 & S2). split; [|exact S2].
  rewrite S1. clear. generalize 256%nat. induction n as [|n IH]; cbn [count_below]; auto.
Qed.
Print Assumptions C13_stats.

Example C13_example : bump_all (fst (recycle (mkBlock 3 0 0 (fun l => l =? 100)))) [200; 19000; 9000; 3000; 700] =
  [(32440, 32640); (13440, 32440); (3672, 12672); (672, 3672)].
Proof. vm_compute. reflexivity. Qed.

(** ** Reachable machines *)
Lemma reachable_sim dbg choose h roots : reachable dbg choose h roots ->
  exists phi t, sim phi (h, roots) t.
Proof.
  intros (ops & obs & E). destruct (run_sim dbg choose ops _ _ _ (sim_init choose)) as (s' & obs' & E' & _ & phi & S).
  rewrite E in E'. injection E' as <- <-. exists phi, (fst (irun ([], []) ops)). auto.
Qed.
Lemma reach_live dbg choose h roots : reachable dbg choose h roots ->
  exists L, wf h L /\ clean h L /\ closed (mem h) L /\ (forall a, In (VPtr a) roots -> L a) /\
    (forall a, reach (mem h) roots a -> L a).
Proof.
  intros R. destruct (reachable_sim _ _ _ _ R) as (phi & t & S). exists (live phi).
  pose proof (sim_closed _ _ _ S) as C. pose proof (sim_live_roots _ _ _ S) as RL. cbn in *.
  split; [apply (si_wf _ _ _ S)|]. split; [apply (si_clean _ _ _ S)|]. split; auto. split; auto.
  intros a Ha. induction Ha as [a Ha|a b o Ha IHa G Hb]; auto. eapply C; eauto.
Qed.

(** Distinct objects a program can reach occupy distinct bytes of their block, inside it. *)
Theorem C13_objects_apart : forall dbg choose h roots a b o p,
  reachable dbg choose h roots -> reach (mem h) roots a -> reach (mem h) roots b -> a <> b -> fst a = fst b ->
  mget (mem h) a = Some o -> mget (mem h) b = Some p ->
  disjoint (extent (a, o)) (extent (b, p)) /\ (In (fst a) (lobs h) \/ snd (extent (a, o)) <= BLOCK).
Proof.
  intros dbg choose h roots a b o p R Ra Rb Ne E Ga Gb. destruct (reach_live _ _ _ _ R) as (L & W & _ & _ & _ & RL).
  pose proof (wf_space _ _ W) as S. pose proof (RL a Ra) as La. pose proof (RL b Rb) as Lb.
  destruct (sp_live _ _ _ _ _ _ _ S a La) as (o' & Go & Ha & Ia). destruct (sp_live _ _ _ _ _ _ _ S b Lb) as (p' & Gp & Hb & _).
  assert (o' = o) by congruence. assert (p' = p) by congruence. subst. split.
  - unfold disjoint, extent. cbn. pose proof (sp_disj _ _ _ _ _ _ _ S a b o p (N.max (snd a - HEADER) (snd b - HEADER)) La Lb Ne Ga Gb E) as D.
    unfold bytes_of, HEADER in *. lia.
  - unfold extent. cbn. destruct Ia as [[_ Ia]|Ia]; [right; auto|left; apply cnt_In; auto].
Qed.
Print Assumptions C13_objects_apart.

(** ** C14: collection and reuse of memory are invisible to programs *)

(** Whatever a program does — allocating, loading, storing, dropping references, with
    collections of either kind at any points, any choice of evacuation candidates and
    pinned blocks — it never meets undefined behaviour and observes exactly what it
    would on a heap with unlimited memory and no collector. *)
Theorem C14_collection_invisible : forall dbg choose ops,
  exists s obs, run dbg choose (heap_new, []) ops = Some (s, obs) /\ obs = snd (irun ([], []) ops).
Proof.
  intros dbg choose ops. destruct (run_sim dbg choose ops _ _ _ (sim_init choose)) as (s & obs & E & O & _).
  exists s, obs. auto.
Qed.
Print Assumptions C14_collection_invisible.

(** Collections may be added to or removed from a program without changing what it observes. *)
Definition is_collect (o : op) : bool := match o with OCollect _ _ => true | _ => false end.
Lemma irun_without : forall ops t,
  fst (irun t (filter (fun o => negb (is_collect o)) ops)) = fst (irun t ops) /\
  snd (irun t (filter (fun o => negb (is_collect o)) ops)) =
    map snd (filter (fun e => negb (is_collect (fst e))) (combine ops (snd (irun t ops)))).
Proof.
  induction ops as [|o ops IH]; intros t; auto. destruct (is_collect o) eqn:E.
  - cbn [filter]. rewrite E. cbn [negb irun]. destruct o; try discriminate. destruct t as [h r]. cbn [istep].
    destruct (IH (h, r)) as (I1 & I2). destruct (irun (h, r) ops) as [t2 vs]. auto.
  - cbn [filter]. rewrite E. cbn [negb irun]. destruct (istep t o) as [t1 v]. destruct (IH t1) as (I1 & I2).
    destruct (irun t1 (filter (fun o => negb (is_collect o)) ops)) as [t2 vs]. destruct (irun t1 ops) as [t3 ws].
    cbn in *. rewrite E. cbn. split; auto. f_equal. auto.
Qed.
Theorem C14_same_without_collections : forall dbg choose ops s obs s' obs',
  run dbg choose (heap_new, []) ops = Some (s, obs) ->
  run dbg choose (heap_new, []) (filter (fun o => negb (is_collect o)) ops) = Some (s', obs') ->
  obs' = map snd (filter (fun e => negb (is_collect (fst e))) (combine ops obs)).
Proof.
  intros dbg choose ops s obs s' obs' E E'.
  destruct (C14_collection_invisible dbg choose ops) as (s1 & o1 & E1 & O1).
  destruct (C14_collection_invisible dbg choose (filter (fun o => negb (is_collect o)) ops)) as (s2 & o2 & E2 & O2).
  rewrite E in E1. injection E1 as <- <-. rewrite E' in E2. injection E2 as <- <-. rewrite O1, O2. apply irun_without.
Qed.
Print Assumptions C14_same_without_collections.

(** A cycle of two objects, garbage of several sizes, both kinds of collection,
    and the cycle followed afterwards. *)
Definition demo : list op :=
  [OData 7; OAlloc 24 [0%nat; 0%nat]; OAlloc 200 [1%nat; 0%nat]; OStore 1 0 2; OAlloc 40000 [2%nat]; ODrop 3;
   OCollect [] []; OAlloc 300 [1%nat]; OCollect [0%nat; 1%nat; 2%nat] []; OAlloc 5000 [4%nat]; OCollect [1%nat] [0];
   OLoad 1 0; OLoad 6 0; OSame 1 7; OSame 1 6; OLoad 6 1; OShow 8].
Example C14_example :
  option_map snd (run true (fun _ _ => None) (heap_new, []) demo) =
  Some [BNone; BNone; BNone; BNone; BNone; BNone; BNone; BNone; BNone; BNone; BNone; BNone; BNone;
        BSame true; BSame false; BNone; BData 7].
Proof. vm_compute. reflexivity. Qed.
(** The evacuating collection did move the cycle. *)
Example C14_example_moves :
  match run true (fun _ _ => None) (heap_new, []) (firstn 8 demo), run true (fun _ _ => None) (heap_new, []) (firstn 9 demo) with
  | Some ((_, r), _), Some ((_, r'), _) =>
      (nth_error r 1, nth_error r' 1) = (Some (VPtr (0, 32736)), Some (VPtr (2, 32736)))
  | _, _ => False
  end.
Proof. vm_compute. reflexivity. Qed.

(** ** C15: allocation always finds space *)
Theorem C15_allocation_succeeds : forall dbg choose h roots size, reachable dbg choose h roots ->
  exists b o, snd (try_allocate dbg choose h size) = Some (b, o).
Proof.
  intros dbg choose h roots size R. destruct (reach_live _ _ _ _ R) as (L & W & _).
  pose proof (try_allocate_spec dbg choose L h size W) as T. destruct (try_allocate dbg choose h size) as [h' r].
  destruct T as (_ & _ & _ & b & o & -> & _). exists b, o. auto.
Qed.
Print Assumptions C15_allocation_succeeds.

(** The new object overlaps nothing reachable, and nothing reachable is disturbed. *)
Theorem C15_allocation_disjoint : forall dbg choose h roots bytes fs, reachable dbg choose h roots ->
  let '(h', r) := alloc dbg choose h bytes fs in
  exists a, r = Some a /\ mget (mem h') a = Some (mkObj (negb (mark_state h)) bytes None fs) /\
    forall b p, reach (mem h) roots b -> mget (mem h) b = Some p ->
      mget (mem h') b = Some p /\ b <> a /\
      (fst b = fst a -> disjoint (extent (a, mkObj (negb (mark_state h)) bytes None fs)) (extent (b, p))).
Proof.
  intros dbg choose h roots bytes fs R. destruct (reach_live _ _ _ _ R) as (L & W & _ & _ & _ & RL).
  pose proof (alloc_spec dbg choose h L bytes fs W) as A. destruct (alloc dbg choose h bytes fs) as [h' r].
  destruct A as (a & -> & NL & W' & AG & _ & G). exists a. split; auto. split; auto.
  intros b p Rb Gb. pose proof (RL b Rb) as Lb. rewrite AG by auto. split; auto.
  assert (Nab : b <> a) by (intros ->; contradiction). split; auto. intros E.
  pose proof (wf_space _ _ W') as S. rewrite <- (AG b Lb) in Gb.
  destruct (sp_live _ _ _ _ _ _ _ S a (or_introl eq_refl)) as (o' & Go & Ha & _).
  destruct (sp_live _ _ _ _ _ _ _ S b (or_intror Lb)) as (p' & Gp & Hb & _).
  pose proof (sp_disj _ _ _ _ _ _ _ S a b _ p (N.max (snd a - HEADER) (snd b - HEADER)) (or_introl eq_refl) (or_intror Lb) (not_eq_sym Nab) G Gb (eq_sym E)) as D.
  unfold disjoint, extent, bytes_of, HEADER in *. cbn in *. lia.
Qed.
Print Assumptions C15_allocation_disjoint.

(** ** C16: marking is exact *)
Theorem C16_mark_exact : forall dbg choose h roots cands pinned, reachable dbg choose h roots ->
  exists h' visited, mark_phase dbg cands pinned h roots = Some (h', visited) /\
    NoDup visited /\ (forall a, In a visited <-> reach (mem h) roots a) /\
    (forall a, reach (mem h) roots a -> exists o, mget (mem h') a = Some o /\ o_mark o = mark_state h') /\
    (forall k l, block_of h' k ->
      (lines k l = true <-> exists a o, reach (mem h) roots a /\ mget (mem h) a = Some o /\ fst a = base k /\
                                        touches (fst (extent (a, o))) (snd (extent (a, o))) l)).
Proof.
  intros dbg choose h roots cands pinned R. destruct (reach_live _ _ _ _ R) as (L & W & C & CL & RL & RR).
  destruct (mark_phase_spec dbg h L cands pinned W C CL roots RL) as (h' & visited & E & Co & ND & V).
  exists h', visited. split; auto. split; auto. split; auto. split.
  - intros a Ra. destruct (co_old _ _ _ _ _ _ Co a (RR a Ra)) as (o & p & _ & G & _ & _ & M & _). exists p. split; auto.
    rewrite (co_ms _ _ _ _ _ _ Co). apply M, V, Ra.
  - assert (BO : forall k, block_of h' k -> In k (old h')).
    { intros k K. unfold old, actives. rewrite !in_app_iff. destruct K as [K|[K|[K|[K|K]]]]; auto; rewrite K; cbn; auto. }
    intros k l K. apply BO in K. unfold touches, extent. cbn [fst snd]. split.
    + intros Hl. destruct (co_precise _ _ _ _ _ _ Co k l K Hl) as (a & o & x & Ia & G & Ea & B & Ex).
      pose proof (co_marked _ _ _ _ _ _ Co a Ia) as La. destruct (co_old _ _ _ _ _ _ Co a La) as (o0 & p & G0 & Gp & El & _).
      assert (p = o) by congruence. subst p. exists a, o0. apply V in Ia. split; auto. split; auto. split; auto. exists x. split; auto.
      unfold bytes_of in B. rewrite El in B. auto.
    + intros (a & o0 & Ra & G0 & Ea & x & B & <-). apply V in Ra. pose proof (co_marked _ _ _ _ _ _ Co a Ra) as La.
      destruct (co_old _ _ _ _ _ _ Co a La) as (o1 & p & G1 & Gp & El & _). assert (o1 = o0) by congruence. subst o1.
      apply (co_lines _ _ _ _ _ _ Co a p k x); auto. unfold bytes_of. rewrite El. auto.
Qed.
Print Assumptions C16_mark_exact.

(** ** C17: collection moves objects without changing the graph *)
Theorem C17_isomorphism : forall dbg choose h roots cands pinned, reachable dbg choose h roots ->
  exists h' roots' g, collect dbg cands pinned h roots = Some (h', roots') /\
    roots' = map (rename g) roots /\
    (forall a b, reach (mem h) roots a -> reach (mem h) roots b -> g a = g b -> a = b) /\
    (forall c, reach (mem h') roots' c <-> exists a, reach (mem h) roots a /\ c = g a) /\
    (forall a o, reach (mem h) roots a -> mget (mem h) a = Some o ->
      exists p, mget (mem h') (g a) = Some p /\ o_len p = o_len o /\ o_fields p = map (rename g) (o_fields o)) /\
    (forall a, reach (mem h) roots a -> In (fst a) pinned -> g a = a).
Proof.
  intros dbg choose h roots cands pinned R. destruct (reach_live _ _ _ _ R) as (L & W & C & CL & RL & RR).
  destruct (collect_spec dbg h L cands pinned W C CL roots RL) as (h' & visited & g & E & V & Gi & _ & _ & Fd & _ & Pn).
  exists h', (map (rename g) roots), g. split; [exact E|]. split; auto.
  split. { intros a b Ra Rb. apply Gi; apply V; auto. }
  assert (Src : forall a o, reach (mem h) roots a -> mget (mem h) a = Some o ->
      exists p, mget (mem h') (g a) = Some p /\ o_len p = o_len o /\ o_fields p = map (rename g) (o_fields o)).
  { intros a o Ra. apply Fd, V, Ra. }
  split; [|split; [auto|intros a Ra; apply Pn, V, Ra]].
  assert (Ob : forall a, reach (mem h) roots a -> exists o, mget (mem h) a = Some o).
  { intros a Ra. destruct (sp_live _ _ _ _ _ _ _ (wf_space _ _ W) a (RR a Ra)) as (o & G & _). eauto. }
  assert (InR : forall c vs, In (VPtr c) (map (rename g) vs) -> exists a, In (VPtr a) vs /\ c = g a).
  { intros c vs I. apply in_map_iff in I. destruct I as ([n|a] & Ea & Ia); [discriminate|]. exists a. split; auto. cbn in Ea. congruence. }
  intros c. split.
  - induction 1 as [c Hc|c d o Hc IHc G Hd].
    + destruct (InR _ _ Hc) as (a & Ia & ->). exists a. split; auto. apply reach_root; auto.
    + destruct IHc as (a & Ra & ->). destruct (Ob a Ra) as (oa & Ga). destruct (Src a oa Ra Ga) as (p & Gp & _ & Fp).
      assert (p = o) by congruence. subst p. rewrite Fp in Hd. destruct (InR _ _ Hd) as (b & Ib & ->). exists b. split; auto.
      eapply reach_step; eauto.
  - intros (a & Ra & ->). induction Ra as [a Ha|a b o Ra IHa Ga Hb].
    + apply reach_root. apply (in_map (rename g)) in Ha. auto.
    + destruct (Src a o Ra Ga) as (p & Gp & _ & Fp). eapply reach_step; eauto. rewrite Fp.
      apply (in_map (rename g)) in Hb. auto.
Qed.
Print Assumptions C17_isomorphism.
