(** C67: looking up, updating, selecting and merging along paths. *)
From Coq Require Import ZArith List Bool Permutation Sorting.Sorted Lia.
From Verif Require Import Numbers.Model Blocks.Model Blocks.Spec Blocks.Proofs Blocks.Props Updates.Model Updates.Spec Updates.Proofs.
From Verif Require Prelude.Model Prelude.Spec Prelude.Proofs Prelude.Props.
Import ListNotations.

Lemma keys_of_spec b ks : keys_of b = Some ks <-> block_keys b ks.
Proof.
  split.
  - intro H. destruct (block_dec b) as [(es & B)|NB].
    + exists es. split; [exact B|]. rewrite (keys_of_block b es B) in H. congruence.
    + rewrite keys_of_std in H. apply elements_none in NB. rewrite NB in H. discriminate.
  - intros (es & B & <-). now apply keys_of_block.
Qed.
Lemma same_keys b b' : keys_of b' = keys_of b -> forall ks, block_keys b' ks <-> block_keys b ks.
Proof. intros H ks. rewrite <- !keys_of_spec, H. tauto. Qed.

(** [elements] of a block and [block] of the elements give the same data. *)
Theorem C67_elements b es : elements b = Some es -> alike (block es) b /\ elements (block es) = Some es.
Proof.
  intro H. split; [|apply elements_block]. unfold elements in H. destruct (strip b) as [| |xs|] eqn:S; try discriminate. injection H as <-.
  apply alike_strip. rewrite S. unfold block. cbn [strip]. std. constructor. clear S. induction xs as [|[[k v] f] xs IH]; constructor; [|exact IH].
  apply alike_refl.
Qed.
Theorem C67_keys_values b es : is_block b es -> keys_of b = Some (keys es) /\ values_of b = Some (map e_val es).
Proof.
  intro B. split; [now apply keys_of_block|]. unfold values_of, elements. rewrite B. cbn [option_map]. std. now rewrite map_map.
Qed.

(** Updating the value of one key: that value becomes what the function gives,
    all others and the keys stay; a key that is not there is not added. *)
Theorem C67_update_value k f b b' : update_value k f b = Some b' ->
  a_block b /\ (forall ks, block_keys b' ks <-> block_keys b ks)
  /\ (forall v, lookup k b = Some v -> exists w, f v = Some w /\ lookup k b' = Some w)
  /\ (lookup k b = None -> lookup k b' = None)
  /\ (forall j, j <> k -> lookup j b' = lookup j b).
Proof.
  intro H. split; [eapply update_value_block; eauto|]. apply update_value_cases in H. destruct H as (K & O & C). repeat split; auto.
  - apply same_keys; auto.
  - apply same_keys; auto.
  - intros v L. now rewrite L in C.
  - intro L. now rewrite L in C.
Qed.
(** It fails on what is not a block and when the function fails. *)
Theorem C67_update_value_fails k f b : tidy b ->
  (update_value k f b = None <-> ~ a_block b \/ exists v, lookup k b = Some v /\ f v = None).
Proof.
  intro T. split.
  - intro H. destruct (block_dec b) as [B|B]; [right|now left]. destruct (lookup k b) as [v|] eqn:L.
    + destruct (f v) as [w|] eqn:F; [exfalso|eauto]. destruct (update_value_total k f b T B) as (b' & E); [|congruence].
      intros v' [= <-]%(eq_trans (eq_sym L)). eauto.
    + exfalso. destruct (update_value_total k f b T B) as (b' & E); [|congruence]. intros v L'. congruence.
  - intros [B|(v & L & F)].
    + apply elements_none in B. unfold update_value. now rewrite B.
    + eapply update_value_fails; eauto.
Qed.
Theorem C67_alter_value k v b : alter_value k v b = update_value k (fun _ => Some v) b.
Proof.
  unfold alter_value, update_value. destruct (elements b) as [es|]; [|reflexivity]. cbn [option_map].
  replace (Prelude.Model.each _ es) with (Some (Prelude.Model.map (fun e => (el_key e, if N.eqb (el_key e) k then v else el_val e, @nil value)) es)); [reflexivity|].
  std. induction es as [|e es IH]; [reflexivity|]. cbn [Prelude.Model.each map]. rewrite <- IH. now destruct (N.eqb (el_key e) k).
Qed.

(** Updating along a path: the value there becomes what the function gives;
    everything on a path that parts from it stays. *)
Theorem C67_update ks f b b' : update ks f b = Some b' ->
  (forall v, at_path ks b = Some v -> exists w, f v = Some w /\ at_path ks b' = Some w)
  /\ (at_path ks b = None -> at_path ks b' = None)
  /\ (forall q, part ks q -> at_path q b' = at_path q b).
Proof. apply update_path. Qed.
Theorem C67_update_works ks f b : tidy b -> (forall v, exists w, f v = Some w) ->
  ((exists b', update ks f b = Some b') <-> ~ blocked b ks).
Proof.
  intros T F. split.
  - intros (b' & E) B. rewrite (update_blocked ks f b B) in E. discriminate.
  - intro B. now apply update_total.
Qed.
Theorem C67_alter ks v b : tidy b -> ~ blocked b ks -> exists b', alter ks v b = Some b' /\
  at_path ks b' = match at_path ks b with Some _ => Some v | None => None end /\ (forall q, part ks q -> at_path q b' = at_path q b).
Proof.
  intros T NB. destruct (update_total ks (fun _ => Some v)) with (b := b) as (b' & E); eauto. exists b'. split; [exact E|].
  destruct (update_path _ _ _ _ E) as (H1 & H2 & H3). split; [|exact H3]. destruct (at_path ks b) as [x|]; [|auto].
  destruct (H1 x eq_refl) as (w & [= <-] & H). exact H.
Qed.

(** Updating or adding: as updating, but a key that is not there is added at
    the end. *)
Theorem C67_update_value_or k f d b b' : update_value_or k f d b = Some b' ->
  a_block b
  /\ (forall v, lookup k b = Some v -> (exists w, f v = Some w /\ lookup k b' = Some w) /\ forall ks, block_keys b ks -> block_keys b' ks)
  /\ (lookup k b = None -> lookup k b' = Some d /\ forall ks, block_keys b ks -> block_keys b' (ks ++ [k]))
  /\ (forall j, j <> k -> lookup j b' = lookup j b).
Proof.
  intro H. split; [eapply uvo_block; eauto|]. apply uvo_cases in H. destruct H as (O & C & ks & K & K'). repeat split; auto.
  - now rewrite H in C.
  - intros ks' B. rewrite H in K'. apply keys_of_spec in B. apply keys_of_spec. congruence.
  - now rewrite H in C.
  - intros ks' B. rewrite H in K'. apply keys_of_spec in B. apply keys_of_spec. congruence.
Qed.
Theorem C67_update_value_or_works k f d b : tidy b -> a_block b -> (forall v, lookup k b = Some v -> exists w, f v = Some w) ->
  exists b', update_value_or k f d b = Some b'.
Proof. apply uvo_total. Qed.
Theorem C67_set_value k v b : a_block b -> exists b', set_value k v b = Some b' /\ lookup k b' = Some v
  /\ (forall j, j <> k -> lookup j b' = lookup j b)
  /\ forall ks, block_keys b ks -> block_keys b' (if in_dec N.eq_dec k ks then ks else ks ++ [k]).
Proof.
  intro B. destruct (uvo_const k v v b B) as (b' & E). exists b'. split; [exact E|].
  apply C67_update_value_or in E. destruct E as (_ & H1 & H2 & H3). split; [|split; [exact H3|]].
  - destruct (lookup k b) as [x|]; [|now apply H2]. destruct (H1 x eq_refl) as ((w & [= <-] & H) & _). exact H.
  - intros ks K. assert (L : In k ks <-> exists x, lookup k b = Some x).
    { destruct K as (es & Hb & <-). unfold lookup. rewrite Hb. apply find_first_some. }
    destruct (in_dec N.eq_dec k ks) as [Hk|Hk].
    + apply L in Hk. destruct Hk as (x & Hx). now apply (H1 x).
    + destruct (lookup k b) as [x|] eqn:Lx; [exfalso; apply Hk, L; eauto|]. now apply H2.
Qed.

(** Merging at a path. *)
Theorem C67_merge_at ks v b b' : merge_at ks v b = Some b' ->
  (forall x, at_path ks b = Some x -> exists w, merge x v = Some w /\ at_path ks b' = Some w)
  /\ (at_path ks b = None -> at_path ks b' = Some v)
  /\ (forall q, part ks q -> at_path q b' = at_path q b).
Proof. rewrite merge_at_gen. apply at_gen_path. Qed.
Theorem C67_merge_at_works ks v b : tidy b -> ((exists b', merge_at ks v b = Some b') <->
  ~ blocked b ks /\ forall x, at_path ks b = Some x -> a_block x /\ a_block v).
Proof.
  intro T. rewrite merge_at_gen. split.
  - intros (b' & E). split.
    + intro B. rewrite at_gen_blocked in E by exact B. discriminate.
    + intros x Hx. destruct (at_gen_path _ _ _ _ _ E) as (H & _). destruct (H x Hx) as (w & M & _).
      destruct (block_dec x) as [Bx|Bx]; [|rewrite C57_not_blocks in M by auto; discriminate].
      destruct (block_dec v) as [Bv|Bv]; [|rewrite C57_not_blocks in M by auto; discriminate]. auto.
  - intros [NB H]. apply at_gen_total; auto. intros x Hx. destruct (H x Hx) as ((xs & Bx) & (vs & Bv)).
    destruct (C57_merge x v xs vs Bx Bv) as (w & ws & M & _). eauto.
Qed.
Theorem C67_deep_merge_at ks v b b' : deep_merge_at ks v b = Some b' ->
  (forall x, at_path ks b = Some x -> at_path ks b' = Some (deep_merge x v))
  /\ (at_path ks b = None -> at_path ks b' = Some v)
  /\ (forall q, part ks q -> at_path q b' = at_path q b).
Proof.
  rewrite deep_merge_at_gen. intro E. apply at_gen_path in E. destruct E as (H & H2 & H3). repeat split; auto.
  intros x Hx. destruct (H x Hx) as (w & [= <-] & Hw). exact Hw.
Qed.
Theorem C67_deep_merge_at_works ks v b : tidy b -> ((exists b', deep_merge_at ks v b = Some b') <-> ~ blocked b ks).
Proof.
  intro T. rewrite deep_merge_at_gen. split.
  - intros (b' & E) B. rewrite at_gen_blocked in E by exact B. discriminate.
  - intro NB. apply at_gen_total; eauto.
Qed.
Theorem C67_tongue ks v : at_path ks (tongue ks v) = Some v /\ forall q, part ks q -> at_path q (tongue ks v) = None.
Proof. split; [apply tongue_path|intros q; apply tongue_part]. Qed.

(** Selecting and leaving out keys. *)
Lemma member_in k ks : member k ks = true <-> In k ks.
Proof.
  unfold member. rewrite existsb_exists. split; [|exists k; split; [auto|apply N.eqb_refl]].
  intros (x & Hx & E). apply N.eqb_eq in E. now subst.
Qed.
Theorem C67_select ks b es : is_block b es -> exists b', select ks b = Some b'
  /\ block_keys b' (filter (fun k => member k ks) (keys es))
  /\ (forall k, In k ks -> lookup k b' = lookup k b) /\ (forall k, ~ In k ks -> lookup k b' = None).
Proof.
  intro B. unfold select, filter_items. destruct (elements_is_block b es B) as (xs & E). rewrite E. cbn [option_map]. std.
  destruct (elements_some b xs E) as (es' & B' & K & L). assert (es' = es) as -> by (unfold is_block in *; congruence).
  eexists. split; [reflexivity|]. split; [|split].
  - apply keys_of_spec. rewrite keys_of_std, elements_block. cbn. rewrite <- K. f_equal. apply (keys_filter (fun k => member k ks)).
  - intros k Hk. rewrite block_lookup, L, (find_el_filter (fun k => member k ks)). apply member_in in Hk. now rewrite Hk.
  - intros k Hk. rewrite block_lookup, (find_el_filter (fun k => member k ks)). destruct (member k ks) eqn:M; [|reflexivity]. apply member_in in M. contradiction.
Qed.
Theorem C67_dissoc ks b es : is_block b es -> exists b', dissoc ks b = Some b'
  /\ block_keys b' (filter (fun k => negb (member k ks)) (keys es))
  /\ (forall k, ~ In k ks -> lookup k b' = lookup k b) /\ (forall k, In k ks -> lookup k b' = None).
Proof.
  intro B. unfold dissoc, filter_items. destruct (elements_is_block b es B) as (xs & E). rewrite E. cbn [option_map]. std.
  destruct (elements_some b xs E) as (es' & B' & K & L). assert (es' = es) as -> by (unfold is_block in *; congruence).
  eexists. split; [reflexivity|]. split; [|split].
  - apply keys_of_spec. rewrite keys_of_std, elements_block. cbn. rewrite <- K. f_equal. apply (keys_filter (fun k => negb (member k ks))).
  - intros k Hk. rewrite block_lookup, L, (find_el_filter (fun k => negb (member k ks))). destruct (member k ks) eqn:M; [|reflexivity]. apply member_in in M. contradiction.
  - intros k Hk. rewrite block_lookup, (find_el_filter (fun k => negb (member k ks))). apply member_in in Hk. now rewrite Hk.
Qed.
(** A block is what is selected together with what is left out. *)
Theorem C67_select_dissoc ks b s d : select ks b = Some s -> dissoc ks b = Some d ->
  forall k v, lookup k b = Some v <-> (lookup k s = Some v \/ lookup k d = Some v).
Proof.
  intros S D k v. destruct (block_dec b) as [(es & B)|NB].
  - destruct (C67_select ks b es B) as (s' & S' & _ & S1 & S2). destruct (C67_dissoc ks b es B) as (d' & D' & _ & D1 & D2).
    assert (s' = s) as -> by congruence. assert (d' = d) as -> by congruence.
    destruct (in_dec N.eq_dec k ks) as [H|H].
    + rewrite (S1 k H), (D2 k H). intuition discriminate.
    + rewrite (S2 k H), (D1 k H). intuition discriminate.
  - unfold select, filter_items in S. apply elements_none in NB. rewrite NB in S. discriminate.
Qed.

(** Mapping over values and keys. *)
Theorem C67_map_values f b b' : map_values f b = Some b' ->
  (forall ks, block_keys b' ks <-> block_keys b ks)
  /\ (forall k v, lookup k b = Some v -> exists w, f v = Some w /\ lookup k b' = Some w)
  /\ (forall k, lookup k b = None -> lookup k b' = None).
Proof.
  unfold map_values. destruct (elements b) as [es|] eqn:E; [|discriminate].
  set (g := fun e : element => option_map (fun v => (el_key e, v, @nil value)) (f (el_val e))).
  assert (G : forall e e', g e = Some e' -> el_key e' = el_key e) by (intros e e'; unfold g; destruct (f (el_val e)); [|discriminate]; now intros [= <-]).
  destruct (Prelude.Model.each g es) as [es'|] eqn:F; [|discriminate]. intros [= <-].
  destruct (elements_some b es E) as (xs & B & K & L). split; [|split].
  - apply same_keys. rewrite !keys_of_std, elements_block, E. cbn. f_equal. exact (each_keys _ _ _ G F).
  - intros k v H. rewrite L in H. rewrite block_lookup. pose proof (each_find _ _ _ G F k) as W. unfold find_el in H.
    destruct (find _ es) as [e|]; [|discriminate]. injection H as <-. destruct W as (e' & W & ->). unfold g in W.
    destruct (f (el_val e)) as [w|]; [|discriminate]. injection W as <-. exists w. auto.
  - intros k H. rewrite L in H. rewrite block_lookup. pose proof (each_find _ _ _ G F k) as W. unfold find_el in H.
    destruct (find _ es) as [e|]; [discriminate|exact W].
Qed.
Theorem C67_map_values_works f b es : is_block b es ->
  ((exists b', map_values f b = Some b') <-> forall v, In v (map e_val es) -> exists w, f v = Some w).
Proof.
  intro B. unfold map_values, elements. rewrite B. std. split.
  - intros (b' & E) v Hv. destruct (f v) as [w|] eqn:F; [eauto|]. apply in_map_iff in Hv. destruct Hv as (e & <- & He).
    rewrite (each_fails _ _ (e_key e, e_val e, match snd e with Some more => more | None => [] end)) in E; [discriminate| |].
    + apply in_map_iff. eauto.
    + cbn [el_val fst snd]. now rewrite F.
  - intro H. edestruct (each_total (fun e : element => option_map (fun v => (el_key e, v, @nil value)) (f (el_val e)))) as (ys & ->); [|cbn; eauto].
    intros e He. apply in_map_iff in He. destruct He as (x & <- & Hx). cbn [el_val fst snd].
    destruct (H (e_val x)) as (w & ->); [now apply in_map|]. cbn. eauto.
Qed.
Theorem C67_map_keys f b es : (forall j k, f j = f k -> j = k) -> is_block b es ->
  exists b', map_keys f b = Some b' /\ block_keys b' (map f (keys es)) /\ (forall k, lookup (f k) b' = lookup k b).
Proof.
  intros I B. unfold map_keys. destruct (elements_is_block b es B) as (xs & E). rewrite E. cbn [option_map]. std.
  destruct (elements_some b xs E) as (es' & B' & K & L). assert (es' = es) as -> by (unfold is_block in *; congruence).
  eexists. split; [reflexivity|]. split.
  - apply keys_of_spec. rewrite keys_of_std, elements_block. cbn. rewrite <- K, !map_map. reflexivity.
  - intro k. rewrite block_lookup, L. clear - I. induction xs as [|x xs IH]; [reflexivity|]. cbn [map]. rewrite !find_el_cons.
    change (el_key (f (el_key x), el_val x, @nil value)) with (f (el_key x)). change (el_val (f (el_key x), el_val x, @nil value)) with (el_val x).
    destruct (N.eqb_spec (f (el_key x)) (f k)) as [Ef|Nf].
    + apply I in Ef. rewrite <- Ef, N.eqb_refl. reflexivity.
    + destruct (N.eqb_spec (el_key x) k) as [Ex|]; [congruence|exact IH].
Qed.

(** Merging a list of blocks: the last block with the key gives the value. *)
Theorem C67_merge_all bs m : merge_all bs = Some m -> (forall b es, In b bs -> is_block b es -> NoDup (keys es)) ->
  (forall b, In b bs -> a_block b) /\ forall k, first_block k (rev bs) (lookup k m).
Proof.
  unfold merge_all.
  assert (G : forall bs a m, a_block a -> (forall es, is_block a es -> NoDup (keys es)) -> (forall b es, In b bs -> is_block b es -> NoDup (keys es)) ->
    Prelude.Model.foldl (fun acc b => match acc with Some a => merge a b | None => None end) (Some a) bs = Some m ->
    (forall b, In b bs -> a_block b) /\ forall k, first_block k (rev bs ++ [a]) (lookup k m)).
  { clear. induction bs as [|b bs IH]; intros a m Ba Na Nb H; cbn [Prelude.Model.foldl] in H.
    - injection H as ->. split; [intros _ []|]. intro k. cbn. destruct (lookup k m) as [v|] eqn:L; [now apply block_hit|apply block_miss; [exact L|constructor]].
    - destruct (merge a b) as [ab|] eqn:M.
      2:{ exfalso. clear - H. induction bs as [|c bs IH]; cbn in H; [discriminate|auto]. }
      destruct (block_dec b) as [Bb|Bb]; [|rewrite C57_not_blocks in M by auto; discriminate].
      destruct Ba as (es & Ba), Bb as (es' & Bb).
      destruct (C57_merge a b es es' Ba Bb) as (ab' & ms & M' & Bm & Km & Lm & _). assert (ab' = ab) as -> by congruence.
      destruct (IH ab m) as [IH1 IH2]; [exists ms; exact Bm| |intros c ec Hc; apply Nb; now right|exact H|].
      { intros es'' B''. assert (es'' = ms) as -> by (unfold is_block in *; congruence). rewrite Km. apply first_appearances_nodup. }
      split; [intros c [<-|Hc]; [exists es'; exact Bb|auto]|]. intro k. specialize (IH2 k). cbn [rev]. rewrite <- app_assoc. cbn [app].
      pose proof (C57_override a b es es' ab k Ba Bb (Na _ Ba) (Nb b es' (or_introl eq_refl) Bb) M) as O.
      clear - IH2 O. induction (rev bs) as [|c cs IHc]; cbn [app] in *.
      + inversion IH2 as [|? ? v L E|? ? o L F]; subst.
        * rewrite O in L. destruct (lookup k b) as [w|] eqn:Lb; cbn [or_else] in L.
          { injection L as ->. now apply block_hit. }
          { apply block_miss; [exact Lb|]. now apply block_hit. }
        * inversion F; subst. rewrite O in L. destruct (lookup k b) as [w|] eqn:Lb; cbn [or_else] in L; [discriminate|].
          apply block_miss; [exact Lb|]. apply block_miss; [exact L|constructor].
      + inversion IH2; subst; [now apply block_hit|apply block_miss; auto]. }
  intros H N. destruct (G bs (Blk []) m) as [G1 G2]; auto.
  - exists []. reflexivity.
  - intros es [= <-]. constructor.
  - split; [exact G1|]. intro k. specialize (G2 k). clear - G2. induction (rev bs) as [|c cs IH]; cbn [app] in G2.
    + inversion G2 as [|? ? v L E|? ? o L F]; subst; [discriminate L|]. inversion F; subst. constructor.
    + inversion G2; subst; [now apply block_hit|apply block_miss; auto].
Qed.

(** Sorting by key: in order, nothing lost, every key found as before. *)
Theorem C67_sort_keys lt b es : Prelude.Spec.strict_weak lt -> (forall j k, lt j k = false -> lt k j = false -> j = k) -> is_block b es ->
  exists b' es', sort_keys lt b = Some b' /\ is_block b' es' /\ Permutation (keys es) (keys es')
    /\ StronglySorted (fun j k => lt k j = false) (keys es') /\ (forall k, lookup k b' = lookup k b).
Proof.
  intros W T B. unfold sort_keys. destruct (elements_is_block b es B) as (xs & E). rewrite E.
  destruct (elements_some b xs E) as (es' & B' & K & L). assert (es' = es) as -> by (unfold is_block in *; congruence).
  destruct (Prelude.Props.C61_sort_by el_key lt xs W) as (ys & Y & P & S & Ties). unfold Prelude.Model.sort_by in Y. rewrite Y. cbn [option_map].
  destruct (keys_of_spec (block ys) (map el_key ys)) as [Ks _]. destruct Ks as (es' & By & Ky); [rewrite keys_of_std, elements_block; reflexivity|].
  exists (block ys), es'. repeat split; auto.
  - rewrite Ky, <- K. now apply Permutation_map.
  - rewrite Ky. clear - S. induction S as [|y ys S IH F]; cbn [map]; constructor; auto. clear - F. induction F; cbn [map]; constructor; auto.
  - intro k. rewrite block_lookup, L. unfold find_el. rewrite !find_filter.
    assert (F : forall zs, filter (fun e : element => N.eqb (el_key e) k) zs = filter (fun x => Prelude.Spec.tied lt k (el_key x)) zs).
    { intro zs. apply filter_ext. intro e. unfold Prelude.Spec.tied. destruct (N.eqb_spec (el_key e) k) as [->|Ne].
      - rewrite (Prelude.Spec.irreflexive lt W). reflexivity.
      - destruct (lt k (el_key e)) eqn:A, (lt (el_key e) k) eqn:C; try reflexivity. exfalso. apply Ne. symmetry. auto. }
    now rewrite !F, Ties.
Qed.

(** Zipping keys and values. *)
Theorem C67_zip_kv ks vs : block_keys (zip_kv ks vs) (firstn (length vs) ks) /\
  (NoDup ks -> forall i k v, nth_error ks i = Some k -> nth_error vs i = Some v -> lookup k (zip_kv ks vs) = Some v).
Proof.
  split.
  - apply keys_of_spec. unfold zip_kv. rewrite keys_of_std, elements_block. cbn. f_equal. revert vs. induction ks as [|k ks IH]; intros [|v vs]; cbn; auto. now rewrite IH.
  - intros N i k v. unfold zip_kv. rewrite block_lookup. revert vs i. induction N as [|j ks Nj N IH]; intros vs i Hk Hv; [destruct i; discriminate|].
    destruct vs as [|w vs]; [destruct i; discriminate|]. cbn [Prelude.Model.map2]. rewrite find_el_cons. cbn [el_key el_val fst snd].
    destruct i as [|i]; cbn [nth_error] in Hk, Hv.
    + injection Hk as ->. injection Hv as ->. now rewrite N.eqb_refl.
    + destruct (N.eqb_spec j k) as [->|]; [|eapply IH; eauto]. exfalso. apply Nj. eapply nth_error_In; eauto.
Qed.

(** Looking up. *)
Theorem C67_lookup_path ks b : lookup_path ks b = at_path ks b.
Proof.
  unfold lookup_path. revert b. induction ks as [|k ks IH]; intro b; [reflexivity|]. cbn [Prelude.Model.foldl at_path].
  destruct (lookup k b) as [w|]; [apply IH|]. clear. induction ks; auto.
Qed.
Theorem C67_lookup_or k d b : lookup_or k d b = match strip b with Blk _ => Some (match lookup k b with Some v => v | None => d end) | _ => None end.
Proof. unfold lookup_or, lookup. now destruct (strip b). Qed.
Theorem C67_has k b es : is_block b es -> (has k b = Some true <-> In k (keys es)) /\ (has k b = Some false <-> ~ In k (keys es)).
Proof.
  intro B. unfold has. destruct (proj2 (C67_map_values_works (fun _ => Some (Atom (Boolean true))) b es B)) as (b' & E); [eauto|]. rewrite E.
  destruct (C67_map_values _ _ _ E) as (K & H1 & H2). assert (B' : block_keys b' (keys es)) by (apply K; exists es; auto).
  destruct B' as (es' & B' & Ke). unfold lookup_or. rewrite B'. unfold is_block in *.
  assert (X : In k (keys es) <-> find_first k es <> None) by (rewrite find_first_some; split; [intros (v & ->); discriminate|destruct (find_first k es); [eauto|congruence]]).
  rewrite X. specialize (H1 k). specialize (H2 k). unfold lookup in H1, H2. rewrite B, B' in H1, H2. destruct (find_first k es) as [v|].
  - destruct (H1 v eq_refl) as (w & [= <-] & ->). split; split; try congruence; intro Q; exfalso; apply Q; congruence.
  - rewrite (H2 eq_refl). split; split; try congruence; intro Q; exfalso; apply Q; congruence.
Qed.
Theorem C67_lookup_alts syms d b : a_block b -> exists o, first_of b syms o /\ lookup_alts syms d b = Some (match o with Some v => v | None => d end).
Proof.
  intros (es & B). unfold lookup_alts. induction syms as [|s syms IH]; [exists None; split; [constructor|reflexivity]|].
  destruct IH as (o & F & E). cbn [Prelude.Model.foldr]. rewrite E. unfold lookup_or. rewrite B. destruct (lookup s b) as [v|] eqn:L.
  - exists (Some v). split; [now constructor|]. unfold lookup in L. rewrite B in L. now rewrite L.
  - exists o. split; [now constructor|]. unfold lookup in L. rewrite B in L. now rewrite L.
Qed.
Theorem C67_lookup_across s d bs : (forall b, In b bs -> a_block b) ->
  exists o, first_block s bs o /\ lookup_across s d bs = Some (match o with Some v => v | None => d end).
Proof.
  unfold lookup_across. induction bs as [|b bs IH]; intro H; [exists None; split; [constructor|reflexivity]|].
  destruct IH as (o & F & E); [auto using in_cons|]. destruct (H b) as (es & B); [now left|]. cbn [Prelude.Model.foldr]. rewrite E. unfold lookup_or. rewrite B.
  destruct (lookup s b) as [v|] eqn:L.
  - exists (Some v). split; [now constructor|]. unfold lookup in L. rewrite B in L. now rewrite L.
  - exists o. split; [now constructor|]. unfold lookup in L. rewrite B in L. now rewrite L.
Qed.

Definition nested : value := Blk [(1%N, Blk [(2%N, Atom Unit, None); (3%N, Atom (Boolean true), None)], None); (4%N, Atom Unit, None)].
Example nested_tidy : tidy nested.
Proof.
  unfold nested. constructor; [repeat constructor; cbn; intuition discriminate|]. intros e [<-|[<-|[]]]; [|constructor].
  constructor; [repeat constructor; cbn; intuition discriminate|]. intros e [<-|[<-|[]]]; constructor.
Qed.
Example C67_ex_update : exists b', update [1; 3]%N (fun _ => Some (Atom Unit)) nested = Some b' /\ at_path [1; 3]%N b' = Some (Atom Unit) /\ at_path [1; 2]%N b' = Some (Atom Unit).
Proof. eexists. split; [reflexivity|]. split; reflexivity. Qed.
Example C67_ex_open : ~ blocked nested [1; 5]%N /\ blocked nested [4; 5]%N.
Proof.
  split.
  - intro H. apply (update_blocked _ (fun x => Some x)) in H. discriminate.
  - eapply blocked_below with (w := Atom Unit); [reflexivity|apply find_first_given; reflexivity|]. apply blocked_here. intros (es & [=]).
Qed.
Example C67_ex_part : part [1; 3]%N [1; 2]%N.
Proof. apply part_later, part_here. discriminate. Qed.
Example C67_ex_merge_at : exists b', merge_at [1]%N (Blk [(9%N, Atom Unit, None)]) nested = Some b' /\ at_path [1; 9]%N b' = Some (Atom Unit).
Proof. eexists. split; reflexivity. Qed.
Example C67_ex_deep_merge_at : exists b', deep_merge_at [1; 7; 8]%N (Atom Unit) nested = Some b' /\ at_path [1; 7; 8]%N b' = Some (Atom Unit).
Proof. eexists. split; reflexivity. Qed.
Example C67_ex_merge_all : exists m, merge_all [nested; Blk [(4%N, Atom (Boolean true), None)]] = Some m /\ lookup 4%N m = Some (Atom (Boolean true)).
Proof. eexists. split; reflexivity. Qed.
Example C67_ex_map_values : exists b', map_values (fun v => Some (Lst [v])) nested = Some b'.
Proof. eexists. reflexivity. Qed.
Example C67_ex_order : Prelude.Spec.strict_weak N.ltb /\ (forall j k, N.ltb j k = false -> N.ltb k j = false -> j = k).
Proof. split; [constructor|]; intros *; rewrite ?N.ltb_lt, ?N.ltb_ge; try lia. Qed.

Print Assumptions C67_elements.
Print Assumptions C67_keys_values.
Print Assumptions C67_update_value.
Print Assumptions C67_update_value_fails.
Print Assumptions C67_alter_value.
Print Assumptions C67_update.
Print Assumptions C67_update_works.
Print Assumptions C67_alter.
Print Assumptions C67_update_value_or.
Print Assumptions C67_update_value_or_works.
Print Assumptions C67_set_value.
Print Assumptions C67_merge_at.
Print Assumptions C67_merge_at_works.
Print Assumptions C67_deep_merge_at.
Print Assumptions C67_deep_merge_at_works.
Print Assumptions C67_tongue.
Print Assumptions C67_select.
Print Assumptions C67_dissoc.
Print Assumptions C67_select_dissoc.
Print Assumptions C67_map_values.
Print Assumptions C67_map_values_works.
Print Assumptions C67_map_keys.
Print Assumptions C67_merge_all.
Print Assumptions C67_sort_keys.
Print Assumptions C67_zip_kv.
Print Assumptions C67_lookup_path.
Print Assumptions C67_lookup_or.
Print Assumptions C67_has.
Print Assumptions C67_lookup_alts.
Print Assumptions C67_lookup_across.
