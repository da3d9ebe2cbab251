From Coq Require Import NArith ZArith List Bool Lia ZifyN ZifyNat ZifyBool.
From Verif.Heap Require Import Lines LinesSpec.
Import ListNotations.
Local Open Scope N_scope.
Ltac Zify.zify_post_hook ::= Z.div_mod_to_equations.

Definition nohole_from (m : linemap) (lo below : N) : Prop :=
  forall l, lo <= l -> l + 1 < below -> m l = true \/ m (l + 1) = true.

Lemma close_hole_some m below count u lo r :
  close_hole count (Some u) lo = Some r ->
  u = lo + count -> (forall l, lo <= l < u -> m l = false) ->
  u <= below -> (u = below \/ m u = true) -> nohole_from m u below ->
  (lo = 0 \/ m (lo - 1) = true) ->
  exists hi, r = (lo * LINE, hi * LINE) /\ is_hole m below lo hi.
Proof.
  unfold close_hole, is_hole, nohole_from. intros H Hu F Ub B NH Lo.
  destruct (N.ltb_spec 1 count); [|discriminate].
  destruct (N.ltb_spec (lo + 1) u); [|lia].
  destruct (N.ltb_spec lo (u - 1)); [|discriminate]. injection H as <-.
  exists (u - 1). split; auto. split; [lia|]. split; [lia|]. split; [intros; apply F; lia|]. split; auto.
  intros l Hl Hl2. destruct (N.eq_dec l (u - 1)) as [->|].
  - destruct B as [->|B]; [lia|]. right. replace (u - 1 + 1) with u by lia. exact B.
  - apply NH; lia.
Qed.
Lemma close_hole_none count u lo : u = lo + count -> close_hole count (Some u) lo = None -> count <= 1.
Proof.
  unfold close_hole. intros -> H. destruct (N.ltb_spec 1 count); [|lia].
  destruct (N.ltb_spec (lo + 1) (lo + count)); [|lia].
  destruct (N.ltb_spec lo (lo + count - 1)); [discriminate|lia].
Qed.

Lemma hole_scan_spec m below n : N.of_nat n <= below ->
  (forall lo0, (N.of_nat n = below \/ m (N.of_nat n) = true) -> nohole_from m (N.of_nat n) below ->
    match hole_scan m n 0 None lo0 with
    | Some r => exists lo hi, r = (lo * LINE, hi * LINE) /\ is_hole m below lo hi
    | None => no_hole m below
    end) /\
  (forall c u, u = N.of_nat n + c -> 0 < c -> u <= below -> (forall l, N.of_nat n <= l < u -> m l = false) ->
    (u = below \/ m u = true) -> nohole_from m u below ->
    match hole_scan m n c (Some u) (N.of_nat n) with
    | Some r => exists lo hi, r = (lo * LINE, hi * LINE) /\ is_hole m below lo hi
    | None => no_hole m below
    end).
Proof.
  induction n as [|n IH]; intros Hn; split.
  - intros lo0 B NH. cbn. unfold no_hole. intros l Hl. apply NH; lia.
  - intros c u Hu Hc Ub F B NH. cbn [hole_scan].
    destruct (close_hole c (Some u) (N.of_nat 0)) as [r|] eqn:E.
    + destruct (close_hole_some m below c u 0 r) as (hi & -> & H); auto. exists 0, hi. auto.
    + apply close_hole_none in E; [|exact Hu]. unfold no_hole. intros l Hl.
      destruct (N.eq_dec l 0) as [->|].
      * assert (u = 1) by lia. subst u. destruct B as [<-|B]; [lia|]. right. rewrite H in B. exact B.
      * apply NH; lia.
  - intros lo0 B NH. cbn [hole_scan]. destruct (IH ltac:(lia)) as [IH1 IH2].
    destruct (m (N.of_nat n)) eqn:E.
    + change (close_hole 0 None lo0) with (@None (N*N)). cbv iota.
      apply IH1; auto. intros l Hl Hl2. destruct (N.eq_dec l (N.of_nat n)) as [->|]; auto. apply NH; lia.
    + cbv zeta. replace (N.of_nat n + (0 + 1)) with (N.of_nat (S n)) by lia. apply IH2; auto; try lia.
      intros l Hl. replace l with (N.of_nat n) by lia. auto.
  - intros c u Hu Hc Ub F B NH. cbn [hole_scan]. destruct (IH ltac:(lia)) as [IH1 IH2].
    destruct (m (N.of_nat n)) eqn:E.
    + destruct (close_hole c (Some u) (N.of_nat (S n))) as [r|] eqn:EC.
      * destruct (close_hole_some m below c u (N.of_nat (S n)) r) as (hi & -> & H); auto.
        -- right. replace (N.of_nat (S n) - 1) with (N.of_nat n) by lia. exact E.
        -- exists (N.of_nat (S n)), hi. auto.
      * apply close_hole_none in EC; [|exact Hu]. apply IH1; auto.
        intros l Hl Hl2. destruct (N.eq_dec l (N.of_nat n)) as [->|]; auto.
        destruct (N.eq_dec l (N.of_nat n + 1)) as [->|]; [|apply NH; lia].
        destruct B as [B|B]; [lia|]. right. replace (N.of_nat n + 1 + 1) with u by lia. exact B.
    + cbv zeta. apply IH2; auto; try lia.
      intros l Hl. destruct (N.eq_dec l (N.of_nat n)) as [->|]; auto. apply F. lia.
Qed.

Lemma find_hole_spec m off :
  match find_hole m off with
  | Some r => exists lo hi, r = (lo * LINE, hi * LINE) /\ is_hole m (off / LINE) lo hi
  | None => no_hole m (off / LINE)
  end.
Proof.
  unfold find_hole. destruct (hole_scan_spec m (off / LINE) (N.to_nat (off / LINE))) as [H _]; [lia|].
  apply H; [left; lia|]. intros l; lia.
Qed.

Lemma find_hole_some m off a b : find_hole m off = Some (a, b) ->
  exists lo hi, a = lo * LINE /\ b = hi * LINE /\ is_hole m (off / LINE) lo hi.
Proof.
  intros H. pose proof (find_hole_spec m off) as S. rewrite H in S.
  destruct S as (lo & hi & E & I). injection E as -> ->. exists lo, hi. auto.
Qed.

(** Bytes of a hole lie in unmarked lines, below the offset. *)
Lemma find_hole_bytes m off a b : find_hole m off = Some (a, b) ->
  a + LINE <= b /\ b + LINE <= off /\ (forall x, a <= x < b -> m (x / LINE) = false) /\
  a mod LINE = 0 /\ b mod LINE = 0.
Proof.
  intros H. destruct (find_hole_some _ _ _ _ H) as (lo & hi & -> & -> & L & B & F & _).
  unfold LINE in *. split; [lia|]. split; [lia|]. split; [|split; lia]. intros x Hx. apply F. lia.
Qed.

(** ** Marking *)
Lemma mark_lines_spec n : forall m first l,
  mark_lines m first n l = true <-> m l = true \/ (first <= l < first + N.of_nat n).
Proof.
  induction n as [|n IH]; intros m first l; cbn [mark_lines].
  - split; [auto|]. intros [H|H]; auto. lia.
  - rewrite IH. unfold mark_bit. rewrite orb_true_iff, N.eqb_eq. intuition lia.
Qed.
Lemma mark_region_lines b off bytes l : off < BLOCK -> 0 < bytes ->
  lines (mark_region b off bytes) l = true <-> lines b l = true \/ touches off (off + bytes) l.
Proof.
  intros Ho Hb. unfold mark_region. rewrite (proj2 (N.ltb_lt _ _) Ho). cbn [lines].
  rewrite mark_lines_spec. unfold touches, LINE in *. split; intros [H|H]; auto; right.
  - exists (N.max off (l * 128)). lia.
  - destruct H as (x & Hx & <-). lia.
Qed.
Lemma mark_region_mono b off bytes l : lines b l = true -> lines (mark_region b off bytes) l = true.
Proof.
  intros H. unfold mark_region. destruct (off <? BLOCK); auto. cbn [lines]. apply mark_lines_spec. auto.
Qed.
Lemma mark_region_frame b off bytes :
  base (mark_region b off bytes) = base b /\ lower (mark_region b off bytes) = lower b /\
  cursor (mark_region b off bytes) = cursor b.
Proof. unfold mark_region. destruct (off <? BLOCK); auto. Qed.

(** ** Bumping *)
(** What a region handed out by [bump] looks like. *)
Record bumped (b b' : bblock) (size o : N) : Prop := {
  bu_lines : lines b' = lines b;
  bu_base : base b' = base b;
  bu_cursor : cursor b' = o;
  bu_lower : lower b' <= o;
  bu_room : o + size <= cursor b;
  bu_hole : lower b <= o \/ (forall x, lower b' <= x < o + size -> lines b (x / LINE) = false) }.

Lemma bump_fuel_frame fuel : forall b size, let '(b', _, _) := bump_fuel fuel b size in
  lines b' = lines b /\ base b' = base b /\ cursor b' <= cursor b /\
  (lower b <= cursor b -> lower b' <= cursor b').
Proof.
  induction fuel as [|f IH]; intros b size; cbn [bump_fuel].
  - repeat split; auto; lia.
  - destruct (N.ltb_spec (cursor b) size); [repeat split; auto; lia|].
    destruct (N.ltb_spec (cursor b - size) (lower b)).
    + destruct (find_hole (lines b) (cursor b)) as [[lo cu]|] eqn:E; [|repeat split; auto; lia].
      pose proof (find_hole_bytes _ _ _ _ E) as (H1 & H2 & _).
      specialize (IH (mkBlock (base b) lo cu (lines b)) size).
      destruct (bump_fuel f _ size) as [[b' r] fills]. cbn in IH. unfold LINE in *.
      destruct IH as (-> & -> & H3 & H4). repeat split; auto; lia.
    + cbn. repeat split; auto; lia.
Qed.

(** Every byte between [lower'] and the old cursor that the block may use next: either
    in the hole being used or in an unmarked line. *)
Definition usable (b : bblock) (x : N) : Prop :=
  x < cursor b /\ (lower b <= x \/ lines b (x / LINE) = false).

Lemma bump_fuel_spec fuel : forall b size b' r fills, bump_fuel fuel b size = (b', r, fills) ->
  (forall o, r = Some o -> cursor b' = o /\ lower b' <= o /\ o + size <= cursor b /\
     (forall x, lower b' <= x < o + size -> usable b x)) /\
  (forall x, lower b' <= x < cursor b' -> usable b x) /\
  (forall lo hi, In (lo, hi) fills -> forall x, lo <= x < hi -> usable b x /\ lines b (x / LINE) = false).
Proof.
  induction fuel as [|f IH]; intros b size b' r fills H; cbn [bump_fuel] in H.
  - injection H as <- <- <-. split; [discriminate|]. split; [|contradiction]. intros x Hx. unfold usable. lia.
  - destruct (N.ltb_spec (cursor b) size).
    { injection H as <- <- <-. split; [discriminate|]. split; [|contradiction]. intros x Hx. unfold usable. lia. }
    destruct (N.ltb_spec (cursor b - size) (lower b)) as [Lt|Ge].
    + destruct (find_hole (lines b) (cursor b)) as [[lo cu]|] eqn:E.
      2:{ injection H as <- <- <-. split; [discriminate|]. split; [|contradiction]. intros x Hx. unfold usable. lia. }
      pose proof (find_hole_bytes _ _ _ _ E) as (H1 & H2 & H3 & _).
      destruct (bump_fuel f (mkBlock (base b) lo cu (lines b)) size) as [[b1 r1] fills1] eqn:B.
      injection H as -> -> <-. destruct (IH _ _ _ _ _ B) as (I1 & I2 & I3). cbn [cursor lower lines] in *.
      assert (U : forall x, usable (mkBlock (base b) lo cu (lines b)) x -> usable b x).
      { unfold usable. cbn. unfold LINE in *. intros x [X1 [X2|X2]]; split; try lia; auto. }
      split; [|split].
      * intros o Ho. destruct (I1 o Ho) as (A1 & A2 & A3 & A4). unfold LINE in *. split; [auto|]. split; [auto|]. split; [lia|].
        intros x Hx. apply (U x). auto.
      * intros x Hx. apply U; auto.
      * intros lo' hi' [F|F] x Hx.
        -- injection F as <- <-. split; auto. unfold usable. unfold LINE in *. split; [lia|auto].
        -- destruct (I3 _ _ F x Hx) as [? ?]. split; auto.
    + injection H as <- <- <-. split; [|split; [|contradiction]].
      * intros o [=<-]. cbn. split; [lia|]. split; [lia|]. split; [lia|]. intros; unfold usable; lia.
      * cbn. intros x Hx. unfold usable. lia.
Qed.
Lemma bump_spec b size b' r fills : bump b size = (b', r, fills) ->
  (lines b' = lines b /\ base b' = base b /\ cursor b' <= cursor b /\ (lower b <= cursor b -> lower b' <= cursor b')) /\
  (forall o, r = Some o -> cursor b' = o /\ lower b' <= o /\ o + size <= cursor b /\
     (forall x, lower b' <= x < o + size -> usable b x)) /\
  (forall x, lower b' <= x < cursor b' -> usable b x) /\
  (forall lo hi, In (lo, hi) fills -> forall x, lo <= x < hi -> usable b x /\ lines b (x / LINE) = false).
Proof.
  unfold bump. intros H. pose proof (bump_fuel_frame (S (N.to_nat (cursor b / LINE))) b size) as F.
  rewrite H in F. split; [exact F|]. exact (bump_fuel_spec _ _ _ _ _ _ H).
Qed.

(** A fit in the hole at hand succeeds at once. *)
Lemma bump_fits b size : size <= current_hole_size b -> lower b <= cursor b ->
  bump b size = (mkBlock (base b) (lower b) (cursor b - size) (lines b), Some (cursor b - size), []).
Proof.
  unfold current_hole_size, bump. intros H L. cbn [bump_fuel].
  rewrite (proj2 (N.ltb_ge _ _)) by lia. rewrite (proj2 (N.ltb_ge _ _)) by lia. reflexivity.
Qed.

(** ** Completeness: [bump] fails only when no hole below the cursor is big enough *)
Lemma find_hole_ext m a b : a / LINE = b / LINE -> find_hole m a = find_hole m b.
Proof.
  intros H. pose proof (find_hole_spec m a) as A. pose proof (find_hole_spec m b) as B. rewrite H in A.
  assert (U : forall lo hi lo' hi', is_hole m (b / LINE) lo hi -> is_hole m (b / LINE) lo' hi' -> hi' <= hi).
  { intros lo hi lo' hi' (H1 & H2 & H3 & H4 & H5) (K1 & K2 & K3 & K4 & K5).
    destruct (N.le_gt_cases hi' hi); auto. exfalso.
    destruct (H5 (hi' - 1)) as [E|E]; try lia.
    - rewrite (K3 (hi' - 1)) in E; [discriminate|lia].
    - replace (hi' - 1 + 1) with hi' in E by lia. rewrite (K3 hi') in E; [discriminate|lia]. }
  assert (V : forall lo hi lo', is_hole m (b / LINE) lo hi -> is_hole m (b / LINE) lo' hi -> lo' <= lo).
  { intros lo hi lo' (H1 & H2 & H3 & H4 & H5) (K1 & K2 & K3 & K4 & K5).
    destruct (N.le_gt_cases lo' lo); auto. exfalso. destruct K4 as [->|K4]; [lia|].
    rewrite H3 in K4; [discriminate|lia]. }
  destruct (find_hole m a) as [r|], (find_hole m b) as [s|].
  - destruct A as (lo & hi & -> & Ha), B as (lo' & hi' & -> & Hb).
    assert (hi = hi') by (pose proof (U _ _ _ _ Ha Hb); pose proof (U _ _ _ _ Hb Ha); lia). subst hi'.
    pose proof (V _ _ _ Ha Hb). pose proof (V _ _ _ Hb Ha). assert (lo = lo') by lia. now subst.
  - destruct A as (lo & hi & -> & H1 & H2 & H3 & _). exfalso.
    destruct (B (hi - 1)) as [E|E]; try lia.
    + rewrite (H3 (hi - 1)) in E; [discriminate|lia].
    + replace (hi - 1 + 1) with hi in E by lia. rewrite (H3 hi) in E; [discriminate|lia].
  - destruct B as (lo & hi & -> & H1 & H2 & H3 & _). exfalso.
    destruct (A (hi - 1)) as [E|E]; try lia.
    + rewrite (H3 (hi - 1)) in E; [discriminate|lia].
    + replace (hi - 1 + 1) with hi in E by lia. rewrite (H3 hi) in E; [discriminate|lia].
  - reflexivity.
Qed.

Lemma bump_fuel_complete fuel : forall b size lo hi, free_run (lines b) lo hi -> hi < cursor b / LINE ->
  size <= (hi - lo) * LINE -> cursor b / LINE < N.of_nat fuel ->
  exists b' o fills, bump_fuel fuel b size = (b', Some o, fills).
Proof.
  induction fuel as [|f IH]; intros b size lo hi [Hlt Hf] Hhi Hs Hfuel; [lia|]. cbn [bump_fuel].
  rewrite (proj2 (N.ltb_ge _ _)) by (unfold LINE in *; lia).
  destruct (N.ltb_spec (cursor b - size) (lower b)); [|eauto].
  destruct (find_hole (lines b) (cursor b)) as [[a c]|] eqn:E.
  2:{ pose proof (find_hole_spec (lines b) (cursor b)) as S. rewrite E in S. exfalso.
      destruct (S (hi - 1)) as [K|K]; try lia.
      - rewrite Hf in K; [discriminate|lia].
      - replace (hi - 1 + 1) with hi in K by lia. rewrite Hf in K; [discriminate|lia]. }
  destruct (find_hole_some _ _ _ _ E) as (l1 & h1 & -> & -> & H1 & H2 & H3 & H4 & H5).
  assert (D : (l1 <= lo /\ hi <= h1) \/ hi < l1).
  { assert (hi <= h1).
    { destruct (N.le_gt_cases hi h1); auto. exfalso. destruct (H5 (hi - 1)) as [K|K]; try lia.
      - rewrite Hf in K; [discriminate|lia].
      - replace (hi - 1 + 1) with hi in K by lia. rewrite Hf in K; [discriminate|lia]. }
    destruct H4 as [->|H4]; [lia|].
    destruct (N.le_gt_cases l1 lo); [lia|]. destruct (N.le_gt_cases l1 hi); [|lia].
    exfalso. rewrite Hf in H4; [discriminate|lia]. }
  destruct D as [D|D].
  - destruct f as [|f]; [exfalso; unfold LINE in *; lia|].
    exists (mkBlock (base b) (l1 * LINE) (h1 * LINE - size) (lines b)), (h1 * LINE - size), [(l1 * LINE, h1 * LINE)].
    cbn [bump_fuel cursor lower base lines]. unfold LINE in *.
    rewrite (proj2 (N.ltb_ge _ _)) by lia. rewrite (proj2 (N.ltb_ge _ _)) by lia. reflexivity.
  - destruct (IH (mkBlock (base b) (l1 * LINE) (h1 * LINE) (lines b)) size lo hi) as (b' & o & fills & B).
    + split; auto.
    + cbn [cursor]. unfold LINE in *. lia.
    + auto.
    + cbn [cursor]. unfold LINE in *. lia.
    + rewrite B. eauto.
Qed.
Lemma bump_complete b size lo hi : free_run (lines b) lo hi -> hi < cursor b / LINE ->
  size <= (hi - lo) * LINE -> exists b' o fills, bump b size = (b', Some o, fills).
Proof. intros. unfold bump. eapply bump_fuel_complete; eauto. lia. Qed.

(** A failing request also means no sufficient run below the cursor, and enters the last hole. *)
Lemma recycle_spec b : let '(b', ok) := recycle b in
  lines b' = lines b /\ base b' = base b /\ lower b' <= cursor b' /\ cursor b' <= BLOCK /\
  (ok = true -> lower b' + LINE <= cursor b') /\
  (forall x, lower b' <= x < cursor b' -> lines b (x / LINE) = false).
Proof.
  unfold recycle. destruct (find_hole (lines b) BLOCK) as [[a c]|] eqn:E.
  - pose proof (find_hole_bytes _ _ _ _ E) as (H1 & H2 & H3 & _). cbn. unfold LINE in *.
    repeat split; auto; lia.
  - cbn. unfold BLOCK. repeat split; auto; lia || discriminate.
Qed.

(** ** Sequences of requests *)
Lemma bump_all_inv : forall sizes b r, In r (bump_all b sizes) ->
  fst r <= snd r /\ snd r <= cursor b /\ (forall x, fst r <= x < snd r -> usable b x).
Proof.
  induction sizes as [|s ss IH]; intros b r H; cbn [bump_all] in H; [contradiction|].
  destruct (bump b s) as [[b' o] fills] eqn:B.
  destruct (bump_spec _ _ _ _ _ B) as ((L & Ba & Cu & _) & S & U & _).
  assert (UU : forall x, usable b' x -> usable b x).
  { intros x [X1 [X2|X2]]; [apply U; auto|]. rewrite L in X2. split; [lia|auto]. }
  assert (T : In r (bump_all b' ss) -> fst r <= snd r /\ snd r <= cursor b /\ (forall x, fst r <= x < snd r -> usable b x)).
  { intros I. destruct (IH _ _ I) as (A1 & A2 & A3). split; [lia|]. split; [lia|]. intros x Hx. auto. }
  destruct o as [o|]; auto. destruct H as [<-|H]; auto. cbn [fst snd].
  destruct (S o eq_refl) as (S1 & S2 & S3 & S4). split; [lia|]. split; [lia|]. intros x Hx. apply S4. lia.
Qed.
Lemma bump_all_disjoint : forall sizes b,
  ForallOrdPairs (fun r s => snd s <= fst r) (bump_all b sizes).
Proof.
  induction sizes as [|s ss IH]; intros b; cbn [bump_all]; [constructor|].
  destruct (bump b s) as [[b' o] fills] eqn:B. destruct o as [o|]; auto. constructor; auto.
  destruct (bump_spec _ _ _ _ _ B) as (_ & S & _). destruct (S o eq_refl) as (S1 & _).
  apply Forall_forall. intros r Hr. destruct (bump_all_inv _ _ _ Hr) as (_ & A & _). cbn. lia.
Qed.

(** ** Largest hole and totals *)
Lemma holes_fuel_complete fuel : forall m off lo hi, off / LINE < N.of_nat fuel -> free_run m lo hi ->
  hi < off / LINE ->
  exists a b, In (a, b) (holes_fuel fuel m off) /\ a <= lo * LINE /\ hi * LINE <= b.
Proof.
  induction fuel as [|f IH]; intros m off lo hi Hf [Hlt Hr] Hhi; [lia|]. cbn [holes_fuel].
  destruct (find_hole m off) as [[a c]|] eqn:E.
  2:{ pose proof (find_hole_spec m off) as S. rewrite E in S. exfalso.
      destruct (S (hi - 1)) as [K|K]; try lia.
      - rewrite Hr in K; [discriminate|lia].
      - replace (hi - 1 + 1) with hi in K by lia. rewrite Hr in K; [discriminate|lia]. }
  destruct (find_hole_some _ _ _ _ E) as (l1 & h1 & -> & -> & H1 & H2 & H3 & H4 & H5).
  assert (hi <= h1).
  { destruct (N.le_gt_cases hi h1); auto. exfalso. destruct (H5 (hi - 1)) as [K|K]; try lia.
    - rewrite Hr in K; [discriminate|lia].
    - replace (hi - 1 + 1) with hi in K by lia. rewrite Hr in K; [discriminate|lia]. }
  destruct (N.le_gt_cases l1 lo).
  - exists (l1 * LINE), (h1 * LINE). split; [left; auto|]. unfold LINE. lia.
  - assert (hi < l1).
    { destruct (N.le_gt_cases l1 hi); [|lia]. exfalso. destruct H4 as [->|H4]; [lia|].
      rewrite Hr in H4; [discriminate|lia]. }
    assert (Q : l1 * LINE / LINE = l1) by (unfold LINE; lia).
    rewrite (proj2 (N.ltb_lt 0 (l1 * LINE))) by (unfold LINE; lia).
    destruct (IH m (l1 * LINE) lo hi) as (a & b & I & A & B); [rewrite Q; lia|split; auto|rewrite Q; lia|].
    exists a, b. split; [right; auto|auto].
Qed.
Lemma holes_fuel_sound fuel : forall m off a b, In (a, b) (holes_fuel fuel m off) ->
  exists lo hi, a = lo * LINE /\ b = hi * LINE /\ free_run m lo hi /\ hi < off / LINE.
Proof.
  induction fuel as [|f IH]; intros m off a b H; cbn [holes_fuel] in H; [contradiction|].
  destruct (find_hole m off) as [[lo up]|] eqn:E; [|contradiction].
  destruct (find_hole_some _ _ _ _ E) as (l1 & h1 & -> & -> & H1 & H2 & H3 & _).
  destruct H as [H|H].
  - injection H as <- <-. exists l1, h1. repeat split; auto.
  - destruct (0 <? l1 * LINE); [|contradiction].
    destruct (IH _ _ _ _ H) as (lo & hi & -> & -> & F & B). exists lo, hi. repeat split; auto; try apply F.
    unfold LINE in *. lia.
Qed.

Definition bigger acc (h : N * N) :=
  let '(lo, up) := h in let size := up - lo in
  match acc with Some (_, existing) => if existing <? size then Some (lo, size) else acc | None => Some (lo, size) end.
Lemma largest_fold l : forall (acc : option (N * N)),
  match fold_left bigger l acc with
  | Some (o, s) => (acc = Some (o, s) \/ exists up, In (o, up) l /\ s = up - o) /\
                   (forall a b, In (a, b) l -> b - a <= s) /\ (forall o' s', acc = Some (o', s') -> s' <= s)
  | None => l = [] /\ acc = None
  end.
Proof.
  induction l as [|[a b] l IH]; intros acc; cbn [fold_left].
  - destruct acc as [[o s]|]; auto. split; auto. split; [contradiction|]. intros o' s' [= -> ->]. lia.
  - specialize (IH (bigger acc (a, b))). destruct (fold_left bigger l (bigger acc (a, b))) as [[o s]|].
    + destruct IH as (I1 & I2 & I3). unfold bigger in I1, I3. destruct acc as [[o0 s0]|].
      * destruct (N.ltb_spec s0 (b - a)).
        -- specialize (I3 _ _ eq_refl). split; [|split].
           ++ right. destruct I1 as [I1|(up & I & ->)]; [injection I1 as <- <-; exists b; split; [left; auto|auto]|exists up; split; [right; auto|auto]].
           ++ intros a' b' [[= <- <-]|I]; auto.
           ++ intros o' s' [= <- <-]. lia.
        -- specialize (I3 _ _ eq_refl) as I3'. split; [|split].
           ++ destruct I1 as [I1|(up & I & ->)]; auto. right. exists up. split; [right; auto|auto].
           ++ intros a' b' [[= <- <-]|I]; auto. lia.
           ++ intros o' s' [= <- <-]. lia.
      * specialize (I3 _ _ eq_refl). split; [|split].
        -- right. destruct I1 as [I1|(up & I & ->)]; [injection I1 as <- <-; exists b; split; [left; auto|auto]|exists up; split; [right; auto|auto]].
        -- intros a' b' [[= <- <-]|I]; auto.
        -- discriminate.
    + destruct IH as [_ IH]. exfalso. unfold bigger in IH. destruct acc as [[o0 s0]|]; [destruct (s0 <? b - a)|]; discriminate.
Qed.
Lemma find_largest_hole_fold b : find_largest_hole b = fold_left bigger (holes b) None.
Proof. reflexivity. Qed.

(** ** Statistics *)
Lemma stats_scan_spec n : forall m i last, let '(h, f, k) := stats_scan m i n last in
  k = count_below (fun l => m (i + l)) n /\ f + k = N.of_nat n.
Proof.
  induction n as [|n IH]; intros m i last; cbn [stats_scan].
  - cbn. auto.
  - specialize (IH m (i + 1) (m i)). destruct (stats_scan m (i + 1) n (m i)) as [[h f] k].
    destruct IH as [-> F]. split.
    + assert (G : forall (p : N -> bool) k, count_below p (S k) = count_below (fun l => p (1 + l)) k + (if p 0 then 1 else 0)).
      { clear. intros p. induction k as [|k IH].
        - cbn. reflexivity.
        - cbn [count_below] in *. rewrite IH. replace (1 + N.of_nat k) with (N.of_nat (S k)) by lia. lia. }
      rewrite G. rewrite N.add_0_r. f_equal. clear. induction n as [|n IH]; cbn [count_below]; auto.
      rewrite IH. rewrite N.add_assoc. reflexivity.
    + destruct (m i); lia.
Qed.
