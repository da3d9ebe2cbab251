(** Theorems about the space reports of a block (C13). *)
From Coq Require Import NArith ZArith List Bool Lia ZifyN ZifyNat ZifyBool.
From Verif.Heap Require Import Lines LinesSpec LinesProofs.
Import ListNotations.
Local Open Scope N_scope.
Ltac Zify.zify_post_hook ::= Z.div_mod_to_equations.

Lemma count_below_ext p q n : (forall l, l < N.of_nat n -> p l = q l) -> count_below p n = count_below q n.
Proof.
  induction n as [|n IH]; intros H; cbn [count_below]; auto.
  rewrite IH, (H (N.of_nat n)); auto; try lia. intros; apply H; lia.
Qed.
Lemma count_below_all p n : (forall l, l < N.of_nat n -> p l = true) -> count_below p n = N.of_nat n.
Proof.
  induction n as [|n IH]; intros H; cbn [count_below]; auto.
  rewrite IH, (H (N.of_nat n)); try lia. intros; apply H; lia.
Qed.
Lemma count_below_add p n k : count_below p (n + k) = count_below p n + count_below (fun l => p (N.of_nat n + l)) k.
Proof.
  induction k as [|k IH]; cbn [count_below].
  - rewrite Nat.add_0_r. lia.
  - rewrite Nat.add_succ_r. cbn [count_below]. rewrite IH. replace (N.of_nat (n + k)) with (N.of_nat n + N.of_nat k) by lia. lia.
Qed.
Lemma count_below_none p n : (forall l, l < N.of_nat n -> p l = false) -> count_below p n = 0.
Proof.
  induction n as [|n IH]; intros H; cbn [count_below]; auto.
  rewrite IH, (H (N.of_nat n)); try lia. intros; apply H; lia.
Qed.

(** Two free lines one above the other. *)
Definition free_pair (m : linemap) (l : N) : bool := negb (m l) && negb (m (l + 1)).

Lemma sum_acc l : forall k, fold_left (fun acc (h : N * N) => acc + (snd h - fst h)) l k =
  k + fold_left (fun acc (h : N * N) => acc + (snd h - fst h)) l 0.
Proof. induction l as [|x l IH]; intros k; cbn [fold_left]; [lia|].
  rewrite (IH (k + (snd x - fst x))), (IH (0 + (snd x - fst x))). lia. Qed.

Lemma holes_sum fuel : forall m off, off / LINE < N.of_nat fuel ->
  fold_left (fun acc (h : N * N) => acc + (snd h - fst h)) (holes_fuel fuel m off) 0 =
  LINE * count_below (free_pair m) (N.to_nat (off / LINE - 1)).
Proof.
  induction fuel as [|f IH]; intros m off Hf; [destruct (N.nlt_0_r _ Hf)|]. cbn [holes_fuel].
  pose proof (find_hole_spec m off) as S. destruct (find_hole m off) as [[a c]|].
  - destruct S as (lo & hi & E & H1 & H2 & H3 & H4 & H5). injection E as -> ->.
    cbn [fold_left]. rewrite sum_acc. cbn [fst snd].
    replace (N.to_nat (off / LINE - 1)) with (N.to_nat lo + (N.to_nat (hi - lo) + N.to_nat (off / LINE - 1 - hi)))%nat by lia.
    rewrite !count_below_add.
    rewrite (count_below_all (fun l => _) (N.to_nat (hi - lo))).
    2:{ intros l Hl. unfold free_pair. rewrite !H3; auto; lia. }
    rewrite (count_below_none _ (N.to_nat (off / LINE - 1 - hi))).
    2:{ intros l Hl. unfold free_pair. destruct (H5 (N.of_nat (N.to_nat lo) + (N.of_nat (N.to_nat (hi - lo)) + l))) as [K|K]; try lia;
        rewrite K; auto. apply andb_false_r. }
    destruct (0 <? lo * LINE) eqn:Z.
    + rewrite IH; [|unfold LINE in *; lia].
      replace (N.to_nat (lo * LINE / LINE - 1)) with (N.to_nat (lo - 1)) by (unfold LINE in *; lia).
      assert (Q : N.to_nat lo = (N.to_nat (lo - 1) + 1)%nat) by (unfold LINE in *; lia).
      rewrite Q at 1. rewrite count_below_add. cbn [count_below]. destruct H4 as [H4|H4]; [subst; discriminate|].
      assert (FP : free_pair m (N.of_nat (N.to_nat (lo - 1)) + N.of_nat 0) = false).
      { replace (N.of_nat (N.to_nat (lo - 1)) + N.of_nat 0) with (lo - 1) by (unfold LINE in *; lia). unfold free_pair. rewrite H4. reflexivity. }
      rewrite FP. unfold LINE. lia.
    + assert (lo = 0) by (unfold LINE in *; lia). subst lo. cbn [fold_left count_below N.to_nat].
      unfold LINE. lia.
  - cbn [fold_left]. rewrite count_below_none; [lia|]. intros l Hl. unfold free_pair.
    destruct (S l) as [K|K]; try lia; rewrite K; auto. apply andb_false_r.
Qed.

(** The space reported as available in a block is one line for every two adjacent
    free lines: each maximal run counts for its length less the line held back. *)
Theorem C13_total_available : forall b,
  total_available_space b = LINE * count_below (fun l => negb (lines b l) && negb (lines b (l + 1))) 255.
Proof. intros b. exact (holes_sum 257 (lines b) BLOCK eq_refl). Qed.
Print Assumptions C13_total_available.

Lemma count_below_front (p : N -> bool) k : count_below p (S k) = count_below (fun l => p (1 + l)) k + (if p 0 then 1 else 0).
Proof.
  pose proof (count_below_add p 1 k) as H. cbn [Nat.add] in H. rewrite H. cbn [count_below N.of_nat].
  rewrite (count_below_ext (fun l => p (N.of_nat 1 + l)) (fun l => p (1 + l))) by reflexivity. lia.
Qed.
Lemma stats_holes n : forall m i last, fst (fst (stats_scan m i n last)) =
  count_below (fun l => negb (m (i + l)) && (if l =? 0 then last else m (i + l - 1))) n.
Proof.
  induction n as [|n IH]; intros m i last; cbn [stats_scan]; auto.
  specialize (IH m (i + 1) (m i)). destruct (stats_scan m (i + 1) n (m i)) as [[h f] k]. cbn [fst] in *.
  rewrite count_below_front, IH. cbn [N.eqb]. replace (i + 0) with i by lia. rewrite andb_comm. f_equal.
  apply count_below_ext. intros l _. replace (i + 1 + l) with (i + (1 + l)) by lia.
  replace (1 + l =? 0) with false by lia.
  destruct (N.eqb_spec l 0); f_equal; f_equal; lia.
Qed.
(** The number of holes reported is the number of maximal runs of free lines. *)
Theorem C13_hole_count : forall m, fst (fst (stats m)) =
  count_below (fun l => negb (m l) && ((l =? 0) || m (l - 1))) 256.
Proof.
  intros m. unfold stats. rewrite stats_holes. apply count_below_ext. intros l _. cbn [N.add].
  destruct (l =? 0); auto.
Qed.
Print Assumptions C13_hole_count.

Lemma marked_count m : snd (stats m) = count_below m 256.
Proof.
  unfold stats. pose proof (stats_scan_spec 256 m 0 true) as S.
  destruct (stats_scan m 0 256 true) as [[h f] k]. destruct S as (S1 & _). cbn [snd]. rewrite S1. apply count_below_ext.
  intros; f_equal; lia.
Qed.
(** A block is classified by the share of its 256 lines that are marked: none, up to
    a quarter, up to three quarters, more. *)
Theorem C13_density : forall b, let n := count_below (lines b) 256 in
  n <= 256 /\
  (analyze_density b = DEmpty <-> n = 0) /\
  (analyze_density b = DSparse <-> 0 < n <= 64) /\
  (analyze_density b = DFragmented <-> 64 < n <= 192) /\
  (analyze_density b = DDense <-> 192 < n).
Proof.
  intros b n. pose proof (marked_count (lines b)) as M. fold n in M.
  assert (L : n <= 256).
  { assert (G : forall k, count_below (lines b) k <= N.of_nat k).
    { induction k; cbn [count_below]; [lia|]. destruct (lines b (N.of_nat k)); lia. }
    exact (G 256%nat). }
  unfold analyze_density. destruct (stats (lines b)) as [[h f] k]. cbn [snd] in M. subst k.
  destruct (N.eqb_spec n 0); [|destruct (N.leb_spec (n * 4) 256); [|destruct (N.leb_spec (n * 4) 768)]];
    (split; [exact L|]); repeat split; intros; try discriminate; try lia.
Qed.
Print Assumptions C13_density.

Example C13_space_example : let b := mkBlock 1 0 0 (fun l => (l =? 0) || (l =? 7) || (l =? 9)) in
  total_available_space b = 250 * LINE /\ fst (fst (stats (lines b))) = 3 /\ analyze_density b = DSparse.
Proof. vm_compute. repeat split. Qed.
