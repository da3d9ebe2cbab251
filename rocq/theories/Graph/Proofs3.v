(** The three intrinsics against the specification. *)
From Coq Require Import List Arith Bool Lia Relations ZArith Sorted Permutation.
From Verif.Graph Require Import Model Spec Proofs Proofs2.
Import ListNotations.

Lemma edge_iff flat n k i j : edge n (chunk_pairs flat) k i j <-> edge_is flat n k i j.
Proof. unfold edge, edge_is. now rewrite chunk_pairs_nth. Qed.
Lemma arc_iff flat n K a b : arcx n (chunk_pairs flat) K a b <-> arc flat n K a b.
Proof. unfold arcx, arc. split; intros (k & H & E); exists k; split; auto; now apply edge_iff. Qed.
Lemma conn_arc flat n K a b : conn (arcx n (chunk_pairs flat) K) a b <-> connected flat n K a b.
Proof. apply conn_iff. apply arc_iff. Qed.
Lemma joins_iff flat n a b : joins n (chunk_pairs flat) a b <-> arc flat n all_edges a b.
Proof.
  rewrite <- arc_iff. unfold joins, arcx, edge, all_edges. split.
  - intros (H & A & B). apply In_nth_error in H as [k H]. exists k. auto.
  - intros (k & _ & H & A & B). split; auto. eapply nth_error_In; eauto.
Qed.
Lemma comps_arc flat n K c : comps n (arcx n (chunk_pairs flat) K) c <-> components flat n K c.
Proof.
  unfold comps, components. split; intros (reps & A & B & C & D & E); exists reps; repeat split; auto.
  - intros r s Hr Hs H. apply D; auto. now apply conn_arc.
  - intros x Hx. destruct (E x Hx) as (r & Hr & H). exists r. split; auto. now apply conn_arc.
  - intros r s Hr Hs H. apply D; auto. now apply conn_arc.
  - intros x Hx. destruct (E x Hx) as (r & Hr & H). exists r. split; auto. now apply conn_arc.
Qed.

Theorem union_find_correct flat n :
  exists ls, graph_union_find flat n = Some ls /\ length ls = n /\
    (forall x y, x < n -> y < n ->
      (nth_error ls x = nth_error ls y <-> connected flat n all_edges x y)) /\
    (forall x l, nth_error ls x = Some l -> l < n /\ connected flat n all_edges x l).
Proof.
  unfold graph_union_find.
  destruct (unions_spec n (chunk_pairs flat) _ _ _ (represents_init n)) as (p & k & U & R).
  rewrite U.
  assert (R' : represents n p k (arc flat n all_edges)).
  { eapply represents_iff; [|exact R]. intros a b. cbn. rewrite joins_iff. tauto. }
  destruct R' as (O & B & S). change (conn (arc flat n all_edges)) with (connected flat n all_edges) in S.
  destruct (labels_spec n k (seq 0 n) p O) as (ls & L & F); [intros x Hx; apply in_seq in Hx; lia|].
  exists ls. split; auto. pose proof (F2_length _ _ _ F) as Len. rewrite seq_length in Len.
  split; auto.
  assert (N : forall x, x < n -> exists r, nth_error ls x = Some r /\ rep p x r).
  { intros x Hx. assert (E : nth_error (seq 0 n) x = Some x) by now apply nth_error_seq.
    clear - F E. revert x E. generalize (fun x : nat => x).
    assert (G : forall (xs l : list nat), Forall2 (rep p) xs l -> forall i y, nth_error xs i = Some y ->
      exists r, nth_error l i = Some r /\ rep p y r).
    { induction 1; intros [|i] z E; cbn in *; try discriminate; eauto. injection E as <-. eauto. }
    intros _ x E. eapply G; eauto. }
  split.
  - intros x y Hx Hy. rewrite <- S by auto.
    destruct (N x Hx) as (r & Er & Rr), (N y Hy) as (s & Es & Rs). rewrite Er, Es. split.
    + intros [=->]. exists s. auto.
    + intros (t & A & C). rewrite (rep_fun _ _ _ _ Rr A). f_equal. symmetry. eapply rep_fun; eauto.
  - intros x l H. assert (Hx : x < n) by (rewrite Len; eapply nth_lt; eauto).
    destruct (N x Hx) as (r & Er & Rr). assert (r = l) by congruence. subst r.
    pose proof (rep_isroot _ _ _ Rr) as Root.
    assert (l < n) by (destruct O as (Lp & _); rewrite <- Lp; eapply nth_lt; eauto).
    split; auto. apply S; auto. exists l. split; auto. now constructor.
Qed.

Lemma kruskal_full flat n :
  exists r, graph_kruskal_edges flat n = Some r /\
    (forall q i j, edge n (chunk_pairs flat) q i j -> picked n (chunk_pairs flat) q (map fst r) i j) /\
    (forall q d, In (q, d) r -> (exists i j, edge n (chunk_pairs flat) q i j) /\
                  comps n (arcx n (chunk_pairs flat) (fun k => k < S q)) d) /\
    StronglySorted lt (map fst r).
Proof.
  destruct (kruskal_spec n (chunk_pairs flat) (chunk_pairs flat) [] (seq 0 n) (repeat 0 n) n eq_refl)
    as (r & K & P & Q & S).
  - eapply represents_iff; [|apply represents_init]. intros a b. split; [tauto|].
    intros (k & H & _). cbn in H. lia.
  - apply comps_none. intros a b (k & H & _). cbn in H. lia.
  - exists r. split; [exact K|]. split; [intros q i j H; apply P; cbn; auto; lia|]. split; auto.
    intros q d H. apply Q in H. tauto.
Qed.
Lemma sorted_nodup l : StronglySorted lt l -> NoDup l.
Proof.
  induction 1 as [|x l S IH F]; constructor; auto. intros H.
  rewrite Forall_forall in F. specialize (F x H). lia.
Qed.

Lemma forest_iff flat n T : forest flat n T <-> forestx n (chunk_pairs flat) T.
Proof.
  unfold forest, forestx. split; intros [ND F]; split; auto; intros k Hk;
    destruct (F k Hk) as (i & j & E & N); exists i, j; (split; [now apply edge_iff|]);
    intros C; apply N; now apply conn_arc.
Qed.

Theorem kruskal_correct flat n :
  exists r, graph_kruskal_edges flat n = Some r /\
    let sel := map fst r in
    StronglySorted lt sel /\ forest flat n sel /\ spanning flat n sel /\
    (forall k c, In (k, c) r -> components flat n (fun k' => k' <= k) c) /\
    (forall k i j, edge_is flat n k i j -> (In k sel <-> ~ connected flat n (fun k' => k' < k) i j)) /\
    forall w T, (forall a b, a <= b -> (w a <= w b)%Z) -> forest flat n T -> spanning flat n T ->
      (total w sel <= total w T)%Z.
Proof.
  destruct (kruskal_full flat n) as (r & K & P & Q & S). exists r. split; auto. cbv zeta.
  set (es := chunk_pairs flat) in *. set (sel := map fst r) in *.
  assert (SE : forall q, In q sel -> exists i j, edge n es q i j).
  { intros q Hq. apply in_map_iff in Hq as ([q' d] & <- & Hq). apply Q in Hq. tauto. }
  assert (ND := sorted_nodup _ S). split; auto.
  assert (F : forestx n es sel) by now apply sel_forest.
  split; [now apply forest_iff|]. split; [|split; [|split]].
  - intros x y. rewrite <- !conn_arc. apply sel_spans_all; auto.
  - intros k c H. apply Q in H as [_ H]. apply comps_arc. eapply comps_iff; [|exact H].
    apply conn_iff. intros a b. split; intros (q & A & B); exists q; split; auto; lia.
  - intros k i j H. apply edge_iff in H. fold es in H. rewrite <- conn_arc. fold es.
    destruct (P k i j H) as [[A B]|[A B]]; tauto.
  - intros w T M FT ST. apply forest_iff in FT. fold es in FT.
    apply (abel_total w M T sel (length es)); auto.
    + destruct FT; auto.
    + apply (forest_same_size n es sel P SE T ND FT).
      intros a b. unfold es. rewrite !conn_arc. apply ST.
    + destruct FT as [_ FT]. intros k Hk. destruct (FT k Hk) as (i & j & (E & _) & _). eapply nth_lt; eauto.
    + intros k Hk. destruct (SE k Hk) as (i & j & E & _). eapply nth_lt; eauto.
    + intros m. apply (forest_prefix_le n es sel P SE T m ND FT).
Qed.

Lemma path_last (R : nat -> nat -> Prop) x y : clos_trans nat R x y ->
  R x y \/ exists z, clos_trans nat R x z /\ R z y.
Proof.
  intros H. apply clos_trans_tn1 in H. inversion H; subst; auto.
  right. exists y0. split; auto. now apply clos_tn1_trans.
Qed.

Theorem topo_correct flat n :
  exists r, graph_topo_sort flat n = Some r /\ NoDup r /\ (forall x, In x r -> x < n) /\
    (forall u v, arc flat n all_edges u v -> In v r -> before r u v) /\
    (forall v, v < n -> (In v r <->
       ~ exists z, path flat n z z /\ clos_refl_trans nat (arc flat n all_edges) z v)) /\
    (length r = n <-> acyclic flat n).
Proof.
  unfold graph_topo_sort. set (es := chunk_pairs flat). set (V := filter (validb n) es).
  assert (VI : forall u v, In (u, v) V <-> arc flat n all_edges u v).
  { intros u v. rewrite <- joins_iff. unfold V, joins. rewrite filter_In. unfold validb. cbn [fst snd].
    rewrite andb_true_iff, !Nat.ltb_lt. tauto. }
  assert (VO : forall u v, In (u, v) V -> u < n /\ v < n).
  { intros u v H. apply VI, joins_iff in H as (_ & H). auto. }
  destruct (build_spec n es [] (repeat [] n) (repeat 0 n)) as (adj & deg & B & L1 & L2 & A & D);
    try apply repeat_length.
  { intros u Hu. cbn. apply nth_error_repeat. auto. }
  { intros v Hv. cbn. apply nth_error_repeat. auto. }
  rewrite B. cbn [app] in A, D. fold V in A, D.
  assert (PD : forall v, pending V [] v = cnt_in V v).
  { intros v. unfold pending, cnt_in. f_equal. apply filter_ext. intros e. cbn. apply andb_true_r. }
  destruct (kahn_spec n V VO adj A n deg (initial deg) []) as (r & K & ND & Bd & Pl & Cl); auto.
  - intros x Hx. cbn in Hx. apply filter_In in Hx as [Hx _]. apply in_seq in Hx. lia.
  - cbn. apply NoDup_filter, seq_NoDup.
  - intros v Hv. rewrite PD. auto.
  - intros v Hv. cbn [app]. unfold initial. rewrite filter_In, in_seq, PD, (D v Hv), L2.
    destruct (cnt_in V v); split; auto; try lia; intros [_ H]; discriminate.
  - intros a v b E. destruct a; discriminate.
  - exists r. split; auto. split; auto. split; auto.
    assert (BF : forall u v, arc flat n all_edges u v -> In v r -> before r u v).
    { intros u v E Hv. apply VI in E. apply in_split in Hv as (a & b & Er).
      pose proof (Pl a v b Er u E) as Hu. apply in_split in Hu as (a1 & a2 & Ea).
      exists a1, a2, b. rewrite Er, Ea, <- app_assoc. auto. }
    split; auto.
    assert (CH : forall v, v < n -> (In v r <->
       ~ exists z, path flat n z z /\ clos_refl_trans nat (arc flat n all_edges) z v)).
    { intros v Hv. split.
      - intros Hin (z & Cz & Zv).
        (* everything upstream is placed *)
        assert (UP : forall x y, clos_refl_trans nat (arc flat n all_edges) x y -> In y r -> In x r).
        { intros x y H. induction H as [x y H|x|x y w H1 IH1 H2 IH2]; auto.
          intros Hy. pose proof (Cl y (Bd y Hy)) as C. apply (proj1 C Hy). now apply VI. }
        assert (Hz : In z r) by (eapply UP; eauto).
        (* positions strictly decrease upstream *)
        assert (POS : forall x y, path flat n x y -> In y r -> before r x y).
        { intros x y H. induction H as [x y H|x y w H1 IH1 H2 IH2]; [now apply BF|].
          intros Hw. destruct (IH2 Hw) as (a & b & c & Er).
          assert (Hy : In y r) by (rewrite Er, in_app_iff; right; left; auto).
          destruct (IH1 Hy) as (a' & b' & c' & Er').
          assert (E : a = a' ++ x :: b').
          { clear - Er Er' ND. rewrite Er in Er'.
            replace (a' ++ x :: b' ++ y :: c') with ((a' ++ x :: b') ++ y :: c') in Er' by (now rewrite <- app_assoc).
            rewrite Er in ND. clear Er. revert ND Er'. generalize (a' ++ x :: b') as d. generalize (b ++ w :: c) as e.
            revert c'. induction a as [|t a IH]; intros c' e d ND E; destruct d as [|t' d]; auto.
            - injection E as <- E. exfalso. inversion ND; subst. apply H1. rewrite in_app_iff. right. left. auto.
            - injection E as -> E. exfalso. inversion ND; subst. apply H1. rewrite in_app_iff. right. left. auto.
            - injection E as <- E. inversion ND; subst. f_equal. eapply IH; eauto. }
          exists a', (b' ++ y :: b), c. rewrite Er, E. repeat (rewrite <- app_assoc; cbn [app]). reflexivity. }
        destruct (POS z z Cz Hz) as (a & b & c & Er). rewrite Er in ND. apply NoDup_remove_2 in ND.
        apply ND. rewrite !in_app_iff. right. right. left. auto.
      - intros NC. destruct (in_dec Nat.eq_dec v r) as [H|H]; auto. exfalso. apply NC.
        destruct (backward_cycle (arc flat n all_edges) n (fun x => x < n /\ ~ In x r) v) as (z & Z1 & Z2); auto.
        + tauto.
        + intros x [Hx Nx].
          destruct (existsb (fun e => (snd e =? x) && negb (mem (fst e) r)) V) eqn:E.
          * apply existsb_exists in E as ([u y] & Iu & E). cbn in E. apply andb_true_iff in E as [E1 E2].
            apply Nat.eqb_eq in E1. subst y. exists u. split; [|now apply VI].
            split; [apply VO in Iu; tauto|]. intros Hu. apply mem_In in Hu. rewrite Hu in E2. discriminate.
          * exfalso. apply Nx, Cl; auto. intros u Hu. apply mem_In.
            destruct (mem u r) eqn:M; auto. exfalso.
            assert (T : existsb (fun e => (snd e =? x) && negb (mem (fst e) r)) V = true).
            { apply existsb_exists. exists (u, x). split; auto. cbn. rewrite Nat.eqb_refl, M. auto. }
            congruence.
        + eauto. }
    split; auto. split.
    + intros Len x Cx.
      assert (Hx : x < n).
      { destruct (path_last _ _ _ Cx) as [E|(z & _ & E)]; apply VI, VO in E; tauto. }
      assert (In x r).
      { assert (I : incl (seq 0 n) r).
        { apply NoDup_length_incl; auto; [rewrite seq_length; lia|].
          intros y Hy. apply in_seq. apply Bd in Hy. lia. }
        apply I, in_seq. lia. }
      apply CH in H; auto. apply H. exists x. split; auto. apply rt_refl.
    + intros AC. apply Nat.le_antisymm.
      * rewrite <- (seq_length n 0). apply NoDup_incl_length; auto. intros y Hy. apply in_seq. apply Bd in Hy. lia.
      * rewrite <- (seq_length n 0) at 1. apply NoDup_incl_length; [apply seq_NoDup|].
        intros y Hy. apply in_seq in Hy. apply CH; [lia|]. intros (z & Cz & _). now apply AC in Cz.
Qed.
