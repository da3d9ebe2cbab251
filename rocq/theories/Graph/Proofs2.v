(** Kruskal selection and topological sorting. *)
From Coq Require Import List Arith Bool Lia Relations ZArith Sorted Permutation.
From Verif.Graph Require Import Model Spec Proofs.
Import ListNotations.

Section Kruskal.
  Variable n : nat.
  Variable es : list (nat * nat).

  Definition edge k i j := nth_error es k = Some (i, j) /\ i < n /\ j < n.
  Definition arcx (K : nat -> Prop) a b := exists k, K k /\ edge k a b.
  Notation upto m := (fun k => k < m).

  Lemma arcx_bound K a b : arcx K a b -> a < n /\ b < n.
  Proof. intros (k & _ & _ & H). auto. Qed.
  Lemma arcx_mono (K K' : nat -> Prop) : (forall k, K k -> K' k) -> forall a b, arcx K a b -> arcx K' a b.
  Proof. intros M a b (k & H & E). exists k. auto. Qed.
  Lemma conn_arcx_mono (K K' : nat -> Prop) :
    (forall k, K k -> K' k) -> forall a b, conn (arcx K) a b -> conn (arcx K') a b.
  Proof. intros M. apply conn_mono. now apply arcx_mono. Qed.
  Lemma arcx_add (K K' : nat -> Prop) m i j :
    edge m i j -> (forall k, K' k <-> K k \/ k = m) ->
    forall a b, arcx K' a b <-> arcx K a b \/ (a = i /\ b = j).
  Proof.
    intros E D a b. split.
    - intros (k & H & Ek). apply D in H as [H| ->]; [left; exists k; auto|].
      destruct E as [E _], Ek as [Ek _]. right. split; congruence.
    - intros [(k & H & Ek)|[-> ->]]; [exists k; split; auto; apply D; auto|exists m; split; auto].
      apply D; auto.
  Qed.
  Lemma arcx_skip (K K' : nat -> Prop) m :
    (forall i j, ~ edge m i j) -> (forall k, K' k <-> K k \/ k = m) ->
    forall a b, arcx K' a b <-> arcx K a b.
  Proof.
    intros E D a b. split; intros (k & H & Ek); exists k; split; auto.
    - apply D in H as [H| ->]; auto. exfalso. eapply E; eauto.
    - apply D; auto.
  Qed.

  Definition picked (q : nat) (sel : list nat) i j : Prop :=
    (In q sel /\ ~ conn (arcx (upto q)) i j) \/ (~ In q sel /\ conn (arcx (upto q)) i j).

  Lemma kruskal_spec : forall rest es0 p k c,
    es = es0 ++ rest ->
    represents n p k (arcx (upto (length es0))) ->
    comps n (arcx (upto (length es0))) c ->
    exists r, kruskal n (length es0) c p k rest = Some r /\
      (forall q i j, length es0 <= q -> edge q i j -> picked q (map fst r) i j) /\
      (forall q d, In (q, d) r -> length es0 <= q /\ (exists i j, edge q i j) /\
                                  comps n (arcx (upto (S q))) d) /\
      StronglySorted lt (map fst r).
  Proof.
    induction rest as [|[i j] rest IH]; intros es0 p k c E R C; cbn [kruskal].
    - exists []. split; auto. split; [|split; [intros ? ? []|constructor]].
      intros q i j Hq [H _]. rewrite app_nil_r in E. apply nth_lt in H. rewrite E in H. lia.
    - assert (E' : es = (es0 ++ [(i, j)]) ++ rest) by (now rewrite <- app_assoc).
      assert (L' : length (es0 ++ [(i, j)]) = S (length es0)) by (rewrite app_length; cbn; lia).
      assert (N : nth_error es (length es0) = Some (i, j))
        by (rewrite E, nth_error_app2, Nat.sub_diag by lia; auto).
      assert (UP : forall q, q < S (length es0) <-> q < length es0 \/ q = length es0) by (intros; lia).
      assert (PK : forall r : list (nat * nat),
        (forall q i0 j0, S (length es0) <= q -> edge q i0 j0 -> picked q (map fst r) i0 j0) ->
        forall q i0 j0, length es0 <= q -> q <> length es0 -> edge q i0 j0 -> picked q (map fst r) i0 j0).
      { intros r H q i0 j0 Hq Hn. apply H. lia. }
      destruct ((i <? n) && (j <? n)) eqn:V.
      + apply andb_true_iff in V as [Vi Vj]. apply Nat.ltb_lt in Vi, Vj.
        assert (EE : edge (length es0) i j) by (split; auto).
        pose proof (arcx_add (upto (length es0)) (upto (S (length es0))) _ _ _ EE UP) as AA.
        destruct (represents_union n p k _ _ i j R Vi Vj AA) as (p' & k' & b & U & R' & B).
        rewrite U. destruct b.
        * destruct (comps_add n _ _ i j c AA Vi Vj B C) as (c' & -> & C').
          specialize (IH (es0 ++ [(i, j)]) p' k' c' E').
          rewrite L' in IH. destruct (IH R' C') as (r & K & P & Q & S). rewrite K.
          exists ((length es0, c') :: r). split; auto. split; [|split].
          -- intros q i0 j0 Hq HE. destruct (Nat.eq_dec q (length es0)) as [->|Ne].
             ++ left. split; [left; auto|]. destruct HE as [Hn _]. rewrite N in Hn. now injection Hn as <- <-.
             ++ destruct (PK r P q i0 j0 Hq Ne HE) as [[A A']|[A A']]; [left; split; [right|]; auto|].
                right. split; auto. intros [HH|HH]; auto.
          -- intros q d [HH|HH].
             ++ injection HH as <- <-. split; auto. split; eauto.
             ++ destruct (Q q d HH) as (A & A'). split; auto. lia.
          -- cbn. constructor; auto. apply Forall_forall. intros q Hq.
             apply in_map_iff in Hq as ([q' d] & <- & Hq). apply Q in Hq as [Hq _]. exact Hq.
        * assert (CC : forall a b0, conn (arcx (upto (length es0))) a b0 <-> conn (arcx (upto (S (length es0)))) a b0).
          { intros a b0. rewrite (conn_add _ _ i j AA a b0). split; auto.
            intros [H|[[H1 H2]|[H1 H2]]]; auto.
            - eapply conn_trans; [exact H1|]. eapply conn_trans; [exact B|]. now apply conn_sym.
            - eapply conn_trans; [exact H1|]. eapply conn_trans; [apply conn_sym; exact B|]. now apply conn_sym. }
          specialize (IH (es0 ++ [(i, j)]) p' k' c E'). rewrite L' in IH.
          destruct (IH R' (comps_iff n _ _ c CC C)) as (r & K & P & Q & S). exists r. split; auto.
          split; [|split; auto].
          -- intros q i0 j0 Hq HE. destruct (Nat.eq_dec q (length es0)) as [->|Ne]; [|now apply (PK r P)].
             right. destruct HE as [Hn _]. rewrite N in Hn. injection Hn as <- <-. split; auto.
             intros HH. apply in_map_iff in HH as ([q' d] & Eq & HH). cbn in Eq. subst q'.
             apply Q in HH as [HH _]. lia.
          -- intros q d HH. destruct (Q q d HH) as (A & A'). split; auto. lia.
      + assert (NE : forall a b, ~ edge (length es0) a b).
        { intros a b (H & Ha & Hb). rewrite N in H. injection H as <- <-.
          apply andb_false_iff in V as [V|V]; apply Nat.ltb_ge in V; lia. }
        pose proof (arcx_skip (upto (length es0)) (upto (S (length es0))) _ NE UP) as AA.
        specialize (IH (es0 ++ [(i, j)]) p k c E'). rewrite L' in IH.
        destruct IH as (r & K & P & Q & S).
        { eapply represents_iff; [|exact R]. intros a b. symmetry. apply AA. }
        { eapply comps_iff; [|exact C]. apply conn_iff. intros a b. symmetry. apply AA. }
        exists r. split; auto. split; [|split; auto].
        * intros q i0 j0 Hq HE. destruct (Nat.eq_dec q (length es0)) as [->|Ne]; [|now apply (PK r P)].
          exfalso. eapply NE; eauto.
        * intros q d HH. destruct (Q q d HH) as (A & A'). split; auto. lia.
  Qed.

  (** Consequences of the greedy rule. *)
  Variable sel : list nat.
  Hypothesis greedy : forall q i j, edge q i j -> picked q sel i j.
  Hypothesis sel_edges : forall q, In q sel -> exists i j, edge q i j.

  Lemma edge_dec q : (exists i j, edge q i j) \/ (forall i j, ~ edge q i j).
  Proof.
    unfold edge. destruct (nth_error es q) as [[i j]|] eqn:E.
    - destruct (lt_dec i n), (lt_dec j n); [left; exists i, j; auto|right|right|right];
        intros a b (H & A & B); injection H as <- <-; lia.
    - right. intros i j (H & _). congruence.
  Qed.
  Lemma sel_spans m : forall a b,
    conn (arcx (fun k => In k sel /\ k < m)) a b <-> conn (arcx (upto m)) a b.
  Proof.
    induction m as [|m IH]; intros a b.
    - apply conn_iff. intros x y. split; intros (k & H & _); [destruct H|]; lia.
    - assert (U : forall k, k < S m <-> k < m \/ k = m) by (intros; lia).
      destruct (edge_dec m) as [(i & j & E)|NE].
      + pose proof (arcx_add (upto m) (upto (S m)) _ _ _ E U) as A1.
        destruct (greedy m i j E) as [[Hs Nc]|[Hs Hc]].
        * assert (A2 : forall x y, arcx (fun k => In k sel /\ k < S m) x y <->
              arcx (fun k => In k sel /\ k < m) x y \/ (x = i /\ y = j)).
          { apply (arcx_add _ _ m i j E). intros k. split.
            - intros [H1 H2]. destruct (Nat.eq_dec k m); auto. left. split; auto. lia.
            - intros [[H1 H2]| ->]; split; auto; lia. }
          rewrite (conn_add _ _ i j A1), (conn_add _ _ i j A2). rewrite !IH. tauto.
        * assert (A2 : conn (arcx (fun k => In k sel /\ k < S m)) a b <-> conn (arcx (fun k => In k sel /\ k < m)) a b).
          { apply conn_iff. intros x y. split; intros (k & [H1 H2] & H3); exists k; split; auto; split; auto.
            destruct (Nat.eq_dec k m) as [->|]; [contradiction|lia]. }
          rewrite A2, IH, (conn_add _ _ i j A1). split; auto.
          intros [H|[[H1 H2]|[H1 H2]]]; auto.
          -- eapply conn_trans; [exact H1|]. eapply conn_trans; [exact Hc|]. now apply conn_sym.
          -- eapply conn_trans; [exact H1|]. eapply conn_trans; [apply conn_sym; exact Hc|]. now apply conn_sym.
      + rewrite (conn_iff _ _ (arcx_skip (upto m) (upto (S m)) m NE U)), <- IH. apply conn_iff.
        intros x y. split; intros (k & [H1 H2] & H3); exists k; split; auto; split; auto.
        destruct (Nat.eq_dec k m) as [->|]; [|lia]. exfalso. eapply NE; eauto.
  Qed.
  Lemma sel_spans_all a b :
    conn (arcx (fun k => In k sel)) a b <-> conn (arcx (fun _ => True)) a b.
  Proof.
    assert (G1 : forall x y, arcx (fun k => In k sel) x y <-> arcx (fun k => In k sel /\ k < length es) x y).
    { intros x y. split; intros (k & H & E); exists k; split; auto; [|tauto].
      split; auto. destruct E as [E _]. eapply nth_lt; eauto. }
    assert (G2 : forall x y, arcx (fun _ => True) x y <-> arcx (upto (length es)) x y).
    { intros x y. split; intros (k & H & E); exists k; split; auto.
      destruct E as [E _]. eapply nth_lt; eauto. }
    rewrite (conn_iff _ _ G1), (conn_iff _ _ G2). apply sel_spans.
  Qed.

  Definition forestx (T : list nat) : Prop :=
    NoDup T /\ forall k, In k T -> exists i j, edge k i j /\
      ~ conn (arcx (fun k' => In k' T /\ k' <> k)) i j.

  Lemma sel_acyclic k i j : In k sel -> edge k i j ->
    forall m, ~ conn (arcx (fun k' => In k' sel /\ k' <> k /\ k' < m)) i j.
  Proof.
    intros Hk E. destruct (greedy k i j E) as [[_ Nk]|[H _]]; [|contradiction].
    induction m as [|m IH]; intros C.
    - apply Nk. revert C. apply conn_arcx_mono. intros; lia.
    - destruct (lt_dec k m) as [Lt|Ge].
      2:{ apply Nk. revert C. apply conn_arcx_mono. intros; lia. }
      destruct (edge_dec m) as [(u & v & Em)|NE].
      2:{ apply IH. revert C. apply conn_mono. intros x y (q & (H1 & H2 & H3) & Eq). exists q. split; auto.
          repeat split; auto. destruct (Nat.eq_dec q m) as [->|]; [|lia]. exfalso; eapply NE; eauto. }
      destruct (greedy m u v Em) as [[Hs Nc]|[Hs _]].
      2:{ apply IH. revert C. apply conn_arcx_mono. intros q (H1 & H2 & H3). repeat split; auto.
          destruct (Nat.eq_dec q m) as [->|]; [contradiction|lia]. }
      assert (A : forall x y, arcx (fun k' => In k' sel /\ k' <> k /\ k' < S m) x y <->
        arcx (fun k' => In k' sel /\ k' <> k /\ k' < m) x y \/ (x = u /\ y = v)).
      { apply (arcx_add _ _ m u v Em). intros q. split.
        - intros (H1 & H2 & H3). destruct (Nat.eq_dec q m); auto. left. repeat split; auto. lia.
        - intros [(H1 & H2 & H3)| ->]; repeat split; auto; lia. }
      assert (M : forall x y, conn (arcx (fun k' => In k' sel /\ k' <> k /\ k' < m)) x y -> conn (arcx (upto m)) x y)
        by (apply conn_arcx_mono; tauto).
      assert (IJ : conn (arcx (upto m)) i j) by (apply rst_step; exists k; auto).
      apply (conn_add _ _ u v A) in C as [C|[[C1 C2]|[C1 C2]]]; auto.
      + apply Nc. eapply conn_trans; [apply conn_sym, M, C1|]. eapply conn_trans; [exact IJ|]. now apply M.
      + apply Nc. eapply conn_trans; [apply conn_sym, M, C2|].
        eapply conn_trans; [apply conn_sym; exact IJ|]. now apply M.
  Qed.
  Lemma sel_forest : NoDup sel -> forestx sel.
  Proof.
    intros ND. split; auto. intros k Hk. destruct (sel_edges k Hk) as (i & j & E).
    exists i, j. split; auto. intros C. apply (sel_acyclic k i j Hk E (length es)).
    revert C. apply conn_mono. intros x y (q & (H1 & H2) & Eq). exists q. split; auto.
    repeat split; auto. destruct Eq as [Eq _]. eapply nth_lt; eauto.
  Qed.

  (** Size of forests. *)
  Lemma forestx_tail k T : forestx (k :: T) -> forestx T.
  Proof.
    intros [ND F]. inversion ND; subst. split; auto. intros q Hq.
    destruct (F q (or_intror Hq)) as (i & j & E & N). exists i, j. split; auto.
    intros C. apply N. revert C. apply conn_arcx_mono. intros q' [H H']. split; [right|]; auto.
  Qed.
  Lemma forestx_comps T : forestx T -> exists c, comps n (arcx (fun k => In k T)) c /\ c + length T = n.
  Proof.
    induction T as [|k T IH]; intros F.
    - exists n. split; [|cbn; lia]. apply comps_none. intros a b (k & [] & _).
    - destruct (IH (forestx_tail _ _ F)) as (c & C & L). destruct F as [ND F]. inversion ND; subst.
      destruct (F k (or_introl eq_refl)) as (i & j & E & N).
      assert (A : forall a b, arcx (fun k' => In k' (k :: T)) a b <->
        arcx (fun k' => In k' T) a b \/ (a = i /\ b = j)).
      { apply (arcx_add _ _ k i j E). intros q. cbn. intuition. }
      destruct E as (E1 & E2 & E3).
      destruct (comps_add n _ _ i j c A E2 E3) as (c' & -> & C').
      + intros Cc. apply N. revert Cc. apply conn_arcx_mono. intros q Hq. split; [right; auto|].
        intros ->. contradiction.
      + exact C.
      + exists c'. split; auto. cbn. lia.
  Qed.
  Lemma forestx_filter f T : forestx T -> forestx (filter f T).
  Proof.
    intros [ND F]. split; [now apply NoDup_filter|]. intros k Hk. apply filter_In in Hk as [Hk Hf].
    destruct (F k Hk) as (i & j & E & N). exists i, j. split; auto. intros C. apply N.
    revert C. apply conn_arcx_mono. intros q [Hq Hn]. apply filter_In in Hq as [Hq _]. auto.
  Qed.
  Lemma forest_prefix_le T m : NoDup sel -> forestx T ->
    length (filter (fun k => k <? m) T) <= length (filter (fun k => k <? m) sel).
  Proof.
    intros ND F.
    destruct (forestx_comps _ (forestx_filter (fun k => k <? m) T F)) as (c & C & L).
    destruct (forestx_comps _ (forestx_filter (fun k => k <? m) sel (sel_forest ND))) as (c' & C' & L').
    assert (c' <= c); [|lia]. eapply comps_le; [|exact C|exact C'].
    intros a b H.
    assert (H1 : conn (arcx (upto m)) a b).
    { revert H. apply conn_arcx_mono. intros q Hq. apply filter_In in Hq as [_ Hq]. now apply Nat.ltb_lt in Hq. }
    apply sel_spans in H1. revert H1. apply conn_arcx_mono. intros q [Hq Hm].
    apply filter_In. split; auto. now apply Nat.ltb_lt.
  Qed.
  Lemma forest_same_size T : NoDup sel -> forestx T ->
    (forall a b, conn (arcx (fun k => In k T)) a b <-> conn (arcx (fun _ => True)) a b) ->
    length T = length sel.
  Proof.
    intros ND F S. destruct (forestx_comps _ F) as (c & C & L).
    destruct (forestx_comps _ (sel_forest ND)) as (c' & C' & L').
    assert (c = c'); [|lia].
    apply (comps_unique n (arcx (fun _ => True))).
    - eapply comps_iff; [|exact C]. auto.
    - eapply comps_iff; [|exact C']. intros a b. apply sel_spans_all.
  Qed.
End Kruskal.

(** Abel summation. *)
Section Weights.
  Variable w : nat -> Z.
  Hypothesis mono : forall i j, i <= j -> (w i <= w j)%Z.
  Definition below m T := filter (fun k => k <? m) T.
  Lemma below_S m T : NoDup T ->
    Permutation (below (S m) T) (if in_dec Nat.eq_dec m T then m :: below m T else below m T).
  Proof.
    induction 1 as [|x T Hx N IH]; [cbn; auto|]. unfold below in *. cbn [filter].
    destruct (Nat.eq_dec x m) as [->|Ne].
    - rewrite (proj2 (Nat.ltb_lt m (S m))) by lia. rewrite (proj2 (Nat.ltb_ge m m)) by lia.
      destruct (in_dec Nat.eq_dec m (m :: T)) as [_|F]; [|exfalso; apply F; left; auto].
      destruct (in_dec Nat.eq_dec m T); [contradiction|]. now constructor.
    - assert (E : (x <? S m) = (x <? m)).
      { destruct (x <? m) eqn:L; [apply Nat.ltb_lt in L; apply Nat.ltb_lt; lia|].
        apply Nat.ltb_ge in L. apply Nat.ltb_ge. lia. }
      rewrite E.
      assert (D : (if in_dec Nat.eq_dec m (x :: T) then true else false) = (if in_dec Nat.eq_dec m T then true else false)).
      { destruct (in_dec Nat.eq_dec m (x :: T)) as [[A|A]|A], (in_dec Nat.eq_dec m T) as [B|B]; auto; try contradiction.
        exfalso. apply A. right. auto. }
      destruct (in_dec Nat.eq_dec m (x :: T)), (in_dec Nat.eq_dec m T); try discriminate;
        destruct (x <? m); rewrite ?IH; auto. constructor.
  Qed.
  Lemma total_perm T T' : Permutation T T' -> total w T = total w T'.
  Proof. unfold total. induction 1; cbn; try lia. Qed.
  Lemma abel T S : NoDup T -> NoDup S ->
    (forall m, length (below m T) <= length (below m S)) ->
    forall m, (total w (below m T) - total w (below m S) >=
               (Z.of_nat (length (below m T)) - Z.of_nat (length (below m S))) * w m)%Z.
  Proof.
    intros NT NS L. induction m as [|m IH].
    - assert (G : forall X, below 0 X = []) by (induction X; auto).
      rewrite !G. cbn. lia.
    - pose proof (L m) as L0. pose proof (L (Datatypes.S m)) as L1.
      pose proof (mono m (Datatypes.S m) ltac:(lia)) as M.
      rewrite (Permutation_length (below_S m T NT)), (Permutation_length (below_S m S NS)) in L1.
      rewrite (total_perm _ _ (below_S m T NT)), (total_perm _ _ (below_S m S NS)),
        (Permutation_length (below_S m T NT)), (Permutation_length (below_S m S NS)).
      destruct (in_dec Nat.eq_dec m T), (in_dec Nat.eq_dec m S); cbn [length total fold_right] in *;
        fold (total w (below m T)) (total w (below m S)); rewrite ?Nat2Z.inj_succ; nia.
  Qed.
  Lemma below_all m T : (forall k, In k T -> k < m) -> below m T = T.
  Proof.
    unfold below. induction T as [|x T IH]; intros H; cbn [filter]; auto.
    rewrite (proj2 (Nat.ltb_lt x m)) by (apply H; left; auto). f_equal. apply IH.
    intros; apply H; right; auto.
  Qed.
  Lemma abel_total T S N : NoDup T -> NoDup S -> length T = length S ->
    (forall k, In k T -> k < N) -> (forall k, In k S -> k < N) ->
    (forall m, length (below m T) <= length (below m S)) -> (total w S <= total w T)%Z.
  Proof.
    intros NT NS E BT BS L. pose proof (abel T S NT NS L N) as A.
    rewrite !below_all in A by auto. rewrite E in A. lia.
  Qed.
End Weights.

Lemma NoDup_app_snoc {A} (l : list A) x : NoDup l -> ~ In x l -> NoDup (l ++ [x]).
Proof.
  intros N H. apply NoDup_rev in N. rewrite <- (rev_involutive (l ++ [x])). apply NoDup_rev.
  rewrite rev_app_distr. cbn. constructor; auto. now rewrite <- in_rev.
Qed.

(** * Topological sort *)
Section Topo.
  Variable n : nat.

  Definition validb (e : nat * nat) : bool := (fst e <? n) && (snd e <? n).
  Definition cnt_in (V : list (nat * nat)) (v : nat) : nat := length (filter (fun e => snd e =? v) V).
  Definition out (V : list (nat * nat)) (u : nat) : list nat := map snd (filter (fun e => fst e =? u) V).

  Lemma build_spec : forall es V adj deg,
    length adj = n -> length deg = n ->
    (forall u, u < n -> nth_error adj u = Some (out V u)) ->
    (forall v, v < n -> nth_error deg v = Some (cnt_in V v)) ->
    exists adj' deg', build n adj deg es = Some (adj', deg') /\ length adj' = n /\ length deg' = n /\
      (forall u, u < n -> nth_error adj' u = Some (out (V ++ filter validb es) u)) /\
      (forall v, v < n -> nth_error deg' v = Some (cnt_in (V ++ filter validb es) v)).
  Proof.
    induction es as [|[f t] es IH]; intros V adj deg La Ld A D; cbn [build filter].
    - exists adj, deg. rewrite app_nil_r. auto 10.
    - change (validb (f, t)) with ((f <? n) && (t <? n)). destruct ((f <? n) && (t <? n)) eqn:E; [|now apply IH].
      apply andb_true_iff in E as [Ef Et]. apply Nat.ltb_lt in Ef, Et.
      rewrite (A f Ef), store_ok by lia. rewrite (D t Et), store_ok by lia.
      destruct (IH (V ++ [(f, t)]) (list_set adj f (out V f ++ [t])) (list_set deg t (cnt_in V t + 1)))
        as (adj' & deg' & B & L1 & L2 & A' & D').
      + now rewrite list_set_length.
      + now rewrite list_set_length.
      + intros u Hu. unfold out. rewrite filter_app, map_app. cbn [filter fst].
        destruct (Nat.eqb_spec f u) as [->|Ne].
        * rewrite nth_list_set_eq by lia. reflexivity.
        * rewrite nth_list_set_ne by auto. rewrite A by auto. cbn. now rewrite app_nil_r.
      + intros v Hv. unfold cnt_in. rewrite filter_app, app_length. cbn [filter snd].
        destruct (Nat.eqb_spec t v) as [->|Ne].
        * rewrite nth_list_set_eq by lia. reflexivity.
        * rewrite nth_list_set_ne by auto. rewrite D by auto. cbn. now rewrite Nat.add_0_r.
      + exists adj', deg'. rewrite <- app_assoc in A', D'. cbn [app] in A', D'. auto 10.
  Qed.

  Variable V : list (nat * nat).
  Hypothesis V_ok : forall u v, In (u, v) V -> u < n /\ v < n.

  Definition mem (x : nat) (l : list nat) : bool := existsb (Nat.eqb x) l.
  Lemma mem_In x l : mem x l = true <-> In x l.
  Proof.
    unfold mem. rewrite existsb_exists. split.
    - intros (y & H & E). apply Nat.eqb_eq in E. now subst.
    - intros H. exists x. split; auto. apply Nat.eqb_refl.
  Qed.
  (** Edges into [v] from nodes not yet placed. *)
  Definition pending (o : list nat) (v : nat) : nat :=
    length (filter (fun e => (snd e =? v) && negb (mem (fst e) o)) V).

  Lemma pending_zero o v : pending o v = 0 <-> forall u, In (u, v) V -> In u o.
  Proof.
    unfold pending. split.
    - intros H u Hu. destruct (mem u o) eqn:E; [now apply mem_In|]. exfalso.
      assert (I : In (u, v) (filter (fun e => (snd e =? v) && negb (mem (fst e) o)) V)).
      { apply filter_In. cbn. rewrite Nat.eqb_refl, E. auto. }
      destruct (filter _ V); [destruct I|discriminate].
    - intros H. destruct (filter _ V) as [|[u v'] l] eqn:E; auto. exfalso.
      assert (I : In (u, v') (filter (fun e => (snd e =? v) && negb (mem (fst e) o)) V)) by (rewrite E; left; auto).
      apply filter_In in I as [I C]. cbn in C. apply andb_true_iff in C as [C1 C2].
      apply Nat.eqb_eq in C1. subst. apply H, mem_In in I. rewrite I in C2. discriminate.
  Qed.
  Lemma pending_snoc o x v : ~ In x o ->
    pending o v = pending (o ++ [x]) v + count_occ Nat.eq_dec (out V x) v.
  Proof.
    intros Hx. unfold pending, out. clear V_ok. induction V as [|[a b] W IH]; cbn [filter map fst snd]; auto.
    assert (M : mem a (o ++ [x]) = mem a o || (a =? x)).
    { unfold mem. rewrite existsb_app. cbn. now rewrite orb_false_r. }
    rewrite M. destruct (Nat.eqb_spec a x) as [->|Na].
    - assert (mem x o = false) by (destruct (mem x o) eqn:E; auto; apply mem_In in E; contradiction).
      rewrite H. cbn [orb negb]. rewrite andb_false_r, andb_true_r. cbn [map count_occ fst snd].
      destruct (Nat.eq_dec b v) as [->|Nb].
      + rewrite Nat.eqb_refl. cbn [length]. lia.
      + apply Nat.eqb_neq in Nb. rewrite Nb. exact IH.
    - rewrite orb_false_r. destruct ((b =? v) && negb (mem a o)); cbn [length]; lia.
  Qed.

  Lemma relax_spec (o : list nat) (c : nat -> nat) : forall nexts deg q,
    length deg = n -> (forall x, In x nexts -> x < n) -> (forall x, In x q -> x < n) ->
    (forall v, v < n -> nth_error deg v = Some (c v + count_occ Nat.eq_dec nexts v)) ->
    NoDup (o ++ q) ->
    (forall v, v < n -> (c v + count_occ Nat.eq_dec nexts v = 0 <-> In v (o ++ q))) ->
    exists deg' q', relax deg q nexts = Some (deg', q') /\ length deg' = n /\ (forall x, In x q' -> x < n) /\
      (forall v, v < n -> nth_error deg' v = Some (c v)) /\ NoDup (o ++ q') /\
      (forall v, v < n -> (c v = 0 <-> In v (o ++ q'))).
  Proof.
    induction nexts as [|x nexts IH]; intros deg q L B Bq D ND Z; cbn [relax].
    - exists deg, q. split; auto. split; auto. split; auto. split.
      + intros v Hv. rewrite D by auto. cbn. now rewrite Nat.add_0_r.
      + split; auto. intros v Hv. rewrite <- Z by auto. cbn. lia.
    - assert (Hx : x < n) by (apply B; left; auto). rewrite (D x Hx). cbn [count_occ].
      destruct (Nat.eq_dec x x) as [_|F]; [|contradiction].
      rewrite Nat.add_succ_r. rewrite store_ok by lia.
      assert (Nx : ~ In x (o ++ q)).
      { intros H. apply Z in H; auto. cbn in H. destruct (Nat.eq_dec x x); [lia|contradiction]. }
      set (d' := c x + count_occ Nat.eq_dec nexts x) in *.
      assert (OC : forall v, v <> x -> count_occ Nat.eq_dec (x :: nexts) v = count_occ Nat.eq_dec nexts v).
      { intros v Hv. cbn. destruct (Nat.eq_dec x v); [subst; contradiction|auto]. }
      apply IH.
      + now rewrite list_set_length.
      + intros; apply B; right; auto.
      + intros y. destruct (d' =? 0); [rewrite in_app_iff; intros [H|[<-|[]]]; auto|auto].
      + intros v Hv. destruct (Nat.eq_dec v x) as [->|Ne].
        * rewrite nth_list_set_eq by lia. reflexivity.
        * rewrite nth_list_set_ne by auto. rewrite D by auto. now rewrite OC.
      + destruct (d' =? 0); auto. rewrite app_assoc.
        apply NoDup_app_snoc; auto.
      + intros v Hv. destruct (Nat.eq_dec v x) as [->|Ne].
        * fold d'. destruct (Nat.eqb_spec d' 0) as [E|E].
          -- split; auto. intros _. rewrite app_assoc, in_app_iff. right. left. auto.
          -- split; [contradiction|]. intros H. contradiction.
        * rewrite <- OC by auto. rewrite Z by auto. destruct (d' =? 0); [|tauto].
          rewrite app_assoc, (in_app_iff (o ++ q)). cbn. split; [tauto|]. intros [H|[H|[]]]; auto. congruence.
  Qed.

  Variable adj : list (list nat).
  Hypothesis adj_ok : forall u, u < n -> nth_error adj u = Some (out V u).

  (** Every placed node comes after all its predecessors. *)
  Definition placed (o : list nat) : Prop :=
    forall a v b, o = a ++ v :: b -> forall u, In (u, v) V -> In u a.

  Lemma out_bound u x : In x (out V u) -> x < n.
  Proof.
    unfold out. intros H. apply in_map_iff in H as ([a b] & <- & H). apply filter_In in H as [H _].
    apply V_ok in H. cbn. tauto.
  Qed.

  Lemma kahn_spec : forall fuel deg q o,
    length deg = n -> (forall x, In x (o ++ q) -> x < n) -> NoDup (o ++ q) ->
    (forall v, v < n -> nth_error deg v = Some (pending o v)) ->
    (forall v, v < n -> (pending o v = 0 <-> In v (o ++ q))) ->
    placed o -> n <= length o + fuel ->
    exists r, kahn fuel adj deg q o = Some r /\ NoDup r /\ (forall x, In x r -> x < n) /\ placed r /\
      (forall v, v < n -> (In v r <-> forall u, In (u, v) V -> In u r)).
  Proof.
    assert (P : forall o q, NoDup (o ++ q) -> (forall x, In x (o ++ q) -> x < n) -> length o + length q <= n).
    { intros o q ND B. rewrite <- app_length, <- (seq_length n 0). apply NoDup_incl_length; auto.
      intros x Hx. apply in_seq. apply B in Hx. lia. }
    induction fuel as [|fuel IH]; intros deg q o L B ND D Z T F; destruct q as [|x q]; cbn [kahn].
    1,3: (exists o; rewrite app_nil_r in *; split; [reflexivity|]; split; [exact ND|]; split; [exact B|];
          split; [exact T|]; intros v Hv; rewrite <- pending_zero; symmetry; now apply Z).
    - specialize (P o (x :: q) ND B). cbn in P. lia.
    - assert (Hx : x < n) by (apply B; rewrite in_app_iff; right; left; auto).
      assert (Nx : ~ In x o).
      { intros H. apply NoDup_remove_2 in ND. apply ND. rewrite in_app_iff. auto. }
      rewrite (adj_ok x Hx).
      destruct (relax_spec (o ++ [x]) (pending (o ++ [x])) (out V x) deg q) as (deg' & q' & R & L' & B' & D' & ND' & Z'); auto.
      + intros y. apply out_bound.
      + intros y Hy. apply B. rewrite in_app_iff. right. right. auto.
      + intros v Hv. rewrite D by auto. f_equal. now apply pending_snoc.
      + rewrite <- app_assoc. exact ND.
      + intros v Hv. rewrite <- pending_snoc by auto. rewrite Z by auto. now rewrite <- app_assoc.
      + rewrite R. apply IH; auto.
        * intros y Hy. rewrite in_app_iff in Hy. destruct Hy as [Hy|Hy]; auto.
          apply B. rewrite in_app_iff in *. destruct Hy as [Hy|[<-|[]]]; auto. right. left. auto.
        * assert (Px : forall u, In (u, x) V -> In u o).
          { apply pending_zero, Z; auto. rewrite in_app_iff. right. left. auto. }
          intros a v b E u Hu. destruct b as [|y b] using rev_ind.
          -- apply app_inj_tail in E as [<- <-]. auto.
          -- clear IHb. rewrite app_comm_cons, app_assoc in E. apply app_inj_tail in E as [E _]. eapply T; eauto.
        * rewrite app_length. cbn. lia.
  Qed.
End Topo.

(** No infinite descent in a finite graph. *)
Section Walk.
  Variable R : nat -> nat -> Prop.
  Variable n : nat.

  Lemma dup_split (l : list nat) : ~ NoDup l -> exists x a b c, l = a ++ x :: b ++ x :: c.
  Proof.
    induction l as [|y l IH]; intros H; [exfalso; apply H; constructor|].
    destruct (in_dec Nat.eq_dec y l) as [Hy|Hy].
    - apply in_split in Hy as (b & c & ->). exists y, [], b, c. auto.
    - destruct IH as (x & a & b & c & ->); [intros N; apply H; constructor; auto|].
      exists x, (y :: a), b, c. auto.
  Qed.
  (** [l] is a walk against the arrows, starting from its head. *)
  Inductive walk : list nat -> Prop :=
  | walk1 x : walk [x]
  | walkS x y l : R y x -> walk (y :: l) -> walk (x :: y :: l).
  Lemma walk_path : forall l x y c, walk (x :: l ++ y :: c) -> clos_trans nat R y x.
  Proof.
    induction l as [|z l IH]; intros x y c H; inversion H; subst.
    - now apply t_step.
    - eapply t_trans; [eapply IH; eauto|now apply t_step].
  Qed.
  Lemma walk_suffix a l : walk (a ++ l) -> l <> [] -> walk l.
  Proof.
    induction a as [|x a IH]; intros H N; auto. apply IH; auto. inversion H; subst; auto.
    destruct a; cbn in *; subst; try discriminate. contradiction.
  Qed.

  Lemma backward_cycle (P : nat -> Prop) x :
    (forall v, P v -> v < n) -> (forall v, P v -> exists u, P u /\ R u v) -> P x ->
    exists z, clos_trans nat R z z /\ clos_refl_trans nat R z x.
  Proof.
    intros B S Hx.
    assert (W : forall m, exists l, walk (x :: l) /\ length l = m /\ Forall P (x :: l)).
    { assert (G : forall m y, P y -> exists l, walk (y :: l) /\ length l = m /\ Forall P (y :: l)).
      { induction m as [|m IH]; intros y Hy; [exists []; repeat split; [constructor|auto]|].
        destruct (S y Hy) as (u & Hu & Ru). destruct (IH u Hu) as (l & W & L & F).
        exists (u :: l). repeat split; [constructor; auto|cbn; lia|constructor; auto]. }
      intros m. now apply G. }
    destruct (W n) as (l & Wl & L & F).
    assert (ND : ~ NoDup (x :: l)).
    { intros N. assert (length (x :: l) <= length (seq 0 n)).
      { apply NoDup_incl_length; auto. intros y Hy. rewrite Forall_forall in F. apply in_seq.
        specialize (B y (F y Hy)). lia. }
      rewrite seq_length in H. cbn in H. lia. }
    destruct (dup_split _ ND) as (z & a & b & c & E). exists z. split.
    - rewrite E in Wl. apply walk_suffix in Wl; [|discriminate]. eapply walk_path; eauto.
    - destruct a as [|y a].
      + injection E as <- _. apply rt_refl.
      + injection E as <- E. rewrite E in Wl. apply walk_path in Wl.
        clear - Wl. induction Wl; [now apply rt_step|eapply rt_trans; eauto].
  Qed.
End Walk.
