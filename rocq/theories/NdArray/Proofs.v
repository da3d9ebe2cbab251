From Coq Require Import List Arith ZArith Bool Lia Permutation Sorted.
From Verif.NdArray Require Import Model Spec.
Import ListNotations.

Section Nd.
  Context {A : Type}.

  Lemma offset_valid sh : forall c, (exists o, offset sh c = Some o) <-> valid sh c.
  Proof.
    unfold valid. induction sh as [|d sh IH]; intros [|x c]; cbn [offset].
    - split; eauto.
    - split; [intros [o H]; discriminate|intros H; inversion H].
    - split; [intros [o H]; discriminate|intros H; inversion H].
    - destruct (x <? d) eqn:E.
      + apply Nat.ltb_lt in E. specialize (IH c). split.
        * intros [o H]. constructor; auto. apply IH. destruct (offset sh c) as [p|]; [exists p; reflexivity|discriminate H].
        * intros H. inversion H; subst. apply IH in H5 as [o ->]. cbn. eauto.
      + apply Nat.ltb_ge in E. split; [intros [o H]; discriminate|intros H; inversion H; lia].
  Qed.
  Lemma offset_lt sh : forall c o, offset sh c = Some o -> o < prod sh.
  Proof.
    induction sh as [|d sh IH]; intros [|x c] o; cbn [offset]; try discriminate.
    - intros [=<-]. cbn. lia.
    - destruct (x <? d) eqn:E; [|discriminate]. apply Nat.ltb_lt in E.
      destruct (offset sh c) as [p|] eqn:Ep; [|discriminate]. cbn [option_map]. intros [=<-].
      apply IH in Ep. change (prod (d :: sh)) with (d * prod sh). assert ((x + 1) * prod sh <= d * prod sh) by (apply Nat.mul_le_mono_r; lia). lia.
  Qed.
  Lemma offset_inj sh : forall c c' o,
    offset sh c = Some o -> offset sh c' = Some o -> c = c'.
  Proof.
    induction sh as [|d sh IH]; intros [|x c] [|x' c'] o; cbn [offset]; try discriminate; auto.
    destruct (x <? d) eqn:E; [|discriminate]. destruct (x' <? d) eqn:E'; [|discriminate].
    destruct (offset sh c) as [p|] eqn:Ep; [|discriminate].
    destruct (offset sh c') as [p'|] eqn:Ep'; [|discriminate]. cbn [option_map].
    intros [=<-] [= H]. pose proof (offset_lt _ _ _ Ep). pose proof (offset_lt _ _ _ Ep').
    assert (x = x') by nia. subst. assert (p = p') by lia. subst. f_equal. eauto.
  Qed.

  (** Digits of a position. *)
  Fixpoint digits (sh : list nat) (f : nat) : list nat :=
    match sh with [] => [] | d :: sh' => (f / prod sh') mod d :: digits sh' f end.

  Lemma strides_hd sh : hd 1 (strides sh) = prod (tl sh).
  Proof.
    induction sh as [|d sh IH]; cbn; auto. destruct sh as [|d' sh]; cbn in *; auto.
    rewrite IH. lia.
  Qed.
  Lemma strides_digits sh f :
    map (fun ds => (f / snd ds) mod (fst ds)) (combine sh (strides sh)) = digits sh f.
  Proof.
    induction sh as [|d sh IH]; auto. destruct sh as [|d' sh].
    - cbn. reflexivity.
    - change (strides (d :: d' :: sh)) with (hd 1 (strides (d' :: sh)) * d' :: strides (d' :: sh)).
      rewrite strides_hd. 
      set (cc := combine (d' :: sh) (strides (d' :: sh))) in *.
      change (combine (d :: d' :: sh) (prod (tl (d' :: sh)) * d' :: strides (d' :: sh)))
        with ((d, prod (tl (d' :: sh)) * d') :: cc).
      cbn [map fst snd]. rewrite IH. change (digits (d :: d' :: sh) f) with ((f / prod (d' :: sh)) mod d :: digits (d' :: sh) f).
      cbn [tl]. change (prod (d' :: sh)) with (d' * prod sh). now rewrite (Nat.mul_comm d').
  Qed.
  Lemma prod_pos_inv d sh : 0 < prod (d :: sh) -> 0 < d /\ 0 < prod sh.
  Proof. cbn. fold (prod sh). nia. Qed.
  Lemma digits_shift sh : forall m r, 0 < prod sh -> digits sh (m * prod sh + r) = digits sh r.
  Proof.
    induction sh as [|d sh IH]; intros m r H; auto. apply prod_pos_inv in H as [Hd Hp].
    cbn [digits]. f_equal.
    - replace (m * prod (d :: sh) + r) with (r + (m * d) * prod sh) by (cbn; fold (prod sh); lia).
      rewrite Nat.div_add by lia. apply Nat.mod_add. lia.
    - replace (m * prod (d :: sh) + r) with ((m * d) * prod sh + r) by (cbn; fold (prod sh); lia).
      now apply IH.
  Qed.
  Lemma digits_offset sh : forall f, f < prod sh -> offset sh (digits sh f) = Some f.
  Proof.
    induction sh as [|d sh IH]; intros f Hf; cbn [digits offset].
    - cbn in Hf. f_equal. lia.
    - assert (H : 0 < prod (d :: sh)) by lia. apply prod_pos_inv in H as [Hd Hp].
      assert (f / prod sh < d) by (apply Nat.div_lt_upper_bound; [lia|cbn in Hf; fold (prod sh) in Hf; lia]).
      rewrite Nat.mod_small by lia. rewrite (proj2 (Nat.ltb_lt _ _)) by lia.
      pose proof (Nat.div_mod f (prod sh) ltac:(lia)) as DM.
      pose proof (Nat.mod_upper_bound f (prod sh) ltac:(lia)).
      assert (Ed : digits sh f = digits sh (f mod prod sh))
        by (rewrite DM at 1; rewrite (Nat.mul_comm (prod sh)); apply digits_shift; lia).
      rewrite Ed.
      rewrite IH by lia. cbn. f_equal. lia.
  Qed.

  Lemma indices_digits (a : nd A) :
    wf a -> indices a = map (digits (shape a)) (seq 0 (prod (shape a))).
  Proof.
    intros W. unfold indices, len. rewrite W. destruct (shape a) eqn:E; [reflexivity|].
    apply map_ext. intros f. apply strides_digits.
  Qed.
  Lemma all_coords_digits sh : all_coords sh = map (digits sh) (seq 0 (prod sh)).
  Proof.
    induction sh as [|d sh IH]; [reflexivity|]. cbn [all_coords]. rewrite IH. clear IH.
    change (prod (d :: sh)) with (d * prod sh).
    destruct (Nat.eq_dec (prod sh) 0) as [Z|Hp].
    { rewrite Z, Nat.mul_0_r. cbn. induction (seq 0 d); cbn; auto. }
    assert (G : forall n, n <= d ->
      flat_map (fun c => map (cons c) (map (digits sh) (seq 0 (prod sh)))) (seq 0 n)
      = map (digits (d :: sh)) (seq 0 (n * prod sh))).
    { induction n as [|n IH]; intros Hn; auto.
      rewrite seq_S, flat_map_app, IH by lia. cbn [flat_map]. rewrite app_nil_r.
      replace (S n * prod sh) with (n * prod sh + prod sh) by lia.
      rewrite seq_app, map_app. f_equal. rewrite map_map. cbn [Nat.add].
      replace (seq (n * prod sh) (prod sh)) with (map (fun r => n * prod sh + r) (seq 0 (prod sh))).
      - rewrite map_map. apply map_ext_in. intros r Hr. apply in_seq in Hr.
        cbn [digits]. rewrite digits_shift by lia. f_equal.
        rewrite Nat.add_comm, Nat.div_add, Nat.div_small by lia. cbn.
        rewrite Nat.mod_small; lia.
      - clear. generalize (n * prod sh). intros k. generalize (prod sh). intros m.
        assert (K : forall s, map (fun r => k + r) (seq s m) = seq (k + s) m).
        { induction m; intros s; cbn; auto. rewrite IHm. do 2 f_equal. lia. }
        rewrite K. f_equal. lia. }
    apply G. lia.
  Qed.

  Lemma indices_all (a : nd A) : wf a -> indices a = all_coords (shape a).
  Proof. intros W. now rewrite indices_digits, all_coords_digits. Qed.

  Lemma all_coords_in sh c : In c (all_coords sh) <-> valid sh c.
  Proof.
    rewrite all_coords_digits, in_map_iff, <- offset_valid. split.
    - intros (f & <- & Hf). apply in_seq in Hf. exists f. apply digits_offset. lia.
    - intros [o Ho]. exists o. pose proof (offset_lt _ _ _ Ho) as L. split; [|apply in_seq; lia].
      eapply offset_inj; [apply digits_offset; auto|auto].
  Qed.
  Lemma sorted_cons s l : StronglySorted coords_lt l -> StronglySorted coords_lt (map (cons s) l).
  Proof.
    induction 1 as [|x l S IH F]; cbn; constructor; auto.
    apply Forall_forall. intros y Hy. apply in_map_iff in Hy as (z & <- & Hz).
    apply cl_eq. rewrite Forall_forall in F. auto.
  Qed.
  Lemma all_coords_sorted sh : StronglySorted coords_lt (all_coords sh).
  Proof.
    induction sh as [|d sh IH]; cbn; [constructor; constructor|].
    assert (G : forall n s, StronglySorted coords_lt
      (flat_map (fun c => map (cons c) (all_coords sh)) (seq s n))).
    { induction n as [|n IHn]; intros s; cbn; [constructor|].
      assert (K : forall l l' : list (list nat), StronglySorted coords_lt l -> StronglySorted coords_lt l' ->
         (forall x y, In x l -> In y l' -> coords_lt x y) -> StronglySorted coords_lt (l ++ l')).
      { clear. induction l as [|x l IHl]; cbn; intros l' S S' H; auto.
        inversion S; subst. constructor; auto. apply Forall_app. split; auto.
        apply Forall_forall. auto. }
      apply K; auto.
      - now apply sorted_cons.
      - intros x y Hx Hy. apply in_map_iff in Hx as (x' & <- & _).
        apply in_flat_map in Hy as (c & Hc & Hy). apply in_seq in Hc.
        apply in_map_iff in Hy as (y' & <- & _). apply cl_lt. lia. }
    apply G.
  Qed.

  Lemma get_some (a : nd A) c : wf a -> ((exists x, get a c = Some x) <-> valid (shape a) c).
  Proof.
    intros W. rewrite <- offset_valid. unfold get. split.
    - intros [x H]. destruct (offset (shape a) c); eauto; discriminate.
    - intros [o Ho]. rewrite Ho. pose proof (offset_lt _ _ _ Ho). rewrite <- W in H.
      destruct (nth_error (flat a) o) eqn:E; eauto. apply nth_error_None in E. lia.
  Qed.
  Lemma get_flat (a : nd A) : wf a -> map (get a) (all_coords (shape a)) = map Some (flat a).
  Proof.
    intros W. rewrite all_coords_digits, map_map, <- W.
    assert (G : forall f, In f (seq 0 (length (flat a))) ->
      get a (digits (shape a) f) = nth_error (flat a) f).
    { intros f Hf. apply in_seq in Hf. unfold get. rewrite digits_offset; auto.
      rewrite <- W. lia. }
    rewrite (map_ext_in _ _ _ G). clear. induction (flat a); cbn; auto.
    f_equal. rewrite <- seq_shift, map_map. auto.
  Qed.
  Lemma nd_ext (a b : nd A) :
    wf a -> wf b -> shape a = shape b -> (forall c, get a c = get b c) -> a = b.
  Proof.
    intros Wa Wb S G. assert (F : map Some (flat a) = map Some (flat b)).
    { rewrite <- (get_flat a Wa), <- (get_flat b Wb), S. apply map_ext, G. }
    destruct a as [s f], b as [s' f']; cbn in *. subst. f_equal.
    clear - F. revert f' F. induction f as [|x f IH]; intros [|y f'] [=]; f_equal; auto.
  Qed.

  Lemma build_wf sh (f : list nat -> option A) :
    (forall c, valid sh c -> exists x, f c = Some x) ->
    wf (build sh f) /\ forall c, valid sh c -> get (build sh f) c = f c.
  Proof.
    intros T.
    assert (M : map Some (flat (build sh f)) = map f (all_coords sh)).
    { cbn. assert (G : Forall (fun c => exists x, f c = Some x) (all_coords sh))
        by (apply Forall_forall; intros c Hc; apply T; now apply all_coords_in).
      clear T. induction G as [|c l [x Hx] _ IH]; cbn; auto. rewrite Hx. cbn. congruence. }
    assert (W : wf (build sh f)).
    { unfold wf. rewrite <- (map_length Some), M, map_length, all_coords_digits, map_length, seq_length.
      reflexivity. }
    split; auto. intros c Hc.
    pose proof (get_flat _ W) as G. rewrite M in G. 
    apply all_coords_in in Hc. change (shape (build sh f)) with sh in G. clear - G Hc.
    generalize dependent (build sh f). intros b G.
    induction (all_coords sh) as [|d l IH]; [destruct Hc|].
    cbn [map] in G. injection G as G1 G2. destruct Hc as [->|Hc]; auto.
  Qed.

  Lemma valid_rev sh c : valid (rev sh) (rev c) <-> valid sh c.
  Proof.
    unfold valid. assert (G : forall a b : list nat, Forall2 (fun c d => c < d) a b ->
      Forall2 (fun c d => c < d) (rev a) (rev b)).
    { induction 1; cbn; auto. apply Forall2_app; auto. }
    split; intros H; [|auto]. apply G in H. now rewrite !rev_involutive in H.
  Qed.
  Lemma transpose_spec (a : nd A) :
    wf a -> wf (transpose a) /\ shape (transpose a) = rev (shape a) /\
    forall c, get (transpose a) c = get a (rev c).
  Proof.
    intros W. destruct (build_wf (rev (shape a)) (fun c => get a (rev c))) as [Wb G].
    { intros c Hc. apply get_some; auto. apply valid_rev in Hc. now rewrite rev_involutive in Hc. }
    split; [exact Wb|]. split; [reflexivity|]. intros c.
    destruct (get a (rev c)) as [x|] eqn:E.
    - rewrite <- E. apply G. apply valid_rev. rewrite rev_involutive. apply get_some; eauto.
    - destruct (get (transpose a) c) as [y|] eqn:E'; auto.
      assert (V : valid (shape (transpose a)) c) by (apply get_some; eauto).
      cbn in V. apply valid_rev in V. rewrite rev_involutive in V.
      apply (get_some a _ W) in V as [z Hz]. congruence.
  Qed.
  Lemma transpose_involutive (a : nd A) : wf a -> transpose (transpose a) = a.
  Proof.
    intros W. destruct (transpose_spec a W) as (W1 & S1 & G1).
    destruct (transpose_spec _ W1) as (W2 & S2 & G2). apply nd_ext; auto.
    - now rewrite S2, S1, rev_involutive.
    - intros c. now rewrite G2, G1, rev_involutive.
  Qed.

  Lemma list_set_length (l : list A) i x : length (list_set l i x) = length l.
  Proof. revert i; induction l; intros [|i]; cbn; auto. Qed.
  Lemma nth_list_set (l : list A) i x k :
    nth_error (list_set l i x) k =
    if k =? i then match nth_error l k with Some _ => Some x | None => None end
    else nth_error l k.
  Proof.
    revert i k. induction l as [|y l IH]; intros [|i] [|k]; cbn; auto. destruct (k =? i); auto.
  Qed.
  Lemma with_set_spec (a : nd A) c x :
    wf a ->
    match with_set a c x with
    | None => ~ valid (shape a) c
    | Some b => valid (shape a) c /\ wf b /\ shape b = shape a /\ get b c = Some x /\
                forall c', c' <> c -> get b c' = get a c'
    end.
  Proof.
    intros W. unfold with_set. destruct (offset (shape a) c) as [o|] eqn:E.
    - assert (V : valid (shape a) c) by (apply offset_valid; eauto).
      split; auto. split; [unfold wf; cbn; now rewrite list_set_length|]. split; auto.
      pose proof (offset_lt _ _ _ E) as L. rewrite <- W in L. split.
      + unfold get. cbn. rewrite E, nth_list_set, Nat.eqb_refl.
        destruct (nth_error (flat a) o) eqn:N; auto. apply nth_error_None in N. lia.
      + intros c' Hc. unfold get. cbn. destruct (offset (shape a) c') as [o'|] eqn:E'; auto.
        rewrite nth_list_set. destruct (o' =? o) eqn:Eo; auto. apply Nat.eqb_eq in Eo. subst.
        exfalso. apply Hc. eapply offset_inj; eauto.
    - intros V. apply offset_valid in V as [o Ho]. congruence.
  Qed.

  Lemma reshape_spec (a : nd A) sh :
    wf a ->
    match reshape a sh with
    | None => prod sh <> prod (shape a)
    | Some b => prod sh = prod (shape a) /\ wf b /\ shape b = sh /\ flat b = flat a /\
                reshape b (shape a) = Some a
    end.
  Proof.
    intros W. unfold reshape, from_flat. rewrite W.
    destruct (prod (shape a) =? prod sh) eqn:E.
    - apply Nat.eqb_eq in E. cbn. rewrite W, Nat.eqb_refl. repeat split; auto.
      + unfold wf; cbn. now rewrite W.
      + now destruct a.
    - apply Nat.eqb_neq in E. auto.
  Qed.

  Lemma remove_insert_valid sh axis index c :
    axis < length sh -> index < nth axis sh 0 ->
    (valid (remove_at sh axis) c <-> (axis <= length c /\ valid sh (insert_at c axis index))).
  Proof.
    unfold valid, remove_at, insert_at. revert axis c.
    induction sh as [|d sh IH]; intros axis c Ha Hi; cbn in Ha; [lia|].
    destruct axis as [|axis]; cbn [firstn skipn app nth] in *.
    - split.
      + intros H. split; [lia|]. constructor; auto.
      + intros [_ H]. inversion H; auto.
    - destruct c as [|x c]; cbn [firstn skipn app length].
      + split; [intros H; inversion H|intros [H _]; lia].
      + specialize (IH axis c ltac:(lia) Hi). cbn [skipn] in IH. split.
        * intros H. inversion H; subst. apply IH in H5 as [H5 H6]. split; [lia|]. constructor; auto.
        * intros [L H]. inversion H; subst. constructor; auto. apply IH. split; [lia|auto].
  Qed.
  Lemma slice_spec (a : nd A) axis index :
    wf a ->
    match slice_along a axis index with
    | None => ~ (axis < rank a /\ index < nth axis (shape a) 0)
    | Some b => axis < rank a /\ index < nth axis (shape a) 0 /\ wf b /\
                shape b = remove_at (shape a) axis /\
                forall c, length c = rank a - 1 -> get b c = get a (insert_at c axis index)
    end.
  Proof.
    intros W. unfold slice_along.
    destruct (rank a <=? axis) eqn:E1; cbn [orb].
    { apply Nat.leb_le in E1. lia. }
    apply Nat.leb_gt in E1.
    destruct (nth axis (shape a) 0 <=? index) eqn:E2.
    { apply Nat.leb_le in E2. lia. }
    apply Nat.leb_gt in E2. split; auto. split; auto.
    destruct (build_wf (remove_at (shape a) axis) (fun c => get a (insert_at c axis index))) as [Wb G].
    { intros c Hc. apply get_some; auto. eapply remove_insert_valid in Hc as [_ Hc]; eauto. }
    split; [exact Wb|]. split; [reflexivity|]. intros c Lc.
    destruct (get a (insert_at c axis index)) as [x|] eqn:E.
    - rewrite <- E. apply G. eapply remove_insert_valid; eauto. split.
      + unfold rank in *. lia.
      + apply get_some; eauto.
    - destruct (get (build _ _) c) as [y|] eqn:E'; auto.
      assert (V : valid (remove_at (shape a) axis) c)
        by (change (remove_at (shape a) axis) with (shape (build (remove_at (shape a) axis)
              (fun c => get a (insert_at c axis index)))); apply get_some; eauto).
      eapply remove_insert_valid in V as [_ V]; eauto.
      apply (get_some a _ W) in V as [z Hz]. congruence.
  Qed.

  Lemma zip_spec (f : A -> A -> A) (a b : nd A) :
    wf a -> wf b ->
    match zip_with f a b with
    | None => shape a <> shape b
    | Some r => shape a = shape b /\ wf r /\ shape r = shape a /\
                forall c, get r c = match get a c, get b c with Some x, Some y => Some (f x y) | _, _ => None end
    end.
  Proof.
    intros Wa Wb. unfold zip_with. destruct (list_eq_dec Nat.eq_dec (shape a) (shape b)) as [E|E]; auto.
    split; auto. split.
    { unfold wf in *. cbn [shape flat]. rewrite map_length, combine_length, Wa, Wb, E. lia. }
    split; auto. intros c. unfold get. cbn. rewrite <- E.
    destruct (offset (shape a) c) as [o|]; auto. clear.
    generalize (flat b). revert o. induction (flat a) as [|x l IH]; intros [|o] [|y l']; cbn; auto.
    destruct (nth_error l o); auto.
  Qed.
  Lemma map_spec (f : A -> A) (a : nd A) :
    wf a -> wf (nd_map f a) /\ shape (nd_map f a) = shape a /\
    forall c, get (nd_map f a) c = option_map f (get a c).
  Proof.
    intros W. split; [unfold wf; cbn; now rewrite map_length|]. split; auto.
    intros c. unfold get. cbn. destruct (offset (shape a) c); auto. apply nth_error_map.
  Qed.

  (** Neighbours. *)
  Lemma neighbour_spec : forall coords off sh,
    length coords = length sh -> length off = length sh ->
    match neighbour coords off sh with
    | Some n => displaced coords off n /\ valid sh n
    | None => ~ exists n, displaced coords off n /\ valid sh n
    end.
  Proof.
    unfold displaced, valid.
    induction coords as [|c cs IH]; intros [|o os] [|d ds] L1 L2; cbn in L1, L2; try lia; cbn.
    - split; [reflexivity|constructor].
    - destruct (_ || _) eqn:E.
      + intros (n & Hd & Hv). destruct n as [|m n]; cbn in Hd; [discriminate|].
        injection Hd as Hm _. inversion Hv; subst.
        apply orb_true_iff in E as [E|E]; [apply Z.ltb_lt in E|apply Z.leb_le in E]; lia.
      + apply orb_false_iff in E as [E1 E2]. apply Z.ltb_ge in E1. apply Z.leb_gt in E2.
        specialize (IH os ds ltac:(lia) ltac:(lia)). destruct (neighbour cs os ds) as [n|]; cbn.
        * destruct IH as [I1 I2]. split; [|constructor; auto; lia]. cbn.
          f_equal; auto. lia.
        * intros (n & Hd & Hv). apply IH. destruct n as [|m n]; cbn in Hd; [discriminate|].
          injection Hd as _ Hd. inversion Hv; subst. eauto.
  Qed.
  Lemma displaced_unique coords off n n' :
    displaced coords off n -> displaced coords off n' -> n = n'.
  Proof.
    unfold displaced. intros H H'. rewrite <- H' in H. clear H'. revert n' H.
    induction n as [|x n IH]; intros [|y n'] [=]; auto. f_equal; auto. lia.
  Qed.
  Lemma neighbours_flat (a : nd A) coords offs :
    wf a -> length coords = rank a ->
    exists groups, neighbours_values a coords offs = concat groups /\
    Forall2 (fun off g => length off = rank a ->
        match g with
        | [x] => exists n, displaced coords off n /\ get a n = Some x
        | [] => ~ exists n x, displaced coords off n /\ get a n = Some x
        | _ => False
        end) offs groups.
  Proof.
    intros W L. unfold neighbours_values.
    exists (map (fun off => if length off =? length coords then
        match neighbour coords off (shape a) with
        | Some n => match get a n with Some x => [x] | None => [] end
        | None => [] end else []) offs).
    split; [apply flat_map_concat_map|].
    induction offs as [|off offs IH]; cbn; constructor; auto. intros Lo.
    rewrite L, <- Lo, Nat.eqb_refl. unfold rank in *.
    pose proof (neighbour_spec coords off (shape a) L Lo) as N.
    destruct (neighbour coords off (shape a)) as [n|].
    - destruct N as [N1 N2]. apply (get_some a n W) in N2 as [x Hx]. rewrite Hx. eauto.
    - intros (n & x & H1 & H2). apply N. exists n. split; auto. apply get_some; eauto.
  Qed.

  Lemma chunks_concat n (offs : list (list Z)) : forall fuel,
    0 < n -> Forall (fun o => length o = n) offs -> length (concat offs) <= fuel ->
    chunks_fuel fuel n (concat offs) = offs.
  Proof.
    induction offs as [|o offs IH]; intros fuel Hn F Hf.
    - destruct fuel; reflexivity.
    - inversion F; subst. cbn [concat] in *. rewrite app_length in Hf.
      destruct fuel as [|fuel]; [lia|]. cbn [chunks_fuel].
      destruct (o ++ concat offs) as [|z l] eqn:E.
      { apply app_eq_nil in E as [-> _]. cbn in Hn. lia. }
      rewrite <- E. f_equal.
      + rewrite firstn_app, firstn_all, Nat.sub_diag. cbn. apply app_nil_r.
      + rewrite skipn_app, skipn_all, Nat.sub_diag. cbn. apply IH; auto. lia.
  Qed.
  Lemma intr_neighbours_spec (a : nd A) coords offs :
    0 < rank a -> Forall (fun o => length o = rank a) offs ->
    intr_neighbours coords offs a = neighbours_values a coords offs.
  Proof.
    intros R F. unfold intr_neighbours. cbv zeta.
    destruct (rank a =? 0) eqn:E; [apply Nat.eqb_eq in E; lia|]. cbn [orb].
    destruct (concat offs) as [|z l] eqn:Ec.
    - destruct offs as [|o offs]; [reflexivity|]. inversion F; subst.
      cbn in Ec. apply app_eq_nil in Ec as [-> _]. cbn in *. lia.
    - rewrite <- Ec. unfold chunks. rewrite chunks_concat; auto.
  Qed.
End Nd.
