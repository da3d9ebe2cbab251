From Coq Require Import List Arith Bool Lia.
From Verif.Arrays Require Import Model Spec.
Import ListNotations.

Section Proofs.
  Context {T : Type}.

  Lemma upd_length {A} (l : list A) i x : length (upd l i x) = length l.
  Proof. revert i; induction l; intros [|i]; cbn; auto. Qed.
  Lemma nth_upd_eq {A} (l : list A) i x : i < length l -> nth_error (upd l i x) i = Some x.
  Proof. revert i; induction l; intros [|i] H; cbn in *; try lia; auto. apply IHl. lia. Qed.
  Lemma nth_upd_ne {A} (l : list A) i j x : i <> j -> nth_error (upd l i x) j = nth_error l j.
  Proof. revert i j; induction l; intros [|i] [|j] H; cbn; auto; try lia. Qed.
  Lemma nth_some_lt {A} (l : list A) i x : nth_error l i = Some x -> i < length l.
  Proof. intros H. apply nth_error_Some. congruence. Qed.

  (** Array [a] holds the list [l]. *)
  Definition holds (m : mem T) (a : array) (l : list T) : Prop :=
    length_ a = length l /\ length l <= capacity a /\
    match ptr a with
    | None => capacity a = 0
    | Some p => exists b, nth_error m p = Some b /\ length b = capacity a /\
                          firstn (length l) b = map Some l
    end.

  Definition sep (arrs : list array) : Prop :=
    forall i j a b p, nth_error arrs i = Some a -> nth_error arrs j = Some b ->
      ptr a = Some p -> ptr b = Some p -> i = j.

  Definition rel (s : state T) (ls : list (list T)) : Prop :=
    let '(m, arrs) := s in Forall2 (holds m) arrs ls /\ sep arrs.

  Lemma F2_nth {A B} (R : A -> B -> Prop) xs ys : Forall2 R xs ys ->
    forall i, match nth_error xs i, nth_error ys i with
              | Some x, Some y => R x y | None, None => True | _, _ => False end.
  Proof. induction 1; intros [|i]; cbn; auto. apply IHForall2. Qed.
  Lemma F2_upd {A B} (R R' : A -> B -> Prop) xs ys i x y :
    Forall2 R xs ys -> R' x y ->
    (forall j a b, j <> i -> nth_error xs j = Some a -> nth_error ys j = Some b -> R a b -> R' a b) ->
    Forall2 R' (upd xs i x) (upd ys i y).
  Proof.
    intros H Hxy K. revert i K. induction H as [|a b xs ys Hab H IH]; intros [|i] K; cbn; auto.
    - constructor; auto. clear IH. assert (G : forall j a b, nth_error xs j = Some a -> nth_error ys j = Some b -> R a b -> R' a b)
        by (intros j a' b'; apply (K (S j)); lia).
      clear K. induction H as [|a' b' xs ys Hab' H IH]; constructor; [apply (G 0); auto|].
      apply IH. intros j. apply (G (S j)).
    - constructor; [apply (K 0); auto; lia|]. apply IH. intros j a' b' Hj. apply (K (S j)). lia.
  Qed.
  Lemma F2_impl_nth {A B} (R R' : A -> B -> Prop) xs ys :
    Forall2 R xs ys -> (forall j a b, nth_error xs j = Some a -> nth_error ys j = Some b -> R a b -> R' a b) ->
    Forall2 R' xs ys.
  Proof.
    induction 1 as [|a b xs ys H F IH]; intros K; constructor; [apply (K 0); auto|].
    apply IH. intros j. apply (K (S j)).
  Qed.

  Lemma sequence_map (l : list T) : sequence (map Some l) = Some l.
  Proof. induction l; cbn; auto. now rewrite IHl. Qed.
  Lemma nth_firstn_map (b : list (option T)) (l : list T) i x :
    firstn (length l) b = map Some l -> nth_error l i = Some x -> nth_error b i = Some (Some x).
  Proof.
    revert b i. induction l as [|y l IH]; intros b [|i] F N; cbn in *; try discriminate.
    - destruct b as [|c b]; [discriminate|]. injection F as -> _. injection N as ->. reflexivity.
    - destruct b as [|c b]; [discriminate|]. injection F as _ F. cbn. eauto.
  Qed.

  Lemma holds_read (m : mem T) (a : array) (l : list T) i x : holds m a l -> nth_error l i = Some x -> read m a i = Some x.
  Proof.
    intros (L & C & P) N. pose proof (nth_some_lt _ _ _ N) as Lt. unfold read.
    rewrite (proj2 (Nat.ltb_lt _ _)) by lia. destruct (ptr a) as [p|]; [|lia].
    destruct P as (b & Hb & Lb & F). unfold load. rewrite Hb, (nth_firstn_map b l i x F N). reflexivity.
  Qed.
  Lemma holds_ext (m : mem T) (m' : mem T) (a : array) (l : list T) :
    holds m a l -> (forall p b, ptr a = Some p -> nth_error m p = Some b -> nth_error m' p = Some b) -> holds m' a l.
  Proof.
    intros (L & C & P) E. repeat split; auto. destruct (ptr a) as [p|]; auto.
    destruct P as (b & Hb & K). exists b. split; auto.
  Qed.

  Lemma alloc_new (m : mem T) cap m' p : alloc m cap = (m', p) ->
    (cap = 0 /\ m' = m /\ p = None) \/
    (0 < cap /\ p = Some (length m) /\ m' = m ++ [repeat None cap]).
  Proof.
    unfold alloc. destruct (Nat.eqb_spec cap 0); intros [= <- <-]; [left|right]; repeat split; auto. lia.
  Qed.
  Lemma nth_snoc {A} (l : list A) x : nth_error (l ++ [x]) (length l) = Some x.
  Proof. rewrite nth_error_app2, Nat.sub_diag by lia. reflexivity. Qed.
  Lemma nth_app_old {A} (l : list A) k i x : nth_error l i = Some x -> nth_error (l ++ k) i = Some x.
  Proof. intros H. rewrite nth_error_app1; auto. eapply nth_some_lt; eauto. Qed.
  Lemma upd_snoc {A} (l : list A) x y : upd (l ++ [x]) (length l) y = l ++ [y].
  Proof. induction l; cbn; auto. now rewrite IHl. Qed.

  (** Frame: what happens to other blocks. *)
  Definition frame (m m' : mem T) (keep : nat -> Prop) : Prop :=
    forall q b, nth_error m q = Some b -> keep q -> nth_error m' q = Some b.

  Lemma firstn_upd {A} (b : list A) n x :
    n < length b -> firstn (S n) (upd b n x) = firstn n b ++ [x].
  Proof.
    revert n. induction b as [|y b IH]; intros [|n] H; cbn in *; try lia; auto.
    f_equal. apply IH. lia.
  Qed.
  Lemma store_spec (m : mem T) p b i x : nth_error m p = Some b -> i < length b ->
    store m p i x = Some (upd m p (upd b i (Some x))).
  Proof. intros H L. unfold store. rewrite H. apply Nat.ltb_lt in L. now rewrite L. Qed.

  Lemma push_spec (m : mem T) (a : array) (l : list T) x : holds m a l ->
    exists m' a', push m a x = Some (m', a') /\ holds m' a' (l ++ [x]) /\
      frame m m' (fun q => ptr a <> Some q) /\
      (exists p', ptr a' = Some p' /\ (ptr a = Some p' \/ length m <= p')).
  Proof.
    intros H. pose proof H as (L & C & P). unfold push.
    destruct (Nat.eqb_spec (length_ a) (capacity a)) as [E|E].
    - (* grow *)
      unfold resize.
      assert (G : capacity a < growth (capacity a)).
      { unfold growth. destruct (Nat.eqb_spec (capacity a) 0); [lia|]. pose proof (Nat.le_max_r (capacity a / 2) 1). lia. }
      set (g := growth (capacity a)) in *.
      destruct (alloc m g) as [m1 p1] eqn:Al. apply alloc_new in Al as [(Z & _)|(_ & -> & ->)]; [lia|].
      assert (S2 : exists blk, match ptr a, Some (length m) with
                | Some old, Some new => copy (m ++ [repeat None g]) old new (Nat.min (capacity a) g)
                | _, _ => Some (m ++ [repeat None g])
                end = Some (m ++ [blk]) /\ length blk = g /\ firstn (length l) blk = map Some l).
      { destruct (ptr a) as [p|].
        - destruct P as (b & Hb & Lb & F). unfold copy.
          rewrite (nth_app_old _ _ _ _ Hb), nth_snoc, (Nat.min_l (capacity a) g) by lia.
          rewrite repeat_length. rewrite (proj2 (Nat.leb_le _ _)) by lia. rewrite (proj2 (Nat.leb_le _ _)) by lia.
          cbn [andb]. rewrite upd_snoc. eexists. split; [reflexivity|]. split.
          + rewrite app_length, firstn_length, skipn_length, repeat_length. lia.
          + rewrite firstn_app, firstn_firstn, firstn_length.
            replace (length l - Nat.min (capacity a) (length b)) with 0 by lia. cbn. rewrite app_nil_r.
            rewrite Nat.min_l by lia. exact F.
        - assert (l = []) by (destruct l; auto; cbn in *; lia). subst l.
          exists (repeat None g). split; auto. split; [apply repeat_length|reflexivity]. }
      destruct S2 as (blk & E2 & Lb & F). unfold mem, block in *. cbv beta iota in E2 |- *. rewrite E2. cbn [ptr length_ capacity].
      rewrite (store_spec _ _ blk) by (rewrite ?nth_snoc; auto; lia).
      rewrite upd_snoc. eexists _, _. split; [reflexivity|]. split; [|split].
      + repeat split; cbn [length_ capacity ptr]; [rewrite app_length; cbn; lia|rewrite app_length; cbn; lia|].
        eexists. split; [apply nth_snoc|]. split; [now rewrite upd_length|].
        rewrite app_length. cbn [length]. rewrite Nat.add_1_r, L. rewrite firstn_upd by lia.
        rewrite F, map_app. reflexivity.
      + intros q b Hq _. now apply nth_app_old.
      + exists (length m). split; auto.
    - (* in place *)
      destruct (ptr a) as [p|] eqn:Ep; [|lia]. destruct P as (b & Hb & Lb & F).
      rewrite (store_spec _ _ b) by (auto; lia). eexists _, _. split; [reflexivity|].
      split; [|split].
      + repeat split; cbn [length_ capacity ptr]; [rewrite app_length; cbn; lia|rewrite app_length; cbn; lia|].
        eexists. split; [apply nth_upd_eq; eapply nth_some_lt; eauto|]. split; [now rewrite upd_length|].
        rewrite app_length. cbn [length]. rewrite Nat.add_1_r, L. rewrite firstn_upd by lia.
        rewrite F, map_app. reflexivity.
      + intros q b' Hq Hn. rewrite nth_upd_ne by congruence. exact Hq.
      + exists p. auto.
  Qed.

  Lemma map_upd_firstn (b : list (option T)) (l : list T) k x :
    firstn (length l) b = map Some l -> k < length l ->
    firstn (length l) (upd b k (Some x)) = map Some (upd l k x).
  Proof.
    revert b k. induction l as [|y l IH]; intros b [|k] F H; cbn in H; try lia;
      (destruct b as [|c b]; [discriminate|]); cbn in F; injection F as -> F; cbn; f_equal; auto.
    apply IH; auto. lia.
  Qed.
  Lemma write_spec (m : mem T) (a : array) (l : list T) k x : holds m a l -> k < length l ->
    exists m', write m a k x = Some m' /\ holds m' a (upd l k x) /\ frame m m' (fun q => ptr a <> Some q).
  Proof.
    intros (L & C & P) H. unfold write. rewrite (proj2 (Nat.ltb_lt _ _)) by lia.
    destruct (ptr a) as [p|] eqn:Ep; [|lia]. destruct P as (b & Hb & Lb & F).
    rewrite (store_spec _ _ b) by (auto; lia). eexists. split; [reflexivity|]. split.
    - repeat split; rewrite ?upd_length; auto. rewrite Ep.
      eexists. split; [apply nth_upd_eq; eapply nth_some_lt; eauto|]. split; [now rewrite upd_length|].
      now apply map_upd_firstn.
    - intros q b' Hq Hn. rewrite nth_upd_ne by congruence. exact Hq.
  Qed.

  Lemma ptr_in (m : mem T) (a : array) (l : list T) p : holds m a l -> ptr a = Some p -> p < length m.
  Proof.
    intros (_ & _ & P) E. rewrite E in P. destruct P as (b & Hb & _). eapply nth_some_lt; eauto.
  Qed.
  Lemma sep_upd m arrs ls i a' p' :
    Forall2 (holds m) arrs ls -> sep arrs -> ptr a' = Some p' ->
    (forall a, nth_error arrs i = Some a -> ptr a = Some p' \/ length m <= p') -> sep (upd arrs i a').
  Proof.
    intros F S Pa Hp.
    assert (OLD : forall j b, j <> i -> nth_error (upd arrs i a') j = Some b -> nth_error arrs j = Some b)
      by (intros j b Hj; rewrite nth_upd_ne; auto).
    assert (IN : forall j b q, nth_error arrs j = Some b -> ptr b = Some q -> q < length m).
    { intros j b q Hj Hq. pose proof (F2_nth _ _ _ F j) as K. rewrite Hj in K.
      destruct (nth_error ls j); [|contradiction]. eapply ptr_in; eauto. }
    assert (CR : forall j b q, j <> i -> nth_error arrs j = Some b -> ptr b = Some q -> q = p' -> i < length arrs -> False).
    { intros j b q Hj Hb Hq -> Hi. destruct (nth_error arrs i) as [a|] eqn:Ea.
      - destruct (Hp a eq_refl) as [E|E].
        + apply Hj. eapply S; eauto.
        + pose proof (IN _ _ _ Hb Hq). lia.
      - apply nth_error_None in Ea. lia. }
    intros j k b c p Hj Hk Pb Pc.
    destruct (Nat.eq_dec j i) as [->|Nj], (Nat.eq_dec k i) as [->|Nk]; auto.
    - assert (i < length arrs) by (rewrite <- (upd_length arrs i a'); eapply nth_some_lt; eauto).
      rewrite nth_upd_eq in Hj by auto. injection Hj as <-. exfalso. eapply (CR k c p); eauto. congruence.
    - assert (i < length arrs) by (rewrite <- (upd_length arrs i a'); eapply nth_some_lt; eauto).
      rewrite nth_upd_eq in Hk by auto. injection Hk as <-. exfalso. eapply (CR j b p); eauto. congruence.
    - eapply S; eauto.
  Qed.
  Lemma sep_upd_same arrs i a a' : sep arrs -> nth_error arrs i = Some a -> ptr a' = ptr a -> sep (upd arrs i a').
  Proof.
    intros S Ha E j k b c p Hj Hk Pb Pc. pose proof (nth_some_lt _ _ _ Ha) as L.
    destruct (Nat.eq_dec j i) as [->|Nj], (Nat.eq_dec k i) as [->|Nk]; auto.
    - rewrite nth_upd_eq in Hj by auto. injection Hj as <-. rewrite nth_upd_ne in Hk by auto.
      eapply (S i k a c p); eauto. congruence.
    - rewrite nth_upd_eq in Hk by auto. injection Hk as <-. rewrite nth_upd_ne in Hj by auto.
      eapply (S j i b a p); eauto. congruence.
    - rewrite nth_upd_ne in Hj, Hk by auto. eapply S; eauto.
  Qed.
  Lemma sep_snoc m arrs ls a : Forall2 (holds m) arrs ls -> sep arrs ->
    (forall p, ptr a = Some p -> length m <= p) -> sep (arrs ++ [a]).
  Proof.
    intros F S H i j b c p Hi Hj Pb Pc.
    assert (IN : forall j b q, nth_error arrs j = Some b -> ptr b = Some q -> q < length m).
    { intros j' b' q Hj' Hq. pose proof (F2_nth _ _ _ F j') as K. rewrite Hj' in K.
      destruct (nth_error ls j'); [|contradiction]. eapply ptr_in; eauto. }
    assert (CASE : forall i b, nth_error (arrs ++ [a]) i = Some b ->
      (i < length arrs /\ nth_error arrs i = Some b) \/ (i = length arrs /\ b = a)).
    { intros i' b' Hi'. destruct (lt_dec i' (length arrs)) as [L|L].
      - rewrite nth_error_app1 in Hi' by auto. auto.
      - pose proof (nth_some_lt _ _ _ Hi') as L'. rewrite app_length in L'. cbn in L'.
        assert (i' = length arrs) by lia. subst. rewrite nth_snoc in Hi'. right. split; congruence. }
    destruct (CASE _ _ Hi) as [[Li Bi]|[-> ->]], (CASE _ _ Hj) as [[Lj Bj]|[-> ->]]; auto.
    - eapply S; eauto.
    - specialize (H p Pc). specialize (IN _ _ _ Bi Pb). lia.
    - specialize (H p Pb). specialize (IN _ _ _ Bj Pc). lia.
  Qed.

  Lemma firstn_map_pred (b : list (option T)) (l : list T) : firstn (length l) b = map Some l ->
    firstn (length l - 1) b = map Some (removelast l).
  Proof.
    intros F. destruct l as [|x l0] using rev_ind; [destruct b; reflexivity|]. clear IHl0.
    rewrite removelast_last, app_length in *. cbn [length] in *. rewrite Nat.add_sub.
    rewrite <- (firstn_firstn b (length l0) (length l0 + 1)) in * ||
    replace (firstn (length l0) b) with (firstn (length l0) (firstn (length l0 + 1) b))
      by (rewrite firstn_firstn; f_equal; lia).
    rewrite F, map_app, firstn_app, map_length, Nat.sub_diag. cbn. rewrite app_nil_r.
    rewrite <- (map_length Some) at 1. apply firstn_all.
  Qed.
  Lemma removelast_length (l : list T) : length (removelast l) = length l - 1.
  Proof.
    destruct l as [|x l0] using rev_ind; auto. rewrite removelast_last, app_length. cbn. lia.
  Qed.

  Lemma step_sim s ls o : rel s ls ->
    exists s', step s o = Some (s', snd (lstep ls o)) /\ rel s' (fst (lstep ls o)).
  Proof.
    destruct s as [m arrs]. intros [F S].
    assert (ON : forall i, match nth_error arrs i, nth_error ls i with
       | Some a, Some l => holds m a l | None, None => True | _, _ => False end) by (apply F2_nth; auto).
    destruct o as [|n|xs|i x|i|i|i k|i k x|i|i]; cbn [step lstep].
    - eexists. split; [reflexivity|]. cbn. split.
      + apply Forall2_app; auto. constructor; auto. repeat split; cbn; auto.
      + eapply sep_snoc; eauto. cbn. discriminate.
    - unfold with_capacity. destruct (alloc m n) as [m' p] eqn:Al. eexists. split; [reflexivity|]. cbn.
      apply alloc_new in Al as [(-> & -> & ->)|(Hn & -> & ->)].
      + split; [|eapply sep_snoc; eauto; cbn; discriminate].
        apply Forall2_app; auto. constructor; auto. repeat split; cbn; auto.
      + split; [|eapply sep_snoc; eauto; cbn; intros p [=<-]; lia].
        apply Forall2_app; [|constructor; auto].
        * eapply F2_impl_nth; [exact F|]. intros j a l _ _ H. eapply holds_ext; [exact H|].
          intros p b _ Hb. now apply nth_app_old.
        * repeat split; cbn; auto; [lia|]. eexists. split; [apply nth_snoc|]. split; [apply repeat_length|reflexivity].
    - unfold from_slice. destruct (alloc m (length xs)) as [m' p] eqn:Al.
      apply alloc_new in Al as [(Hn & -> & ->)|(Hn & -> & ->)].
      + eexists. split; [reflexivity|]. cbn. destruct xs; [|discriminate]. split.
        * apply Forall2_app; auto. constructor; auto. repeat split; cbn; auto.
        * eapply sep_snoc; eauto. cbn. discriminate.
      + rewrite nth_snoc. eexists. split; [reflexivity|]. cbn. rewrite upd_snoc. split.
        * apply Forall2_app; [|constructor; auto].
          -- eapply F2_impl_nth; [exact F|]. intros j a l _ _ H. eapply holds_ext; [exact H|].
             intros p b _ Hb. now apply nth_app_old.
          -- repeat split; cbn; auto. eexists. split; [apply nth_snoc|]. split; [apply map_length|].
             rewrite <- (map_length Some). apply firstn_all.
        * eapply sep_snoc; eauto. cbn. intros p [=<-]. lia.
    - specialize (ON i). destruct (nth_error arrs i) as [a|] eqn:Ea, (nth_error ls i) as [l|] eqn:El; try contradiction.
      + destruct (push_spec m a l x ON) as (m' & a' & P & H & Fr & p' & Pp & Or). rewrite P.
        eexists. split; [reflexivity|]. cbn. split.
        * eapply F2_upd; [exact F|exact H|]. intros j b c Hj Hb Hc Hh. eapply holds_ext; [exact Hh|].
          intros q bl Hq Hbl. apply Fr; auto. intros Eq. apply Hj. eapply S; eauto.
        * eapply sep_upd; eauto. intros a0 Ha0. assert (a0 = a) by congruence. subst. auto.
      + eexists. split; [reflexivity|]. split; auto.
    - specialize (ON i). destruct (nth_error arrs i) as [a|] eqn:Ea, (nth_error ls i) as [l|] eqn:El; try contradiction.
      + pose proof ON as (L & C & P). unfold pop. destruct (Nat.ltb_spec 0 (length_ a)) as [Lt|Ge].
        * destruct (nth_error l (length_ a - 1)) as [x|] eqn:Ex;
            [|apply nth_error_None in Ex; lia].
          rewrite (holds_read m a l _ x ON Ex). rewrite <- L, Ex.
          eexists. split; [reflexivity|]. cbn. split.
          -- eapply F2_upd; [exact F| |intros; assumption].
             repeat split; cbn; rewrite ?removelast_length; try lia.
             destruct (ptr a) as [p|]; [|lia]. destruct P as (b & Hb & Lb & Fb). exists b. split; auto. split; auto.
             apply (firstn_map_pred b l Fb).
          -- eapply sep_upd_same; eauto.
        * assert (l = []) by (destruct l; auto; cbn in *; lia). subst l. eexists. split; [reflexivity|]. cbn. split.
          -- eapply F2_upd; [exact F|exact ON|intros; assumption].
          -- eapply sep_upd_same; eauto.
      + eexists. split; [reflexivity|]. split; auto.
    - specialize (ON i). destruct (nth_error arrs i) as [a|] eqn:Ea, (nth_error ls i) as [l|] eqn:El; try contradiction.
      + pose proof ON as (L & C & P). unfold top. destruct (Nat.ltb_spec 0 (length_ a)) as [Lt|Ge].
        * destruct (nth_error l (length_ a - 1)) as [x|] eqn:Ex;
            [|apply nth_error_None in Ex; lia].
          rewrite (holds_read m a l _ x ON Ex). rewrite <- L, Ex. eexists. split; [reflexivity|]. split; auto.
        * assert (l = []) by (destruct l; auto; cbn in *; lia). subst l. eexists. split; [reflexivity|]. split; auto.
      + eexists. split; [reflexivity|]. split; auto.
    - specialize (ON i). destruct (nth_error arrs i) as [a|] eqn:Ea, (nth_error ls i) as [l|] eqn:El; try contradiction.
      + pose proof ON as (L & C & P). unfold get. destruct (Nat.ltb_spec k (length_ a)) as [Lt|Ge].
        * destruct (nth_error l k) as [x|] eqn:Ex; [|apply nth_error_None in Ex; lia].
          rewrite (holds_read m a l _ x ON Ex). eexists. split; [reflexivity|]. split; auto.
        * assert (N : nth_error l k = None) by (apply nth_error_None; lia). cbn [snd]. rewrite N.
          eexists. split; [reflexivity|]. split; auto.
      + eexists. split; [reflexivity|]. split; auto.
    - specialize (ON i). destruct (nth_error arrs i) as [a|] eqn:Ea, (nth_error ls i) as [l|] eqn:El; try contradiction.
      + pose proof ON as (L & C & P). unfold set. destruct (Nat.leb_spec (length_ a) k) as [Ge|Lt].
        * rewrite (proj2 (Nat.ltb_ge _ _)) by lia. eexists. split; [reflexivity|]. split; auto.
        * rewrite (proj2 (Nat.ltb_lt _ _)) by lia.
          destruct (write_spec m a l k x ON) as (m' & W & H & Fr); [lia|]. rewrite W.
          eexists. split; [reflexivity|]. cbn. split; auto.
          assert (U : upd arrs i a = arrs).
          { clear - Ea. revert i Ea. induction arrs as [|b bs IH]; intros [|i] E; cbn in *; try discriminate; auto;
              [injection E as ->; auto|f_equal; auto]. }
          rewrite <- U. eapply F2_upd; [exact F|exact H|].
          intros j b c Hj Hb Hc Hh. eapply holds_ext; [exact Hh|].
          intros q bl Hq Hbl. apply Fr; auto. intros Eq. apply Hj. eapply S; eauto.
      + eexists. split; [reflexivity|]. split; auto.
    - specialize (ON i). destruct (nth_error arrs i) as [a|] eqn:Ea, (nth_error ls i) as [l|] eqn:El; try contradiction.
      + pose proof ON as (L & C & P). unfold as_slice. destruct (ptr a) as [p|].
        * destruct P as (b & Hb & Lb & Fb). rewrite Hb, (proj2 (Nat.leb_le _ _)) by lia.
          rewrite L, Fb, sequence_map. eexists. split; [reflexivity|]. split; auto.
        * assert (l = []) by (destruct l; auto; cbn in *; lia). subst l. eexists. split; [reflexivity|]. split; auto.
      + eexists. split; [reflexivity|]. split; auto.
    - specialize (ON i). destruct (nth_error arrs i) as [a|] eqn:Ea, (nth_error ls i) as [l|] eqn:El; try contradiction.
      + pose proof ON as (L & C & P). rewrite L. eexists. split; [reflexivity|]. split; auto.
      + eexists. split; [reflexivity|]. split; auto.
  Qed.

  Lemma run_sim os : forall s ls, rel s ls ->
    exists s', run s os = Some (s', snd (lrun ls os)) /\ rel s' (fst (lrun ls os)).
  Proof.
    induction os as [|o os IH]; intros s ls R; cbn [run lrun].
    - exists s. auto.
    - destruct (step_sim s ls o R) as (s1 & E1 & R1). rewrite E1.
      destruct (lstep ls o) as [ls1 v]. cbn [fst snd] in *.
      destruct (IH s1 ls1 R1) as (s2 & E2 & R2). rewrite E2.
      destruct (lrun ls1 os) as [ls2 vs]. exists s2. auto.
  Qed.
End Proofs.
