From Coq Require Import List Arith NArith ZArith Bool Lia Permutation Sorted.
From Verif.Sets Require Import Model Spec.
Import ListNotations.

Lemma same_refl a : same a a.
Proof. destruct a; cbn; auto. Qed.
Lemma same_sym a b : same a b -> same b a.
Proof. destruct a, b; cbn; auto. Qed.
Lemma same_trans a b c : same a b -> same b c -> same a c.
Proof. destruct a, b, c; cbn; try tauto; congruence. Qed.
Lemma eqb_same a b : prim_eqb a b = true <-> same a b.
Proof.
  destruct a, b; cbn; try (split; [discriminate|tauto]).
  - apply Z.eqb_eq.
  - destruct (list_eq_dec N.eq_dec s s0); split; auto; try discriminate; tauto.
  - apply N.eqb_eq.
Qed.
Lemma eqb_same_false a b : prim_eqb a b = false <-> ~ same a b.
Proof. rewrite <- eqb_same. destruct (prim_eqb a b); split; congruence. Qed.

Lemma bytes_cmp_spec a : forall b,
  match bytes_cmp a b with Eq => a = b | Lt => bytes_lt a b | Gt => bytes_lt b a end.
Proof.
  induction a as [|x a IH]; intros [|y b]; cbn; try constructor.
  specialize (IH b). destruct (N.compare_spec x y).
  - subst. destruct (bytes_cmp a b); [congruence|now constructor|now constructor].
  - now constructor.
  - now constructor.
Qed.
Lemma cmp_spec a b :
  match prim_cmp a b with Eq => same a b | Lt => before a b | Gt => before b a end.
Proof.
  destruct a as [x|x|x], b as [y|y|y]; cbn; auto.
  - unfold f64_cmp. destruct (Z.compare_spec (units x) (units y)); auto.
  - pose proof (bytes_cmp_spec x y). destruct (bytes_cmp x y); auto.
  - destruct (N.compare_spec x y); auto.
Qed.
Lemma bytes_lt_irrefl a : ~ bytes_lt a a.
Proof. induction a; intros H; inversion H; subst; auto; lia. Qed.
Lemma bytes_lt_trans a b c : bytes_lt a b -> bytes_lt b c -> bytes_lt a c.
Proof.
  intros H. revert c. induction H; intros c Hc; inversion Hc; subst; try constructor; auto; lia.
Qed.
Lemma before_irrefl a b : same a b -> ~ before a b.
Proof.
  destruct a, b; cbn; auto; try tauto; try lia. intros ->. apply bytes_lt_irrefl.
Qed.
Lemma before_trans a b c : before a b -> before b c -> before a c.
Proof.
  destruct a, b, c; cbn; auto; try tauto; try lia. apply bytes_lt_trans.
Qed.
Lemma before_same_l a b c : same a b -> before b c -> before a c.
Proof. destruct a, b, c; cbn; auto; try tauto; intros; subst; try lia; auto. Qed.
Lemma before_same_r a b c : before a b -> same b c -> before a c.
Proof. destruct a, b, c; cbn; auto; try tauto; intros; subst; try lia; auto. Qed.

(** Pairwise different elements. *)
Definition distinct (s : hset) : Prop := ForallOrdPairs (fun a b => ~ same a b) s.

Lemma contains_spec s p : contains s p = true <-> exists q, In q s /\ same p q.
Proof.
  unfold contains. rewrite existsb_exists. split; intros (q & H & E); exists q; split; auto;
    now apply eqb_same.
Qed.
Lemma contains_false s p : contains s p = false <-> forall q, In q s -> ~ same p q.
Proof.
  split.
  - intros H q Hq E. assert (contains s p = true) by (apply contains_spec; eauto). congruence.
  - intros H. destruct (contains s p) eqn:E; auto. apply contains_spec in E as (q & Hq & Eq).
    exfalso. eapply H; eauto.
Qed.
Lemma contains_perm s s' p : Permutation s s' -> contains s p = contains s' p.
Proof.
  intros H. apply eq_true_iff_eq. rewrite !contains_spec.
  split; intros (q & Hq & E); exists q; split; auto.
  - eapply Permutation_in; eauto.
  - eapply Permutation_in; [symmetry|]; eauto.
Qed.

Lemma distinct_perm s s' : Permutation s s' -> distinct s -> distinct s'.
Proof.
  unfold distinct. induction 1; intros H1; auto.
  - inversion H1; subst. constructor; auto. eapply Permutation_Forall; eauto.
  - inversion H1 as [|? ? F1 H2]; subst. inversion H2 as [|? ? F2 H3]; subst.
    inversion F1; subst. constructor; [constructor; auto|constructor; auto].
    intros E. apply same_sym in E. auto.
Qed.
Lemma distinct_app s t :
  distinct (s ++ t) <->
  distinct s /\ distinct t /\ forall a b, In a s -> In b t -> ~ same a b.
Proof.
  unfold distinct. induction s as [|x s IH]; cbn.
  - split; [intros H; split; [constructor|split; [auto|tauto]]|tauto].
  - split.
    + intros H. inversion H as [|? ? F H']; subst. apply IH in H' as (H1 & H2 & H3).
      apply Forall_app in F as [F1 F2]. rewrite Forall_forall in F2.
      repeat split; auto; [constructor; auto|]. intros a b [<-|Ha] Hb; auto.
    + intros (H1 & H2 & H3). inversion H1; subst. constructor.
      * apply Forall_app. split; auto. apply Forall_forall. intros b Hb. apply H3; auto.
      * apply IH. repeat split; auto.
Qed.
Lemma distinct_filter f s : distinct s -> distinct (filter f s).
Proof.
  unfold distinct. induction 1 as [|x s F _ IH]; cbn; [constructor|].
  destruct (f x); auto. constructor; auto. rewrite Forall_forall in *.
  intros y Hy. apply filter_In in Hy as [Hy _]. auto.
Qed.

Lemma hinsert_spec s p :
  distinct s -> distinct (hinsert s p) /\
  forall q, contains (hinsert s p) q = true <-> same q p \/ contains s q = true.
Proof.
  intros D. unfold hinsert. destruct (contains s p) eqn:E.
  - split; auto. intros q. split; auto. intros [H|H]; auto.
    apply contains_spec in E as (r & Hr & Er). apply contains_spec. exists r. split; auto.
    eapply same_trans; eauto.
  - split.
    + apply distinct_app. repeat split; auto.
      * constructor; constructor.
      * intros a b Ha [<-|[]] Hs. rewrite contains_false in E. apply (E a Ha). now apply same_sym.
    + intros q. rewrite !contains_spec. split.
      * intros (r & Hr & Er). apply in_app_or in Hr as [Hr|[<-|[]]]; eauto.
      * intros [H|(r & Hr & Er)]; [exists p|exists r]; split; auto; apply in_or_app; cbn; auto.
Qed.
Lemma hcollect_spec ps :
  distinct (hcollect ps) /\
  forall q, contains (hcollect ps) q = true <-> exists p, In p ps /\ same q p.
Proof.
  unfold hcollect.
  assert (G : forall ps s, distinct s -> distinct (fold_left hinsert ps s) /\
    forall q, contains (fold_left hinsert ps s) q = true <->
      contains s q = true \/ exists p, In p ps /\ same q p).
  { clear ps. induction ps as [|p ps IH]; cbn; intros s D.
    - split; auto. intros q. split; [auto|]. intros [H|(p & [] & _)]; auto.
    - destruct (hinsert_spec s p D) as [D1 C1]. destruct (IH _ D1) as [D2 C2].
      split; auto. intros q.
      change (contains (fold_left hinsert ps (hinsert s p)) q = true <->
        contains s q = true \/ exists p0, (p = p0 \/ In p0 ps) /\ same q p0).
      rewrite C2, C1. split.
      + intros [[H|H]|(r & Hr & Er)]; eauto.
      + intros [H|(r & [<-|Hr] & Er)]; eauto. }
  destruct (G ps [] (FOP_nil _)) as [D C]. split; auto. intros q. rewrite C. cbn. intuition discriminate.
Qed.
(** Collecting already different elements adds nothing and drops nothing. *)
Lemma hcollect_distinct ps : distinct ps -> hcollect ps = ps.
Proof.
  intros D. unfold hcollect.
  assert (G : forall ps s, distinct (s ++ ps) -> fold_left hinsert ps s = s ++ ps).
  { clear. induction ps as [|p ps IH]; cbn; intros s D; [now rewrite app_nil_r|].
    assert (E : contains s p = false).
    { apply contains_false. intros q Hq Es. apply distinct_app in D as (_ & _ & D).
      apply (D q p Hq); [cbn; auto|now apply same_sym]. }
    unfold hinsert. rewrite E. rewrite IH; rewrite <- app_assoc; auto. }
  exact (G ps [] D).
Qed.

Lemma union_spec s t :
  distinct s -> distinct t -> distinct (union s t) /\
  forall q, contains (union s t) q = true <-> contains s q = true \/ contains t q = true.
Proof.
  intros Ds Dt. unfold union.
  assert (G : forall a b : hset, forall q, (exists p, In p (a ++ hdifference b a) /\ same q p) <->
     contains a q = true \/ contains b q = true).
  { intros a b q. rewrite !contains_spec. split.
    - intros (p & Hp & E). apply in_app_or in Hp as [Hp|Hp]; [eauto|].
      apply filter_In in Hp as [Hp _]. eauto.
    - intros [(p & Hp & E)|(p & Hp & E)].
      + exists p. split; auto. apply in_or_app; auto.
      + destruct (contains a p) eqn:C.
        * apply contains_spec in C as (r & Hr & Er). exists r.
          split; [apply in_or_app; auto|eapply same_trans; eauto].
        * exists p. split; auto. apply in_or_app. right. apply filter_In. now rewrite C. }
  destruct (Nat.leb (length t) (length s)).
  - destruct (hcollect_spec (s ++ hdifference t s)) as [D C]. split; auto.
    intros q. now rewrite C, G.
  - destruct (hcollect_spec (t ++ hdifference s t)) as [D C]. split; auto.
    intros q. rewrite C, G. tauto.
Qed.
Lemma filter_contains a b q :
  (exists p, In p (filter (contains b) a) /\ same q p) <-> contains a q = true /\ contains b q = true.
Proof.
  rewrite !contains_spec. split.
  - intros (p & Hp & E). apply filter_In in Hp as [Hp C]. split; [eauto|].
    apply contains_spec in C as (r & Hr & Er). exists r. split; auto. eapply same_trans; eauto.
  - intros [(p & Hp & E) (r & Hr & Er)]. exists p. split; auto. apply filter_In. split; auto.
    apply contains_spec. exists r. split; auto. eapply same_trans; [apply same_sym|]; eauto.
Qed.
Lemma intersect_spec s t :
  distinct (intersect s t) /\
  forall q, contains (intersect s t) q = true <-> contains s q = true /\ contains t q = true.
Proof.
  unfold intersect. destruct (Nat.leb (length s) (length t)).
  - destruct (hcollect_spec (filter (contains t) s)) as [D C]. split; auto.
    intros q. rewrite C. apply filter_contains.
  - destruct (hcollect_spec (filter (contains s) t)) as [D C]. split; auto.
    intros q. rewrite C. rewrite filter_contains. tauto.
Qed.
Lemma diff_spec s t :
  distinct (diff s t) /\
  forall q, contains (diff s t) q = true <-> contains s q = true /\ ~ contains t q = true.
Proof.
  unfold diff. destruct (hcollect_spec (hdifference s t)) as [D C]. split; auto.
  intros q. rewrite C, contains_spec. unfold hdifference. split.
  - intros (p & Hp & E). apply filter_In in Hp as [Hp N]. split; [eauto|].
    intros Ct. apply contains_spec in Ct as (r & Hr & Er).
    assert (contains t p = true).
    { apply contains_spec. exists r. split; auto. eapply same_trans; [apply same_sym|]; eauto. }
    rewrite H in N. discriminate.
  - intros [(p & Hp & E) N]. exists p. split; auto. apply filter_In. split; auto.
    destruct (contains t p) eqn:Ct; auto. exfalso. apply N.
    apply contains_spec in Ct as (r & Hr & Er). apply contains_spec. exists r. split; auto.
    eapply same_trans; eauto.
Qed.
Lemma removed_spec s p :
  distinct s -> distinct (with_removed s p) /\
  forall q, contains (with_removed s p) q = true <-> ~ same q p /\ contains s q = true.
Proof.
  intros D. split; [now apply distinct_filter|]. intros q. unfold with_removed.
  rewrite !contains_spec. split.
  - intros (r & Hr & Er). apply filter_In in Hr as [Hr N]. apply negb_true_iff, eqb_same_false in N.
    split; [|eauto]. intros E. apply N. eapply same_trans; [apply same_sym|]; eauto.
  - intros (N & r & Hr & Er). exists r. split; auto. apply filter_In. split; auto.
    apply negb_true_iff, eqb_same_false. intros E. apply N.
    eapply same_trans; [exact Er|now apply same_sym].
Qed.

Lemma runs_spec e s :
  runs e s -> distinct s /\ forall p, contains s p = true <-> denotes e p.
Proof.
  induction 1 as [|ps s P|p e s s' R [D C] P|p e s s' R [D C] P
                 |a b s t u R1 [D1 C1] R2 [D2 C2] P|a b s t u R1 [D1 C1] R2 [D2 C2] P
                 |a b s t u R1 [D1 C1] R2 [D2 C2] P].
  - split; [constructor|]. intros p. cbn. intuition discriminate.
  - destruct (hcollect_spec ps) as [D C]. split; [eapply distinct_perm; eauto|].
    intros p. rewrite <- (contains_perm _ _ p P). apply C.
  - destruct (hinsert_spec s p D) as [D' C']. split; [eapply distinct_perm; eauto|].
    intros q. rewrite <- (contains_perm _ _ q P). unfold with_added. rewrite C', C. cbn. tauto.
  - destruct (removed_spec s p D) as [D' C']. split; [eapply distinct_perm; eauto|].
    intros q. rewrite <- (contains_perm _ _ q P). rewrite C', C. cbn. tauto.
  - destruct (union_spec s t D1 D2) as [D' C']. split; [eapply distinct_perm; eauto|].
    intros q. rewrite <- (contains_perm _ _ q P). rewrite C', C1, C2. cbn. tauto.
  - destruct (intersect_spec s t) as [D' C']. split; [eapply distinct_perm; eauto|].
    intros q. rewrite <- (contains_perm _ _ q P). rewrite C', C1, C2. cbn. tauto.
  - destruct (diff_spec s t) as [D' C']. split; [eapply distinct_perm; eauto|].
    intros q. rewrite <- (contains_perm _ _ q P). rewrite C', C1, C2. cbn. tauto.
Qed.

Lemma sort_insert_perm p l : Permutation (sort_insert p l) (p :: l).
Proof.
  induction l as [|q l IH]; cbn; auto. destruct (prim_cmp p q); auto.
  rewrite IH. apply perm_swap.
Qed.
Lemma sorted_perm s : Permutation (sorted_elements s) s.
Proof. induction s; cbn; auto. rewrite sort_insert_perm. auto. Qed.
Lemma sort_insert_sorted p l :
  StronglySorted before l -> Forall (fun q => ~ same p q) l ->
  StronglySorted before (sort_insert p l).
Proof.
  induction l as [|q l IH]; cbn; intros S N.
  - constructor; constructor.
  - inversion S as [|? ? S' F]; subst. inversion N; subst.
    pose proof (cmp_spec p q) as C. destruct (prim_cmp p q).
    + contradiction.
    + constructor; auto. constructor; auto. eapply Forall_impl; [|exact F].
      intros r. now apply before_trans.
    + constructor; auto. apply (Permutation_Forall (Permutation_sym (sort_insert_perm p l))).
      constructor; auto.
Qed.
Lemma sorted_sorted s : distinct s -> StronglySorted before (sorted_elements s).
Proof.
  induction 1 as [|x s F _ IH]; cbn; [constructor|]. apply sort_insert_sorted; auto.
  apply (Permutation_Forall (Permutation_sym (sorted_perm s))). auto.
Qed.

(** Two increasing lists with the same members agree element by element. *)
Lemma sorted_unique l : forall l',
  StronglySorted before l -> StronglySorted before l' ->
  (forall p, contains l p = true <-> contains l' p = true) -> Forall2 same l l'.
Proof.
  induction l as [|x l IH]; intros [|y l'] S S' C.
  - constructor.
  - exfalso. specialize (C y). cbn in C. destruct C as [_ C].
    rewrite (proj2 (eqb_same y y) (same_refl y)) in C. specialize (C eq_refl). discriminate.
  - exfalso. specialize (C x). cbn in C. destruct C as [C _].
    rewrite (proj2 (eqb_same x x) (same_refl x)) in C. specialize (C eq_refl). discriminate.
  - inversion S as [|? ? Sl Fl]; subst. inversion S' as [|? ? Sl' Fl']; subst.
    rewrite Forall_forall in Fl, Fl'.
    assert (E : same x y).
    { assert (Hx : exists q, In q (y :: l') /\ same x q)
        by (apply contains_spec, C, contains_spec; exists x; split; [left; auto|apply same_refl]).
      assert (Hy : exists q, In q (x :: l) /\ same y q)
        by (apply contains_spec, C, contains_spec; exists y; split; [left; auto|apply same_refl]).
      destruct Hx as (q & [<-|Hq] & Eq); auto. destruct Hy as (r & [<-|Hr] & Er); [now apply same_sym|].
      exfalso. specialize (Fl' _ Hq). specialize (Fl _ Hr).
      assert (before y x) by (eapply before_same_r; [exact Fl'|now apply same_sym]).
      assert (before x y) by (eapply before_same_r; [exact Fl|now apply same_sym]).
      apply (before_irrefl x x (same_refl x)). eapply before_trans; eauto. }
    constructor; auto. apply IH; auto. intros p.
    assert (K : forall z m, (forall b, In b m -> before z b) -> forall q, same q z -> contains m q = false).
    { intros z m F q Hq. apply contains_false. intros b Hb Hs.
      apply (before_irrefl z b); [|now apply F]. eapply same_trans; [apply same_sym|]; eauto. }
    specialize (C p). cbn in C. destruct (prim_eqb p x) eqn:Ex.
    + apply eqb_same in Ex. rewrite (K x l Fl p Ex).
      rewrite (K y l' Fl' p); [tauto|]. eapply same_trans; eauto.
    + assert (Ey : prim_eqb p y = false).
      { apply eqb_same_false. apply eqb_same_false in Ex. intros H. apply Ex.
        eapply same_trans; [exact H|now apply same_sym]. }
      rewrite Ey in C. exact C.
Qed.

Lemma canonical e e' s s' :
  runs e s -> runs e' s' -> (forall p, denotes e p <-> denotes e' p) ->
  Forall2 same (sorted_elements s) (sorted_elements s').
Proof.
  intros R R' H. destruct (runs_spec _ _ R) as [D C]. destruct (runs_spec _ _ R') as [D' C'].
  apply sorted_unique; try now apply sorted_sorted.
  intros p. rewrite (contains_perm _ _ p (sorted_perm s)), (contains_perm _ _ p (sorted_perm s')).
  rewrite C, C'. apply H.
Qed.

Lemma same_plain a b : plain a -> plain b -> same a b -> a = b.
Proof.
  destruct a as [[u n]| |], b as [[u' n']| |]; cbn; try tauto; congruence.
Qed.
Lemma hcollect_in ps q : In q (hcollect ps) -> In q ps.
Proof.
  unfold hcollect.
  assert (G : forall ps s, In q (fold_left hinsert ps s) -> In q s \/ In q ps).
  { clear. induction ps as [|p ps IH]; cbn; intros s H; auto.
    apply IH in H as [H|H]; auto. unfold hinsert in H. destruct (contains s p); auto.
    apply in_app_or in H as [H|[H|[]]]; auto. }
  intros H. apply G in H as [[]|H]; auto.
Qed.
Lemma runs_mentions e s : runs e s -> forall q, In q s -> In q (mentions e).
Proof.
  induction 1 as [|ps s P|p e s s' R IH P|p e s s' R IH P
                 |a b s t u R1 I1 R2 I2 P|a b s t u R1 I1 R2 I2 P|a b s t u R1 I1 R2 I2 P];
    intros q Hq; try (eapply Permutation_in in Hq; [|symmetry; exact P]); cbn.
  - destruct Hq.
  - now apply hcollect_in.
  - unfold with_added, hinsert in Hq. destruct (contains s p); auto.
    apply in_app_or in Hq as [H|[H|[]]]; auto.
  - unfold with_removed in Hq. apply filter_In in Hq as [Hq _]. auto.
  - apply in_or_app. unfold union in Hq. apply hcollect_in in Hq.
    destruct (Nat.leb (length t) (length s)); apply in_app_or in Hq as [Hq|Hq]; auto;
      apply filter_In in Hq as [Hq _]; auto.
  - apply in_or_app. unfold intersect in Hq. apply hcollect_in in Hq.
    destruct (Nat.leb (length s) (length t)); apply filter_In in Hq as [Hq _]; auto.
  - apply in_or_app. unfold diff in Hq. apply hcollect_in in Hq.
    apply filter_In in Hq as [Hq _]; auto.
Qed.
Lemma canonical_plain e e' s s' :
  Forall plain (mentions e) -> Forall plain (mentions e') ->
  runs e s -> runs e' s' -> (forall p, denotes e p <-> denotes e' p) ->
  sorted_elements s = sorted_elements s'.
Proof.
  intros P P' R R' H. pose proof (canonical _ _ _ _ R R' H) as F.
  assert (G : Forall plain (sorted_elements s)).
  { apply (Permutation_Forall (Permutation_sym (sorted_perm s))). apply Forall_forall.
    rewrite Forall_forall in P. intros q Hq. apply P. eapply runs_mentions; eauto. }
  assert (G' : Forall plain (sorted_elements s')).
  { apply (Permutation_Forall (Permutation_sym (sorted_perm s'))). apply Forall_forall.
    rewrite Forall_forall in P'. intros q Hq. apply P'. eapply runs_mentions; eauto. }
  revert G G'. induction F as [|a b l l' E _ IH]; intros G G'; auto.
  inversion G; subst. inversion G'; subst. f_equal; [now apply same_plain|auto].
Qed.

(** ** Integers *)
Lemma round53_small n : (n <= 2 ^ 53)%N -> round53 n = n.
Proof.
  intros H. unfold round53. destruct (n <? 2 ^ 53)%N eqn:E; auto.
  apply N.ltb_ge in E. assert (n = 2 ^ 53)%N by lia. subst. reflexivity.
Qed.
Lemma from_int_inj a b :
  (Z.abs a <= 2 ^ 53)%Z -> (Z.abs b <= 2 ^ 53)%Z ->
  same (from_number (NInt a)) (from_number (NInt b)) -> a = b.
Proof.
  intros Ha Hb H. cbn [from_number same as_f64 units] in H.
  rewrite !round53_small in H by lia.
  rewrite !N2Z.inj_abs_N, !(Z.mul_comm (Z.sgn _)), !Z.abs_sgn in H.
  apply Z.mul_reg_r in H; auto. apply Z.pow_nonzero; lia.
Qed.
