From Coq Require Import List Arith Bool Lia Relations ZArith Sorted Permutation.
From Verif.Graph Require Import Model Spec.
Import ListNotations.

(** * Generalities *)

Lemma list_set_length {A} (l : list A) i x : length (list_set l i x) = length l.
Proof. revert i; induction l; intros [|i]; cbn; auto. Qed.
Lemma nth_list_set {A} (l : list A) i x k :
  nth_error (list_set l i x) k =
  if k =? i then match nth_error l k with Some _ => Some x | None => None end
  else nth_error l k.
Proof.
  revert i k. induction l as [|y l IH]; intros [|i] [|k]; cbn; auto. destruct (k =? i); auto.
Qed.
Lemma nth_list_set_eq {A} (l : list A) i x : i < length l -> nth_error (list_set l i x) i = Some x.
Proof.
  intros H. rewrite nth_list_set, Nat.eqb_refl.
  destruct (nth_error l i) eqn:E; auto. apply nth_error_None in E. lia.
Qed.
Lemma nth_list_set_ne {A} (l : list A) i x k : k <> i -> nth_error (list_set l i x) k = nth_error l k.
Proof. intros H. rewrite nth_list_set. apply Nat.eqb_neq in H. now rewrite H. Qed.
Lemma store_ok {A} (l : list A) i x : i < length l -> store l i x = Some (list_set l i x).
Proof. intros H. unfold store. apply Nat.ltb_lt in H. now rewrite H. Qed.
Lemma nth_lt {A} (l : list A) i x : nth_error l i = Some x -> i < length l.
Proof. intros H. apply nth_error_Some. congruence. Qed.
Lemma nth_ex {A} (l : list A) i : i < length l -> exists x, nth_error l i = Some x.
Proof. intros H. destruct (nth_error l i) eqn:E; eauto. apply nth_error_None in E. lia. Qed.

Lemma chunk_pairs_nth l k : nth_error (chunk_pairs l) k = edge_at l k.
Proof.
  unfold edge_at. revert k.
  assert (G : forall m (l : list nat), length l <= m -> forall k, nth_error (chunk_pairs l) k =
    match nth_error l (2 * k), nth_error l (2 * k + 1) with
    | Some i, Some j => Some (i, j) | _, _ => None end).
  { induction m as [|m IH]; intros l0 Hl k.
    - destruct l0; [|cbn in Hl; lia]. now destruct k.
    - destruct l0 as [|a [|b l0]]; cbn [chunk_pairs].
      + now destruct k.
      + destruct k; cbn; auto. replace (k + S (k + 0)) with (S (k + k)) by lia. cbn. now destruct (k + k).
      + destruct k as [|k]; [reflexivity|]. cbn [nth_error].
        replace (2 * S k + 1) with (S (S (2 * k + 1))) by lia.
        replace (2 * S k) with (S (S (2 * k))) by lia. cbn [nth_error].
        apply IH. cbn in Hl. lia. }
  intros k. eapply G. reflexivity.
Qed.

Lemma F2_length {A B} (P : A -> B -> Prop) l l' : Forall2 P l l' -> length l = length l'.
Proof. induction 1; cbn; auto. Qed.

(** * Connections *)
Section Conn.
  Implicit Types R : nat -> nat -> Prop.
  Definition conn R := clos_refl_sym_trans nat R.
  Lemma conn_refl R x : conn R x x. Proof. apply rst_refl. Qed.
  Lemma conn_sym R x y : conn R x y -> conn R y x. Proof. apply rst_sym. Qed.
  Lemma conn_trans R x y z : conn R x y -> conn R y z -> conn R x z.
  Proof. intros. eapply rst_trans; eauto. Qed.
  Lemma conn_mono R R' : (forall a b, R a b -> R' a b) -> forall x y, conn R x y -> conn R' x y.
  Proof.
    intros M x y H. induction H; [apply rst_step; auto|apply rst_refl|apply rst_sym; auto|
      eapply rst_trans; eauto].
  Qed.
  Lemma conn_iff R R' : (forall a b, R a b <-> R' a b) -> forall x y, conn R x y <-> conn R' x y.
  Proof. intros M x y. split; apply conn_mono; intros; now apply M. Qed.
  Lemma conn_add R R' i j :
    (forall a b, R' a b <-> R a b \/ (a = i /\ b = j)) ->
    forall x y, conn R' x y <->
      conn R x y \/ (conn R x i /\ conn R y j) \/ (conn R x j /\ conn R y i).
  Proof.
    intros D x y. split.
    - induction 1 as [x y H|x|x y H IH|x y z H1 IH1 H2 IH2].
      + apply D in H as [H|[-> ->]]; [left; now apply rst_step|right; left; split; apply conn_refl].
      + left. apply conn_refl.
      + destruct IH as [IH|[[A B]|[A B]]]; [left; now apply conn_sym|right; right; auto|right; left; auto].
      + destruct IH1 as [A|[[A B]|[A B]]], IH2 as [C|[[C D']|[C D']]].
        * left. eapply conn_trans; eauto.
        * right. left. split; auto. eapply conn_trans; eauto.
        * right. right. split; auto. eapply conn_trans; eauto.
        * right. left. split; auto. eapply conn_trans; [apply conn_sym|]; eauto.
        * right. left. split; auto.
        * left. eapply conn_trans; [exact A|]. apply conn_sym; auto.
        * right. right. split; auto. eapply conn_trans; [apply conn_sym|]; eauto.
        * left. eapply conn_trans; [exact A|]. apply conn_sym; auto.
        * right. right. split; auto.
    - assert (M : forall a b, conn R a b -> conn R' a b)
        by (apply conn_mono; intros a b H; apply D; auto).
      assert (IJ : conn R' i j) by (apply rst_step, D; auto).
      intros [H|[[A B]|[A B]]]; auto.
      + eapply conn_trans; [apply M; exact A|]. eapply conn_trans; [exact IJ|]. apply conn_sym, M, B.
      + eapply conn_trans; [apply M; exact A|]. eapply conn_trans; [apply conn_sym, IJ|].
        apply conn_sym, M, B.
  Qed.

  (** Counting components. *)
  Definition comps (n : nat) R (c : nat) : Prop :=
    exists reps, NoDup reps /\ length reps = c /\ (forall r, In r reps -> r < n) /\
      (forall r s, In r reps -> In s reps -> conn R r s -> r = s) /\
      (forall x, x < n -> exists r, In r reps /\ conn R x r).
  Lemma comps_none n R : (forall a b, ~ R a b) -> comps n R n.
  Proof.
    intros N. exists (seq 0 n). split; [apply seq_NoDup|]. split; [apply seq_length|].
    assert (E : forall x y, conn R x y -> x = y)
      by (induction 1; auto; [now apply N in H|congruence]).
    repeat split; auto.
    - intros r Hr. apply in_seq in Hr. lia.
    - intros x Hx. exists x. split; [apply in_seq; lia|apply conn_refl].
  Qed.
  Lemma filter_ne_length x l : NoDup l -> In x l ->
    S (length (filter (fun y => negb (y =? x)) l)) = length l.
  Proof.
    induction 1 as [|y l Hy N IH]; intros Hin; [destruct Hin|]. cbn.
    destruct Hin as [->|Hin].
    - rewrite Nat.eqb_refl. cbn. f_equal. f_equal.
      assert (G : forall z, In z l -> negb (z =? x) = true).
      { intros z Hz. apply negb_true_iff, Nat.eqb_neq. intros ->. contradiction. }
      clear - G. induction l as [|z l IH]; cbn; auto. rewrite G by (left; auto).
      f_equal. apply IH. intros; apply G; right; auto.
    - assert (y <> x) by (intros ->; contradiction).
      apply Nat.eqb_neq in H. rewrite H. cbn. now rewrite IH.
  Qed.
  Lemma comps_add n R R' i j c :
    (forall a b, R' a b <-> R a b \/ (a = i /\ b = j)) ->
    i < n -> j < n -> ~ conn R i j -> comps n R c -> exists c', c = S c' /\ comps n R' c'.
  Proof.
    intros D Hi Hj NC (reps & ND & L & B & U & X).
    destruct (X j Hj) as (rj & Irj & Crj). destruct (X i Hi) as (ri & Iri & Cri).
    assert (ri <> rj).
    { intros ->. apply NC. eapply conn_trans; [exact Cri|apply conn_sym; exact Crj]. }
    pose proof (filter_ne_length rj reps ND Irj) as FL.
    eexists. split; [rewrite <- L, <- FL; reflexivity|].
    pose proof (conn_add R R' i j D) as CA.
    exists (filter (fun y => negb (y =? rj)) reps). split; [now apply NoDup_filter|].
    split; [reflexivity|]. split; [intros r Hr; apply filter_In in Hr as [Hr _]; auto|]. split.
    - intros r s Hr Hs Hc. apply filter_In in Hr as [Hr Er]. apply filter_In in Hs as [Hs Es].
      apply negb_true_iff, Nat.eqb_neq in Er, Es. apply CA in Hc as [Hc|[[A C]|[A C]]]; auto.
      + exfalso. apply Es. apply U; auto. eapply conn_trans; eauto.
      + exfalso. apply Er. apply U; auto. eapply conn_trans; eauto.
    - intros x Hx. destruct (X x Hx) as (r & Ir & Cr). destruct (Nat.eq_dec r rj) as [->|Ne].
      + exists ri. split.
        * apply filter_In. split; auto. now apply negb_true_iff, Nat.eqb_neq.
        * apply CA. right. right. split; [|now apply conn_sym].
          eapply conn_trans; [exact Cr|apply conn_sym; exact Crj].
      + exists r. split; [apply filter_In; split; auto; now apply negb_true_iff, Nat.eqb_neq|].
        apply CA. auto.
  Qed.
  Lemma comps_iff n R R' c : (forall a b, conn R a b <-> conn R' a b) -> comps n R c -> comps n R' c.
  Proof.
    intros E (reps & ND & L & B & U & X). exists reps. repeat split; auto.
    - intros r s Hr Hs Hc. apply U; auto. now apply E.
    - intros x Hx. destruct (X x Hx) as (r & Ir & Cr). exists r. split; auto. now apply E.
  Qed.
  Lemma comps_le n R R' c c' :
    (forall a b, conn R a b -> conn R' a b) -> comps n R c -> comps n R' c' -> c' <= c.
  Proof.
    intros M (reps & ND & L & B & U & X) (reps' & ND' & L' & B' & U' & X').
    assert (E : exists l, Forall2 (fun r' r => In r reps /\ conn R r' r) reps' l).
    { clear ND' L' U' X'. induction reps' as [|r' reps' IH]; [exists []; constructor|].
      destruct IH as [l Hl]; [intros; apply B'; right; auto|].
      destruct (X r') as (r & Ir & Cr); [apply B'; left; auto|].
      exists (r :: l). constructor; auto. }
    destruct E as [l F].
    assert (I : incl l reps).
    { clear - F. induction F as [|a b x y [H _] F IH]; [intros ? []|intros z [<-|Hz]; auto]. }
    assert (NDl : NoDup l).
    { clear - F ND' U' M. induction F as [|a b x y [H C] F IH]; [constructor|].
      inversion ND'; subst. constructor.
      - intros Hb. apply H2.
        assert (G : exists a', In a' x /\ conn R a' b).
        { clear - F Hb. induction F as [|a' b' x y [H' C'] F IH]; [destruct Hb|].
          destruct Hb as [->|Hb]; [exists a'; split; [left; auto|auto]|].
          destruct (IH Hb) as (z & Iz & Cz). exists z. split; [right|]; auto. }
        destruct G as (a' & Ia & Ca).
        replace a with a'; auto. symmetry. apply U'; [left; auto|right; auto|].
        apply M. eapply conn_trans; [exact C|now apply conn_sym].
      - apply IH; auto. intros r s Hr Hs. apply U'; right; auto. }
    apply F2_length in F. rewrite <- L, <- L', F. now apply NoDup_incl_length.
  Qed.
  Lemma comps_unique n R c c' : comps n R c -> comps n R c' -> c = c'.
  Proof. intros H H'. apply Nat.le_antisymm; eapply comps_le; eauto. Qed.
End Conn.

(** * Union-find *)

Section UF.
  Variable n : nat.

  Inductive rep (p : list nat) : nat -> nat -> Prop :=
  | rep_root x : nth_error p x = Some x -> rep p x x
  | rep_step x y r : nth_error p x = Some y -> y <> x -> rep p y r -> rep p x r.

  Definition ok (p k : list nat) : Prop :=
    length p = n /\ length k = n /\
    forall x y, nth_error p x = Some y -> y < n /\ (y = x \/ nth x k 0 < nth y k 0).

  Definition height (k : list nat) (x : nat) : nat :=
    length (filter (fun y => nth x k 0 <? nth y k 0) (seq 0 n)).

  Lemma filter_length_lt {A} (f g : A -> bool) l z :
    (forall x, f x = true -> g x = true) -> In z l -> f z = false -> g z = true ->
    length (filter f l) < length (filter g l).
  Proof.
    intros H Hz F G.
    assert (LE : forall l, length (filter f l) <= length (filter g l)).
    { clear - H. induction l as [|x l IH]; cbn; auto. destruct (f x) eqn:E.
      - rewrite (H _ E). cbn. lia.
      - destruct (g x); cbn; lia. }
    induction l as [|x l IH]; [destruct Hz|]. cbn. destruct Hz as [->|Hz].
    - rewrite F, G. cbn. specialize (LE l). lia.
    - specialize (IH Hz). destruct (f x) eqn:E.
      + rewrite (H _ E). cbn. lia.
      + destruct (g x); cbn; lia.
  Qed.
  Lemma height_lt k x y : x < n -> y < n -> nth x k 0 < nth y k 0 -> height k y < height k x.
  Proof.
    intros Hx Hy H. apply filter_length_lt with (z := y).
    - intros z Hz. apply Nat.ltb_lt in Hz. apply Nat.ltb_lt. lia.
    - apply in_seq. lia.
    - apply Nat.ltb_ge. lia.
    - now apply Nat.ltb_lt.
  Qed.
  Lemma height_bound k x : height k x <= n.
  Proof.
    unfold height. rewrite <- (seq_length n 0) at 2. generalize (seq 0 n).
    induction l as [|y l IH]; cbn [filter length]; auto. destruct (nth x k 0 <? nth y k 0); cbn [length]; lia.
  Qed.

  Lemma rep_total p k x : ok p k -> x < n -> exists r, rep p x r.
  Proof.
    intros O. remember (height k x) as m eqn:E. revert x E.
    induction m as [m IH] using lt_wf_ind. intros x -> Hx.
    pose proof O as (Lp & Lk & P). destruct (nth_ex p x) as [y Hy]; [lia|].
    destruct (P x y Hy) as [By [->|R]].
    - exists x. now constructor.
    - destruct (Nat.eq_dec y x) as [->|Ne]; [exists x; now constructor|].
      destruct (IH (height k y) (height_lt _ _ _ Hx By R) y eq_refl By) as [r Hr].
      exists r. eapply rep_step; eauto.
  Qed.
  Lemma rep_fun p x r r' : rep p x r -> rep p x r' -> r = r'.
  Proof.
    intros H. revert r'. induction H as [x H|x y r H N _ IH]; intros r' H'.
    - inversion H'; subst; auto. congruence.
    - inversion H'; subst; [congruence|]. apply IH. congruence.
  Qed.
  Lemma rep_isroot p x r : rep p x r -> nth_error p r = Some r.
  Proof. induction 1; auto. Qed.
  Lemma rep_dom p x r : rep p x r -> x < length p.
  Proof. destruct 1; eapply nth_lt; eauto. Qed.
  Lemma rep_one_way p k p' k' :
    ok p k -> ok p' k' -> (forall a r, rep p a r -> rep p' a r) ->
    forall a r, rep p' a r <-> rep p a r.
  Proof.
    intros O O' H a r. split; auto. intros H'.
    assert (a < n) by (destruct O' as (L & _ & _); rewrite <- L; eapply rep_dom; eauto).
    destruct (rep_total p k a O H0) as [r0 Hr]. rewrite (rep_fun _ _ _ _ H' (H _ _ Hr)). auto.
  Qed.

  Lemma halve_ok p k x y g :
    ok p k -> nth_error p x = Some y -> y <> x -> nth_error p y = Some g ->
    ok (list_set p x g) k /\ (forall a r, rep (list_set p x g) a r <-> rep p a r) /\
    height k g < height k x /\ g < n.
  Proof.
    intros O Hx Ne Hy. pose proof O as (Lp & Lk & P).
    destruct (P _ _ Hx) as [By [E|Rxy]]; [contradiction|].
    destruct (P _ _ Hy) as [Bg Ryg].
    assert (Bx : x < n) by (rewrite <- Lp; eapply nth_lt; eauto).
    assert (Rxg : nth x k 0 < nth g k 0) by (destruct Ryg as [->|]; lia).
    assert (O' : ok (list_set p x g) k).
    { repeat split; auto; [now rewrite list_set_length| |].
      - destruct (Nat.eq_dec x0 x) as [->|Ne0].
        + rewrite nth_list_set_eq in H by lia. injection H as <-. auto.
        + rewrite nth_list_set_ne in H by auto. eapply P; eauto.
      - destruct (Nat.eq_dec x0 x) as [->|Ne0].
        + rewrite nth_list_set_eq in H by lia. injection H as <-. auto.
        + rewrite nth_list_set_ne in H by auto. eapply P; eauto. }
    split; auto. split; [|split; auto; now apply height_lt].
    eapply rep_one_way; eauto. intros a r H. induction H as [a H|a b r H N H' IH].
    - constructor. rewrite nth_list_set_ne; auto. intros ->. congruence.
    - destruct (Nat.eq_dec a x) as [->|Na].
      + assert (b = y) by congruence. subst b. inversion IH; subst.
        * rewrite nth_list_set_ne in H0 by auto. assert (g = r) by congruence. subst g.
          eapply rep_step; [apply nth_list_set_eq; lia| |exact IH]. auto.
        * rewrite nth_list_set_ne in H0 by auto. assert (y0 = g) by congruence. subst y0.
          eapply rep_step; [apply nth_list_set_eq; lia| |eassumption]. intros ->. lia.
      + eapply rep_step; eauto. now rewrite nth_list_set_ne.
  Qed.

  Lemma find_spec k : forall fuel p x, ok p k -> x < n -> height k x < fuel ->
    exists p' r, find fuel p x = Some (p', r) /\ ok p' k /\ rep p x r /\
      forall a z, rep p' a z <-> rep p a z.
  Proof.
    induction fuel as [|fuel IH]; intros p x O Hx Hf; [lia|]. cbn [find].
    pose proof O as (Lp & Lk & P). destruct (nth_ex p x) as [y Hy]; [lia|]. rewrite Hy.
    destruct (y =? x) eqn:E.
    - apply Nat.eqb_eq in E. subst. exists p, x. split; [reflexivity|]. split; [exact O|]. split; [now constructor|tauto].
    - apply Nat.eqb_neq in E. destruct (P _ _ Hy) as [By _].
      destruct (nth_ex p y) as [g Hg]; [lia|]. rewrite Hg, store_ok by lia.
      destruct (halve_ok p k x y g O Hy E Hg) as (O' & R & Hh & Bg).
      destruct (IH (list_set p x g) g O' Bg) as (p' & r & F & O'' & Rr & Q); [lia|].
      exists p', r. rewrite F. split; auto. split; auto. split.
      + apply R. eapply rep_step; [apply nth_list_set_eq; lia| |exact Rr].
        intros ->. lia.
      + intros a z. rewrite Q. apply R.
  Qed.
  Lemma find_ok p k x : ok p k -> x < n ->
    exists p' r, find (S n) p x = Some (p', r) /\ ok p' k /\ rep p x r /\
      forall a z, rep p' a z <-> rep p a z.
  Proof. intros O Hx. apply (find_spec k); auto. pose proof (height_bound k x). lia. Qed.

  Lemma attach p u v : nth_error p u = Some u -> nth_error p v = Some v -> u <> v ->
    forall a z, rep p a z -> rep (list_set p u v) a (if z =? u then v else z).
  Proof.
    intros Hu Hv Ne a z H.
    assert (Hu' := nth_list_set_eq p u v (nth_lt _ _ _ Hu)).
    induction H as [a H|a b z H N H' IH].
    - destruct (a =? u) eqn:E.
      + apply Nat.eqb_eq in E. subst. eapply rep_step; eauto. constructor.
        rewrite nth_list_set_ne; auto.
      + apply Nat.eqb_neq in E. constructor. now rewrite nth_list_set_ne.
    - assert (a <> u) by (intros ->; congruence).
      eapply rep_step; [rewrite nth_list_set_ne by auto; exact H|auto|exact IH].
  Qed.

  Definition same (p : list nat) x y := exists r, rep p x r /\ rep p y r.

  Lemma link_spec p k u v : ok p k -> nth_error p u = Some u -> nth_error p v = Some v -> u <> v ->
    exists p' k' w, link p k u v = Some (p', k') /\ ok p' k' /\ (w = u \/ w = v) /\
      forall a z, rep p a z -> rep p' a (if (z =? u) || (z =? v) then w else z).
  Proof.
    intros O Hu Hv Ne. pose proof O as (Lp & Lk & P).
    assert (Bu : u < n) by (rewrite <- Lp; eapply nth_lt; eauto).
    assert (Bv : v < n) by (rewrite <- Lp; eapply nth_lt; eauto).
    unfold link. destruct (nth_ex k u) as [ku Eu]; [lia|]. destruct (nth_ex k v) as [kv Ev]; [lia|].
    rewrite Eu, Ev. assert (Nu := nth_error_nth k u 0 Eu). assert (Nv := nth_error_nth k v 0 Ev).
    assert (AT : forall u v k', nth_error p u = Some u -> nth_error p v = Some v -> u <> v ->
      length k' = n -> v < n -> nth u k' 0 < nth v k' 0 ->
      (forall x y, nth_error p x = Some y -> y = x \/ nth x k' 0 < nth y k' 0) ->
      ok (list_set p u v) k').
    { clear - Lp P. intros u v k' Hu Hv Ne L Bv K Q. repeat split; auto; [now rewrite list_set_length| |].
      - destruct (Nat.eq_dec x u) as [->|N].
        + rewrite nth_list_set_eq in H by (eapply nth_lt; eauto). injection H as <-. auto.
        + rewrite nth_list_set_ne in H by auto. eapply P; eauto.
      - destruct (Nat.eq_dec x u) as [->|N].
        + rewrite nth_list_set_eq in H by (eapply nth_lt; eauto). injection H as <-. auto.
        + rewrite nth_list_set_ne in H by auto. auto. }
    destruct (Nat.compare_spec ku kv) as [Ec|Ec|Ec].
    - rewrite store_ok by lia. rewrite store_ok by lia. eexists _, _, u. split; [reflexivity|].
      assert (NK : forall x, nth x (list_set k u (ku + 1)) 0 = if x =? u then ku + 1 else nth x k 0).
      { intros x. destruct (x =? u) eqn:E.
        - apply Nat.eqb_eq in E. subst. apply nth_error_nth. apply nth_list_set_eq. lia.
        - apply Nat.eqb_neq in E. destruct (nth_error k x) as [q|] eqn:Q.
          + rewrite (nth_error_nth k x 0 Q). apply nth_error_nth. now rewrite nth_list_set_ne.
          + rewrite !nth_overflow; auto; [apply nth_error_None; auto|].
            rewrite list_set_length. now apply nth_error_None. }
      split; [|split; auto].
      + apply AT; auto; [now rewrite list_set_length| |].
        * rewrite !NK, Nat.eqb_refl. apply Nat.neq_sym, Nat.eqb_neq in Ne. rewrite Ne. lia.
        * intros x y H. destruct (P _ _ H) as [_ [->|K]]; auto. destruct (Nat.eq_dec y x) as [->|Nyx]; auto.
          right. rewrite !NK. assert (x <> u) by (intros ->; congruence).
          apply Nat.eqb_neq in H0. rewrite H0. destruct (y =? u) eqn:E; auto.
          apply Nat.eqb_eq in E. subst. lia.
      + intros a z H. pose proof (attach p v u Hv Hu ltac:(auto) a z H) as A.
        destruct (z =? v) eqn:E; [now rewrite orb_true_r|]. rewrite orb_false_r.
        destruct (z =? u) eqn:E'; auto. apply Nat.eqb_eq in E'. now subst.
    - rewrite store_ok by lia. eexists _, _, v. split; [reflexivity|]. split; [|split; auto].
      + apply AT; auto; [lia|]. intros x y H. eapply P; eauto.
      + intros a z H. pose proof (attach p u v Hu Hv Ne a z H) as A.
        destruct (z =? u) eqn:E; auto. cbn [orb]. destruct (z =? v) eqn:E'; auto.
        apply Nat.eqb_eq in E'. now subst.
    - rewrite store_ok by lia. eexists _, _, u. split; [reflexivity|]. split; [|split; auto].
      + apply AT; auto; [lia|]. intros x y H. eapply P; eauto.
      + intros a z H. pose proof (attach p v u Hv Hu ltac:(auto) a z H) as A.
        destruct (z =? v) eqn:E; [now rewrite orb_true_r|]. rewrite orb_false_r.
        destruct (z =? u) eqn:E'; auto. apply Nat.eqb_eq in E'. now subst.
  Qed.

  Lemma same_dec p k x y : ok p k -> x < n -> y < n -> same p x y \/ ~ same p x y.
  Proof.
    intros O Hx Hy. destruct (rep_total p k x O Hx) as [r Hr], (rep_total p k y O Hy) as [s Hs].
    destruct (Nat.eq_dec r s) as [->|Ne]; [left; exists s; auto|].
    right. intros (t & A & B). apply Ne. rewrite (rep_fun _ _ _ _ Hr A). eapply rep_fun; eauto.
  Qed.

  Lemma union_spec p k i j : ok p k -> i < n -> j < n ->
    exists p' k' b, union n p k i j = Some (p', k', b) /\ ok p' k' /\
      (if b then ~ same p i j else same p i j) /\
      forall x y, x < n -> y < n ->
        (same p' x y <-> same p x y \/ (same p x i /\ same p y j) \/ (same p x j /\ same p y i)).
  Proof.
    intros O Hi Hj. unfold union.
    destruct (find_ok p k i O Hi) as (p1 & ri & F1 & O1 & R1 & Q1). rewrite F1.
    destruct (find_ok p1 k j O1 Hj) as (p2 & rj & F2 & O2 & R2 & Q2). rewrite F2.
    apply Q1 in R2.
    assert (Q : forall a z, rep p2 a z <-> rep p a z) by (intros; rewrite Q2; apply Q1).
    assert (Qs : forall a b, same p2 a b <-> same p a b).
    { intros a b. unfold same. split; intros (r & A & B); exists r; split; apply Q; auto. }
    destruct (ri =? rj) eqn:E.
    - apply Nat.eqb_eq in E. subst rj. exists p2, k, false. split; auto. split; auto.
      assert (S : same p i j) by (exists ri; auto). split; auto.
      intros x y Hx Hy. rewrite Qs. split; auto.
      intros [H|[[(r & A & B) (s & C & D)]|[(r & A & B) (s & C & D)]]]; auto.
      + exists ri. rewrite (rep_fun _ _ _ _ B R1) in A. rewrite (rep_fun _ _ _ _ D R2) in C. auto.
      + exists ri. rewrite (rep_fun _ _ _ _ B R2) in A. rewrite (rep_fun _ _ _ _ D R1) in C. auto.
    - apply Nat.eqb_neq in E.
      assert (Hri : nth_error p2 ri = Some ri) by (eapply rep_isroot; apply Q; eauto).
      assert (Hrj : nth_error p2 rj = Some rj) by (eapply rep_isroot; apply Q; eauto).
      destruct (link_spec p2 k ri rj O2 Hri Hrj E) as (p3 & k3 & w & L & O3 & W & A).
      rewrite L. exists p3, k3, true. split; auto. split; auto. split.
      { intros (r & B & C). apply E. rewrite (rep_fun _ _ _ _ R1 B). eapply rep_fun; eauto. }
      intros x y Hx Hy. destruct (rep_total p k x O Hx) as [rx Rx], (rep_total p k y O Hy) as [ry Ry].
      pose proof (A x rx (proj2 (Q _ _) Rx)) as Ax. pose proof (A y ry (proj2 (Q _ _) Ry)) as Ay.
      assert (SI : forall x r y s, rep p x r -> rep p y s -> (same p x y <-> r = s)).
      { clear. intros x r y s Hr Hs. split; [|intros ->; exists s; auto].
        intros (t & B & C). rewrite (rep_fun _ _ _ _ Hr B). symmetry. eapply rep_fun; eauto. }
      assert (S3 : same p3 x y <->
        (if (rx =? ri) || (rx =? rj) then w else rx) = (if (ry =? ri) || (ry =? rj) then w else ry)).
      { split; [|intros Eq; eexists; split; [exact Ax|rewrite Eq; exact Ay]].
        intros (t & B & C). rewrite (rep_fun _ _ _ _ Ax B). eapply rep_fun; eauto. }
      rewrite S3, (SI _ _ _ _ Rx Ry), (SI _ _ _ _ Rx R1), (SI _ _ _ _ Ry R2), (SI _ _ _ _ Rx R2), (SI _ _ _ _ Ry R1).
      destruct (Nat.eqb_spec rx ri), (Nat.eqb_spec rx rj), (Nat.eqb_spec ry ri), (Nat.eqb_spec ry rj);
        cbn [orb]; subst; try tauto; try (split; [intros <-|]; destruct W; subst; intuition congruence);
        destruct W; subst; intuition congruence.
  Qed.

  (** The structure represents the connections of [R]. *)
  Definition represents (p k : list nat) (R : nat -> nat -> Prop) : Prop :=
    ok p k /\ (forall a b, R a b -> a < n /\ b < n) /\
    forall x y, x < n -> y < n -> (same p x y <-> conn R x y).

  Lemma nth_repeat0 x m : nth x (repeat 0 m) 0 = 0.
  Proof. revert x. induction m; intros [|x]; cbn; auto. Qed.
  Lemma nth_error_seq x m : x < m -> nth_error (seq 0 m) x = Some x.
  Proof.
    intros H. rewrite nth_error_nth' with (d := 0) by (now rewrite seq_length).
    f_equal. now rewrite seq_nth.
  Qed.
  Lemma represents_init : represents (seq 0 n) (repeat 0 n) (fun _ _ => False).
  Proof.
    assert (I : forall x y, nth_error (seq 0 n) x = Some y -> y = x /\ y < n).
    { intros x y H. pose proof (nth_lt _ _ _ H) as L. rewrite seq_length in L.
      rewrite nth_error_seq in H by auto. injection H as <-. auto. }
    split; [|split].
    - split; [apply seq_length|]. split; [apply repeat_length|].
      intros x y H. apply I in H as [-> H]. auto.
    - intros a b [].
    - intros x y Hx Hy. split.
      + intros (r & A & B).
        assert (G : forall a, rep (seq 0 n) a r -> a = r).
        { intros a H. inversion H; subst; auto. apply I in H0 as [E _]. contradiction. }
        rewrite (G x A), (G y B). apply conn_refl.
      + intros H. assert (x = y) by (clear - H; induction H; try contradiction; congruence).
        subst. exists y. split; constructor; now apply nth_error_seq.
  Qed.
  Lemma represents_union p k R R' i j : represents p k R -> i < n -> j < n ->
    (forall a b, R' a b <-> R a b \/ (a = i /\ b = j)) ->
    exists p' k' b, union n p k i j = Some (p', k', b) /\ represents p' k' R' /\
      (if b then ~ conn R i j else conn R i j).
  Proof.
    intros (O & B & S) Hi Hj D. destruct (union_spec p k i j O Hi Hj) as (p' & k' & b & U & O' & Q & S').
    exists p', k', b. split; auto. split.
    - split; auto. split.
      + intros a c H. apply D in H as [H|[-> ->]]; auto.
      + intros x y Hx Hy. rewrite S' by auto. rewrite (conn_add R R' i j D).
        rewrite !S by auto. tauto.
    - destruct b; rewrite <- S by auto; auto.
  Qed.
  Lemma represents_iff p k R R' : (forall a b, R a b <-> R' a b) -> represents p k R -> represents p k R'.
  Proof.
    intros E (O & B & S). split; auto. split; [intros a b H; apply B, E, H|].
    intros x y Hx Hy. rewrite S by auto. apply conn_iff, E.
  Qed.

  Definition joins (es : list (nat * nat)) a b := In (a, b) es /\ a < n /\ b < n.

  Lemma unions_spec : forall es p k R, represents p k R ->
    exists p' k', unions n p k es = Some (p', k') /\ represents p' k' (fun a b => R a b \/ joins es a b).
  Proof.
    induction es as [|[i j] es IH]; intros p k R H; cbn [unions].
    - exists p, k. split; auto. eapply represents_iff; [|exact H]. unfold joins. cbn. tauto.
    - destruct ((i <? n) && (j <? n)) eqn:E.
      + apply andb_true_iff in E as [Ei Ej]. apply Nat.ltb_lt in Ei, Ej.
        destruct (represents_union p k R (fun a b => R a b \/ (a = i /\ b = j)) i j H Ei Ej) as (p1 & k1 & b & U & H1 & _);
          [tauto|]. rewrite U.
        destruct (IH p1 k1 _ H1) as (p' & k' & U' & H'). exists p', k'. split; auto.
        eapply represents_iff; [|exact H']. intros a c. unfold joins. cbn. split.
        * intros [[A|[-> ->]]|A]; auto; try tauto. 
        * intros [A|[[A|A] C]]; auto. injection A as <- <-. auto.
      + destruct (IH p k R H) as (p' & k' & U' & H'). exists p', k'. split; auto.
        eapply represents_iff; [|exact H']. intros a c. unfold joins. cbn. split; [tauto|].
        intros [A|[[A|A] C]]; auto. injection A as <- <-. exfalso.
        apply andb_false_iff in E as [E|E]; apply Nat.ltb_ge in E; lia.
  Qed.

  Lemma labels_spec k : forall xs p, ok p k -> (forall x, In x xs -> x < n) ->
    exists ls, labels n p xs = Some ls /\ Forall2 (rep p) xs ls.
  Proof.
    induction xs as [|x xs IH]; intros p O B; cbn [labels]; [exists []; split; auto; constructor|].
    destruct (find_ok p k x O) as (p' & r & F & O' & R & Q); [apply B; left; auto|]. rewrite F.
    destruct (IH p' O') as (ls & L & H); [intros; apply B; right; auto|]. rewrite L.
    exists (r :: ls). split; auto. constructor; auto.
    clear - H Q. induction H; constructor; auto. now apply Q.
  Qed.
End UF.
