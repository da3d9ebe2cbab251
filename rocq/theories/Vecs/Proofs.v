From Coq Require Import List Arith NArith ZArith QArith Bool Lia Permutation.
From Verif.Vecs Require Import Model.
Import ListNotations.
Open Scope nat_scope.

Lemma list_set_length {A} (l : list A) i x : length (list_set l i x) = length l.
Proof. revert i; induction l; intros [|i]; cbn; auto. Qed.
Lemma nth_list_set {A} (l : list A) i x k :
  nth_error (list_set l i x) k =
  if k =? i then match nth_error l k with Some _ => Some x | None => None end
  else nth_error l k.
Proof.
  revert i k. induction l as [|y l IH]; intros [|i] [|k]; cbn; auto.
  destruct (k =? i); auto.
Qed.
Lemma list_set_middle {A} (l1 l2 : list A) x y :
  list_set (l1 ++ x :: l2) (length l1) y = l1 ++ y :: l2.
Proof. induction l1; cbn; congruence. Qed.

Lemma list_swap_perm {A} (l : list A) i j l' :
  list_swap l i j = Some l' ->
  Permutation l l' /\ length l' = length l /\
  nth_error l' i = nth_error l j /\ nth_error l' j = nth_error l i /\
  forall k, k <> i -> k <> j -> nth_error l' k = nth_error l k.
Proof.
  unfold list_swap. destruct (nth_error l i) as [x|] eqn:Ei; [|discriminate].
  destruct (nth_error l j) as [y|] eqn:Ej; [|discriminate]. intros [=<-].
  rewrite !list_set_length. repeat split; auto.
  - destruct (Nat.eq_dec i j) as [->|Hne].
    + assert (x = y) by congruence. subst y. clear Ej.
      apply nth_error_split in Ei as (l1 & l2 & -> & <-). now rewrite !list_set_middle.
    + apply nth_error_split in Ei as (l1 & l2 & -> & Hi). subst i.
      rewrite list_set_middle.
      destruct (lt_eq_lt_dec j (length l1)) as [[Hlt|He]|Hgt].
      * rewrite nth_error_app1 in Ej by lia.
        apply nth_error_split in Ej as (l3 & l4 & -> & <-).
        rewrite <- !app_assoc. cbn. rewrite list_set_middle.
        apply Permutation_app_head. rewrite <- (Permutation_middle l4 l2 x).
        rewrite perm_swap. apply perm_skip. apply Permutation_middle.
      * congruence.
      * rewrite nth_error_app2 in Ej by lia.
        destruct (j - length l1) as [|m] eqn:Em; [lia|]. cbn in Ej.
        apply nth_error_split in Ej as (l3 & l4 & -> & <-).
        replace (l1 ++ y :: l3 ++ y :: l4) with ((l1 ++ y :: l3) ++ y :: l4)
          by (rewrite <- app_assoc; reflexivity).
        replace j with (length (l1 ++ y :: l3)) by (rewrite app_length; cbn; lia).
        rewrite list_set_middle, <- app_assoc. cbn.
        apply Permutation_app_head. rewrite <- (Permutation_middle l3 l4 y).
        rewrite perm_swap. apply perm_skip. apply Permutation_middle.
  - rewrite nth_list_set, nth_list_set, Nat.eqb_refl, Ei.
    destruct (i =? j) eqn:E; auto. apply Nat.eqb_eq in E. congruence.
  - rewrite nth_list_set, nth_list_set, Nat.eqb_refl, Ej.
    destruct (j =? i); auto.
  - intros k Hi Hj. rewrite !nth_list_set.
    apply Nat.eqb_neq in Hi, Hj. now rewrite Hi, Hj.
Qed.
Lemma list_swap_some {A} (l : list A) i j :
  i < length l -> j < length l -> exists l', list_swap l i j = Some l'.
Proof.
  intros Hi Hj. unfold list_swap.
  destruct (nth_error l i) eqn:E1; [|apply nth_error_None in E1; lia].
  destruct (nth_error l j) eqn:E2; [eauto|apply nth_error_None in E2; lia].
Qed.

Lemma nth_ext_local {A} (l l' : list A) :
  (forall k, nth_error l k = nth_error l' k) -> l = l'.
Proof.
  revert l'. induction l as [|x l IH]; intros [|y l'] H; auto.
  - specialize (H 0). discriminate.
  - specialize (H 0). discriminate.
  - pose proof (H 0) as H0. injection H0 as <-. f_equal. apply IH. intros k. apply (H (S k)).
Qed.
Lemma nth_error_firstn_local {A} (l : list A) n k :
  k < n -> nth_error (firstn n l) k = nth_error l k.
Proof. revert n k; induction l; intros [|n] [|k] H; cbn; auto; try lia. apply IHl. lia. Qed.

Lemma nth_error_skipn_local {A} (l : list A) n k : nth_error (skipn n l) k = nth_error l (n + k).
Proof. revert l; induction n; intros [|x l]; cbn; auto. now destruct k. Qed.
Lemma nodup_app_local {A} (l l' : list A) :
  NoDup l -> NoDup l' -> (forall x, In x l -> ~ In x l') -> NoDup (l ++ l').
Proof.
  induction 1 as [|x l Hx _ IH]; cbn; intros H' Hd; auto. constructor.
  - rewrite in_app_iff. intros [?|?]; [auto|]. apply (Hd x); cbn; auto.
  - apply IH; auto.
Qed.
Lemma f64_neg q : (q < 0)%Q -> f64_as_usize q = 0%N.
Proof.
  destruct q as [n d]. unfold Qlt, f64_as_usize. cbn. intros H.
  assert (n / Z.pos d < 0)%Z by (apply Z.div_lt_upper_bound; lia).
  replace (Z.to_N (n / Z.pos d)) with 0%N; [reflexivity|].
  destruct (n / Z.pos d)%Z; auto; lia.
Qed.

Section V.
  Context {P F : Type} (pick : F -> nat -> nat).

  Lemma sample_loop_perm len fs : forall i ix,
    i + length fs <= len -> length ix = len ->
    exists ix', sample_loop pick len i fs ix = Some ix' /\ Permutation ix ix'
      /\ firstn i ix' = firstn i ix.
  Proof.
    induction fs as [|f fs IH]; intros i ix Hi Hl; cbn [sample_loop length] in *.
    - exists ix. auto.
    - cbv zeta. destruct (len - i =? 0) eqn:E; [apply Nat.eqb_eq in E; lia|].
      apply Nat.eqb_neq in E.
      pose proof (Nat.mod_upper_bound (pick f (len - i)) (len - i) E).
      set (j := i + pick f (len - i) mod (len - i)) in *.
      destruct (list_swap_some ix i j) as [ix1 S1]; [lia|unfold j; lia|].
      rewrite S1. destruct (list_swap_perm _ _ _ _ S1) as (P1 & L1 & _ & _ & K1).
      destruct (IH (S i) ix1) as (ix' & R & P2 & P3); [lia|lia|].
      exists ix'. split; [auto|]. split; [now rewrite P1|].
      assert (G : firstn i ix' = firstn i ix1).
      { replace i with (Nat.min i (S i)) by lia. now rewrite <- !firstn_firstn, P3. }
      rewrite G. apply nth_ext_local. intros k.
      destruct (Nat.lt_ge_cases k i) as [Hk|Hk].
      + rewrite !nth_error_firstn_local by auto. apply K1; unfold j; lia.
      + rewrite !(proj2 (nth_error_None _ _)); auto; rewrite firstn_length; lia.
  Qed.

  Lemma flat_map_get (v : list P) ix :
    Forall (fun k => k < length v) ix ->
    let r := flat_map (fun k => match vec_get v k with Some x => [x] | None => [] end) ix in
    map Some r = map (nth_error v) ix.
  Proof.
    cbv zeta. induction 1 as [|k ix Hk _ IH]; cbn; auto.
    unfold vec_get at 1. destruct (nth_error v k) eqn:E; [|apply nth_error_None in E; lia].
    cbn. now rewrite IH.
  Qed.
  Lemma map_some_seq (v : list P) : map (nth_error v) (seq 0 (length v)) = map Some v.
  Proof.
    induction v as [|x v IH]; cbn; auto. f_equal.
    rewrite <- seq_shift, map_map. exact IH.
  Qed.
  Lemma map_some_perm (a b : list P) : Permutation (map Some a) (map Some b) -> Permutation a b.
  Proof.
    intros H. apply (Permutation_map (fun o => match o with Some x => [x] | None => [] end)) in H.
    rewrite !map_map in H.
    assert (G : forall l : list P, concat (map (fun x => [x]) l) = l)
      by (induction l; cbn; congruence).
    rewrite <- (G a), <- (G b). clear G. revert H.
    generalize (map (fun x => [x]) a) (map (fun x => [x]) b). intros l l' H.
    induction H; cbn; auto.
    - now apply Permutation_app_head.
    - rewrite !app_assoc. apply Permutation_app_tail. apply Permutation_app_comm.
    - etransitivity; eauto.
  Qed.

  Lemma sample_spec (fs : list F) (v : list P) :
    exists r, intr_sample pick fs v = Some r /\ length r = Nat.min (length fs) (length v)
      /\ exists ix, NoDup ix /\ map Some r = map (nth_error v) ix.
  Proof.
    unfold intr_sample. set (count := Nat.min (length fs) (length v)).
    destruct (sample_loop_perm (length v) (firstn count fs) 0 (seq 0 (length v)))
      as (ix & R & P1 & _).
    { rewrite firstn_length. unfold count. lia. }
    { apply seq_length. }
    rewrite R. eexists. split; [reflexivity|].
    assert (Fa : Forall (fun k => k < length v) (firstn count ix)).
    { apply Forall_forall. intros k Hk.
      assert (In k ix) by (rewrite <- (firstn_skipn count ix); apply in_or_app; auto).
      eapply Permutation_in in H; [|symmetry; exact P1]. apply in_seq in H. lia. }
    pose proof (flat_map_get v _ Fa) as M. cbv zeta in M.
    assert (Hlen : length ix = length v)
      by (rewrite <- (Permutation_length P1); apply seq_length).
    split.
    - rewrite <- (map_length Some), M, map_length, firstn_length, Hlen. unfold count. lia.
    - exists (firstn count ix). split; [|exact M].
      assert (ND : NoDup ix) by (eapply Permutation_NoDup; [exact P1|apply seq_NoDup]).
      rewrite <- (firstn_skipn count ix) in ND. clear - ND.
      induction (firstn count ix) as [|x l IH]; [constructor|].
      cbn in ND. inversion ND; subst. constructor; auto.
      intros Hin. apply H1. apply in_or_app; auto.
  Qed.
  Lemma nodup_complete ix n :
    NoDup ix -> Forall (fun k => k < n) ix -> exists rest, Permutation (ix ++ rest) (seq 0 n).
  Proof.
    intros ND Fa. exists (filter (fun k => negb (existsb (Nat.eqb k) ix)) (seq 0 n)).
    apply NoDup_Permutation.
    - apply nodup_app_local; auto.
      + apply NoDup_filter, seq_NoDup.
      + intros x H1 H2. apply filter_In in H2 as [_ H2].
        assert (existsb (Nat.eqb x) ix = true)
          by (apply existsb_exists; exists x; split; [auto|apply Nat.eqb_refl]).
        rewrite H in H2. discriminate.
    - apply seq_NoDup.
    - intros x. rewrite in_app_iff, filter_In, in_seq. rewrite Forall_forall in Fa.
      split.
      + intros [H|[H _]]; [specialize (Fa _ H); lia|lia].
      + intros H. destruct (existsb (Nat.eqb x) ix) eqn:E.
        * left. apply existsb_exists in E as (y & Hy & Ey). apply Nat.eqb_eq in Ey. now subst.
        * right. split; [lia|reflexivity].
  Qed.
  Lemma sample_sub (fs : list F) (v r : list P) :
    intr_sample pick fs v = Some r -> exists rest, Permutation (r ++ rest) v.
  Proof.
    intros E. destruct (sample_spec fs v) as (r' & E' & _ & ix & ND & M).
    rewrite E in E'. injection E' as <-.
    assert (Fa : Forall (fun k => k < length v) ix).
    { apply Forall_forall. intros k Hk.
      destruct (Nat.lt_ge_cases k (length v)); auto. exfalso.
      apply nth_error_None in H. apply (in_map (nth_error v)) in Hk. rewrite H, <- M in Hk.
      apply in_map_iff in Hk as (? & ? & _). discriminate. }
    destruct (nodup_complete _ _ ND Fa) as [rest HP].
    assert (Fr : Forall (fun k => k < length v) rest).
    { apply Forall_forall. intros k Hk.
      assert (In k (seq 0 (length v))) by (eapply Permutation_in; [exact HP|apply in_or_app; auto]).
      apply in_seq in H. lia. }
    eexists (flat_map (fun k => match vec_get v k with Some x => [x] | None => [] end) rest).
    apply map_some_perm. rewrite map_app, (flat_map_get v rest Fr), M, <- map_app.
    rewrite (Permutation_map _ HP), map_some_seq. reflexivity.
  Qed.

  Lemma shuffle_loop_perm len fs : forall step (es : list P),
    step < len -> length es = len ->
    exists r, shuffle_loop pick len step fs es = Some r /\ Permutation es r.
  Proof.
    induction fs as [|f fs IH]; intros step es Hs Hl; cbn [shuffle_loop].
    - exists es. auto.
    - destruct (len <? 1 + step) eqn:E; [apply Nat.ltb_lt in E; lia|]. cbv zeta.
      destruct (len - 1 - step =? 0) eqn:E0; [exists es; auto|]. apply Nat.eqb_neq in E0.
      set (i := len - 1 - step) in *.
      pose proof (Nat.mod_upper_bound (pick f (i + 1)) (i + 1)).
      set (j := pick f (i + 1) mod (i + 1)) in *.
      destruct (list_swap_some es i j) as [es' S]; [unfold i; lia|unfold i in *; lia|].
      rewrite S. destruct (list_swap_perm _ _ _ _ S) as (P1 & L1 & _).
      destruct (IH (Datatypes.S step) es') as (r & R & P2); [unfold i in *; lia|lia|].
      exists r. split; auto. now rewrite P1.
  Qed.

  (** Every order can come out. *)
  Lemma shuffle_reaches_aux (onto : forall n k, k < n -> exists f, pick f n mod n = k) :
    forall n len step (a b ta : list P),
    length a = S n -> len = length (a ++ b) -> len - 1 - step = n -> step < len ->
    Permutation a ta ->
    exists fs, length fs = n /\ shuffle_loop pick len step fs (a ++ b) = Some (ta ++ b).
  Proof.
    induction n as [|n IH]; intros len step a b ta La Hlen Hn Hs HP.
    - exists []. split; auto. cbn. destruct a as [|x [|]]; try discriminate.
      apply Permutation_length_1_inv in HP. now subst.
    - destruct (exists_last (l := ta)) as (ta' & x & ->).
      { intros ->. apply Permutation_sym, Permutation_nil in HP. subst. discriminate. }
      assert (Hx : In x a) by (eapply Permutation_in; [symmetry; exact HP|apply in_or_app; right; left; auto]).
      apply In_nth_error in Hx as [j Hj].
      assert (Hjl : j < length a) by (apply nth_error_Some; congruence).
      destruct (onto (S n + 1) j) as [f Hf]; [lia|].
      destruct (list_swap_some (a ++ b) (S n) j) as [es Sw];
        [rewrite app_length; lia|rewrite app_length; lia|].
      destruct (list_swap_perm _ _ _ _ Sw) as (P1 & L1 & N1 & N2 & K).
      (* es = a' ++ x :: b *)
      assert (Hes : exists a', length a' = S n /\ es = a' ++ x :: b).
      { exists (firstn (S n) es). split.
        - rewrite firstn_length, L1, app_length. lia.
        - rewrite <- (firstn_skipn (S n) es) at 1. f_equal.
          apply nth_ext_local. intros k. rewrite nth_error_skipn_local.
          destruct k as [|k].
          + rewrite Nat.add_0_r, N1, nth_error_app1 by lia. exact Hj.
          + rewrite K by lia. rewrite nth_error_app2 by lia.
            change (nth_error (x :: b) (S k)) with (nth_error b k). f_equal. lia. }
      destruct Hes as (a' & La' & ->).
      destruct (IH len (Datatypes.S step) a' (x :: b) ta') as (fs & Lf & R); [lia|rewrite Hlen, <- L1; reflexivity|lia|lia| |].
      + apply (Permutation_app_inv_r [x]). rewrite <- HP.
        apply (Permutation_app_inv_r b). rewrite <- app_assoc. cbn. now symmetry.
      + exists (f :: fs). split; [cbn; lia|]. cbn [shuffle_loop].
        destruct (len <? 1 + step) eqn:E; [apply Nat.ltb_lt in E; lia|]. cbv zeta.
        rewrite Hn. cbn [Nat.eqb]. rewrite Hf, Sw, R, <- app_assoc. reflexivity.
  Qed.
  Lemma shuffle_reaches (onto : forall n k, k < n -> exists f, pick f n mod n = k) (v t : list P) :
    Permutation v t -> exists fs, intr_shuffle pick fs v = Some t.
  Proof.
    intros HP. destruct v as [|x v].
    - apply Permutation_nil in HP. subst. exists []. reflexivity.
    - destruct (shuffle_reaches_aux onto (length v) (S (length v)) 0 (x :: v) [] t)
        as (fs & _ & R); cbn; rewrite ?app_nil_r; try lia; auto.
      exists fs. rewrite !app_nil_r in R. exact R.
  Qed.
  Lemma shuffle_perm (fs : list F) (v : list P) :
    v <> [] -> exists r, intr_shuffle pick fs v = Some r /\ Permutation v r.
  Proof.
    intros Hv. apply shuffle_loop_perm; auto. destruct v; [congruence|cbn; lia].
  Qed.

  Lemma slice_spec (v : list P) from to k :
    nth_error (vec_slice v from to) k =
    if from + k <? to then nth_error v (from + k) else None.
  Proof.
    unfold vec_slice. cbv zeta.
    destruct (Nat.le_gt_cases (length v) from) as [H|H].
    - rewrite (Nat.min_r from) by lia. rewrite skipn_all. rewrite firstn_nil.
      replace (nth_error [] k) with (@None P) by now destruct k.
      destruct (from + k <? to); auto. symmetry. apply nth_error_None. lia.
    - rewrite (Nat.min_l from) by lia.
      destruct (from + k <? to) eqn:E.
      + apply Nat.ltb_lt in E. destruct (Nat.lt_ge_cases (from + k) (length v)) as [Hk|Hk].
        * rewrite nth_error_firstn_local by lia. apply nth_error_skipn_local.
        * rewrite (proj2 (nth_error_None v (from + k)) Hk).
          apply nth_error_None. rewrite firstn_length, skipn_length. lia.
      + apply Nat.ltb_ge in E. apply nth_error_None. rewrite firstn_length, skipn_length. lia.
  Qed.
End V.
