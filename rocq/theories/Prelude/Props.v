(** The list library: properties C61 to C66. *)
From Coq Require Import ZArith List Bool Permutation Sorting.Sorted Lia Arith.
From Verif Require Import Prelude.Model Prelude.Spec Prelude.Proofs Prelude.More Prelude.Groups.
Import ListNotations.
Open Scope Z_scope.

(** * C61: sorting, greatest and least. *)

(** Whatever the comparison, sorting ends, without error, with the same
    elements. *)
Theorem C61_elements {A} (lt : A -> A -> bool) xs : exists ys, qsort lt xs = Some ys /\ Permutation xs ys.
Proof. apply qsort_ends. lia. Qed.

(** With a proper less-than, the result is in order and ties stay as they were. *)
Theorem C61_sorted {A} (lt : A -> A -> bool) xs : strict_weak lt ->
  exists ys, qsort lt xs = Some ys /\ Permutation xs ys /\ in_order lt ys /\ keeps_ties lt xs ys.
Proof.
  intro W. destruct (C61_elements lt xs) as (ys & E & P). exists ys. repeat split; auto.
  - eapply qsort_sorted; eauto.
  - eapply qsort_ties; eauto.
Qed.

(** That leaves one result only. *)
Theorem C61_unique {A} (lt : A -> A -> bool) xs ys : strict_weak lt ->
  in_order lt ys -> keeps_ties lt xs ys -> qsort lt xs = Some ys.
Proof.
  intros W S T. destruct (C61_sorted lt xs W) as (zs & E & _ & S' & T'). rewrite E. f_equal.
  apply (sorted_unique lt W); auto. intro x. rewrite T, T'. reflexivity.
Qed.

(** Sorting by a key. *)
Theorem C61_sort_by {A K} (key : A -> K) (cmp : K -> K -> bool) xs : strict_weak cmp ->
  exists ys, sort_by key cmp xs = Some ys /\ Permutation xs ys
    /\ StronglySorted (fun x y => cmp (key y) (key x) = false) ys
    /\ forall k, List.filter (fun x => tied cmp k (key x)) ys = List.filter (fun x => tied cmp k (key x)) xs.
Proof.
  intros [I T N]. set (lt := fun a b : A => cmp (key a) (key b)).
  assert (W : strict_weak lt) by (constructor; unfold lt; eauto).
  destruct (C61_sorted lt xs W) as (ys & E & P & S & K0). exists ys. repeat split; auto.
  intro k. destruct (existsb (fun x => tied cmp k (key x)) xs) eqn:X.
  - apply existsb_exists in X. destruct X as (x & Hx & Tx).
    assert (G : forall l : list A, List.filter (fun x => tied cmp k (key x)) l = List.filter (tied lt x) l).
    { intro l. apply filter_ext. intro y. unfold tied in *. unfold lt. apply andb_true_iff in Tx. rewrite !negb_true_iff in Tx. destruct Tx as [T1 T2].
      f_equal; f_equal.
      - destruct (cmp (key x) (key y)) eqn:C1, (cmp k (key y)) eqn:C2; auto; exfalso.
        + rewrite (N (key x) k (key y)) in C1; congruence.
        + rewrite (N k (key x) (key y)) in C2; congruence.
      - destruct (cmp (key y) (key x)) eqn:C1, (cmp (key y) k) eqn:C2; auto; exfalso.
        + rewrite (N (key y) k (key x)) in C1; congruence.
        + rewrite (N (key y) (key x) k) in C2; congruence. }
    rewrite !G. apply K0.
  - assert (F : forall x, In x xs -> tied cmp k (key x) = false).
    { intros x Hx. destruct (tied cmp k (key x)) eqn:Y; [|reflexivity]. rewrite <- X. symmetry. apply existsb_exists. eauto. }
    rewrite !filter_none; auto. intros x Hx. apply F. eapply Permutation_in; [apply Permutation_sym; exact P|exact Hx].
Qed.

(** Sorting what is sorted changes nothing. *)
Theorem C61_again {A} (lt : A -> A -> bool) xs : in_order lt xs -> strict_weak lt -> qsort lt xs = Some xs.
Proof. intros S W. apply C61_unique; auto. intro x. reflexivity. Qed.

(** An at-most comparison in place of a less-than does not keep ties. *)
Theorem C61_at_most_refuted :
  exists xs : list (Z * Z), exists ys, sort_by fst Z.leb xs = Some ys /\ ~ keeps_ties (fun a b => Z.ltb (fst a) (fst b)) xs ys.
Proof. exists [(1, 1); (1, 2)], [(1, 2); (1, 1)]. split; [reflexivity|]. intro H. specialize (H (1, 1)). discriminate. Qed.

(** The greatest and least of a list are in it and no element is beyond. *)
Theorem C61_max_of {K} (lt : K -> K -> bool) l : strict_weak lt ->
  (l = [] /\ max_of lt l = None) \/ exists m, max_of lt l = Some m /\ In m l /\ forall x, In x l -> lt m x = false.
Proof.
  intro W. destruct l as [|x l]; [now left|right]. destruct (max_foldl lt W l x) as (H1 & H2 & H3).
  eexists. split; [reflexivity|]. split.
  - destruct H1 as [->|H1]; [now left|now right].
  - intros y [<-|Hy]; auto.
Qed.
Theorem C61_min_of {K} (lt : K -> K -> bool) l : strict_weak lt ->
  (l = [] /\ min_of lt l = None) \/ exists m, min_of lt l = Some m /\ In m l /\ forall x, In x l -> lt x m = false.
Proof.
  intro W. destruct l as [|x l]; [now left|right]. destruct (min_foldl lt W l x) as (H1 & H2 & H3).
  eexists. split; [reflexivity|]. split.
  - destruct H1 as [->|H1]; [now left|now right].
  - intros y [<-|Hy]; auto.
Qed.
(** By a key: the first element that has the greatest (least) key. *)
Theorem C61_max_of_by {A K} (lt : K -> K -> bool) (f : A -> K) l : strict_weak lt ->
  (l = [] /\ max_of_by lt f l = None)
  \/ exists m before after, max_of_by lt f l = Some m /\ l = before ++ m :: after
     /\ (forall x, In x l -> lt (f m) (f x) = false) /\ (forall x, In x before -> lt (f x) (f m) = true).
Proof.
  intro W. destruct l as [|h t]; [now left|right].
  destruct (max_by_foldl lt f W t [h] [] h []) as (m & b & a & H1 & H2 & H3 & H4); auto.
  - intros x [<-|[]]. apply (irreflexive _ W).
  - exists m, b, a. change (max_of_by lt f (h :: t)) with
      (Some (fst (foldl (fun acc x => let v := f x in if lt (snd acc) v then (x, v) else acc) (h, f h) t))).
    rewrite H1. auto.
Qed.
Theorem C61_min_of_by {A K} (lt : K -> K -> bool) (f : A -> K) l : strict_weak lt ->
  (l = [] /\ min_of_by lt f l = None)
  \/ exists m before after, min_of_by lt f l = Some m /\ l = before ++ m :: after
     /\ (forall x, In x l -> lt (f x) (f m) = false) /\ (forall x, In x before -> lt (f m) (f x) = true).
Proof. intro W. exact (C61_max_of_by (fun x y => lt y x) f l (flip_weak lt W)). Qed.

Lemma less_is_weak : strict_weak Z.ltb.
Proof.
  constructor; intros; rewrite ?Z.ltb_lt, ?Z.ltb_ge in *; lia.
Qed.
Example C61_example :
  strict_weak Z.ltb /\ qsort Z.ltb [3; 1; 2; 1] = Some [1; 1; 2; 3]
  /\ sort_by fst Z.ltb [(2, 7); (1, 8); (2, 9)] = Some [(1, 8); (2, 7); (2, 9)]
  /\ max_of Z.ltb [3; 7; 2] = Some 7 /\ min_of Z.ltb [3; 7; 2] = Some 2
  /\ max_of_by Z.ltb snd [(1, 5); (2, 9); (3, 9)] = Some (2, 9) /\ min_of_by Z.ltb snd [(1, 5); (2, 4); (3, 4)] = Some (2, 4)
  /\ in_order Z.ltb [1; 1; 2].
Proof. repeat split; try reflexivity; try apply less_is_weak. repeat constructor. Qed.

(** * C62: cutting lists. *)

Theorem C62_take {A} n (l : list A) : 0 <= n -> take n l = firstn (Z.to_nat n) l.
Proof. apply take_std. Qed.
Theorem C62_drop {A} n (l : list A) : 0 <= n <= Z.of_nat (length l) -> drop n l = Some (skipn (Z.to_nat n) l).
Proof. intros [H1 H2]. rewrite drop_std by assumption. destruct (Z.leb_spec n (Z.of_nat (length l))); [reflexivity|lia]. Qed.
Theorem C62_split_at {A} n (l : list A) : 0 <= n ->
  split_at n l = (firstn (Z.to_nat n) l, skipn (Z.to_nat n) l) /\ fst (split_at n l) ++ snd (split_at n l) = l.
Proof. intro H. rewrite split_at_std by assumption. split; [reflexivity|]. apply firstn_skipn. Qed.
(** Rotation moves the [i]th element back by [n]. *)
Theorem C62_rotate {A} n (l : list A) : 0 <= n <= Z.of_nat (length l) ->
  forall i, (i < length l)%nat -> nth_error (rotate n l) i = nth_error l ((i + Z.to_nat n) mod length l).
Proof.
  intros Hn i Hi. unfold rotate. rewrite append_std, split_at_std by lia. cbn [fst snd].
  set (k := Z.to_nat n). assert (Hk : (k <= length l)%nat) by lia.
  assert (S : forall (m : nat) (l : list A) j, nth_error (skipn m l) j = nth_error l (m + j)).
  { clear. induction m as [|m IH]; intros l j; [reflexivity|]. destruct l; cbn [skipn Nat.add nth_error]; [destruct j; reflexivity|apply IH]. }
  assert (F : forall (m : nat) (l : list A) j, (j < m)%nat -> nth_error (firstn m l) j = nth_error l j).
  { clear. induction m as [|m IH]; intros l j H; [lia|]. destruct l; [reflexivity|]. destruct j; cbn [firstn nth_error]; auto. apply IH. lia. }
  destruct (Nat.lt_ge_cases i (length l - k)) as [H|H].
  - rewrite nth_error_app1 by (rewrite skipn_length; lia). rewrite S, Nat.mod_small by lia. f_equal. lia.
  - rewrite nth_error_app2 by (rewrite skipn_length; lia). rewrite skipn_length, F by lia. f_equal.
    replace (i + k)%nat with ((i - (length l - k)) + 1 * length l)%nat by lia.
    rewrite Nat.mod_add by lia. rewrite Nat.mod_small by lia. reflexivity.
Qed.
(** Beyond the length rotation stops counting. *)
Theorem C62_rotate_far {A} n (l : list A) : Z.of_nat (length l) <= n -> rotate n l = l.
Proof.
  intro H. unfold rotate. rewrite append_std, split_at_std by lia. cbn [fst snd].
  rewrite skipn_all2, firstn_all2 by lia. reflexivity.
Qed.
Theorem C62_rotate_refuted : exists (l : list Z), rotate 4 l <> rotate 1 l /\ length l = 3%nat.
Proof. exists [1; 2; 3]. split; [discriminate|reflexivity]. Qed.
(** Dropping more than there is fails, where taking more does not. *)
Theorem C62_drop_far {A} n (l : list A) : Z.of_nat (length l) < n -> drop n l = None /\ take n l = l.
Proof.
  intro H. split; [|rewrite take_std by lia; apply firstn_all2; lia].
  rewrite drop_std by lia. destruct (Z.leb_spec n (Z.of_nat (length l))); [lia|reflexivity].
Qed.
Theorem C62_drop_refuted : exists n (l : list Z), 0 <= n /\ drop n l <> Some (skipn (Z.to_nat n) l).
Proof. exists 2, [1]. split; [lia|discriminate]. Qed.
(** A negative count takes everything, and dropping it fails. *)
Theorem C62_negative {A} n (l : list A) : n < 0 -> take n l = l /\ drop n l = None /\ split_at n l = (l, []) /\ rotate n l = l.
Proof.
  intro H. repeat split; auto using take_negative, drop_negative, split_at_negative.
  unfold rotate. rewrite split_at_negative by assumption. reflexivity.
Qed.
Theorem C62_negative_refuted : exists n (l : list Z), n < 0 /\ take n l <> [].
Proof. exists (-1), [1]. split; [lia|discriminate]. Qed.

(** The [n]th element, if there is one, and an error otherwise. *)
Theorem C62_nth {A} n (l : list A) :
  (0 <= n < Z.of_nat (length l) /\ exists x, nth_error l (Z.to_nat n) = Some x /\ Model.nth n l = Some x)
  \/ (~ 0 <= n < Z.of_nat (length l) /\ Model.nth n l = None).
Proof.
  rewrite nth_std. destruct (Z.ltb_spec n 0); [right; split; [lia|reflexivity]|].
  destruct (nth_error l (Z.to_nat n)) as [x|] eqn:E.
  - left. split; [|eauto]. assert (H0 : nth_error l (Z.to_nat n) <> None) by congruence. apply nth_error_Some in H0. lia.
  - right. split; [|reflexivity]. apply nth_error_None in E. lia.
Qed.
(** Updating changes that element alone; out of range is an error. *)
Theorem C62_update_nth {A} n f (l : list A) :
  (exists before x after, l = before ++ x :: after /\ n = Z.of_nat (length before)
     /\ update_nth n f l = Some (before ++ f x :: after))
  \/ (~ 0 <= n < Z.of_nat (length l) /\ update_nth n f l = None).
Proof.
  unfold update_nth. destruct (Z.lt_ge_cases n 0) as [H|H].
  - right. split; [lia|]. now rewrite split_at_negative by assumption.
  - rewrite split_at_std by assumption. cbn [fst snd]. destruct (skipn (Z.to_nat n) l) as [|x t] eqn:E.
    + right. split; [|reflexivity]. apply (f_equal (@length A)) in E. rewrite skipn_length in E. cbn in E. lia.
    + left. exists (firstn (Z.to_nat n) l), x, t. rewrite <- E, firstn_skipn, append_std. repeat split.
      apply (f_equal (@length A)) in E. rewrite skipn_length in E. cbn [length] in E. rewrite firstn_length. lia.
Qed.
(** The longest beginning that satisfies the test, and what is left. *)
Theorem C62_while {A} p (l : list A) :
  take_while p l ++ drop_while p l = l /\ (forall x, In x (take_while p l) -> p x = true)
  /\ (forall x t, drop_while p l = x :: t -> p x = false)
  /\ split_after p l = (take_while p l, drop_while p l).
Proof. repeat split; [apply take_drop_while|apply take_while_all|apply drop_while_head|apply split_after_std]. Qed.
Theorem C62_until {A} p (l : list A) :
  take_until p l ++ drop_until p l = l /\ (forall x, In x (take_until p l) -> p x = false)
  /\ (forall x t, drop_until p l = x :: t -> p x = true)
  /\ split_when p l = (take_until p l, drop_until p l).
Proof.
  destruct (C62_while (complement p) l) as (H1 & H2 & H3 & H4). repeat split; auto.
  - intros x Hx. apply H2 in Hx. now apply negb_true_iff in Hx.
  - intros x t Hx. apply H3 in Hx. now apply negb_false_iff in Hx.
Qed.
(** The first match alone is updated. *)
Theorem C62_update_first {A} p f (l : list A) :
  ((forall x, In x l -> p x = false) /\ update_first p f l = l)
  \/ exists before x after, l = before ++ x :: after /\ (forall y, In y before -> p y = false) /\ p x = true
     /\ update_first p f l = before ++ f x :: after.
Proof.
  destruct (C62_until p l) as (H1 & H2 & H3 & H4). unfold update_first. rewrite H4. cbn [fst snd].
  destruct (drop_until p l) as [|x t] eqn:E.
  - left. split; [|reflexivity]. intros x Hx. apply H2. rewrite app_nil_r in H1. now rewrite H1.
  - right. exists (take_until p l), x, t. rewrite append_std. repeat split; auto. eapply H3; reflexivity.
Qed.
(** The tails of a list, from the whole to the last element. *)
Theorem C62_tails {A} (l : list A) : length (tails l) = length l
  /\ forall i, (i < length l)%nat -> nth_error (tails l) i = Some (skipn i l).
Proof.
  induction l as [|x l [IH1 IH2]]; [split; [reflexivity|intros i H; inversion H]|]. rewrite tails_eq. cbn [length].
  split; [congruence|]. intros [|i] H; cbn [nth_error skipn]; [reflexivity|]. apply IH2. lia.
Qed.
Theorem C62_last {A} (l : list A) x : Model.last (l ++ [x]) = Some x /\ butlast (l ++ [x]) = Some l.
Proof. split; [apply last_std|apply butlast_std]. Qed.
Example C62_example :
  take 2 [1; 2; 3] = [1; 2] /\ drop 2 [1; 2; 3] = Some [3] /\ rotate 1 [1; 2; 3] = [2; 3; 1]
  /\ split_after (Z.ltb 0) [1; 2; -3; 4] = ([1; 2], [-3; 4]) /\ update_nth 1 Z.opp [1; 2; 3] = Some [1; -2; 3]
  /\ update_first (Z.ltb 1) Z.opp [1; 2; 3] = [1; -2; 3] /\ tails [1; 2] = [[1; 2]; [2]] /\ Model.nth (-1) [1] = None.
Proof. repeat split. Qed.

(** * C63: folding, mapping and zipping. *)

Theorem C63_folds {A B} (f : B -> A -> B) (g : A -> B -> B) i l :
  foldl f i l = fold_left f l i /\ foldr g i l = fold_right g i l.
Proof. split; [apply foldl_fold_left|apply foldr_fold_right]. Qed.
(** Without a starting value: the first element; nothing to start from is an
    error. *)
Theorem C63_reduce {A} (f : A -> A -> A) x l : reduce f (x :: l) = Some (fold_left f l x) /\ reduce f [] = None.
Proof. split; [|reflexivity]. cbn [reduce]. now rewrite foldl_fold_left. Qed.
Theorem C63_scans {A B} (f : B -> A -> B) (g : A -> B -> B) i l :
  length (scanl f i l) = S (length l)
  /\ (forall n, (n <= length l)%nat -> nth_error (scanl f i l) n = Some (fold_left f (firstn n l) i))
  /\ exists s, scanr g i l = Some s /\ length s = S (length l)
       /\ forall n, (n <= length l)%nat -> nth_error s n = Some (fold_right g i (skipn n l)).
Proof.
  revert i. induction l as [|x l IH]; intro i; cbn [scanl scanr length].
  - repeat split; [intros [|n] H; [reflexivity|inversion H]|]. exists [i]. repeat split. intros [|n] H; [reflexivity|inversion H].
  - destruct (IH (f i x)) as (H1 & H2 & _). destruct (IH i) as (_ & _ & s & -> & L & N). cbn [length]. repeat split; [congruence| |].
    + intros [|n] H; cbn [nth_error firstn fold_left]; [reflexivity|]. apply H2. lia.
    + pose proof (N 0%nat) as N0. cbn [skipn] in N0. destruct s as [|y s]; [discriminate|]. cbn [nth_error] in N0.
      specialize (N0 (Nat.le_0_l _)). injection N0 as ->. eexists. split; [reflexivity|]. cbn [length] in *. split; [congruence|].
      intros [|n] H; cbn [nth_error skipn fold_right]; [reflexivity|]. apply N. lia.
Qed.
Theorem C63_standard {A B} (f : A -> B) (p : A -> bool) l l' (ls : list (list A)) (h : A -> list B) :
  Model.map f l = List.map f l /\ Model.filter p l = List.filter p l
  /\ Model.remove p l = List.filter (fun x => negb (p x)) l
  /\ reverse l = rev l /\ append l l' = l ++ l' /\ concat ls = List.concat ls /\ mapcat h l = flat_map h l
  /\ count l = Z.of_nat (length l) /\ all p l = forallb p l /\ any p l = existsb p l.
Proof.
  repeat split; auto using map_std, filter_std, reverse_std, append_std, concat_std, mapcat_std, count_std, all_std, any_std.
  unfold Model.remove. now rewrite filter_std.
Qed.
(** Zipping stops with the shorter list; unzipping undoes it. *)
Theorem C63_zip {A B C} (f : A -> B -> C) (xs : list A) (ys : list B) :
  zip xs ys = combine xs ys /\ map2 f xs ys = List.map (fun p => f (fst p) (snd p)) (combine xs ys)
  /\ unzip (zip xs ys) = (firstn (length ys) xs, firstn (length xs) ys)
  /\ forall ps : list (A * B), zip (fst (unzip ps)) (snd (unzip ps)) = ps.
Proof.
  repeat split; auto using zip_std, map2_std.
  - rewrite unzip_std, zip_std. revert ys. induction xs as [|x xs IH]; intros [|y ys]; try reflexivity.
    cbn [combine split length firstn]. now rewrite IH.
  - intro ps. rewrite zip_std, unzip_std. destruct (split ps) as [a b] eqn:E. cbn [fst snd]. apply split_combine in E. exact E.
Qed.
(** Interleaving alternates: the evens come from the first list and the odds
    from the second while both last, and what is left over follows. *)
Theorem C63_interleave {A} (a b : list A) : length (interleave a b) = (length a + length b)%nat
  /\ (forall i, (i < length a)%nat -> (i <= length b)%nat -> nth_error (interleave a b) (2 * i) = nth_error a i)
  /\ (forall i, (i < length b)%nat -> (i < length a)%nat -> nth_error (interleave a b) (2 * i + 1) = nth_error b i)
  /\ skipn (2 * Nat.min (length a) (length b)) (interleave a b) = skipn (length b) a ++ skipn (length a) b.
Proof.
  revert b. induction a as [|x a IH]; intro b.
  - cbn [interleave length Nat.min Nat.mul skipn]. repeat split; try lia. now rewrite skipn_nil.
  - destruct b as [|y b]; cbn [interleave].
    + cbn [length]. split; [lia|]. split; [|split].
      * intros i H H2. assert (i = 0%nat) by lia. subst. reflexivity.
      * intros i H. lia.
      * rewrite Nat.min_0_r. cbn [Nat.mul Nat.add skipn]. now rewrite app_nil_r.
    + destruct (IH b) as (H1 & H2 & H3 & H4). cbn [length]. split; [lia|]. split; [|split].
      * intros [|i] Ha Hb; [reflexivity|]. replace (2 * S i)%nat with (S (S (2 * i))) by lia. cbn [nth_error]. apply H2; lia.
      * intros [|i] Ha Hb; [reflexivity|]. replace (2 * S i + 1)%nat with (S (S (2 * i + 1))) by lia. cbn [nth_error]. apply H3; lia.
      * cbn [Nat.min]. replace (2 * S (Nat.min (length a) (length b)))%nat with (S (S (2 * Nat.min (length a) (length b)))) by lia.
        cbn [skipn]. exact H4.
Qed.
(** Every combination, the first list varying slowest. *)
Theorem C63_cross {A B C} (f : A -> B -> C) xs ys :
  cross f xs ys = List.map (fun p => f (fst p) (snd p)) (list_prod xs ys)
  /\ length (cross f xs ys) = (length xs * length ys)%nat
  /\ forall z, In z (cross f xs ys) <-> exists x y, In x xs /\ In y ys /\ z = f x y.
Proof.
  rewrite cross_std. repeat split.
  - now rewrite map_length, prod_length.
  - intro H. apply in_map_iff in H. destruct H as ([x y] & <- & H). apply in_prod_iff in H. exists x, y. tauto.
  - intros (x & y & Hx & Hy & ->). apply in_map_iff. exists (x, y). split; [reflexivity|]. now apply in_prod.
Qed.
Example C63_example :
  scanl Z.sub 10 [1; 2] = [10; 9; 7] /\ scanr Z.sub 10 [1; 2] = Some [1 - (2 - 10); 2 - 10; 10]
  /\ zip [1; 2; 3] [4; 5] = [(1, 4); (2, 5)] /\ interleave [1; 2; 3] [4] = [1; 4; 2; 3]
  /\ cross Z.add [10; 20] [1; 2] = [11; 12; 21; 22] /\ Model.filter (Z.ltb 1) [1; 2; 0; 3] = [2; 3].
Proof. repeat split. Qed.

(** * C64: windows, partitions and transposition. *)

(** As long as a step stays inside the list after every full window, the
    windows are all there and nothing else. *)
Theorem C64_window {A} n step (l : list A) : (1 <= n)%nat -> (1 <= step)%nat ->
  (forall i, (i * step + n <= length l -> S i * step <= length l)%nat) ->
  forall fuel, (length l < fuel)%nat ->
  exists ws, gives (window fuel (Z.of_nat n) (Z.of_nat step) l) ws
             /\ windows_of n step (fun s => (s + n <= length l)%nat) l ws.
Proof. intros. now apply window_gives. Qed.
(** In particular when windows touch or overlap. *)
Theorem C64_window_touching {A} n step (l : list A) : (1 <= step <= n)%nat ->
  forall fuel, (length l < fuel)%nat ->
  exists ws, gives (window fuel (Z.of_nat n) (Z.of_nat step) l) ws
             /\ windows_of n step (fun s => (s + n <= length l)%nat) l ws.
Proof. intros H fuel Hf. apply window_gives; auto; try lia. Qed.
(** With gaps between windows, a list that ends in a gap makes an error of the
    end of the result. *)
Theorem C64_window_gap_refuted {A} n step (l : list A) : (1 <= n)%nat -> (1 <= step)%nat ->
  (exists i, i * step + n <= length l /\ length l < S i * step)%nat ->
  forall fuel, (length l < fuel)%nat ->
  exists ws, fails_after (window fuel (Z.of_nat n) (Z.of_nat step) l) ws
             /\ windows_of n step (fun s => (s + n <= length l)%nat) l ws.
Proof. intros. now apply window_fails. Qed.
(** A step of zero never ends. *)
Theorem C64_window_zero_refuted {A} n (l : list A) : (n <= length l)%nat ->
  forall k, begins (window k (Z.of_nat n) 0 l) (List.repeat (firstn n l) k).
Proof. intros H k. now apply window_stuck. Qed.
(** With short windows at the end there is no such error. *)
Theorem C64_window_all {A} n step (l : list A) : (1 <= n)%nat -> (1 <= step)%nat ->
  forall fuel, (length l < fuel)%nat ->
  exists ws, gives (window_all fuel (Z.of_nat n) (Z.of_nat step) l) ws
             /\ windows_of n step (fun s => (s < length l)%nat) l ws.
Proof. intros. now apply window_all_gives. Qed.
(** Partitions are full and lose only a short rest, or nothing at all. *)
Theorem C64_partition {A} n (l : list A) fuel : (1 <= n)%nat -> (length l < fuel)%nat ->
  exists ws rest, gives (partition fuel (Z.of_nat n) l) ws /\ l = List.concat ws ++ rest
    /\ (length rest < n)%nat /\ forall w, In w ws -> length w = n.
Proof.
  intros Hn Hf. destruct (C64_window_touching n n l) with (fuel := fuel) as (ws & G & _); auto; try lia.
  destruct (partition_gives n Hn fuel l ws G) as (rest & H). exists ws, rest. tauto.
Qed.
Theorem C64_partition_all {A} n (l : list A) fuel : (1 <= n)%nat -> (length l < fuel)%nat ->
  exists ws, gives (partition_all fuel (Z.of_nat n) l) ws /\ List.concat ws = l
    /\ forall i, (i * n < length l)%nat -> nth_error ws i = Some (firstn n (skipn (i * n) l)).
Proof.
  intros Hn Hf. destruct (C64_window_all n n l Hn Hn fuel Hf) as (ws & G & W). exists ws. repeat split; auto.
  - eapply partition_all_gives; eauto.
  - intros i Hi. destruct (W i) as [[_ H]|[H _]]; [exact H|contradiction].
Qed.
Theorem C64_pairs {A B} (f : A -> A -> B) l fuel : (length l < fuel)%nat ->
  gives (over_sliding_pairs fuel f l) (List.map (fun p => f (fst p) (snd p)) (combine l (tl l))).
Proof. apply pairs_gives. Qed.
(** Rows become columns. *)
Theorem C64_transpose {A} n (rows : list (list A)) : rows <> [] -> matrix n rows ->
  exists cols, transpose rows = Some cols /\ length cols = n /\ matrix (length rows) cols
    /\ forall i j, cell cols j i = cell rows i j.
Proof.
  intros NE M. destruct rows as [|r rs]; [congruence|]. cbn [transpose length].
  assert (L : length r = n) by (apply M; now left).
  destruct (transpose_aux_cells r rs) as (cols & E & H1 & H2 & H3).
  - intros x Hx. rewrite L. apply M. now right.
  - exists cols. rewrite L in H1. auto.
Qed.
Theorem C64_transpose_twice {A} n (rows : list (list A)) : rows <> [] -> (1 <= n)%nat -> matrix n rows ->
  exists cols, transpose rows = Some cols /\ transpose cols = Some rows.
Proof.
  intros NE Hn M. destruct (C64_transpose n rows NE M) as (cols & E & L & Mc & C). exists cols. split; [exact E|].
  destruct (C64_transpose (length rows) cols) as (rows' & E' & L' & M' & C'); auto.
  - intros ->. cbn in L. lia.
  - rewrite E'. f_equal. apply (matrix_ext n); auto.
    + now rewrite L in M'.
    + intros i j. rewrite C'. apply C.
Qed.
(** Rows that are not of one length: a short one is an error, a long one loses
    its end. *)
Theorem C64_transpose_ragged_refuted :
  transpose [[1; 2]; [3]] = None /\ transpose [[1]; [2; 3]] = Some [[1; 2]] /\ @transpose Z [] = None.
Proof. repeat split. Qed.
Example C64_example :
  gives (window 9 2 1 [1; 2; 3]) [[1; 2]; [2; 3]] /\ fails_after (window 9 1 2 [1; 2; 3]) [[1]; [3]]
  /\ gives (window_all 9 1 2 [1; 2; 3]) [[1]; [3]] /\ gives (partition 9 2 [1; 2; 3]) [[1; 2]]
  /\ gives (partition_all 9 2 [1; 2; 3]) [[1; 2]; [3]] /\ transpose [[1; 2]; [3; 4]; [5; 6]] = Some [[1; 3; 5]; [2; 4; 6]]
  /\ gives (over_sliding_pairs 9 (fun a b => b - a) [1; 4; 9]) [3; 5]
  /\ (exists i, (i * 2 + 1 <= length [1; 2; 3] /\ length [1; 2; 3] < S i * 2)%nat).
Proof. repeat split; cbn; repeat constructor. exists 1%nat. cbn. lia. Qed.

(** * C65: grouping. *)

Theorem C65_discriminate {A} p (l : list A) :
  Model.discriminate p l = (List.filter p l, List.filter (fun x => negb (p x)) l).
Proof. apply discriminate_std. Qed.
(** Groups of neighbours: put together they are the list; inside a group the
    key stays the same, and it changes from a group to the next. *)
Theorem C65_consecutive {A K} (same : K -> K -> bool) (f : A -> K) l :
  exists gs, group_consecutive_by same f l = Some gs /\ List.concat gs = l /\ (forall g, In g gs -> g <> [])
    /\ (forall g x y, In g gs -> neighbours g x y -> same (f x) (f y) = true)
    /\ (forall before g x y h after, gs = before ++ (g ++ [x]) :: (y :: h) :: after -> same (f x) (f y) = false).
Proof.
  destruct (group_runs same f l) as (gs & E & R). exists gs. repeat split; auto.
  - eapply runs_concat; eauto.
  - eapply runs_nonempty; eauto.
  - eapply runs_inside; eauto.
  - eapply runs_across; eauto.
Qed.
Theorem C65_uniq {A} (same : A -> A -> bool) l :
  uniq same l = Some match l with [] => [] | x :: t => x :: changes same x t end.
Proof.
  unfold uniq. destruct (group_runs same (fun x => x) l) as (gs & -> & R). now apply runs_heads.
Qed.
(** The first element with each key, in order. *)
Theorem C65_nub {A K} (same : K -> K -> bool) (key : A -> K) xs : equivalence same -> nub_by same key xs = unmet same key [] xs.
Proof. intro E. now apply nub_unmet. Qed.
Theorem C65_nub_member {A K} (same : K -> K -> bool) (key : A -> K) xs x : equivalence same ->
  (In x (nub_by same key xs) <-> exists a b, xs = a ++ x :: b /\ forall y, In y a -> same (key y) (key x) = false).
Proof.
  intro E. rewrite C65_nub, unmet_in by assumption. cbn [app]. split; intros (a & b & -> & H); exists a, b; (split; [reflexivity|]).
  - intros y Hy. destruct (same (key y) (key x)) eqn:S; [|reflexivity]. rewrite <- H. symmetry. apply existsb_exists. eauto.
  - destruct (existsb (fun y => same (key y) (key x)) a) eqn:X; [|reflexivity]. apply existsb_exists in X. destruct X as (y & Hy & S). rewrite H in S; auto.
Qed.
(** Splitting at separators: the pieces with the separators between them are
    the list, and no piece holds a separator. *)
Theorem C65_split_on {A} p (xs : list A) :
  exists gs, split_on p xs = Some gs /\ joined p gs xs /\ forall g x, In g gs -> In x g -> p x = false.
Proof.
  exists (cut p [] xs). unfold split_on. split; [exact (split_on_cut p xs [] [])|]. split; [exact (cut_joined p xs [])|].
  apply cut_clean. intros x [].
Qed.
(** Each key once, in order of appearance, with its elements in order. *)
Theorem C65_group_by {A K} (same : K -> K -> bool) (key : A -> K) xs : (forall x y, same x y = true <-> x = y) ->
  List.map fst (group_by same key xs) = List.map key (unmet same key [] xs)
  /\ NoDup (List.map fst (group_by same key xs))
  /\ (forall k g, In (k, g) (group_by same key xs) -> g = List.filter (fun x => same k (key x)) xs)
  /\ (forall x, In x xs -> exists g, In (key x, g) (group_by same key xs) /\ In x g).
Proof.
  intro E. rewrite group_by_std. destruct (grouped_all same key E xs) as (H1 & H2 & H3).
  assert (F : List.map fst (List.map (fun e : K * list A => (fst e, rev (snd e))) (fold_left (add same key) xs [])) = List.map fst (fold_left (add same key) xs []))
    by (rewrite map_map; reflexivity).
  assert (G : forall k g, In (k, g) (List.map (fun e : K * list A => (fst e, rev (snd e))) (fold_left (add same key) xs [])) -> g = List.filter (fun x => same k (key x)) xs).
  { intros k g Hin. apply in_map_iff in Hin. destruct Hin as ([k0 g0] & Eq & Hin). cbn [fst snd] in Eq. injection Eq as <- <-. auto. }
  rewrite F. repeat split; auto.
  intros x Hx. assert (Hk : In (key x) (List.map fst (fold_left (add same key) xs []))).
  { rewrite H1. apply (key_met same key E). now apply in_map. }
  rewrite <- F in Hk. apply in_map_iff in Hk. destruct Hk as ([k g] & Ek & Hin). cbn [fst] in Ek. subst k. exists g. split; [exact Hin|].
  rewrite (G _ _ Hin). apply filter_In. split; [exact Hx|]. now apply E.
Qed.
Lemma eqb_equivalence : equivalence Z.eqb.
Proof. constructor; intros; rewrite ?Z.eqb_eq in *; congruence. Qed.
Example C65_example :
  group_consecutive_by Z.eqb (fun x => Z.div x 10) [11; 12; 21; 13] = Some [[11; 12]; [21]; [13]]
  /\ uniq Z.eqb [1; 1; 2; 1] = Some [1; 2; 1] /\ nub_by Z.eqb (fun x => Z.div x 10) [11; 21; 12] = [11; 21]
  /\ split_on (Z.eqb 0) [1; 0; 0; 2; 0] = Some [[1]; []; [2]; []]
  /\ group_by Z.eqb (fun x => Z.div x 10) [21; 11; 22; 12] = [(2, [21; 22]); (1, [11; 12])]
  /\ Model.discriminate (Z.ltb 1) [1; 2; 0; 3] = ([2; 3], [1; 0]) /\ equivalence Z.eqb.
Proof. repeat split; try reflexivity; apply eqb_equivalence. Qed.

(** * C66: lists made on demand. *)

Theorem C66_range b e : b <= e -> is_list (range b e) (List.map (fun i => b + Z.of_nat i) (seq 0 (Z.to_nat (e - b)))).
Proof. intro H. unfold range. rewrite <- (Z2Nat.id (e - b)) at 1 by lia. apply range_list. Qed.
Theorem C66_range_members b e x : b <= e -> forall l, is_list (range b e) l -> (In x l <-> b <= x < e).
Proof.
  intros H l L. assert (E : l = List.map (fun i => b + Z.of_nat i) (seq 0 (Z.to_nat (e - b)))).
  { apply list_ext. intro i. rewrite <- (is_list_elements _ _ L), (is_list_elements _ _ (C66_range b e H)). reflexivity. }
  rewrite E, in_map_iff. split.
  - intros (i & <- & Hi). apply in_seq in Hi. lia.
  - intro Hx. exists (Z.to_nat (x - b)). split; [lia|]. apply in_seq. lia.
Qed.
(** When the end is before the beginning the range is not empty: it is every
    integer from the beginning up, and has no end. *)
Theorem C66_range_refuted b e : e < b -> (forall i, element i (range b e) = Some (b + Z.of_nat i)) /\ ~ exists l, is_list (range b e) l.
Proof.
  intro H. assert (G : forall i, element i (range b e) = Some (b + Z.of_nat i)).
  { intro i. unfold range. rewrite element_cotake. destruct (Z.leb_spec 0 (e - b)); [lia|]. apply element_iota. }
  split; [exact G|]. intros (l & L). pose proof (is_list_elements _ _ L (length l)) as E. rewrite G in E.
  assert (N : nth_error l (length l) = None) by now apply nth_error_None. congruence.
Qed.
Theorem C66_take {A} n (l : colist A) i : 0 <= n -> element i (cotake n l) = if Z.ltb (Z.of_nat i) n then element i l else None.
Proof.
  intro H. rewrite element_cotake. destruct (Z.leb_spec 0 n); [|lia]. cbn [andb].
  destruct (Z.leb_spec n (Z.of_nat i)), (Z.ltb_spec (Z.of_nat i) n); auto; lia.
Qed.
Theorem C66_infinite {A} (f : A -> A) x n i :
  element i (Model.repeat x) = Some x /\ element i (iterate f x) = Some (Nat.iter i f x) /\ element i (iota n) = Some (n + Z.of_nat i).
Proof. auto using element_repeat, element_iterate, element_iota. Qed.
Theorem C66_cycle {A} (l : list A) i : l <> [] -> element i (cycle l) = nth_error l (i mod length l).
Proof.
  intro H. unfold cycle. rewrite element_cycle; auto; [|exists []; reflexivity]. f_equal. f_equal. lia.
Qed.
Theorem C66_cycle_nothing {A} : is_list (@cycle A []) [].
Proof. unfold cycle. rewrite cycle_eq. constructor. Qed.
Example C66_example : is_list (range 2 5) [2; 3; 4] /\ element 4 (cycle [1; 2; 3]) = Some 2 /\ element 2 (range 5 3) = Some 7.
Proof. repeat split. exact (C66_range 2 5 ltac:(lia)). Qed.

Print Assumptions C61_elements.
Print Assumptions C61_sorted.
Print Assumptions C61_unique.
Print Assumptions C61_sort_by.
Print Assumptions C61_again.
Print Assumptions C61_at_most_refuted.
Print Assumptions C61_max_of.
Print Assumptions C61_min_of.
Print Assumptions C61_max_of_by.
Print Assumptions C61_min_of_by.
Print Assumptions C62_take.
Print Assumptions C62_drop.
Print Assumptions C62_split_at.
Print Assumptions C62_rotate.
Print Assumptions C62_rotate_far.
Print Assumptions C62_rotate_refuted.
Print Assumptions C62_drop_far.
Print Assumptions C62_drop_refuted.
Print Assumptions C62_negative.
Print Assumptions C62_negative_refuted.
Print Assumptions C62_nth.
Print Assumptions C62_update_nth.
Print Assumptions C62_while.
Print Assumptions C62_until.
Print Assumptions C62_update_first.
Print Assumptions C62_tails.
Print Assumptions C62_last.
Print Assumptions C63_folds.
Print Assumptions C63_reduce.
Print Assumptions C63_scans.
Print Assumptions C63_standard.
Print Assumptions C63_zip.
Print Assumptions C63_interleave.
Print Assumptions C63_cross.
Print Assumptions C64_window.
Print Assumptions C64_window_touching.
Print Assumptions C64_window_gap_refuted.
Print Assumptions C64_window_zero_refuted.
Print Assumptions C64_window_all.
Print Assumptions C64_partition.
Print Assumptions C64_partition_all.
Print Assumptions C64_pairs.
Print Assumptions C64_transpose.
Print Assumptions C64_transpose_twice.
Print Assumptions C64_transpose_ragged_refuted.
Print Assumptions C65_discriminate.
Print Assumptions C65_consecutive.
Print Assumptions C65_uniq.
Print Assumptions C65_nub.
Print Assumptions C65_nub_member.
Print Assumptions C65_split_on.
Print Assumptions C65_group_by.
Print Assumptions C66_range.
Print Assumptions C66_range_members.
Print Assumptions C66_range_refuted.
Print Assumptions C66_take.
Print Assumptions C66_infinite.
Print Assumptions C66_cycle.
Print Assumptions C66_cycle_nothing.
