(** Lemmas about the list library. *)
From Coq Require Import ZArith List Bool Permutation Sorting.Sorted Lia Arith.
From Verif Require Import Prelude.Model Prelude.Spec.
Import ListNotations.
Open Scope Z_scope.

(** The functions by folds are the standard ones. *)
Lemma foldl_fold_left {A B} (op : B -> A -> B) l : forall i, foldl op i l = fold_left op l i.
Proof. induction l; simpl; auto. Qed.
Lemma foldr_fold_right {A B} (op : A -> B -> B) i l : foldr op i l = fold_right op i l.
Proof. induction l; simpl; congruence. Qed.
Lemma map_std {A B} (f : A -> B) l : Model.map f l = List.map f l.
Proof. induction l; simpl; congruence. Qed.
Lemma append_std {A} (a b : list A) : append a b = a ++ b.
Proof. unfold append. induction a; simpl; congruence. Qed.
Lemma rev_acc {A} (l acc : list A) : foldl (fun acc x => x :: acc) acc l = rev l ++ acc.
Proof. revert acc. induction l; intro acc; simpl; [reflexivity|]. now rewrite IHl, <- app_assoc. Qed.
Lemma reverse_std {A} (l : list A) : reverse l = rev l.
Proof. unfold reverse. now rewrite rev_acc, app_nil_r. Qed.
Lemma filter_std {A} (p : A -> bool) l : Model.filter p l = List.filter p l.
Proof. unfold Model.filter. induction l; simpl; [reflexivity|]. rewrite IHl. reflexivity. Qed.
Lemma count_acc {A} (l : list A) : forall n, foldl (fun n _ => n + 1) n l = n + Z.of_nat (length l).
Proof. induction l; intro n; cbn [foldl length]; [lia|]. rewrite IHl. lia. Qed.
Lemma count_std {A} (l : list A) : count l = Z.of_nat (length l).
Proof. unfold count. rewrite count_acc. lia. Qed.
Lemma concat_std {A} (ls : list (list A)) : concat ls = List.concat ls.
Proof. unfold concat. induction ls; simpl; [reflexivity|]. now rewrite append_std, IHls. Qed.
Lemma mapcat_std {A B} (f : A -> list B) l : mapcat f l = flat_map f l.
Proof. unfold mapcat. induction l; simpl; [reflexivity|]. now rewrite append_std, IHl. Qed.
Lemma zip_std {A B} (xs : list A) : forall ys : list B, zip xs ys = combine xs ys.
Proof. unfold zip. induction xs; intros [|]; simpl; congruence. Qed.
Lemma map2_std {A B C} (f : A -> B -> C) xs : forall ys, map2 f xs ys = List.map (fun p => f (fst p) (snd p)) (combine xs ys).
Proof. induction xs; intros [|]; simpl; congruence. Qed.
Lemma unzip_std {A B} (ps : list (A * B)) : unzip ps = split ps.
Proof.
  unfold unzip. rewrite !map_std. induction ps as [|[a b] ps IH]; [reflexivity|].
  cbn [List.map split]. destruct (split ps) as [xs ys]. simpl. injection IH as -> ->. reflexivity.
Qed.
Lemma interleave_eq {A} (a b : list A) :
  interleave a b = match a with [] => b | x :: a' => x :: interleave b a' end.
Proof.
  revert b. induction a as [|x a IH]; intro b; [reflexivity|]. cbn [interleave]. f_equal.
  destruct b as [|y b]; [reflexivity|]. cbn [interleave]. f_equal. apply IH.
Qed.
Lemma all_true_acc l : forall b, foldl andb b l = b && forallb (fun x => x) l.
Proof. induction l as [|a l IH]; intro b; cbn [foldl forallb]; [now rewrite andb_true_r|]. now rewrite IH, andb_assoc. Qed.
Lemma all_std {A} (p : A -> bool) l : all p l = forallb p l.
Proof.
  unfold all, all_true. rewrite all_true_acc, map_std. simpl.
  induction l; simpl; congruence.
Qed.
Lemma any_std {A} (p : A -> bool) l : any p l = existsb p l.
Proof. unfold any, any_true. rewrite map_std. induction l; simpl; congruence. Qed.
Lemma cross_std {A B C} (f : A -> B -> C) xs ys : cross f xs ys = List.map (fun p => f (fst p) (snd p)) (list_prod xs ys).
Proof.
  unfold cross. rewrite map_std. induction xs as [|x xs IH]; [reflexivity|].
  cbn [List.map foldr list_prod]. rewrite append_std, IH, map_app, map_map, map_std. reflexivity.
Qed.

(** Cutting lists. *)
Lemma take_std {A} (l : list A) : forall n, 0 <= n -> take n l = firstn (Z.to_nat n) l.
Proof.
  induction l as [|x l IH]; intros n Hn; cbn [take]; [now rewrite firstn_nil|].
  destruct (Z.eqb_spec n 0) as [->|H0]; [reflexivity|].
  replace (Z.to_nat n) with (S (Z.to_nat (n - 1))) by lia. cbn [firstn]. f_equal. apply IH. lia.
Qed.
Lemma take_negative {A} (l : list A) : forall n, n < 0 -> take n l = l.
Proof.
  induction l as [|x l IH]; intros n Hn; cbn [take]; [reflexivity|].
  destruct (Z.eqb_spec n 0); [lia|]. f_equal. apply IH. lia.
Qed.
Lemma drop_eq {A} n (l : list A) : drop n l = if Z.eqb n 0 then Some l else match l with [] => None | _ :: t => drop (n - 1) t end.
Proof. destruct l; reflexivity. Qed.
Lemma drop_std {A} (l : list A) : forall n, 0 <= n ->
  drop n l = if Z.leb n (Z.of_nat (length l)) then Some (skipn (Z.to_nat n) l) else None.
Proof.
  induction l as [|x l IH]; intros n Hn; rewrite drop_eq; destruct (Z.eqb_spec n 0) as [->|H0].
  - reflexivity.
  - cbn [length]. destruct (Z.leb_spec n (Z.of_nat 0)); [lia|reflexivity].
  - cbn [length]. destruct (Z.leb_spec 0 (Z.of_nat (S (length l)))); [reflexivity|lia].
  - rewrite IH by lia. cbn [length].
    replace (Z.to_nat n) with (S (Z.to_nat (n - 1))) by lia. cbn [skipn].
    destruct (Z.leb_spec (n - 1) (Z.of_nat (length l))), (Z.leb_spec n (Z.of_nat (S (length l)))); auto; lia.
Qed.
Lemma drop_negative {A} (l : list A) : forall n, n < 0 -> drop n l = None.
Proof.
  induction l as [|x l IH]; intros n Hn; rewrite drop_eq; destruct (Z.eqb_spec n 0); try lia; auto. apply IH. lia.
Qed.
Lemma split_at_acc {A} (l : list A) : forall n pre, split_at_aux n l pre = (rev pre ++ take n l, if Z.ltb n 0 then [] else skipn (Z.to_nat n) l).
Proof.
  induction l as [|x l IH]; intros n pre; cbn [split_at_aux take].
  - rewrite reverse_std, skipn_nil, app_nil_r. destruct (n <? 0); reflexivity.
  - destruct (Z.eqb_spec n 0) as [->|H0].
    + rewrite reverse_std, app_nil_r. reflexivity.
    + rewrite IH. cbn [rev]. rewrite <- app_assoc. cbn [app]. f_equal.
      destruct (Z.ltb_spec (n - 1) 0), (Z.ltb_spec n 0); auto; try lia.
      replace (Z.to_nat n) with (S (Z.to_nat (n - 1))) by lia. reflexivity.
Qed.
Lemma split_at_std {A} (l : list A) n : 0 <= n -> split_at n l = (firstn (Z.to_nat n) l, skipn (Z.to_nat n) l).
Proof.
  intro Hn. unfold split_at. rewrite split_at_acc, take_std by assumption. cbn [rev app].
  destruct (Z.ltb_spec n 0); [lia|reflexivity].
Qed.
Lemma split_at_negative {A} (l : list A) n : n < 0 -> split_at n l = (l, []).
Proof.
  intro Hn. unfold split_at. rewrite split_at_acc, take_negative by assumption. cbn [rev app].
  destruct (Z.ltb_spec n 0); [reflexivity|lia].
Qed.
Lemma nth_std {A} (l : list A) : forall n, Model.nth n l = if Z.ltb n 0 then None else nth_error l (Z.to_nat n).
Proof.
  unfold Model.nth. induction l as [|x l IH]; intro n; cbn [nth_aux].
  - destruct (n <? 0); [reflexivity|]. destruct (Z.to_nat n); reflexivity.
  - destruct (Z.eqb_spec n 0) as [->|H0]; [reflexivity|]. rewrite IH.
    destruct (Z.ltb_spec (n - 1) 0), (Z.ltb_spec n 0); auto; try lia.
    replace (Z.to_nat n) with (S (Z.to_nat (n - 1))) by lia. reflexivity.
Qed.
Lemma take_while_acc {A} p (l : list A) : forall pre, take_while_aux p l pre = rev pre ++ take_while p l.
Proof.
  unfold take_while. induction l as [|x l IH]; intro pre; cbn [take_while_aux].
  - now rewrite !reverse_std, app_nil_r.
  - destruct (p x); [|now rewrite !reverse_std, app_nil_r].
    rewrite IH, (IH [x]). cbn [rev app]. now rewrite <- app_assoc.
Qed.
Lemma take_while_eq {A} p x (l : list A) : take_while p (x :: l) = if p x then x :: take_while p l else [].
Proof. unfold take_while at 1. cbn [take_while_aux]. destruct (p x); [|reflexivity]. now rewrite take_while_acc. Qed.
Lemma split_after_acc {A} p (l : list A) : forall pre, split_after_aux p l pre = (rev pre ++ take_while p l, drop_while p l).
Proof.
  induction l as [|x l IH]; intro pre; cbn [split_after_aux drop_while].
  - now rewrite reverse_std, app_nil_r.
  - rewrite take_while_eq. destruct (p x).
    + rewrite IH. cbn [rev]. now rewrite <- app_assoc.
    + now rewrite reverse_std, app_nil_r.
Qed.
Lemma split_after_std {A} p (l : list A) : split_after p l = (take_while p l, drop_while p l).
Proof. unfold split_after. now rewrite split_after_acc. Qed.
Lemma take_drop_while {A} p (l : list A) : take_while p l ++ drop_while p l = l.
Proof.
  induction l as [|x l IH]; [reflexivity|]. rewrite take_while_eq. cbn [drop_while].
  destruct (p x); [|reflexivity]. cbn [app]. now rewrite IH.
Qed.
Lemma take_while_all {A} p (l : list A) x : In x (take_while p l) -> p x = true.
Proof.
  induction l as [|y l IH]; [intros []|]. rewrite take_while_eq. destruct (p y) eqn:E; [|intros []].
  intros [<-|H]; auto.
Qed.
Lemma drop_while_head {A} p (l : list A) x t : drop_while p l = x :: t -> p x = false.
Proof.
  induction l as [|y l IH]; cbn [drop_while]; [discriminate|]. destruct (p y) eqn:E; [exact IH|].
  now intros [= -> _].
Qed.
Lemma tails_acc {A} (l : list A) : forall pre, tails_aux l pre = rev pre ++ tails l.
Proof.
  unfold tails. induction l as [|x l IH]; intro pre; cbn [tails_aux].
  - now rewrite !rev_acc.
  - rewrite IH, (IH [x :: l]). cbn [rev app]. now rewrite <- app_assoc.
Qed.
Lemma tails_eq {A} x (l : list A) : tails (x :: l) = (x :: l) :: tails l.
Proof. unfold tails at 1. cbn [tails_aux]. now rewrite tails_acc. Qed.

(** Sorting. *)
Lemma discriminate_acc {A} (p : A -> bool) (l : list A) : forall a b,
  foldl (fun (s : list A * list A) e => if p e then (e :: fst s, snd s) else (fst s, e :: snd s)) (a, b) l
  = (rev (List.filter p l) ++ a, rev (List.filter (fun x => negb (p x)) l) ++ b).
Proof.
  induction l as [|x l IH]; intros a b; cbn [foldl List.filter]; [reflexivity|].
  destruct (p x); cbn [fst snd negb]; rewrite IH; cbn [rev]; now rewrite <- app_assoc.
Qed.
Lemma discriminate_std {A} (p : A -> bool) (l : list A) :
  Model.discriminate p l = (List.filter p l, List.filter (fun x => negb (p x)) l).
Proof.
  unfold Model.discriminate. rewrite (discriminate_acc p l [] []). cbn [fst snd].
  rewrite !reverse_std, !rev_app_distr, !rev_involutive. reflexivity.
Qed.
Lemma filter_split {A} (p : A -> bool) (l : list A) : Permutation l (List.filter p l ++ List.filter (fun x => negb (p x)) l).
Proof.
  induction l as [|x l IH]; [constructor|]. cbn [List.filter]. destruct (p x); cbn [negb].
  - cbn [app]. now constructor.
  - now apply Permutation_cons_app.
Qed.
Lemma filter_len {A} (p : A -> bool) (l : list A) : (length (List.filter p l) <= length l)%nat.
Proof. induction l; simpl; [lia|]. destruct (p a); simpl; lia. Qed.
Section Qsort.
Context {A : Type} (lt : A -> A -> bool).
Lemma qsort_ends fuel : forall xs, (length xs <= fuel)%nat -> exists ys, qsort_fuel fuel lt xs = Some ys /\ Permutation xs ys.
Proof.
  induction fuel as [|fuel IH]; intros [|h t] H; cbn [qsort_fuel]; eauto; cbn [length] in H; [lia|].
  rewrite discriminate_std. cbn [fst snd].
  destruct (IH (List.filter (fun x => lt x h) t)) as (s & -> & Ps); [pose proof (filter_len (fun x => lt x h) t); lia|].
  destruct (IH (List.filter (fun x => negb (lt x h)) t)) as (b & -> & Pb); [pose proof (filter_len (fun x => negb (lt x h)) t); lia|].
  eexists; split; [reflexivity|]. rewrite !append_std. cbn [app].
  apply Permutation_cons_app. rewrite (filter_split (fun x => lt x h) t) at 1. now apply Permutation_app.
Qed.
Lemma qsort_in : forall fuel xs ys, qsort_fuel fuel lt xs = Some ys -> forall x, In x ys -> In x xs.
Proof.
  induction fuel as [|fuel IH]; intros [|h t] ys; cbn [qsort_fuel]; try discriminate; try (intros [= <-] x []).
  rewrite discriminate_std. cbn [fst snd].
  destruct (qsort_fuel fuel lt (List.filter (fun x => lt x h) t)) as [s|] eqn:E1; [|discriminate].
  destruct (qsort_fuel fuel lt (List.filter (fun x => negb (lt x h)) t)) as [b|] eqn:E2; [|discriminate].
  intros [= <-] x. rewrite !append_std. rewrite in_app_iff. cbn [app In]. intros [H|[H|H]].
  - apply (IH _ _ E1) in H. apply filter_In in H. right. tauto.
  - now left.
  - apply (IH _ _ E2) in H. apply filter_In in H. right. tauto.
Qed.
Hypothesis W : strict_weak lt.
Lemma not_both x y : lt x y = true -> lt y x = false.
Proof.
  intro H. destruct (lt y x) eqn:E; [|reflexivity]. pose proof (transitive _ W _ _ _ H E) as R.
  now rewrite (irreflexive _ W) in R.
Qed.
Lemma lt_not_le x y z : lt x y = true -> lt z y = false -> lt z x = false.
Proof.
  intros H N. destruct (lt z x) eqn:E; [|reflexivity]. pose proof (transitive _ W _ _ _ E H). congruence.
Qed.
Lemma qsort_sorted fuel : forall xs ys, qsort_fuel fuel lt xs = Some ys -> in_order lt ys.
Proof.
  induction fuel as [|fuel IH]; intros [|h t] ys; cbn [qsort_fuel]; try discriminate; try (intros [= <-]; constructor).
  rewrite discriminate_std. cbn [fst snd].
  set (tl := List.filter (fun x => lt x h) t). set (tb := List.filter (fun x => negb (lt x h)) t).
  destruct (qsort_fuel fuel lt tl) as [s|] eqn:Es; [|discriminate].
  destruct (qsort_fuel fuel lt tb) as [b|] eqn:Eb; [|discriminate].
  intros [= <-]. rewrite !append_std. cbn [app].
  assert (Ps : forall x, In x s -> lt x h = true).
  { intros x Hx. assert (Hin : In x tl).
    { eapply qsort_in; eauto. }
    unfold tl in Hin. apply filter_In in Hin. tauto. }
  assert (Pb : forall x, In x b -> lt x h = false).
  { intros x Hx. assert (Hin : In x tb).
    { eapply qsort_in; eauto. }
    unfold tb in Hin. apply filter_In in Hin. destruct Hin as [_ Hin]. now apply negb_true_iff in Hin. }
  pose proof (IH _ _ Es) as Ss. pose proof (IH _ _ Eb) as Sb. clear Es Eb IH.
  induction s as [|x s IHs]; cbn [app].
  - constructor; [exact Sb|]. apply Forall_forall. exact Pb.
  - apply StronglySorted_inv in Ss. destruct Ss as [Ss Fs]. constructor.
    + apply IHs; auto. intros y Hy. apply Ps. now right.
    + apply Forall_app. split; [exact Fs|]. constructor.
      * apply not_both, Ps. now left.
      * apply Forall_forall. intros y Hy. apply (lt_not_le x h y); auto. apply Ps. now left.
Qed.
Lemma filter_none {B} (p : B -> bool) l : (forall x, In x l -> p x = false) -> List.filter p l = [].
Proof.
  induction l as [|x l IH]; intro H; [reflexivity|]. cbn [List.filter]. rewrite (H x) by now left. apply IH. auto using in_cons.
Qed.
Lemma filter_both {B} (p q : B -> bool) l : List.filter p (List.filter q l) = List.filter (fun x => q x && p x) l.
Proof. induction l as [|x l IH]; [reflexivity|]. cbn [List.filter]. destruct (q x); cbn [List.filter andb]; rewrite IH; reflexivity. Qed.
Lemma tied_lt x y h : tied lt x y = true -> lt x h = lt y h.
Proof.
  unfold tied. rewrite andb_true_iff, !negb_true_iff. intros [H1 H2].
  destruct (lt x h) eqn:E1, (lt y h) eqn:E2; auto; exfalso.
  - rewrite (not_transitive _ W x y h) in E1; congruence.
  - rewrite (not_transitive _ W y x h) in E2; congruence.
Qed.
Lemma qsort_ties fuel : forall xs ys, qsort_fuel fuel lt xs = Some ys -> keeps_ties lt xs ys.
Proof.
  induction fuel as [|fuel IH]; intros [|h t] ys; cbn [qsort_fuel]; try discriminate; try (intros [= <-] x; reflexivity).
  rewrite discriminate_std. cbn [fst snd].
  destruct (qsort_fuel fuel lt (List.filter (fun x => lt x h) t)) as [s|] eqn:Es; [|discriminate].
  destruct (qsort_fuel fuel lt (List.filter (fun x => negb (lt x h)) t)) as [b|] eqn:Eb; [|discriminate].
  intros [= <-] x. rewrite !append_std. cbn [app]. rewrite filter_app. cbn [List.filter].
  rewrite (IH _ _ Es), (IH _ _ Eb), !filter_both.
  destruct (lt x h) eqn:Exh.
  - replace (tied lt x h) with false by (unfold tied; now rewrite Exh).
    rewrite (filter_none (fun x0 => negb (lt x0 h) && tied lt x x0)).
    + rewrite app_nil_r. apply filter_ext. intro y. destruct (tied lt x y) eqn:T; [|now rewrite andb_false_r].
      rewrite <- (tied_lt _ _ h T), Exh. reflexivity.
    + intros y _. destruct (tied lt x y) eqn:T; [|now rewrite andb_false_r]. rewrite <- (tied_lt _ _ h T), Exh. reflexivity.
  - rewrite (filter_none (fun x0 => lt x0 h && tied lt x x0)).
    + cbn [app]. assert (G : List.filter (fun x0 => negb (lt x0 h) && tied lt x x0) t = List.filter (tied lt x) t).
      { apply filter_ext. intro y. destruct (tied lt x y) eqn:T; [|now rewrite andb_false_r].
        rewrite <- (tied_lt _ _ h T), Exh. reflexivity. }
      destruct (tied lt x h); now rewrite G.
    + intros y _. destruct (tied lt x y) eqn:T; [|now rewrite andb_false_r]. rewrite <- (tied_lt _ _ h T), Exh. reflexivity.
Qed.
Lemma tied_refl x : tied lt x x = true.
Proof. unfold tied. now rewrite (irreflexive _ W). Qed.
(** Order, and the order of ties, leave no choice. *)
Lemma sorted_unique xs : forall ys, in_order lt xs -> in_order lt ys -> keeps_ties lt xs ys -> xs = ys.
Proof.
  induction xs as [|x xs IH]; intros ys Sx Sy T.
  - destruct ys as [|y ys]; [reflexivity|]. pose proof (T y) as H. cbn [List.filter] in H. now rewrite tied_refl in H.
  - destruct ys as [|y ys].
    + pose proof (T x) as H. cbn [List.filter] in H. now rewrite tied_refl in H.
    + apply StronglySorted_inv in Sx, Sy. destruct Sx as [Sx Fx], Sy as [Sy Fy].
      rewrite Forall_forall in Fx, Fy.
      assert (Hx : In x (y :: ys)).
      { assert (H : In x (List.filter (tied lt x) (y :: ys))).
        { rewrite (T x). cbn [List.filter]. rewrite tied_refl. now left. }
        apply filter_In in H. tauto. }
      assert (Hy : In y (x :: xs)).
      { assert (H : In y (List.filter (tied lt y) (x :: xs))).
        { rewrite <- (T y). cbn [List.filter]. rewrite tied_refl. now left. }
        apply filter_In in H. tauto. }
      assert (E : x = y).
      { assert (Exy : tied lt x y = true).
        { unfold tied. rewrite andb_true_iff, !negb_true_iff. split.
          - destruct Hx as [->|Hx]; [apply (irreflexive _ W)|apply Fy; exact Hx].
          - destruct Hy as [->|Hy]; [apply (irreflexive _ W)|apply Fx; exact Hy]. }
        pose proof (T x) as H. cbn [List.filter] in H. rewrite tied_refl, Exy in H. congruence. }
      subst y. f_equal. apply IH; auto. intro z. pose proof (T z) as H. cbn [List.filter] in H.
      destruct (tied lt z x); congruence.
Qed.

(** Greatest and least. *)
Lemma le_trans x y z : lt y x = false -> lt z y = false -> lt z x = false.
Proof. intros H1 H2. exact (not_transitive _ W z y x H2 H1). Qed.
Lemma max_foldl l : forall i, (foldl (Model.max lt) i l = i \/ In (foldl (Model.max lt) i l) l)
  /\ lt (foldl (Model.max lt) i l) i = false /\ forall x, In x l -> lt (foldl (Model.max lt) i l) x = false.
Proof.
  induction l as [|x l IH]; intro i; cbn [foldl].
  - repeat split; auto using (irreflexive _ W). intros x [].
  - destruct (IH (Model.max lt i x)) as (H1 & H2 & H3).
    assert (G : lt (Model.max lt i x) i = false /\ lt (Model.max lt i x) x = false /\ (Model.max lt i x = i \/ Model.max lt i x = x)).
    { unfold Model.max. destruct (lt x i) eqn:E; repeat split; auto using (irreflexive _ W). now apply not_both. }
    destruct G as (G1 & G2 & G3). repeat split.
    + destruct H1 as [H1|H1]; [|now right; right]. rewrite H1. destruct G3 as [-> | ->]; [now left|right; now left].
    + exact (le_trans _ _ _ G1 H2).
    + intros y [<-|Hy]; [exact (le_trans _ _ _ G2 H2)|auto].
Qed.
Lemma min_foldl l : forall i, (foldl (Model.min lt) i l = i \/ In (foldl (Model.min lt) i l) l)
  /\ lt i (foldl (Model.min lt) i l) = false /\ forall x, In x l -> lt x (foldl (Model.min lt) i l) = false.
Proof.
  induction l as [|x l IH]; intro i; cbn [foldl].
  - repeat split; auto using (irreflexive _ W). intros x [].
  - destruct (IH (Model.min lt i x)) as (H1 & H2 & H3).
    assert (G : lt i (Model.min lt i x) = false /\ lt x (Model.min lt i x) = false /\ (Model.min lt i x = i \/ Model.min lt i x = x)).
    { unfold Model.min. destruct (lt i x) eqn:E; repeat split; auto using (irreflexive _ W). now apply not_both. }
    destruct G as (G1 & G2 & G3). repeat split.
    + destruct H1 as [H1|H1]; [|now right; right]. rewrite H1. destruct G3 as [-> | ->]; [now left|right; now left].
    + exact (le_trans _ _ _ H2 G1).
    + intros y [<-|Hy]; [exact (le_trans _ _ _ H2 G2)|auto].
Qed.
End Qsort.
