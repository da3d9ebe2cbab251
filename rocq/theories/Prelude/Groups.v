(** Lemmas about groups, blocks as lists of pairs, and infinite lists. *)
From Coq Require Import ZArith List Bool Permutation Lia Arith.
From Verif Require Import Prelude.Model Prelude.Spec Prelude.Proofs Prelude.More.
Import ListNotations.
Open Scope Z_scope.

Section Consecutive.
Context {A K : Type} (same : K -> K -> bool) (f : A -> K).
(** [gs] cuts a list where the key changes from one element to the next. *)
Inductive runs : list A -> list (list A) -> Prop :=
| runs_nil : runs [] []
| runs_one x : runs [x] [[x]]
| runs_same x y l g gs : same (f x) (f y) = true -> runs (y :: l) ((y :: g) :: gs) -> runs (x :: y :: l) ((x :: y :: g) :: gs)
| runs_new x y l g gs : same (f x) (f y) = false -> runs (y :: l) ((y :: g) :: gs) -> runs (x :: y :: l) ([x] :: (y :: g) :: gs).
Lemma group_runs l : exists gs, group_consecutive_by same f l = Some gs /\ runs l gs.
Proof.
  induction l as [|x l IH]; [eexists; split; [reflexivity|constructor]|].
  destruct l as [|y l]; [eexists; split; [reflexivity|constructor]|].
  destruct IH as (gs & E & R).
  assert (G : exists g rest, gs = (y :: g) :: rest) by (inversion R; subst; eauto).
  destruct G as (g & rest & ->).
  change (group_consecutive_by same f (x :: y :: l)) with
    (match group_consecutive_by same f (y :: l) with
     | Some ((y :: g) :: rest) =>
          if same (f x) (f y) then Some ((x :: y :: g) :: rest) else Some ([x] :: (y :: g) :: rest)
     | _ => None end).
  rewrite E. destruct (same (f x) (f y)) eqn:S; eexists; (split; [reflexivity|]); constructor; auto.
Qed.
Lemma runs_concat l gs : runs l gs -> List.concat gs = l.
Proof. induction 1; cbn in *; congruence. Qed.
Lemma runs_nonempty l gs : runs l gs -> forall g, In g gs -> g <> [].
Proof.
  induction 1 as [|x|x y l g gs S R IH|x y l g gs S R IH]; intros h H; cbn [In] in H.
  - tauto.
  - destruct H as [<-|[]]. discriminate.
  - destruct H as [<-|H]; [discriminate|]. apply IH. now right.
  - destruct H as [<-|H]; [discriminate|]. apply IH. exact H.
Qed.
Lemma neighbours_cons (l : list A) x y z : neighbours (z :: l) x y -> (exists t, z = x /\ l = y :: t) \/ neighbours l x y.
Proof.
  intros (a & b & E). destruct a as [|w a]; cbn [app] in E.
  - injection E as -> ->. left. eauto.
  - injection E as -> ->. right. exists a, b. reflexivity.
Qed.
Lemma runs_inside l gs : runs l gs -> forall g x y, In g gs -> neighbours g x y -> same (f x) (f y) = true.
Proof.
  induction 1 as [|x|x y l g gs S R IH|x y l g gs S R IH]; intros h u v H N; cbn [In] in H.
  - tauto.
  - destruct H as [<-|[]]. apply neighbours_cons in N. destruct N as [(t & _ & [=])|(a & b & E)]. destruct a; discriminate.
  - destruct H as [<-|H]; [|apply (IH h); auto; now right].
    apply neighbours_cons in N. destruct N as [(t & -> & E)|N]; [injection E as -> _; exact S|]. apply (IH (y :: g)); auto. now left.
  - destruct H as [<-|H]; [|apply (IH h); auto].
    apply neighbours_cons in N. destruct N as [(t & _ & [=])|(a & b & E)]. destruct a; discriminate.
Qed.
Lemma runs_across l gs : runs l gs -> forall before g x y h after, gs = before ++ (g ++ [x]) :: (y :: h) :: after -> same (f x) (f y) = false.
Proof.
  induction 1 as [|x|x y l g gs S R IH|x y l g gs S R IH]; intros before g0 u v h after E.
  - destruct before; discriminate.
  - destruct before as [|? before]; cbn [app] in E; [|destruct before; discriminate]. discriminate.
  - destruct before as [|w before]; cbn [app] in E.
    + injection E as E1 E2. subst gs. destruct g0 as [|z g0]; cbn [app] in E1.
      * discriminate.
      * injection E1 as -> E1. apply (IH [] g0 u v h after). cbn [app]. congruence.
    + injection E as _ E. apply (IH ((y :: g) :: before) g0 u v h after). cbn [app]. congruence.
  - destruct before as [|w before]; cbn [app] in E.
    + injection E as E1 E2 E3. subst. destruct g0 as [|z g0]; cbn [app] in E1; [|destruct g0; discriminate].
      injection E1 as ->. exact S.
    + injection E as _ E. apply (IH before g0 u v h after). exact E.
Qed.
End Consecutive.

Lemma runs_heads {A} (same : A -> A -> bool) l gs : runs same (fun x => x) l gs ->
  each head gs = Some match l with [] => [] | x :: t => x :: changes same x t end.
Proof.
  induction 1 as [|x|x y l g gs S R IH|x y l g gs S R IH]; try reflexivity.
  - cbn [each head changes] in *. rewrite S. destruct (each head gs); [|discriminate]. congruence.
  - cbn [each head changes] in *. rewrite S. destruct (each head gs); [|discriminate]. congruence.
Qed.

Section Nub.
Context {A K : Type} (same : K -> K -> bool) (key : A -> K).
Hypothesis E : equivalence same.
Lemma nub_acc xs : forall before seen out,
  (forall k, existsb (fun s => same s k) seen = existsb (fun y => same (key y) k) before) ->
  snd (foldl (fun (acc : list K * list A) x => if any (fun s => same s (key x)) (fst acc) then acc else (append (fst acc) [key x], append (snd acc) [x])) (seen, out) xs)
  = out ++ unmet same key before xs.
Proof.
  induction xs as [|x xs IH]; intros before seen out H; cbn [foldl unmet].
  - now rewrite app_nil_r.
  - cbn [fst snd]. rewrite any_std, H. destruct (existsb (fun y => same (key y) (key x)) before) eqn:X.
    + apply IH. intro k. rewrite existsb_app. cbn [existsb]. rewrite orb_false_r, H.
      destruct (same (key x) k) eqn:Sx; [|now rewrite orb_false_r]. rewrite orb_true_r. apply existsb_exists.
      apply existsb_exists in X. destruct X as (y & Hy & Sy). exists y. split; [exact Hy|]. exact (same_trans _ E _ _ _ Sy Sx).
    + rewrite !append_std. rewrite (IH (before ++ [x])).
      * now rewrite <- app_assoc.
      * intro k. rewrite !existsb_app, H. cbn [existsb]. reflexivity.
Qed.
Lemma nub_unmet xs : nub_by same key xs = unmet same key [] xs.
Proof. unfold nub_by. rewrite (nub_acc xs [] [] []); reflexivity. Qed.
Lemma unmet_in xs : forall before x, In x (unmet same key before xs) <->
  exists a b, xs = a ++ x :: b /\ existsb (fun y => same (key y) (key x)) (before ++ a) = false.
Proof.
  induction xs as [|z xs IH]; intros before x; cbn [unmet].
  - split; [intros []|]. intros (a & b & X & _). destruct a; discriminate.
  - destruct (existsb (fun y => same (key y) (key z)) before) eqn:Z.
    + rewrite IH. split.
      * intros (a & b & -> & H). exists (z :: a), b. rewrite <- app_assoc in H. auto.
      * intros (a & b & X & H). destruct a as [|w a]; cbn [app] in X; injection X as -> ->.
        -- rewrite app_nil_r in H. congruence.
        -- exists a, b. rewrite <- app_assoc. auto.
    + cbn [In]. rewrite IH. split.
      * intros [<-|(a & b & -> & H)].
        -- exists [], xs. rewrite app_nil_r. auto.
        -- exists (z :: a), b. rewrite <- app_assoc in H. auto.
      * intros (a & b & X & H). destruct a as [|w a]; cbn [app] in X; injection X as -> ->; [now left|].
        right. exists a, b. rewrite <- app_assoc. auto.
Qed.
End Nub.

(** Splitting at separators. *)
Lemma last_std {A} (l : list A) x : Model.last (l ++ [x]) = Some x.
Proof. unfold Model.last. rewrite reverse_std, rev_app_distr. reflexivity. Qed.
Lemma butlast_std {A} (l : list A) x : butlast (l ++ [x]) = Some l.
Proof. unfold butlast. rewrite reverse_std, rev_app_distr. cbn [rev app tail option_map]. now rewrite reverse_std, rev_involutive. Qed.
Section SplitOn.
Context {A : Type} (p : A -> bool).
(** [cut cur l] is what becomes of [l] when the group being filled is [cur]. *)
Fixpoint cut (cur : list A) (l : list A) : list (list A) :=
  match l with [] => [cur] | x :: t => if p x then cur :: cut [] t else cut (cur ++ [x]) t end.
Lemma split_on_cut xs : forall gs cur,
  foldl (fun (acc : option (list (list A))) x =>
    match acc with
    | None => None
    | Some acc =>
        if p x then Some (append acc [[]])
        else match butlast acc, Model.last acc with
             | Some groups, Some current => Some (append groups [append current [x]])
             | _, _ => None
             end
    end) (Some (gs ++ [cur])) xs = Some (gs ++ cut cur xs).
Proof.
  induction xs as [|x xs IH]; intros gs cur; cbn [foldl cut]; [reflexivity|].
  destruct (p x).
  - rewrite append_std, IH, <- app_assoc. reflexivity.
  - rewrite butlast_std, last_std, !append_std. apply IH.
Qed.
Lemma cut_joined xs : forall cur, joined p (cut cur xs) (cur ++ xs).
Proof.
  induction xs as [|x xs IH]; intro cur; cbn [cut].
  - cbn. now rewrite app_nil_r.
  - destruct (p x) eqn:P.
    + pose proof (IH []) as H. cbn [app] in H. destruct (cut [] xs) as [|g gs] eqn:C; [destruct H|].
      cbn [joined]. exists x, xs. auto.
    + pose proof (IH (cur ++ [x])) as H. now rewrite <- app_assoc in H.
Qed.
Lemma cut_clean xs : forall cur, (forall x, In x cur -> p x = false) -> forall g x, In g (cut cur xs) -> In x g -> p x = false.
Proof.
  induction xs as [|x xs IH]; intros cur H g y Hg Hy; cbn [cut] in Hg.
  - destruct Hg as [<-|[]]. auto.
  - destruct (p x) eqn:P.
    + destruct Hg as [<-|Hg]; [auto|]. apply (IH [] (fun x (F : In x []) => match F with end) g y Hg Hy).
    + apply (IH (cur ++ [x])) with (g := g); auto. intros z Hz. apply in_app_or in Hz. destruct Hz as [Hz|[<-|[]]]; auto.
Qed.
End SplitOn.

(** Updating an entry of a block, adding it if it is not there. *)
Section Update.
Context {K V : Type} (same : K -> K -> bool).
Hypothesis E : forall x y, same x y = true <-> x = y.
Lemma same_refl' x : same x x = true. Proof. now apply E. Qed.
Lemma update_acc (k : K) (f : V -> V) (b : list (K * V)) : forall done pend,
  foldl (fun (st : list (K * V) * list (K * V)) el => if same k (fst el) then ((k, f (snd el)) :: fst st, []) else (el :: fst st, snd st)) (done, pend) b
  = (rev (List.map (fun e => if same k (fst e) then (k, f (snd e)) else e) b) ++ done, if existsb (fun e => same k (fst e)) b then [] else pend).
Proof.
  induction b as [|e b IH]; intros done pend; cbn [foldl List.map existsb rev]; [reflexivity|].
  destruct (same k (fst e)); cbn [fst snd orb]; rewrite IH, <- app_assoc; [|reflexivity].
  cbn [app]. now destruct (existsb (fun e => same k (fst e)) b).
Qed.
Lemma update_std k f (d : V) b : update_value_or same k f d b =
  List.map (fun e => if same k (fst e) then (k, f (snd e)) else e) b ++ (if existsb (fun e => same k (fst e)) b then [] else [(k, d)]).
Proof.
  unfold update_value_or. rewrite (update_acc k f b [] [(k, d)]). cbn [fst snd]. rewrite reverse_std, append_std, rev_app_distr, app_nil_r, rev_involutive.
  destruct (existsb (fun e => same k (fst e)) b); reflexivity.
Qed.
End Update.

Section GroupBy.
Context {A K : Type} (same : K -> K -> bool) (key : A -> K).
Hypothesis E : forall x y, same x y = true <-> x = y.
(** The groups, latest member first. *)
Definition add (b : list (K * list A)) (x : A) := update_value_or same (key x) (cons x) [x] b.
Lemma group_by_std xs : group_by same key xs = List.map (fun e => (fst e, rev (snd e))) (fold_left add xs []).
Proof.
  unfold group_by, map_second. rewrite !map_std, foldl_fold_left.
  rewrite (map_ext (fun e : K * list A => (fst e, reverse (snd e))) (fun e => (fst e, rev (snd e)))); [|intro e; now rewrite reverse_std].
  f_equal. generalize (@nil (K * list A)) as b. induction xs as [|x xs IH]; intro b; [reflexivity|]. cbn [List.map fold_left fst snd]. apply IH.
Qed.
Definition grouped (xs : list A) (b : list (K * list A)) : Prop :=
  List.map fst b = List.map key (unmet same key [] xs)
  /\ NoDup (List.map fst b) /\ forall k g, In (k, g) b -> rev g = List.filter (fun x => same k (key x)) xs.
Lemma unmet_app xs : forall before ys, unmet same key before (xs ++ ys) = unmet same key before xs ++ unmet same key (before ++ xs) ys.
Proof.
  induction xs as [|x xs IH]; intros before ys; cbn [app unmet]; [now rewrite app_nil_r|].
  rewrite IH, <- app_assoc. now destruct (existsb (fun y => same (key y) (key x)) before).
Qed.
Lemma key_met xs k : In k (List.map key (unmet same key [] xs)) <-> In k (List.map key xs).
Proof.
  split.
  - intro H. apply in_map_iff in H. destruct H as (x & <- & H). apply unmet_in in H. destruct H as (a & b & -> & _).
    apply in_map, in_elt.
  - induction xs as [|x xs IH] using rev_ind; [intros []|]. rewrite !map_app, unmet_app, map_app, !in_app_iff. cbn [app unmet].
    intros [H|[<-|[]]]; [left; auto|].
    destruct (existsb (fun y => same (key y) (key x)) xs) eqn:X; [|right; now left].
    left. apply IH. apply existsb_exists in X. destruct X as (y & Hy & S). apply E in S. rewrite <- S. now apply in_map.
Qed.
Lemma grouped_add xs b x : grouped xs b -> grouped (xs ++ [x]) (add b x).
Proof.
  intros (H1 & H2 & H3). unfold add. rewrite update_std. unfold grouped. rewrite unmet_app. cbn [app unmet].
  assert (Keys : List.map fst (List.map (fun e : K * list A => if same (key x) (fst e) then (key x, x :: snd e) else e) b) = List.map fst b).
  { rewrite map_map. apply map_ext. intros [k g]. cbn [fst]. destruct (same (key x) k) eqn:S; [|reflexivity]. now apply E in S. }
  assert (Met : existsb (fun e : K * list A => same (key x) (fst e)) b = existsb (fun y => same (key y) (key x)) xs).
  { apply eq_true_iff_eq. rewrite !existsb_exists. split.
    - intros ([k g] & Hin & S). cbn [fst] in S. apply E in S. subst k. apply (in_map fst) in Hin. cbn [fst] in Hin. rewrite H1 in Hin.
      apply (proj1 (key_met _ _)) in Hin. apply in_map_iff in Hin. destruct Hin as (y & Ey & Hy). exists y. split; [exact Hy|]. now apply E.
    - intros (y & Hy & S). apply E in S. assert (Hk : In (key x) (List.map fst b)) by (rewrite H1, <- S; apply key_met, in_map, Hy).
      apply in_map_iff in Hk. destruct Hk as (e & Ee & He). exists e. split; [exact He|]. apply E. congruence. }
  rewrite Met. destruct (existsb (fun y => same (key y) (key x)) xs) eqn:X.
  - rewrite !app_nil_r. split; [now rewrite Keys|]. split; [now rewrite Keys|].
    intros k g Hin. apply in_map_iff in Hin. destruct Hin as ([k0 g0] & Eg & Hin). cbn [fst snd] in Eg.
    rewrite filter_app. cbn [List.filter]. destruct (same (key x) k0) eqn:S.
    + apply E in S. subst k0. injection Eg as <- <-. cbn [rev]. rewrite (H3 _ _ Hin). now rewrite (proj2 (E (key x) (key x)) eq_refl).
    + injection Eg as <- <-. rewrite (H3 _ _ Hin). destruct (same k0 (key x)) eqn:S2; [|now rewrite app_nil_r].
      apply E in S2. subst k0. rewrite (proj2 (E (key x) (key x)) eq_refl) in S. discriminate.
  - rewrite map_app, Keys, map_app, H1. cbn [List.map fst]. split; [reflexivity|]. split.
    + rewrite <- H1. apply (Permutation_NoDup (Permutation_cons_append _ _)). constructor; [|exact H2].
      intro Hin. rewrite H1 in Hin. apply (proj1 (key_met _ _)) in Hin. apply in_map_iff in Hin. destruct Hin as (y & Ey & Hy).
      assert (Y : existsb (fun y => same (key y) (key x)) xs = true) by (apply existsb_exists; exists y; split; [exact Hy|]; now apply E).
      congruence.
    + intros k g Hin. rewrite filter_app. cbn [List.filter]. apply in_app_or in Hin. destruct Hin as [Hin|[Hin|[]]].
      * apply in_map_iff in Hin. destruct Hin as ([k0 g0] & Eg & Hin). cbn [fst snd] in Eg.
        assert (N : same (key x) k0 = false).
        { destruct (same (key x) k0) eqn:S; [|reflexivity]. rewrite <- Met. symmetry. apply existsb_exists. exists (k0, g0). auto. }
        rewrite N in Eg. injection Eg as <- <-. rewrite (H3 _ _ Hin).
        destruct (same k0 (key x)) eqn:S2; [|now rewrite app_nil_r]. apply E in S2. subst k0. now rewrite (proj2 (E (key x) (key x)) eq_refl) in N.
      * injection Hin as <- <-. cbn [rev app]. rewrite (proj2 (E (key x) (key x)) eq_refl).
        rewrite filter_none; [reflexivity|]. intros y Hy. destruct (same (key x) (key y)) eqn:S; [|reflexivity].
        apply E in S. rewrite <- X. symmetry. apply existsb_exists. exists y. split; [exact Hy|]. now apply E.
Qed.
Lemma grouped_all xs : grouped xs (fold_left add xs []).
Proof.
  induction xs as [|x xs IH] using rev_ind.
  - repeat split; [constructor|]. intros k g [].
  - rewrite fold_left_app. cbn [fold_left]. now apply grouped_add.
Qed.
End GroupBy.

(** Infinite lists. *)
Definition force {A} (l : colist A) : colist A := match l with conil => conil | cocons x r => cocons x r end.
Lemma force_eq {A} (l : colist A) : l = force l. Proof. destruct l; reflexivity. Qed.
Lemma iota_eq n : iota n = cocons n (iota (n + 1)).
Proof. rewrite (force_eq (iota n)). reflexivity. Qed.
Lemma repeat_eq {A} (x : A) : Model.repeat x = cocons x (Model.repeat x).
Proof. rewrite (force_eq (Model.repeat x)) at 1. reflexivity. Qed.
Lemma iterate_eq {A} f (x : A) : iterate f x = cocons x (iterate f (f x)).
Proof. rewrite (force_eq (iterate f x)). reflexivity. Qed.
Lemma cotake_eq {A} n (l : colist A) : cotake n l = match l with conil => conil | cocons x t => if Z.eqb n 0 then conil else cocons x (cotake (n - 1) t) end.
Proof. rewrite (force_eq (cotake n l)). destruct l; [reflexivity|]. cbv [force cotake]. destruct (n =? 0); reflexivity. Qed.
Lemma cycle_eq {A} (l rest : list A) : cycle_from l rest = match rest with
  | x :: rest => cocons x (cycle_from l rest)
  | [] => match l with [] => conil | x :: rest => cocons x (cycle_from l rest) end
  end.
Proof. rewrite (force_eq (cycle_from l rest)). destruct rest; [|reflexivity]. destruct l; reflexivity. Qed.
Lemma element_iota i : forall n, element i (iota n) = Some (n + Z.of_nat i).
Proof.
  induction i as [|i IH]; intro n; rewrite iota_eq; cbn [element]; [f_equal; lia|]. rewrite IH. f_equal. lia.
Qed.
Lemma element_repeat {A} i (x : A) : element i (Model.repeat x) = Some x.
Proof. induction i as [|i IH]; rewrite repeat_eq; cbn [element]; auto. Qed.
Lemma element_iterate {A} f i : forall x : A, element i (iterate f x) = Some (Nat.iter i f x).
Proof.
  induction i as [|i IH]; intro x; rewrite iterate_eq; cbn [element]; auto. rewrite IH. f_equal.
  clear IH. induction i as [|i IH]; [reflexivity|]. simpl in *. now rewrite IH.
Qed.
Lemma element_cotake {A} i : forall n (l : colist A), element i (cotake n l) = if (0 <=? n) && (n <=? Z.of_nat i) then None else element i l.
Proof.
  induction i as [|i IH]; intros n l; rewrite cotake_eq.
  - destruct l as [|x t]; cbn [element]; [now destruct ((0 <=? n) && (n <=? Z.of_nat 0))|].
    destruct (Z.eqb_spec n 0) as [->|H]; [reflexivity|].
    destruct (Z.leb_spec 0 n), (Z.leb_spec n (Z.of_nat 0)); cbn [andb]; auto; lia.
  - destruct l as [|x t]; cbn [element]; [now destruct ((0 <=? n) && (n <=? Z.of_nat (S i)))|].
    destruct (Z.eqb_spec n 0) as [->|H].
    + destruct (Z.leb_spec 0 0), (Z.leb_spec 0 (Z.of_nat (S i))); try reflexivity; lia.
    + cbn [element]. rewrite IH.
      destruct (Z.leb_spec 0 (n - 1)), (Z.leb_spec (n - 1) (Z.of_nat i)), (Z.leb_spec 0 n), (Z.leb_spec n (Z.of_nat (S i))); cbn [andb]; auto; lia.
Qed.
Lemma is_list_elements {A} (l : colist A) xs : is_list l xs -> forall i, element i l = nth_error xs i.
Proof. induction 1; intro i; destruct i; cbn [element nth_error]; auto. Qed.
Lemma range_list b n : is_list (cotake (Z.of_nat n) (iota b)) (List.map (fun i => b + Z.of_nat i) (seq 0 n)).
Proof.
  revert b. induction n as [|n IH]; intro b; rewrite cotake_eq, iota_eq.
  - constructor.
  - destruct (Z.eqb_spec (Z.of_nat (S n)) 0); [lia|]. cbn [seq List.map].
    replace (b + Z.of_nat 0) with b by lia. constructor. replace (Z.of_nat (S n) - 1) with (Z.of_nat n) by lia.
    rewrite <- seq_shift, map_map. erewrite map_ext; [apply IH|]. intro i. cbn beta. lia.
Qed.
Lemma element_cycle {A} (l : list A) : l <> [] -> forall i rest, (exists pre, l = pre ++ rest) ->
  element i (cycle_from l rest) = nth_error l ((length l - length rest + i) mod length l).
Proof.
  intros NE i. assert (L : (length l <> 0)%nat) by (destruct l; [congruence|discriminate]).
  induction i as [|i IH]; intros rest (pre & P); rewrite cycle_eq.
  - destruct rest as [|x rest].
    + destruct l as [|y l]; [congruence|]. cbn [element]. rewrite Nat.add_0_r. cbn [length] in *. rewrite Nat.sub_0_r, Nat.mod_same by lia. reflexivity.
    + cbn [element]. rewrite P, app_length. cbn [length]. rewrite Nat.mod_small by lia.
      replace (length pre + S (length rest) - S (length rest) + 0)%nat with (length pre) by lia.
      rewrite nth_error_app2 by lia. now rewrite Nat.sub_diag.
  - destruct rest as [|x rest].
    + destruct l as [|y t]; [congruence|]. cbn [element]. rewrite (IH t) by (exists [y]; reflexivity).
      f_equal. cbn [length] in *. replace (S (length t) - length t + i)%nat with (S i) by lia.
      replace (S (length t) - 0 + S i)%nat with (S i + 1 * S (length t))%nat by lia. now rewrite Nat.mod_add by lia.
    + cbn [element]. rewrite (IH rest) by (exists (pre ++ [x]); rewrite <- app_assoc; exact P).
      f_equal. f_equal. rewrite P, app_length. cbn [length]. lia.
Qed.
