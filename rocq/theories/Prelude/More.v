(** Lemmas about windows, matrices, groups and infinite lists. *)
From Coq Require Import ZArith List Bool Permutation Sorting.Sorted Lia Arith.
From Verif Require Import Prelude.Model Prelude.Spec Prelude.Proofs.
Import ListNotations.
Open Scope Z_scope.

Lemma flip_weak {A} (lt : A -> A -> bool) : strict_weak lt -> strict_weak (fun x y => lt y x).
Proof.
  intros [I T N]. constructor; [exact I|intros x y z H1 H2; exact (T _ _ _ H2 H1)|intros x y z H1 H2; exact (N _ _ _ H2 H1)].
Qed.
Lemma max_by_foldl {A K} (lt : K -> K -> bool) (f : A -> K) : strict_weak lt -> forall l seen before m after,
  seen = before ++ m :: after -> (forall x, In x before -> lt (f x) (f m) = true) ->
  (forall x, In x seen -> lt (f m) (f x) = false) ->
  exists m' before' after',
    foldl (fun acc x => let v := f x in if lt (snd acc) v then (x, v) else acc) (m, f m) l = (m', f m')
    /\ seen ++ l = before' ++ m' :: after' /\ (forall x, In x before' -> lt (f x) (f m') = true)
    /\ (forall x, In x (seen ++ l) -> lt (f m') (f x) = false).
Proof.
  intro W. induction l as [|x l IH]; intros seen before m after E B M; cbn [foldl snd].
  - exists m, before, after. rewrite app_nil_r. auto.
  - cbv zeta. destruct (lt (f m) (f x)) eqn:L.
    + destruct (IH (seen ++ [x]) seen x []) as (m' & b' & a' & H1 & H2 & H3 & H4); auto.
      * intros y Hy. destruct (lt (f y) (f x)) eqn:E2; [reflexivity|].
        pose proof (not_transitive _ W _ _ _ (M y Hy) E2). congruence.
      * intros y Hy. apply in_app_or in Hy. destruct Hy as [Hy|[<-|[]]]; [|apply (irreflexive _ W)].
        apply (lt_not_le lt W (f y) (f x) (f x)).
        -- destruct (lt (f y) (f x)) eqn:E2; [reflexivity|]. pose proof (not_transitive _ W _ _ _ (M y Hy) E2). congruence.
        -- apply (irreflexive _ W).
      * exists m', b', a'. rewrite <- app_assoc in H2, H4. auto.
    + destruct (IH (seen ++ [x]) before m (after ++ [x])) as (m' & b' & a' & H1 & H2 & H3 & H4); auto.
      * subst seen. now rewrite <- app_assoc.
      * intros y Hy. apply in_app_or in Hy. destruct Hy as [Hy|[<-|[]]]; auto.
      * exists m', b', a'. rewrite <- app_assoc in H2, H4. auto.
Qed.

(** Windows. *)
Lemma skipn_twice {A} (l : list A) : forall a b, skipn a (skipn b l) = skipn (b + a) l.
Proof.
  induction l as [|x l IH]; intros a b; [now rewrite !skipn_nil|]. destruct b; [reflexivity|]. cbn [skipn Nat.add]. apply IH.
Qed.
Lemma take_nat {A} n (l : list A) : take (Z.of_nat n) l = firstn n l.
Proof. rewrite take_std by lia. now rewrite Nat2Z.id. Qed.
Lemma drop_nat {A} n (l : list A) : drop (Z.of_nat n) l = if Nat.leb n (length l) then Some (skipn n l) else None.
Proof.
  rewrite drop_std by lia. rewrite Nat2Z.id.
  destruct (Z.leb_spec (Z.of_nat n) (Z.of_nat (length l))), (Nat.leb_spec n (length l)); auto; lia.
Qed.
Lemma enough {A} n (l : list A) : (Z.of_nat n <=? count (firstn n l)) = Nat.leb n (length l).
Proof.
  rewrite count_std, firstn_length.
  destruct (Z.leb_spec (Z.of_nat n) (Z.of_nat (Nat.min n (length l)))), (Nat.leb_spec n (length l)); auto; lia.
Qed.
Lemma windows_next {A} n step (l : list A) ws len :
  length l = len -> (n <= len)%nat -> (step <= len)%nat ->
  windows_of n step (fun s => (s + n <= len - step)%nat) (skipn step l) ws ->
  windows_of n step (fun s => (s + n <= len)%nat) l (firstn n l :: ws).
Proof.
  intros L Hn Hs W [|i]; cbn [nth_error].
  - left. split; [lia|]. unfold window_at. reflexivity.
  - destruct (W i) as [[H1 H2]|[H1 H2]]; [left|right]; split; try lia; rewrite H2; [|reflexivity].
    unfold window_at. rewrite skipn_twice. do 3 f_equal.
Qed.
Lemma window_gives {A} n step : (1 <= n)%nat -> (1 <= step)%nat -> forall fuel (l : list A),
  (length l < fuel)%nat -> (forall i, (i * step + n <= length l -> S i * step <= length l)%nat) ->
  exists ws, gives (window fuel (Z.of_nat n) (Z.of_nat step) l) ws
             /\ windows_of n step (fun s => (s + n <= length l)%nat) l ws.
Proof.
  intros Hn Hs. induction fuel as [|fuel IH]; intros l Hl Hok; [lia|]. cbn [window].
  rewrite take_nat, enough, drop_nat. destruct (Nat.leb_spec n (length l)) as [Hle|Hgt].
  - pose proof (Hok 0%nat) as H0. cbn [Nat.mul Nat.add] in H0. specialize (H0 Hle).
    destruct (Nat.leb_spec step (length l)); [|lia].
    destruct (IH (skipn step l)) as (ws & G & W).
    + rewrite skipn_length. lia.
    + intros i Hi. rewrite skipn_length in *. pose proof (Hok (S i)). cbn [Nat.mul] in *. lia.
    + exists (firstn n l :: ws). split; [now constructor|].
      apply (windows_next n step l ws (length l)); auto. now rewrite skipn_length in W.
  - exists []. split; [constructor|]. intro i. right. split; [lia|]. destruct i; reflexivity.
Qed.
Lemma window_fails {A} n step : (1 <= n)%nat -> (1 <= step)%nat -> forall fuel (l : list A),
  (length l < fuel)%nat -> (exists i, i * step + n <= length l /\ length l < S i * step)%nat ->
  exists ws, fails_after (window fuel (Z.of_nat n) (Z.of_nat step) l) ws
             /\ windows_of n step (fun s => (s + n <= length l)%nat) l ws.
Proof.
  intros Hn Hs. induction fuel as [|fuel IH]; intros l Hl (i & H1 & H2); [lia|]. cbn [window].
  rewrite take_nat, enough, drop_nat. destruct (Nat.leb_spec n (length l)) as [Hle|Hgt]; [|lia].
  destruct (Nat.leb_spec step (length l)) as [Hle2|Hgt2].
  - destruct (IH (skipn step l)) as (ws & G & W).
    + rewrite skipn_length. lia.
    + rewrite skipn_length. destruct i as [|i]; [lia|]. exists i. cbn [Nat.mul] in *. lia.
    + exists (firstn n l :: ws). split; [now constructor|].
      apply (windows_next n step l ws (length l)); auto. now rewrite skipn_length in W.
  - exists [firstn n l]. split; [repeat constructor|]. intros [|j]; cbn [nth_error].
    + left. split; [lia|]. reflexivity.
    + right. split; [cbn [Nat.mul]; lia|destruct j; reflexivity].
Qed.
Lemma window_all_gives {A} n step : (1 <= n)%nat -> (1 <= step)%nat -> forall fuel (l : list A),
  (length l < fuel)%nat ->
  exists ws, gives (window_all fuel (Z.of_nat n) (Z.of_nat step) l) ws
             /\ windows_of n step (fun s => (s < length l)%nat) l ws.
Proof.
  intros Hn Hs. induction fuel as [|fuel IH]; intros l Hl; [lia|]. cbn [window_all].
  rewrite take_nat. destruct l as [|x l].
  - rewrite firstn_nil. exists []. split; [constructor|]. intro i. right. cbn [length]. split; [lia|]. destruct i; reflexivity.
  - destruct n as [|n]; [lia|]. cbn [firstn]. rewrite count_std, drop_nat.
    set (L := x :: l) in *. change (x :: firstn n l) with (firstn (S n) L).
    assert (HL : (1 <= length L)%nat) by (unfold L; cbn [length]; lia).
    assert (E : (if Z.of_nat (length L) <=? Z.of_nat step then Some [] else if (step <=? length L)%nat then Some (skipn step L) else None) = Some (skipn step L)).
    { destruct (Z.leb_spec (Z.of_nat (length L)) (Z.of_nat step)).
      - now rewrite skipn_all2 by lia.
      - destruct (Nat.leb_spec step (length L)); [reflexivity|lia]. }
    rewrite E. clear E. destruct (IH (skipn step L)) as (ws & G & W); [rewrite skipn_length; lia|].
    exists (firstn (S n) L :: ws). split; [now constructor|]. intros [|i]; cbn [nth_error].
    + left. split; [lia|]. reflexivity.
    + destruct (W i) as [[H1 H2]|[H1 H2]]; rewrite skipn_length in H1; [left|right]; split; try lia; rewrite H2; [|reflexivity].
      unfold window_at. rewrite skipn_twice. do 3 f_equal.
Qed.
Lemma partition_all_gives {A} n : (1 <= n)%nat -> forall fuel (l : list A) ws,
  gives (partition_all fuel (Z.of_nat n) l) ws -> List.concat ws = l.
Proof.
  intro Hn. unfold partition_all. induction fuel as [|fuel IH]; intros l ws G; cbn [window_all] in G; [inversion G|].
  rewrite take_nat in G. destruct l as [|x l].
  - rewrite firstn_nil in G. inversion G. reflexivity.
  - destruct n as [|n]; [lia|]. cbn [firstn] in G. rewrite count_std, drop_nat in G.
    set (L := x :: l) in *. change (x :: firstn n l) with (firstn (S n) L) in G.
    assert (E : (if Z.of_nat (length L) <=? Z.of_nat (S n) then Some [] else if (S n <=? length L)%nat then Some (skipn (S n) L) else None) = Some (skipn (S n) L)).
    { destruct (Z.leb_spec (Z.of_nat (length L)) (Z.of_nat (S n))).
      - now rewrite skipn_all2 by lia.
      - destruct (Nat.leb_spec (S n) (length L)); [reflexivity|lia]. }
    rewrite E in G. inversion G as [|y r t G' E1 E2]. subst. cbn [List.concat]. rewrite (IH _ _ G').
    exact (firstn_skipn (S n) L).
Qed.
Lemma partition_gives {A} n : (1 <= n)%nat -> forall fuel (l : list A) ws,
  gives (partition fuel (Z.of_nat n) l) ws -> exists rest, l = List.concat ws ++ rest /\ (length rest < n)%nat
    /\ forall w, In w ws -> length w = n.
Proof.
  intro Hn. unfold partition. induction fuel as [|fuel IH]; intros l ws G; cbn [window] in G; [inversion G|].
  rewrite take_nat, enough, drop_nat in G. destruct (Nat.leb_spec n (length l)).
  - inversion G as [|y r t G' E1 E2]. subst. destruct (IH _ _ G') as (rest & E & Hr & Hw). exists rest. repeat split; auto.
    + cbn [List.concat]. rewrite <- app_assoc, <- E. symmetry. apply firstn_skipn.
    + intros w [<-|Hin]; [|auto]. rewrite firstn_length. lia.
  - inversion G. subst. exists l. repeat split; auto. intros w [].
Qed.
Lemma window_stuck {A} n (l : list A) : (n <= length l)%nat -> forall fuel,
  begins (window fuel (Z.of_nat n) 0 l) (List.repeat (firstn n l) fuel).
Proof.
  intro H. induction fuel as [|fuel IH]; [constructor|]. cbn [window List.repeat]. rewrite take_nat, enough, drop_eq.
  destruct (Nat.leb_spec n (length l)); [|lia]. cbn [Z.eqb]. now constructor.
Qed.
Lemma pairs_gives {A B} (f : A -> A -> B) : forall fuel l, (length l < fuel)%nat ->
  gives (over_sliding_pairs fuel f l) (List.map (fun p => f (fst p) (snd p)) (combine l (tl l))).
Proof.
  unfold over_sliding_pairs. induction fuel as [|fuel IH]; intros l H; [lia|]. cbn [window].
  change 2 with (Z.of_nat 2). change 1 with (Z.of_nat 1). rewrite take_nat, enough, drop_nat.
  destruct l as [|x [|y l]]; cbn [length] in *; cbn [Nat.leb firstn].
  - constructor.
  - constructor.
  - cbn [skipn map_produced apply_pair tl combine List.map fst snd]. constructor. apply (IH (y :: l)). cbn [length]. lia.
Qed.

(** Matrices. *)
Lemma each_some {X Y} (f : X -> option Y) (l : list X) : (forall x, In x l -> f x <> None) ->
  exists ys, each f l = Some ys /\ length ys = length l /\ forall i, nth_error ys i = match nth_error l i with Some x => f x | None => None end.
Proof.
  induction l as [|x l IH]; intro H; cbn [each].
  - exists []. repeat split. intro i. destruct i; reflexivity.
  - destruct IH as (ys & -> & L & N); [auto using in_cons|]. destruct (f x) as [y|] eqn:E; [|exfalso; apply (H x); auto using in_eq].
    exists (y :: ys). cbn [length]. repeat split; [congruence|]. intros [|i]; cbn [nth_error]; auto.
Qed.
Lemma transpose_aux_cells {A} (first : list A) : forall rest, matrix (length first) rest ->
  exists cols, transpose_aux first rest = Some cols /\ length cols = length first /\ matrix (S (length rest)) cols
    /\ forall i j, cell cols j i = cell (first :: rest) i j.
Proof.
  induction first as [|x first IH]; intros rest M; cbn [transpose_aux].
  - exists []. repeat split; [intros r []|]. intros i j. unfold cell. replace (nth_error (@nil (list A)) j) with (@None (list A)) by (destruct j; reflexivity).
    destruct i as [|i]; cbn [nth_error]; [destruct j; reflexivity|].
    destruct (nth_error rest i) eqn:E; [|reflexivity]. apply nth_error_In, M in E. destruct l; [destruct j; reflexivity|discriminate].
  - assert (NE : forall r, In r rest -> exists y t, r = y :: t /\ length t = length first).
    { intros r Hr. pose proof (M r Hr) as L. destruct r as [|y t]; [discriminate|]. exists y, t. cbn [length] in L. split; [reflexivity|lia]. }
    destruct (each_some (@head A) rest) as (hs & -> & Lh & Nh).
    { intros r Hr. destruct (NE r Hr) as (y & t & -> & _). discriminate. }
    destruct (each_some (@tail A) rest) as (ts & -> & Lt & Nt).
    { intros r Hr. destruct (NE r Hr) as (y & t & -> & _). discriminate. }
    destruct (IH ts) as (cols & -> & L & Mc & C).
    { intros t Ht. apply In_nth_error in Ht. destruct Ht as [i Hi]. rewrite Nt in Hi.
      destruct (nth_error rest i) as [r|] eqn:E; [|discriminate]. apply nth_error_In, NE in E. destruct E as (y & t' & -> & Hl). cbn in Hi. congruence. }
    exists ((x :: hs) :: cols). cbn [option_map length]. split; [reflexivity|]. split; [congruence|]. split.
    + intros r [<-|Hr]; [cbn [length]; congruence|]. rewrite (Mc r Hr), Lt. reflexivity.
    + intros i [|j].
      * unfold cell. cbn [nth_error]. destruct i as [|i]; cbn [nth_error]; [reflexivity|]. rewrite Nh.
        destruct (nth_error rest i) as [[|y t]|]; reflexivity.
      * unfold cell at 1. cbn [nth_error]. fold (cell cols j i). rewrite C. unfold cell. destruct i as [|i]; cbn [nth_error]; [reflexivity|].
        rewrite Nt. destruct (nth_error rest i) as [[|y t]|]; cbn [tail]; auto.
Qed.
Lemma list_ext {A} (a b : list A) : (forall i, nth_error a i = nth_error b i) -> a = b.
Proof.
  revert b. induction a as [|x a IH]; intros [|y b] H; auto.
  - specialize (H 0%nat). discriminate.
  - specialize (H 0%nat). discriminate.
  - pose proof (H 0%nat) as H0. injection H0 as ->. f_equal. apply IH. intro i. exact (H (S i)).
Qed.
Lemma matrix_ext {A} n (a b : list (list A)) : matrix n a -> matrix n b -> length a = length b ->
  (forall i j, cell a i j = cell b i j) -> a = b.
Proof.
  revert b. induction a as [|x a IH]; intros [|y b] Ma Mb L C; try discriminate; auto.
  f_equal.
  - apply list_ext. exact (C 0%nat).
  - apply IH.
    + intros r Hr. apply Ma. now right.
    + intros r Hr. apply Mb. now right.
    + now injection L.
    + intros i j. exact (C (S i) j).
Qed.
