(** Proofs about the order of parameters. *)
From Coq Require Import String Ascii List Bool Arith NArith ZArith Permutation Sorted Lia.
From Coq Require Import DecimalString DecimalN DecimalZ DecimalFacts.
From Verif.Scope Require Import Model.
From Verif.Simplify Require Import Compress.
From Verif.Cook Require Import Model Spec.
Import ListNotations.
Local Open Scope string_scope.
Local Open Scope list_scope.
Local Open Scope nat_scope.

(** ** Names *)
Lemma show_uint_inj : forall a b, NilZero.string_of_uint (N.to_uint a) = NilZero.string_of_uint (N.to_uint b) -> a = b.
Proof.
  intros a b E.
  assert (H : forall n, NilZero.uint_of_string (NilZero.string_of_uint (N.to_uint n)) = Some (N.to_uint n)).
  { intros n. apply NilZero.usu. destruct n as [|p]; [discriminate|]. cbn. apply DecimalPos.Unsigned.to_uint_nonnil. }
  pose proof (H a) as Ha. rewrite E, (H b) in Ha. injection Ha as Ha.
  rewrite <- (Unsigned.of_to a), <- (Unsigned.of_to b). congruence.
Qed.
Lemma show_int_inj : forall a b, show_int a = show_int b -> a = b.
Proof.
  unfold show_int. intros a b E.
  assert (H : forall n, NilZero.int_of_string (NilZero.string_of_int (Z.to_int n)) = Some (Z.to_int n)).
  { intros n. apply NilZero.isi; destruct n; cbn; try discriminate; intros K; injection K as K;
      exact (DecimalPos.Unsigned.to_uint_nonnil _ K). }
  pose proof (H a) as Ha. rewrite E, (H b) in Ha. injection Ha as Ha.
  rewrite <- (of_to a), <- (of_to b). congruence.
Qed.
Lemma append_inj_r : forall c (a b : string), (a ++ String c EmptyString = b ++ String c EmptyString)%string -> a = b.
Proof.
  intros c. induction a as [|x a IH]; intros [|y b] E; cbn in E; auto.
  - injection E as E1 E2. destruct b; discriminate.
  - injection E as E1 E2. destruct a; discriminate.
  - injection E as -> E. f_equal. auto.
Qed.
Lemma show_smid_inj : forall a b, show_smid a = show_smid b -> a = b.
Proof.
  assert (Q : forall p, NilZero.string_of_uint (N.to_uint (Npos p)) <> "?").
  { intros p E. assert (K := NilZero.usu (N.to_uint (Npos p)) (DecimalPos.Unsigned.to_uint_nonnil p)). rewrite E in K. discriminate K. }
  intros a b. unfold show_smid.
  destruct (N.eqb_spec a 0) as [->|Ha], (N.eqb_spec b 0) as [->|Hb]; auto; intros E.
  - destruct b; [congruence|]. injection E as E. change "?]"%string with ("?" ++ "]")%string in E. apply append_inj_r in E. symmetry in E. apply Q in E. contradiction.
  - destruct a; [congruence|]. injection E as E. change "?]"%string with ("?" ++ "]")%string in E. apply append_inj_r in E. apply Q in E. contradiction.
  - injection E as E. apply append_inj_r in E. apply show_uint_inj. exact E.
Qed.
Lemma show_anaphor_inj : forall a b, show_anaphor a = show_anaphor b -> a = b.
Proof.
  intros [s|m|s []] [t|n|t []] E; try discriminate E.
  - injection E as E. apply show_smid_inj in E. congruence.
  - injection E as E. apply show_int_inj in E. congruence.
  - injection E as E. apply show_smid_inj in E. congruence.
  - injection E as E. apply show_smid_inj in E. congruence.
Qed.
Lemma expr_name_inj : forall a b, expr_name a = expr_name b -> a = b.
Proof. intros a b E. injection E as E. apply show_anaphor_inj. exact E. Qed.
Lemma block_name_inj : forall a b, block_name a = block_name b -> a = b.
Proof. intros a b E. injection E as E. apply show_anaphor_inj. exact E. Qed.
Lemma gap_name_inj : forall i j, gap_name i = gap_name j -> i = j.
Proof. intros i j E. injection E as E. apply show_int_inj in E. lia. Qed.

(** ** Equality and order *)
Lemma anaphor_eqb_spec : forall a b, reflect (a = b) (anaphor_eqb a b).
Proof.
  intros [s|m|s x] [t|n|t y]; cbn; try (constructor; discriminate).
  - destruct (N.eqb_spec s t); constructor; congruence.
  - destruct (Z.eqb_spec m n); constructor; congruence.
  - destruct (N.eqb_spec s t), x, y; cbn; constructor; congruence.
Qed.
Lemma get_in : forall m a name, NoDup (map fst m) -> (get m a = Some name <-> In (a, name) m).
Proof.
  induction m as [|[b x] m IH]; intros a name ND; cbn.
  - split; [discriminate|tauto].
  - inversion ND as [|? ? N1 N2]; subst. destruct (anaphor_eqb_spec a b) as [->|N].
    + split; [intros E; injection E as ->; auto|]. intros [E|E]; [congruence|]. exfalso. apply N1. apply (in_map fst) in E. exact E.
    + rewrite (IH a name N2). split; [auto|]. intros [E|E]; [congruence|auto].
Qed.
Lemma get_none : forall m a, get m a = None <-> ~ In a (map fst m).
Proof.
  induction m as [|[b x] m IH]; intros a; cbn; [tauto|].
  destruct (anaphor_eqb_spec a b) as [->|N]; [split; [discriminate|tauto]|].
  rewrite IH. intuition congruence.
Qed.

(** Numbers in increasing order too. *)
Definition before (a b : anaphor) : Prop :=
  earlier a b \/ exists m n, a = Numbered m /\ b = Numbered n /\ (m < n)%Z.
Lemma lt_before : forall a b, kind_of a = kind_of b -> (anaphor_lt a b = true <-> before a b).
Proof.
  unfold anaphor_lt, before. intros [s|m|s x] [t|n|t y] K; try discriminate K; cbn.
  - destruct (N.compare_spec s t) as [E|E|E]; split; try discriminate; auto; intros [H|(? & ? & ? & _)]; try discriminate; lia.
  - destruct (Z.compare_spec m n) as [E|E|E]; split; try discriminate; intros H.
    + destruct H as [[]|(? & ? & E1 & E2 & ?)]. injection E1 as <-. injection E2 as <-. lia.
    + right. eauto.
    + reflexivity.
    + destruct H as [[]|(? & ? & E1 & E2 & ?)]. injection E1 as <-. injection E2 as <-. lia.
  - destruct (N.compare_spec s t) as [E|E|E].
    + destruct x, y; cbn; split; auto; try discriminate; intros [[H|(_ & H1 & H2)]|(? & ? & ? & _)]; try discriminate; lia.
    + split; auto.
    + split; try discriminate. intros [[H|(H & _)]|(? & ? & ? & _)]; try discriminate; lia.
Qed.
Lemma before_trans : forall a b c, before a b -> before b c -> before a c.
Proof.
  unfold before. intros a b c [H|(m & n & -> & -> & H)] [K|(m' & n' & E1 & -> & K)].
  - left. destruct a as [s|?|s x], b as [t|?|t y]; cbn in H; try contradiction; destruct c as [u|?|u z]; cbn in *; try contradiction.
    + lia.
    + destruct H as [H|(-> & -> & ->)], K as [K|(-> & K1 & K2)]; try (left; lia). discriminate K1.
  - subst b. destruct a; destruct H.
  - destruct c; destruct K.
  - injection E1 as <-. right. exists m, n'. repeat split; auto. lia.
Qed.
Lemma before_irrefl : forall a, ~ before a a.
Proof.
  intros [s|n|s x] [H|(m & k & E1 & E2 & H)]; cbn in *; try discriminate; try lia.
  - injection E1 as ->. injection E2 as ->. lia.
  - destruct H as [H|(_ & -> & H)]; [lia|discriminate].
Qed.
Lemma before_total : forall a b, kind_of a = kind_of b -> a = b \/ before a b \/ before b a.
Proof.
  unfold before. intros [s|m|s x] [t|n|t y] K; try discriminate K; cbn.
  - destruct (N.lt_trichotomy s t) as [H|[->|H]]; auto.
  - destruct (Z.lt_trichotomy m n) as [H|[->|H]]; auto; right; [left|right]; right; eauto.
  - destruct (N.lt_trichotomy s t) as [H|[->|H]]; auto. destruct x, y; auto 8.
Qed.
Lemma before_kind : forall a b, before a b -> kind_of a = kind_of b.
Proof. intros [] [] [H|(? & ? & H1 & H2 & _)]; cbn in *; try contradiction; try discriminate; auto. Qed.

Lemma insert_perm : forall x l, Permutation (insert x l) (x :: l).
Proof.
  induction l as [|y l IH]; cbn; auto. destruct (anaphor_lt y x); auto.
  rewrite IH. constructor.
Qed.
Lemma sort_perm : forall l, Permutation (sort l) l.
Proof. induction l as [|x l IH]; cbn; auto. rewrite insert_perm. auto. Qed.
Lemma insert_sorted : forall x l, (forall y, In y l -> kind_of y = kind_of x) -> ~ In x l ->
  StronglySorted before l -> StronglySorted before (insert x l).
Proof.
  induction l as [|y l IH]; intros K N S; cbn; [repeat constructor|].
  inversion S as [|? ? S1 S2]; subst. destruct (anaphor_lt y x) eqn:E.
  - apply lt_before in E; [|apply K; left; auto]. constructor.
    + apply IH; auto. intros z Hz. apply K. right; auto. intros Hx. apply N. right; auto.
    + rewrite Forall_forall in *. intros z Hz. apply (Permutation_in _ (insert_perm x l)) in Hz. destruct Hz as [<-|Hz]; auto.
  - assert (B : before x y).
    { destruct (before_total x y) as [->|[H|H]]; auto.
      - symmetry. apply K. left; auto.
      - exfalso. apply N. left; auto.
      - apply lt_before in H; [congruence|]. apply K. left; auto. }
    constructor; [exact S|]. constructor; auto. rewrite Forall_forall in *. intros z Hz. eapply before_trans; eauto.
Qed.
Lemma sort_sorted : forall l k, (forall y, In y l -> kind_of y = k) -> NoDup l -> StronglySorted before (sort l).
Proof.
  induction l as [|x l IH]; intros k K ND; cbn; [constructor|]. inversion ND as [|? ? N1 N2]; subst.
  apply insert_sorted.
  - intros y Hy. apply (Permutation_in _ (sort_perm l)) in Hy. rewrite (K x), (K y); auto. right; auto. left; auto.
  - intros H. apply (Permutation_in _ (sort_perm l)) in H. contradiction.
  - apply (IH k); auto. intros y Hy. apply K. right; auto.
Qed.
Lemma sorted_unique : forall l l', StronglySorted before l -> StronglySorted before l' -> Permutation l l' -> l = l'.
Proof.
  induction l as [|x l IH]; intros l' S S' P.
  - apply Permutation_nil in P. auto.
  - destruct l' as [|y l']; [apply Permutation_sym, Permutation_nil in P; discriminate|].
    inversion S as [|? ? S1 S2]; inversion S' as [|? ? S1' S2']; subst. rewrite Forall_forall in *.
    assert (E : x = y).
    { assert (Hx : In x (y :: l')) by (apply (Permutation_in _ P); left; auto).
      assert (Hy : In y (x :: l)) by (apply (Permutation_in _ (Permutation_sym P)); left; auto).
      destruct Hx as [->|Hx]; auto. destruct Hy as [->|Hy]; auto. exfalso.
      apply (before_irrefl x). eapply before_trans; [apply S2, Hy|apply S2', Hx]. }
    subst y. f_equal. apply IH; auto. eapply Permutation_cons_inv; eauto.
Qed.

(** ** Collecting the names *)
Lemma collect_get : forall m order, NoDup (map fst m) -> (forall p, In p order -> In p m) ->
  collect (map (fun a => of_opt (get m a)) (map fst order)) = Done (map snd order).
Proof.
  intros m order ND. induction order as [|[a x] order IH]; intros H; [reflexivity|]. cbn [map fst snd collect].
  rewrite (proj2 (get_in m a x ND)); [|apply H; left; auto]. cbn [of_opt obind]. rewrite IH; [reflexivity|].
  intros p Hp. apply H. right; auto.
Qed.
Lemma filter_all : forall {A} (f : A -> bool) l, (forall x, In x l -> f x = true) -> filter f l = l.
Proof. induction l as [|x l IH]; intros H; cbn; auto. rewrite (H x), IH; auto. intros y Hy. apply H. right; auto. left; auto. Qed.
Lemma filter_none : forall {A} (f : A -> bool) l, (forall x, In x l -> f x = false) -> filter f l = [].
Proof. induction l as [|x l IH]; intros H; cbn; auto. rewrite (H x), IH; auto. intros y Hy. apply H. right; auto. left; auto. Qed.
Lemma sort_nonempty : forall l, nonempty (sort l) = nonempty l.
Proof.
  intros [|x l]; [reflexivity|]. assert (P := sort_perm (x :: l)). destruct (sort (x :: l)); [|reflexivity].
  apply Permutation_nil in P. discriminate.
Qed.
Lemma nonempty_filter : forall {A} (f : A -> bool) l, nonempty (filter f l) = existsb f l.
Proof. induction l as [|x l IH]; cbn; auto. destruct (f x); auto. Qed.

Section One.
  Variable m : pending.
  Hypothesis ND : NoDup (map fst m).
  Hypothesis NE : m <> [].

  Lemma order_exists : forall k, (forall a, In a (map fst m) -> kind_of a = k) ->
    exists order, map fst order = sort (map fst m) /\ Permutation order m /\
      StronglySorted (fun p q => before (fst p) (fst q)) order.
  Proof.
    intros k K. destruct (Permutation_map_inv fst m (sort_perm (map fst m))) as (order & E & P).
    exists order. split; [auto|]. split; [apply Permutation_sym; auto|].
    assert (S := sort_sorted _ k K ND). rewrite E in S. clear - S. induction order as [|p l IH]; [constructor|].
    inversion S as [|? ? S1 S2]; subst. constructor; auto. apply (proj1 (Forall_map fst _ l) S2).
  Qed.

  Lemma pattern_anonymous : all_anonymous (map fst m) -> exists order, Permutation order m /\
    StronglySorted (fun p q => earlier (fst p) (fst q)) order /\ to_binding_pattern m = Done (map snd order).
  Proof.
    intros H. destruct (order_exists 0) as (order & E & P & S). { intros a Ha. destruct (H a Ha) as (s & ->). reflexivity. }
    exists order. split; [auto|]. split.
    - assert (F : forall p, In p order -> exists s, fst p = Anonymous s).
      { intros p Hp. apply H. apply in_map. eapply Permutation_in; eauto. }
      clear - S F. induction S as [|p l S IH Fl]; constructor.
      + apply IH. intros q Hq. apply F. right; auto.
      + rewrite Forall_forall in *. intros q Hq. specialize (Fl q Hq). destruct Fl as [K|(x & y & K & _)]; auto.
        destruct (F p) as (s & Es); [left; auto|]. congruence.
    - unfold to_binding_pattern. cbv zeta. rewrite (filter_all is_anonymous), (filter_none is_numbered), (filter_none is_implicit).
      + cbn [sort fold_right nonempty Nat.b2n]. rewrite sort_nonempty.
        assert (NE' : nonempty (map fst m) = true) by (destruct m; [congruence|reflexivity]). rewrite NE'. cbn.
        rewrite <- E. apply collect_get; auto. intros p. apply Permutation_in. auto.
      + intros a Ha. destruct (H a Ha) as (s & ->). reflexivity.
      + intros a Ha. destruct (H a Ha) as (s & ->). reflexivity.
      + intros a Ha. destruct (H a Ha) as (s & ->). reflexivity.
  Qed.
  Lemma pattern_implicit : all_implicit (map fst m) -> exists order, Permutation order m /\
    StronglySorted (fun p q => earlier (fst p) (fst q)) order /\ to_binding_pattern m = Done (map snd order).
  Proof.
    intros H. destruct (order_exists 2) as (order & E & P & S). { intros a Ha. destruct (H a Ha) as (s & x & ->). reflexivity. }
    exists order. split; [auto|]. split.
    - assert (F : forall p, In p order -> exists s x, fst p = Implicit s x).
      { intros p Hp. apply H. apply in_map. eapply Permutation_in; eauto. }
      clear - S F. induction S as [|p l S IH Fl]; constructor.
      + apply IH. intros q Hq. apply F. right; auto.
      + rewrite Forall_forall in *. intros q Hq. specialize (Fl q Hq). destruct Fl as [K|(x & y & K & _)]; auto.
        destruct (F p) as (s & z & Es); [left; auto|]. congruence.
    - unfold to_binding_pattern. cbv zeta. rewrite (filter_none is_anonymous), (filter_none is_numbered), (filter_all is_implicit).
      + cbn [sort fold_right nonempty Nat.b2n]. rewrite sort_nonempty.
        assert (NE' : nonempty (map fst m) = true) by (destruct m; [congruence|reflexivity]). rewrite NE'. cbn.
        rewrite <- E. apply collect_get; auto. intros p. apply Permutation_in. auto.
      + intros a Ha. destruct (H a Ha) as (s & x & ->). reflexivity.
      + intros a Ha. destruct (H a Ha) as (s & x & ->). reflexivity.
      + intros a Ha. destruct (H a Ha) as (s & x & ->). reflexivity.
  Qed.
End One.

(** ** Numbered anaphora *)
Lemma set_nth_ok : forall {A} (v : list A) i x, i < List.length v -> exists v', set_nth v i x = Done v' /\
  List.length v' = List.length v /\ (forall j, nth_error v' j = if j =? i then Some x else nth_error v j).
Proof.
  induction v as [|y v IH]; intros i x L; cbn in L; [lia|]. destruct i as [|i]; cbn [set_nth].
  - eexists. repeat split. intros [|j]; reflexivity.
  - destruct (IH i x) as (v' & E & Lv & N); [lia|]. rewrite E. cbn. eexists. split; [reflexivity|]. cbn. split; [lia|].
    intros [|j]; cbn; auto.
Qed.
Lemma place_ok : forall m ns v, (forall n, In n ns -> (0 <= n)%Z /\ Z.to_nat n < List.length v /\ exists x, get m (Numbered n) = Some x) ->
  exists v', place m ns v = Done v' /\ List.length v' = List.length v /\
    (forall j, (In (Z.of_nat j) ns -> nth_error v' j = Some (get m (Numbered (Z.of_nat j)))) /\
               (~ In (Z.of_nat j) ns -> nth_error v' j = nth_error v j)).
Proof.
  induction ns as [|n ns IH]; intros v H; cbn [place].
  - exists v. split; [reflexivity|]. split; [reflexivity|]. intros j. split; [intros []|auto].
  - destruct (H n) as (Hn & Ln & x & G); [left; auto|]. destruct (Z.ltb_spec n 0); [lia|]. rewrite G. cbn [of_opt obind].
    destruct (set_nth_ok v (Z.to_nat n) (Some x) Ln) as (v1 & -> & L1 & N1). cbn [obind].
    destruct (IH v1) as (v2 & -> & L2 & N2). { intros k Hk. rewrite L1. apply H. right; auto. }
    exists v2. split; [reflexivity|]. split; [congruence|]. intros j. destruct (N2 j) as (A & B). split.
    + intros Hj. destruct (in_dec Z.eq_dec (Z.of_nat j) ns) as [I|I]; [auto|]. destruct Hj as [E|E]; [|contradiction].
      rewrite (B I), N1. assert (E' : j = Z.to_nat n) by lia. rewrite E', Nat.eqb_refl. rewrite Z2Nat.id; auto. congruence.
    + intros Hj. rewrite B; [|intros K; apply Hj; right; auto]. rewrite N1. destruct (Nat.eqb_spec j (Z.to_nat n)); auto.
      exfalso. apply Hj. left. lia.
Qed.
Lemma name_gaps_nth : forall v i j, nth_error (name_gaps i v) j =
  option_map (fun x => match x with Some n => n | None => gap_name (i + j) end) (nth_error v j).
Proof.
  induction v as [|x v IH]; intros i [|j]; cbn [name_gaps nth_error option_map]; auto.
  - rewrite Nat.add_0_r. reflexivity.
  - rewrite IH. replace (i + S j) with (S i + j) by lia. reflexivity.
Qed.
Lemma name_gaps_length : forall v i, List.length (name_gaps i v) = List.length v.
Proof. induction v as [|x v IH]; intros i; cbn; auto. Qed.
Lemma max_fold : forall l x, (x <= fold_left Z.max l x)%Z /\ (forall y, In y l -> (y <= fold_left Z.max l x)%Z) /\
  (fold_left Z.max l x = x \/ In (fold_left Z.max l x) l).
Proof.
  induction l as [|z l IH]; intros x; cbn; [split; [lia|]; split; [intros ? []|auto]|].
  destruct (IH (Z.max x z)) as (A & B & C). split; [lia|]. split.
  - intros y [<-|Hy]; [lia|auto].
  - destruct C as [C|C]; [|auto]. rewrite C. destruct (Z.max_spec x z) as [[_ ->]|[_ ->]]; auto.
Qed.
Lemma maximum_ok : forall l, l <> [] -> exists x, maximum l = Some x /\ In x l /\ (forall y, In y l -> (y <= x)%Z).
Proof.
  intros [|x l] N; [congruence|]. cbn. destruct (max_fold l x) as (A & B & C). eexists. split; [reflexivity|]. split.
  - destruct C; auto.
  - intros y [<-|Hy]; auto.
Qed.
Lemma filter_map_number : forall l n, In n (filter_map number l) <-> In (Numbered n) l.
Proof.
  intros l n. unfold filter_map. rewrite in_flat_map. split.
  - intros ([s|k|s x] & H & K); cbn in K; try contradiction. destruct K as [->|[]]. auto.
  - intros H. exists (Numbered n). cbn. auto.
Qed.

Lemma pattern_numbered_eq : forall m, m <> [] -> (forall a, In a (map fst m) -> kind_of a = 1) ->
  to_binding_pattern m =
  match maximum (filter_map number (sort (map fst m))) with
  | None => Panic
  | Some max =>
      if (max <? 0)%Z then Panic
      else obind (place m (filter_map number (sort (map fst m))) (repeat None (Z.to_nat max + 1))) (fun v => Done (name_gaps 0 v))
  end.
Proof.
  intros m NE K. unfold to_binding_pattern. cbv zeta.
  assert (K' : forall a, In a (map fst m) -> exists n, a = Numbered n) by (intros [] H; specialize (K _ H); try discriminate; eauto).
  rewrite (filter_none is_anonymous), (filter_all is_numbered), (filter_none is_implicit);
    try (intros a Ha; destruct (K' a Ha) as (n & ->); reflexivity).
  cbn [sort fold_right nonempty Nat.b2n]. change (fold_right insert []) with sort. rewrite sort_nonempty.
  assert (NE' : nonempty (map fst m) = true) by (destruct m; [congruence|reflexivity]). rewrite NE'. reflexivity.
Qed.
Lemma pattern_numbered : forall m, NoDup (map fst m) -> m <> [] -> all_numbered (map fst m) ->
  exists ps, to_binding_pattern m = Done ps /\ documented m ps.
Proof.
  intros m ND NE H. rewrite pattern_numbered_eq; auto; [|intros a Ha; destruct (H a Ha) as (n & -> & _); reflexivity].
  set (ns := filter_map number (sort (map fst m))).
  assert (Hns : forall n, In n ns <-> In (Numbered n) (map fst m)).
  { intros n. unfold ns. rewrite filter_map_number. split; apply Permutation_in; [|apply Permutation_sym]; apply sort_perm. }
  assert (Hpos : forall n, In n ns -> (0 <= n)%Z).
  { intros n Hn. apply Hns in Hn. destruct (H _ Hn) as (k & E & ?). congruence. }
  destruct (maximum_ok ns) as (mx & -> & Hmx & Hle).
  { destruct m as [|[a x] m']; [congruence|]. destruct (H a) as (n & -> & _); [left; auto|].
    intros E. assert (K : In n ns) by (apply Hns; left; auto). rewrite E in K. destruct K. }
  destruct (Z.ltb_spec mx 0) as [K|_]; [specialize (Hpos _ Hmx); lia|].
  assert (G : forall n, In n ns -> exists x, get m (Numbered n) = Some x).
  { intros n Hn. destruct (get m (Numbered n)) eqn:E; eauto. apply get_none in E. apply Hns in Hn. contradiction. }
  destruct (place_ok m ns (repeat None (Z.to_nat mx + 1))) as (v & -> & L & P).
  { intros n Hn. split; [auto|]. split; [|auto]. rewrite repeat_length. specialize (Hle n Hn). specialize (Hpos n Hn). lia. }
  cbn [obind]. eexists. split; [reflexivity|]. apply doc_numbered with (max := Z.to_nat mx); auto.
  - rewrite Z2Nat.id by auto. apply Hns. auto.
  - rewrite name_gaps_length, L, repeat_length. lia.
  - intros i name Hi. rewrite name_gaps_nth. destruct (P i) as (A & _). rewrite A.
    + rewrite (proj2 (get_in m _ name ND) Hi). reflexivity.
    + apply Hns. apply (in_map fst) in Hi. exact Hi.
  - intros i Hi Ni. rewrite name_gaps_nth. destruct (P i) as (_ & B). rewrite B by (rewrite Hns; auto).
    rewrite (nth_error_repeat None) by lia. reflexivity.
Qed.
Lemma place_negative : forall m ns v, (exists n, In n ns /\ (n < 0)%Z) ->
  (forall n, In n ns -> (0 <= n)%Z -> Z.to_nat n < List.length v) -> (forall n, In n ns -> exists x, get m (Numbered n) = Some x) -> place m ns v = Panic.
Proof.
  induction ns as [|n ns IH]; intros v (k & Hk & Lk) Hv G; [destruct Hk|]. cbn [place].
  destruct (Z.ltb_spec n 0) as [Ln|Ln]; auto. destruct (G n) as (x & ->); [left; auto|]. cbn [of_opt obind].
  destruct (set_nth_ok v (Z.to_nat n) (Some x)) as (v' & -> & L & _). { apply Hv; [left|]; auto. }
  cbn [obind]. apply IH.
  - exists k. split; auto. destruct Hk as [->|Hk]; auto. lia.
  - intros j Hj. rewrite L. apply Hv. right; auto.
  - intros j Hj. apply G. right; auto.
Qed.
Lemma pattern_negative : forall m n, NoDup (map fst m) -> (forall a, In a (map fst m) -> kind_of a = 1) ->
  In (Numbered n) (map fst m) -> (n < 0)%Z -> to_binding_pattern m = Panic.
Proof.
  intros m n ND K Hn Ln. rewrite pattern_numbered_eq; auto; [|intros ->; destruct Hn].
  set (ns := filter_map number (sort (map fst m))).
  assert (Hns : forall n, In n ns <-> In (Numbered n) (map fst m)).
  { intros k. unfold ns. rewrite filter_map_number. split; apply Permutation_in; [|apply Permutation_sym]; apply sort_perm. }
  destruct (maximum_ok ns) as (mx & -> & Hmx & Hle). { intros E. apply Hns in Hn. rewrite E in Hn. destruct Hn. }
  destruct (Z.ltb_spec mx 0) as [_|Lm]; auto. rewrite place_negative; auto.
  - exists n. split; auto. apply Hns. auto.
  - intros k Hk Pk. rewrite repeat_length. specialize (Hle k Hk). lia.
  - intros k Hk. destruct (get m (Numbered k)) eqn:E; eauto. apply get_none in E. apply Hns in Hk. contradiction.
Qed.

(** ** Everything together *)
Lemma existsb_kind : forall (f : anaphor -> bool) k l, (forall a, f a = true <-> kind_of a = k) ->
  (existsb f l = true <-> exists a, In a l /\ kind_of a = k).
Proof.
  intros f k l F. rewrite existsb_exists. split; intros (a & H & E); exists a; split; auto; apply F; auto.
Qed.
Lemma kind_anon : forall a, is_anonymous a = true <-> kind_of a = 0.
Proof. intros []; cbn; split; congruence. Qed.
Lemma kind_num : forall a, is_numbered a = true <-> kind_of a = 1.
Proof. intros []; cbn; split; congruence. Qed.
Lemma kind_impl : forall a, is_implicit a = true <-> kind_of a = 2.
Proof. intros []; cbn; split; congruence. Qed.
Lemma pattern_mixed : forall m, mixed (map fst m) -> to_binding_pattern m = Error.
Proof.
  intros m (a & b & Ha & Hb & N). unfold to_binding_pattern. cbv zeta. rewrite !sort_nonempty, !nonempty_filter.
  assert (T : forall x, In x (map fst m) ->
    (kind_of x = 0 /\ existsb is_anonymous (map fst m) = true) \/ (kind_of x = 1 /\ existsb is_numbered (map fst m) = true) \/
    (kind_of x = 2 /\ existsb is_implicit (map fst m) = true)).
  { intros x Hx. destruct x; [left|right; left|right; right]; (split; [reflexivity|]); apply existsb_exists; eexists; split; eauto. }
  destruct (T a Ha) as [(K1 & E1)|[(K1 & E1)|(K1 & E1)]], (T b Hb) as [(K2 & E2)|[(K2 & E2)|(K2 & E2)]]; try congruence;
    rewrite ?E1, ?E2; cbn [Nat.b2n]; repeat destruct (existsb _ _); reflexivity.
Qed.
Lemma uniform : forall m : pending, m <> [] -> ~ mixed (map fst m) -> exists k, forall a, In a (map fst m) -> kind_of a = k.
Proof.
  intros [|[a x] m] NE M; [congruence|]. exists (kind_of a). intros b Hb. destruct (Nat.eq_dec (kind_of b) (kind_of a)) as [E|E]; auto.
  exfalso. apply M. exists b, a. repeat split; auto. left; auto.
Qed.
Lemma mixed_dec : forall l, mixed l \/ ~ mixed l.
Proof.
  intros l. destruct l as [|a l]; [right; intros (x & _ & [] & _)|].
  destruct (existsb (fun b => negb (kind_of b =? kind_of a)) l) eqn:E.
  - left. apply existsb_exists in E. destruct E as (b & Hb & N). exists b, a. split; [right; auto|]. split; [left; auto|].
    intros K. rewrite K, Nat.eqb_refl in N. discriminate.
  - right. assert (K : forall b, In b (a :: l) -> kind_of b = kind_of a).
    { intros b [<-|Hb]; auto. destruct (Nat.eqb_spec (kind_of b) (kind_of a)) as [|N]; auto. exfalso.
      rewrite <- not_true_iff_false in E. apply E. apply existsb_exists. exists b. split; auto.
      destruct (Nat.eqb_spec (kind_of b) (kind_of a)); auto. }
    intros (x & y & Hx & Hy & N). apply N. rewrite (K x Hx), (K y Hy). reflexivity.
Qed.

(** The outcome of [to_binding_pattern]. *)
Lemma pattern_spec : forall m, NoDup (map fst m) ->
  match to_binding_pattern m with
  | Done ps => documented m ps
  | Error => mixed (map fst m)
  | Panic => m = [] \/ (~ mixed (map fst m) /\ exists n, In (Numbered n) (map fst m) /\ (n < 0)%Z)
  end.
Proof.
  intros m ND. destruct m as [|p m'] eqn:Em; [left; reflexivity|]. rewrite <- Em in *. assert (NE : m <> []) by (subst; discriminate). clear p m' Em.
  destruct (mixed_dec (map fst m)) as [M|M]; [rewrite pattern_mixed; auto|].
  destruct (uniform m NE M) as (k & K). destruct k as [|[|[|k]]].
  - destruct (pattern_anonymous m ND NE) as (order & P & S & ->).
    { intros a Ha. specialize (K a Ha). destruct a; try discriminate. eauto. }
    apply doc_in_order with (order := order); auto. left. intros a Ha. specialize (K a Ha). destruct a; try discriminate. eauto.
  - destruct (existsb (fun n => (n <? 0)%Z) (filter_map number (map fst m))) eqn:E.
    + apply existsb_exists in E. destruct E as (n & Hn & Ln). apply Z.ltb_lt in Ln. apply (filter_map_number (map fst m) n) in Hn.
      rewrite (pattern_negative m n); auto. right. eauto.
    + destruct (pattern_numbered m ND NE) as (ps & -> & D); auto.
      intros a Ha. specialize (K a Ha). destruct a as [|n|]; try discriminate. exists n. split; auto.
      destruct (Z.ltb_spec n 0) as [L|L]; [|lia]. exfalso. rewrite <- not_true_iff_false in E. apply E. apply existsb_exists.
      exists n. split; [apply (filter_map_number (map fst m) n); auto|]. apply Z.ltb_lt. auto.
  - destruct (pattern_implicit m ND NE) as (order & P & S & ->).
    { intros a Ha. specialize (K a Ha). destruct a; try discriminate. eauto. }
    apply doc_in_order with (order := order); auto. right. intros a Ha. specialize (K a Ha). destruct a; try discriminate. eauto.
  - destruct m as [|[a x] m']; [congruence|]. specialize (K a (or_introl eq_refl)). destruct a; discriminate.
Qed.

Lemma sorted_earlier_before : forall l : list (anaphor * string),
  StronglySorted (fun p q => earlier (fst p) (fst q)) l -> StronglySorted before (map fst l).
Proof.
  induction 1 as [|p l S IH F]; cbn; constructor; auto. apply Forall_map. eapply Forall_impl; [|exact F]. intros q H. left. exact H.
Qed.
Lemma documented_unique : forall m m' ps ps', NoDup (map fst m) -> Permutation m m' ->
  documented m ps -> documented m' ps' -> ps = ps'.
Proof.
  intros m m' ps ps' ND P D D'.
  assert (Keys : forall a, In a (map fst m) <-> In a (map fst m')).
  { intros a. split; apply Permutation_in; [|apply Permutation_sym]; apply Permutation_map; auto. }
  destruct D as [o NE K Po So ->|mx A Hmx L N G], D' as [o' NE' K' Po' So' ->|mx' A' Hmx' L' N' G'].
  - f_equal. assert (Pf : Permutation o o'). { rewrite Po, Po'. auto. }
    assert (E : map fst o = map fst o').
    { apply sorted_unique; try (apply sorted_earlier_before; auto). apply Permutation_map. auto. }
    assert (NDo : NoDup (map fst o)). { eapply Permutation_NoDup; [|exact ND]. apply Permutation_map, Permutation_sym; auto. }
    clear - E Pf NDo. revert o' E Pf. induction o as [|[a x] o IH]; intros [|[b y] o'] E Pf; try discriminate E; auto.
    cbn in E. injection E as <- E. cbn in NDo. inversion NDo as [|? ? N1 N2]; subst.
    assert (x = y).
    { assert (H : In (a, x) ((a, y) :: o')) by (apply (Permutation_in _ Pf); left; auto). destruct H as [H|H]; [congruence|].
      exfalso. apply N1. rewrite E. apply (in_map fst) in H. exact H. }
    subst y. f_equal. apply IH; auto. eapply Permutation_cons_inv; eauto.
  - exfalso. destruct m as [|[a x] m0]; [congruence|]. destruct (A' a) as (n & -> & _). { apply Keys. left; auto. }
    destruct K as [K|K]; [destruct (K (Numbered n)) as (s & E)|destruct (K (Numbered n)) as (s & y & E)]; try discriminate; left; auto.
  - exfalso. destruct m' as [|[a x] m0]; [congruence|]. destruct (A a) as (n & -> & _). { apply Keys. left; auto. }
    destruct K' as [K|K]; [destruct (K (Numbered n)) as (s & E)|destruct (K (Numbered n)) as (s & y & E)]; try discriminate; left; auto.
  - assert (E : mx = mx').
    { assert (B : forall (mm : pending) (pp : list string) x, (forall i name, In (Numbered (Z.of_nat i), name) mm -> nth_error pp i = Some name) ->
        List.length pp = S x -> forall i, In (Numbered (Z.of_nat i)) (map fst mm) -> i <= x).
      { intros mm pp x Hn Hl i Hi. apply in_map_iff in Hi. destruct Hi as ([a y] & Ea & Hi). cbn in Ea. subst a.
        apply Hn in Hi. assert (i < List.length pp) by (apply nth_error_Some; congruence). lia. }
      apply Keys in Hmx. apply (B m' ps' mx' N' L') in Hmx. apply Keys in Hmx'. apply (B m ps mx N L) in Hmx'. lia. }
    subst mx'. apply nth_ext with (d := "") (d' := ""); [lia|]. intros i Hi. rewrite L in Hi.
    assert (X : nth_error ps i = nth_error ps' i).
    { destruct (in_dec (fun a b => reflect_dec _ _ (anaphor_eqb_spec a b)) (Numbered (Z.of_nat i)) (map fst m)) as [I|I].
      - apply in_map_iff in I. destruct I as ([a y] & Ea & I). cbn in Ea. subst a. rewrite (N i y I).
        symmetry. apply N'. apply (Permutation_in _ P). auto.
      - rewrite G, G'; auto; try lia. intros K. apply I. apply Keys. auto. }
    destruct (nth_error ps i) eqn:E1; [|apply nth_error_None in E1; lia].
    rewrite (nth_error_nth ps i _ E1), (nth_error_nth ps' i _ (eq_sym X)). reflexivity.
Qed.
