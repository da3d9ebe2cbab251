(** The intrinsics on numbers. *)
From Coq Require Import ZArith List Bool Lia Floats.SpecFloat Permutation.
From Verif.Numbers Require Import Model Spec Round Floats Nearest Closed.
Import ListNotations.
Open Scope Z_scope.
Local Arguments Z.pow : simpl never.
Local Arguments Z.mul : simpl never.
Local Arguments Z.add : simpl never.
Local Arguments Z.sub : simpl never.

Lemma integer_unique x a b : integer x a -> integer x b -> a = b.
Proof. intros H1 H2. destruct H1; inversion H2; reflexivity. Qed.
Lemma integer_range x a : integer x a -> - 2 ^ 63 <= a <= 2 ^ 64 - 1. Proof. destruct 1; lia. Qed.
Lemma as_i64_int x a : integer x a -> as_i64 x = if a <=? i64_max then Some a else None.
Proof. destruct 1; cbn [as_i64]; [reflexivity |]. destruct (Z.leb_spec n i64_max); [reflexivity | unfold i64_max in *; lia]. Qed.
Lemma as_u64_int x a : integer x a -> as_u64 x = if 0 <=? a then Some a else None.
Proof. destruct 1; cbn [as_u64]; destruct (Z.leb_spec 0 n); try reflexivity; lia. Qed.
Lemma as_f64_int x a : integer x a -> as_f64 x = f_of_int a. Proof. destruct 1; reflexivity. Qed.
Lemma exactly_int x a : integer x a -> exactly x = a * scale. Proof. destruct 1; reflexivity. Qed.
Lemma tiered_int {A} (i u : Z -> Z -> A) d x y a b : integer x a -> integer y b ->
  tiered i u d x y =
  if (a <=? i64_max) && (b <=? i64_max) then i a b
  else if (0 <=? a) && (0 <=? b) then u a b else d (f_of_int a) (f_of_int b).
Proof.
  intros Hx Hy. unfold tiered. rewrite (as_i64_int _ _ Hx), (as_i64_int _ _ Hy), (as_u64_int _ _ Hx), (as_u64_int _ _ Hy),
    (as_f64_int _ _ Hx), (as_f64_int _ _ Hy).
  destruct (a <=? i64_max), (b <=? i64_max), (0 <=? a), (0 <=? b); reflexivity.
Qed.
(** Alike operands are never converted to doubles. *)
Lemma tiered_alike {A} (i u : Z -> Z -> A) d x y a b : integer x a -> integer y b -> alike a b ->
  (signed a /\ signed b /\ tiered i u d x y = i a b) \/
  (0 <= a /\ 0 <= b /\ (2 ^ 63 <= a \/ 2 ^ 63 <= b) /\ tiered i u d x y = u a b).
Proof.
  intros Hx Hy Hal. rewrite (tiered_int i u d x y a b Hx Hy). pose proof (integer_range _ _ Hx). pose proof (integer_range _ _ Hy).
  unfold alike, signed, i64_max in *.
  destruct (Z.leb_spec a (2 ^ 63 - 1)), (Z.leb_spec b (2 ^ 63 - 1)); cbn [andb]; [left; split; [lia | split; [lia | reflexivity]] | right ..];
    (split; [lia | split; [lia | split; [lia |]]]); destruct (Z.leb_spec 0 a), (Z.leb_spec 0 b); try lia; reflexivity.
Qed.
Lemma from_checked_i64 z : from_i64 (checked_i64 z) = if in_i64 z then Ok (of_int z) else Err RangeError.
Proof. unfold from_i64, checked_i64. destruct (in_i64 z); reflexivity. Qed.
Lemma from_checked_u64 z : from_i64 (checked_u64 z) = if in_u64 z then Ok (of_int z) else Err RangeError.
Proof. unfold from_i64, checked_u64. destruct (in_u64 z); reflexivity. Qed.
Lemma exact_i64 z : (exists r, from_i64 (checked_i64 z) = Ok r /\ integer r z) \/ (from_i64 (checked_i64 z) = Err RangeError /\ ~ signed z).
Proof.
  rewrite from_checked_i64. destruct (in_i64 z) eqn:E.
  - left. eexists. split; [reflexivity |]. apply of_int_integer. apply in_i64_iff in E. unfold signed in E. lia.
  - right. split; [reflexivity |]. rewrite <- in_i64_iff. congruence.
Qed.
Lemma exact_u64 z : (exists r, from_i64 (checked_u64 z) = Ok r /\ integer r z) \/
  (from_i64 (checked_u64 z) = Err RangeError /\ ~ (0 <= z <= 2 ^ 64 - 1)).
Proof.
  rewrite from_checked_u64. destruct (in_u64 z) eqn:E.
  - left. eexists. split; [reflexivity |]. apply of_int_integer. apply in_u64_iff in E. lia.
  - right. split; [reflexivity |]. rewrite <- in_u64_iff. congruence.
Qed.

Lemma add_exact x y a b : integer x a -> integer y b -> alike a b ->
  (exists z, add x y = Ok z /\ integer z (a + b)) \/ (add x y = Err RangeError /\ ~ signed (a + b)).
Proof.
  intros Hx Hy Hal. unfold add. pose proof (integer_range _ _ Hx). pose proof (integer_range _ _ Hy).
  edestruct (tiered_alike (A := result number)) as [(H1 & H2 & ->) | (H1 & H2 & H3 & ->)]; [exact Hx | exact Hy | exact Hal | |]; cbn beta.
  - apply exact_i64.
  - destruct (exact_u64 (a + b)) as [H4|[H4 H5]]; [left; exact H4 | right; split; [exact H4 |]]. unfold signed. lia.
Qed.
Lemma mul_exact x y a b : integer x a -> integer y b -> alike a b ->
  (exists z, mul x y = Ok z /\ integer z (a * b)) \/ (mul x y = Err RangeError /\ ~ signed (a * b)).
Proof.
  intros Hx Hy Hal. unfold mul. pose proof (integer_range _ _ Hx). pose proof (integer_range _ _ Hy).
  edestruct (tiered_alike (A := result number)) as [(H1 & H2 & ->) | (H1 & H2 & H3 & ->)]; [exact Hx | exact Hy | exact Hal | |]; cbn beta.
  - apply exact_i64.
  - destruct (exact_u64 (a * b)) as [H4|[H4 H5]]; [left; exact H4 | right; split; [exact H4 |]]. unfold signed. nia.
Qed.
Lemma sub_exact x y a b : integer x a -> integer y b -> alike a b ->
  (exists z, sub x y = Ok z /\ integer z (a - b)) \/ (sub x y = Err RangeError /\ ~ (0 <= a - b < 2 ^ 63)).
Proof.
  intros Hx Hy Hal. unfold sub. pose proof (integer_range _ _ Hx). pose proof (integer_range _ _ Hy).
  edestruct (tiered_alike (A := result number)) as [(H1 & H2 & ->) | (H1 & H2 & H3 & ->)]; [exact Hx | exact Hy | exact Hal | |]; cbn beta.
  - destruct (exact_i64 (a - b)) as [H4|[H4 H5]]; [left; exact H4 | right; split; [exact H4 |]]. unfold signed in *. lia.
  - destruct (exact_u64 (a - b)) as [H4|[H4 H5]]; [left; exact H4 | right; split; [exact H4 |]]. lia.
Qed.

Lemma f_add_comm f g : f_add f g = f_add g f.
Proof.
  unfold f_add. destruct f as [s|s| |s m e], g as [s'|s'| |s' m' e']; cbn [SFadd]; try reflexivity.
  - destruct s, s'; reflexivity.
  - destruct s, s'; reflexivity.
  - rewrite (Z.min_comm e' e). f_equal. apply Z.add_comm.
Qed.
Lemma f_mul_comm f g : f_mul f g = f_mul g f.
Proof.
  unfold f_mul. destruct f as [s|s| |s m e], g as [s'|s'| |s' m' e']; cbn [SFmul]; rewrite 1?(xorb_comm s s'); try reflexivity.
  rewrite (Pos.mul_comm m m'), (Z.add_comm e e'). reflexivity.
Qed.
Lemma tiered_comm {A} (i u : Z -> Z -> A) d x y :
  (forall a b, i a b = i b a) -> (forall a b, u a b = u b a) -> (forall f g, d f g = d g f) -> tiered i u d x y = tiered i u d y x.
Proof.
  intros Hi Hu Hd. unfold tiered. destruct (as_i64 x), (as_i64 y), (as_u64 x), (as_u64 y); auto.
Qed.
(** When not both operands are alike integers, the doubles are used. *)
Lemma tiered_double {A} (i u : Z -> Z -> A) d x y : proper x -> proper y -> ~ both_alike x y ->
  tiered i u d x y = d (as_f64 x) (as_f64 y).
Proof.
  intros Hx Hy Hn. apply (tiered_cases i u d x y (fun r => r = d (as_f64 x) (as_f64 y)) Hx Hy); [| | reflexivity].
  - intros a b H1 H2 H3 H4. destruct Hn. exists a, b. unfold alike. auto.
  - intros a b H1 H2 H3 H4. destruct Hn. exists a, b. unfold alike. auto.
Qed.
Lemma from_f64_ok f z : from_f64 f = Ok z -> z = Float f /\ is_finite f = true.
Proof. unfold from_f64, of_f64. destruct (is_finite f); [intros [= <-]; auto | discriminate]. Qed.

(** * Closure *)
Lemma guarded_ok y r z : guarded y r = Ok z -> r = Ok z.
Proof. unfold guarded. destruct (is_zero y); [discriminate | auto]. Qed.
Lemma num_from_floored_proper f z : valid_binary 53 1024 f = true -> num_from_floored f = Some z -> proper z.
Proof.
  intros Hv. assert (Hof : of_f64 f = Some z -> proper z).
  { unfold of_f64. destruct (is_finite f) eqn:E; [| discriminate]. intros [= <-]. split; assumption. }
  unfold num_from_floored. destruct (_ && _); [| exact Hof]. destruct (f_eqb _ _); [| exact Hof].
  intros [= <-]. eapply integer_proper, of_int_integer. unfold f_to_i64, i64_min, i64_max. lia.
Qed.
Lemma floor_valid f : valid_binary 53 1024 f = true -> valid_binary 53 1024 (f_floor f) = true.
Proof.
  intros Hv. destruct (is_finite f) eqn:E; [apply floor_units; split; assumption |]. destruct f; try discriminate; exact Hv.
Qed.
Lemma trunc_valid f : valid_binary 53 1024 f = true -> valid_binary 53 1024 (f_trunc f) = true.
Proof.
  intros Hv. destruct (is_finite f) eqn:E; [apply trunc_units; split; assumption |]. destruct f; try discriminate; exact Hv.
Qed.
Lemma finite_units_nz g : double g -> f_eqb g (S754_zero false) = false -> units g <> 0.
Proof.
  intros Hg. unfold f_eqb. rewrite compare_units by (assumption || (split; reflexivity)). change (units (S754_zero false)) with 0.
  destruct (Z.compare_spec (units g) 0); [discriminate | lia | lia].
Qed.
Lemma is_zero_spec x : proper x -> is_zero x = true <-> exactly x = 0.
Proof.
  intros Hx. pose proof scale_pos as Hs. assert (Hd := as_f64_double x Hx).
  assert (Hf : f_eqb (as_f64 x) (S754_zero false) = (roughly x =? 0)).
  { unfold f_eqb, roughly. rewrite compare_units by (assumption || (split; reflexivity)). change (units (S754_zero false)) with 0.
    destruct (Z.compare_spec (units (as_f64 x)) 0), (Z.eqb_spec (units (as_f64 x)) 0); try reflexivity; lia. }
  unfold is_zero. rewrite Hf. destruct x as [n|n|f].
  - destruct Hx as [z Hz]. inversion Hz; subst. cbn [as_i64 as_u64 exactly].
    unfold roughly. cbn [as_f64]. destruct (Z.eq_dec z 0) as [->|Hnz]; [split; [reflexivity | reflexivity] |].
    split; [| nia]. intros H. exfalso.
    assert (units (f_of_int z) <> 0).
    { pose proof (f_of_int_mono 1 z ltac:(lia) ltac:(lia) ltac:(lia)) as Hm. rewrite (f_of_int_exact 1) in Hm by lia. lia. }
    destruct (Z.eqb_spec (units (f_of_int z)) 0); [lia |]. rewrite orb_false_r in H.
    destruct z; [lia | | lia]. destruct (_ <=? _); discriminate.
  - destruct Hx as [z Hz]. inversion Hz; subst. cbn [as_i64 as_u64 exactly]. unfold roughly. cbn [as_f64].
    split; [| nia]. intros H. exfalso.
    assert (units (f_of_int z) <> 0).
    { pose proof (f_of_int_mono z (-1) ltac:(lia) ltac:(lia) ltac:(lia)) as Hm. rewrite (f_of_int_exact (-1)) in Hm by lia. lia. }
    destruct (Z.eqb_spec (units (f_of_int z)) 0); [lia |]. destruct z; try discriminate; lia.
  - cbn [as_i64 as_u64 orb exactly]. unfold roughly. cbn [as_f64]. apply Z.eqb_eq.
Qed.
Lemma is_zero_rough x : proper x -> is_zero x = false -> roughly x <> 0.
Proof.
  intros Hx Hz. apply finite_units_nz; [apply as_f64_double, Hx |]. unfold is_zero in Hz. apply orb_false_iff in Hz. apply Hz.
Qed.

(** * Division of integers *)
Lemma not_zero y b : integer y b -> b <> 0 -> is_zero y = false.
Proof.
  intros Hy Hb. destruct (is_zero y) eqn:E; [| reflexivity]. apply is_zero_spec in E; [| eapply integer_proper; eassumption].
  rewrite (exactly_int _ _ Hy) in E. pose proof scale_pos. nia.
Qed.
Lemma pick_i64 a b c : signed a -> signed b -> b <> 0 -> ~ lowest_by_minus_one a b ->
  from_i64 (if in_i64 (Z.quot a b) then Some c else None) = Ok (of_int c).
Proof. intros Ha Hb Hnz Hex. rewrite (proj2 (quot_signed a b Ha Hb Hnz) Hex). reflexivity. Qed.
Lemma not_lowest a b : 0 <= a -> 0 <= b -> ~ lowest_by_minus_one a b. Proof. unfold lowest_by_minus_one. lia. Qed.
Lemma int_division x y a b : integer x a -> integer y b -> alike a b -> b <> 0 -> ~ lowest_by_minus_one a b ->
  (div x y = Ok (of_int (a / b)) /\ modulo x y = Ok (of_int (a mod b)) /\
   quot x y = Ok (of_int (Z.quot a b)) /\ rem x y = Ok (of_int (Z.rem a b))) /\
  integer (of_int (a / b)) (a / b) /\ integer (of_int (a mod b)) (a mod b) /\
  integer (of_int (Z.quot a b)) (Z.quot a b) /\ integer (of_int (Z.rem a b)) (Z.rem a b).
Proof.
  intros Hx Hy Hal Hnz Hex. pose proof (integer_range _ _ Hx). pose proof (integer_range _ _ Hy).
  unfold div, modulo, quot, rem, guarded. rewrite (not_zero y b Hy Hnz).
  assert (Hcase : (signed a /\ signed b) \/ (0 <= a /\ 0 < b)) by (unfold alike, signed in *; lia).
  split.
  - repeat split;
      (edestruct (tiered_alike (A := result number)) as [(H1 & H2 & ->) | (H1 & H2 & H3 & ->)]; [exact Hx | exact Hy | exact Hal | |]; cbn beta).
    + rewrite floor_div_spec by exact Hnz. apply pick_i64; assumption.
    + unfold checked_div_u64. destruct (Z.eqb_spec b 0); [lia | reflexivity].
    + rewrite floor_mod_spec by exact Hnz. apply pick_i64; assumption.
    + unfold checked_rem_u64. destruct (Z.eqb_spec b 0); [lia | reflexivity].
    + unfold checked_div_i64, checked_i64. destruct (Z.eqb_spec b 0); [lia |]. apply pick_i64; assumption.
    + unfold checked_div_u64. destruct (Z.eqb_spec b 0); [lia |]. rewrite Z.quot_div_nonneg by lia. reflexivity.
    + unfold checked_rem_i64. destruct (Z.eqb_spec b 0); [lia |]. apply pick_i64; assumption.
    + unfold checked_rem_u64. destruct (Z.eqb_spec b 0); [lia |]. rewrite Z.rem_mod_nonneg by lia. reflexivity.
  - destruct Hcase as [[H1 H2]|[H1 H2]].
    + destruct (div_signed a b H1 H2 Hnz Hex) as [D1 D2]. pose proof (proj2 (quot_signed a b H1 H2 Hnz) Hex) as D3. apply in_i64_iff in D3.
      pose proof (Z.rem_bound_abs a b Hnz). unfold signed in *. repeat split; apply of_int_integer; lia.
    + rewrite Z.quot_div_nonneg, Z.rem_mod_nonneg by lia.
      assert (0 <= a / b <= a) by (split; [apply Z.div_pos; lia | apply Z.div_le_upper_bound; nia]).
      pose proof (Z.mod_pos_bound a b H2). repeat split; apply of_int_integer; lia.
Qed.

(** * Integral results *)
Lemma round_int_integral s m : is_finite (binary_round 53 1024 s m 0) = true -> exists k, units (binary_round 53 1024 s m 0) = k * scale.
Proof.
  intros Hf. rewrite binary_round_units by (try assumption; lia). rewrite places_int by lia.
  destruct (Z.leb_spec 0 (Zdigits2 (Zpos m) - 53)) as [H|H].
  - eexists (cond_Zopp s (nearest (Zpos m) (Zdigits2 (Zpos m) - 53) * 2 ^ (Zdigits2 (Zpos m) - 53))).
    rewrite <- cond_mul, <- Z.mul_assoc. unfold scale. rewrite <- Z.pow_add_r by lia. do 3 f_equal.
  - exists (cond_Zopp s (Zpos m)). rewrite <- cond_mul. reflexivity.
Qed.
Lemma f_of_int_integral z : is_finite (f_of_int z) = true -> exists k, units (f_of_int z) = k * scale.
Proof.
  destruct z as [|p|p]; unfold f_of_int; cbn [binary_normalize]; [intros _; exists 0; reflexivity | apply round_int_integral ..].
Qed.
Lemma integral_integral part f : is_finite (f_integral part f) = true -> exists k, units (f_integral part f) = k * scale.
Proof.
  destruct f as [s|s| |s m e]; cbn [f_integral]; try discriminate; [exists 0; reflexivity |].
  destruct (Z.leb_spec 0 e) as [H|H].
  - intros _. exists (cond_Zopp s (Zpos m * 2 ^ e)). cbn [units]. rewrite <- cond_mul, <- Z.mul_assoc. unfold scale.
    rewrite <- Z.pow_add_r by lia. reflexivity.
  - destruct (part _ _); [exists 0; reflexivity | apply f_of_int_integral ..].
Qed.
Lemma num_from_floored_integral f z : (is_finite f = true -> exists k, units f = k * scale) -> num_from_floored f = Some z -> exists k, exactly z = k * scale.
Proof.
  intros Hf. assert (Hof : of_f64 f = Some z -> exists k, exactly z = k * scale).
  { unfold of_f64. destruct (is_finite f) eqn:E; [| discriminate]. intros [= <-]. apply Hf. reflexivity. }
  unfold num_from_floored. destruct (_ && _); [| exact Hof]. destruct (f_eqb _ _); [| exact Hof].
  intros [= <-]. exists (f_to_i64 f). unfold of_int. destruct (_ <? 0); reflexivity.
Qed.
Lemma of_int_exactly z : exactly (of_int z) = z * scale. Proof. unfold of_int. destruct (_ <? 0); reflexivity. Qed.
Lemma from_i64_integral o z : from_i64 o = Ok z -> exists k, exactly z = k * scale.
Proof. unfold from_i64. destruct o as [i|]; [| discriminate]. intros [= <-]. exists i. apply of_int_exactly. Qed.
Lemma tiered_always {A} (i u : Z -> Z -> A) d x y (P : A -> Prop) :
  (forall a b, P (i a b)) -> (forall a b, P (u a b)) -> (forall f g, P (d f g)) -> P (tiered i u d x y).
Proof. intros. unfold tiered. destruct (as_i64 x), (as_i64 y), (as_u64 x), (as_u64 y); auto. Qed.
Lemma div_integral x y z : div x y = Ok z -> exists k, exactly z = k * scale.
Proof.
  intros H. apply guarded_ok in H. revert H.
  apply (tiered_always _ _ _ _ _ (fun r => r = Ok z -> exists k, exactly z = k * scale)); [intros a b; apply from_i64_integral ..|].
  intros f g. unfold ok_or. destruct (num_from_floored (f_floor (f_div f g))) eqn:E; [| discriminate]. intros [= <-].
  eapply num_from_floored_integral; [| exact E]. apply integral_integral.
Qed.
Lemma quot_integral x y z : quot x y = Ok z -> exists k, exactly z = k * scale.
Proof.
  intros H. apply guarded_ok in H. revert H.
  apply (tiered_always _ _ _ _ _ (fun r => r = Ok z -> exists k, exactly z = k * scale)); [intros a b; apply from_i64_integral ..|].
  intros f g. unfold ok_or. destruct (num_from_floored (f_trunc (f_div f g))) eqn:E; [| discriminate]. intros [= <-].
  eapply num_from_floored_integral; [| exact E]. apply integral_integral.
Qed.

(** * Comparison *)
Lemma int_nearest a : Z.abs a <= 2 ^ 64 -> nearest_double (a * scale) (f_of_int a).
Proof. intros Ha. apply (normalize_nearest a 0); [lia |]. apply f_of_int_double, Ha. Qed.
Lemma roughly_nearest x : proper x -> nearest_double (exactly x) (as_f64 x).
Proof.
  intros Hx. destruct x as [n|n|f]; cbn [exactly as_f64].
  - apply int_nearest. destruct Hx as [z Hz]. inversion Hz; lia.
  - apply int_nearest. destruct Hx as [z Hz]. inversion Hz; lia.
  - apply nearest_self, Hx.
Qed.
(** Rounding keeps the order. *)
Lemma nearest_order u v f g : nearest_double u f -> nearest_double v g -> u = units f \/ v = units g -> units f < units g -> u < v.
Proof.
  intros [Hf1 Hf2] [Hg1 Hg2] He Hlt. specialize (Hf2 g Hg1). specialize (Hg2 f Hf1).
  destruct (Z.lt_ge_cases u v); [assumption |]. lia.
Qed.
(** Integers in comparisons. *)
Lemma num_ord_int x y a b : integer x a -> integer y b -> num_ord x y = Some (a ?= b).
Proof.
  intros Hx Hy. unfold num_ord. rewrite (tiered_int _ _ _ x y a b Hx Hy). unfold i64_max.
  pose proof (integer_range _ _ Hx). pose proof (integer_range _ _ Hy).
  destruct (Z.leb_spec a (2 ^ 63 - 1)), (Z.leb_spec b (2 ^ 63 - 1)); cbn [andb]; [reflexivity | ..];
    destruct (Z.leb_spec 0 a), (Z.leb_spec 0 b); cbn [andb]; try reflexivity; try lia.
  - rewrite compare_units by (apply f_of_int_double; lia).
    assert (units (f_of_int a) < units (f_of_int b)).
    { pose proof (f_of_int_mono a (-1) ltac:(lia) ltac:(lia) ltac:(lia)) as M1. pose proof (f_of_int_mono 1 b ltac:(lia) ltac:(lia) ltac:(lia)) as M2.
      rewrite (f_of_int_exact (-1)) in M1 by lia; rewrite (f_of_int_exact 1) in M2 by lia. pose proof scale_pos. lia. }
    f_equal. rewrite (proj2 (Z.compare_lt_iff _ _)) by assumption. symmetry. apply Z.compare_lt_iff. lia.
  - rewrite compare_units by (apply f_of_int_double; lia).
    assert (units (f_of_int b) < units (f_of_int a)).
    { pose proof (f_of_int_mono b (-1) ltac:(lia) ltac:(lia) ltac:(lia)) as M1. pose proof (f_of_int_mono 1 a ltac:(lia) ltac:(lia) ltac:(lia)) as M2.
      rewrite (f_of_int_exact (-1)) in M1 by lia; rewrite (f_of_int_exact 1) in M2 by lia. pose proof scale_pos. lia. }
    f_equal. rewrite (proj2 (Z.compare_gt_iff _ _)) by assumption. symmetry. apply Z.compare_gt_iff. lia.
Qed.
Lemma num_ord_float x y : proper x -> proper y -> (exists f, x = Float f) \/ (exists f, y = Float f) ->
  num_ord x y = Some (roughly x ?= roughly y).
Proof.
  intros Hx Hy Hf. unfold num_ord. rewrite tiered_double; [apply compare_units; apply as_f64_double; assumption | assumption | assumption |].
  intros (a & b & H1 & H2 & _). destruct Hf as [[f ->]|[f ->]]; [inversion H1 | inversion H2].
Qed.
Lemma integer_or_float x : proper x -> (exists a, integer x a) \/ (exists f, x = Float f).
Proof. destruct x; cbn [proper]; eauto. Qed.
Lemma ord_cases x y : proper x -> proper y ->
  (exists a b, integer x a /\ integer y b /\ num_ord x y = Some (a ?= b)) \/
  (((exists f, x = Float f) \/ (exists f, y = Float f)) /\ num_ord x y = Some (roughly x ?= roughly y)).
Proof.
  intros Hx Hy. destruct (integer_or_float x Hx) as [[a Ha]|Hf].
  - destruct (integer_or_float y Hy) as [[b Hb]|Hg].
    + left. exists a, b. split; [exact Ha | split; [exact Hb | apply num_ord_int; assumption]].
    + right. split; [auto |]. apply num_ord_float; auto.
  - right. split; [auto |]. apply num_ord_float; auto.
Qed.
Lemma num_eq_ord x y : proper x -> proper y -> num_eq x y = match num_ord x y with Some Eq => true | _ => false end.
Proof.
  intros Hx Hy. unfold num_eq, num_ord, tiered.
  destruct (as_i64 x), (as_i64 y), (as_u64 x), (as_u64 y); try reflexivity; apply Z.eqb_compare.
Qed.
Lemma roughly_int_mono x y a b : integer x a -> integer y b -> a <= b -> roughly x <= roughly y.
Proof.
  intros Hx Hy Hab. unfold roughly. rewrite (as_f64_int _ _ Hx), (as_f64_int _ _ Hy).
  apply f_of_int_mono; [eapply integer_abs; eassumption .. | exact Hab].
Qed.
(** Strictly ordered numbers, whichever way they are compared. *)
Lemma ord_lt x y : proper x -> proper y -> num_ord x y = Some Lt ->
  exactly x < exactly y /\ roughly x <= roughly y /\ ((exists f, x = Float f) \/ (exists f, y = Float f) -> roughly x < roughly y).
Proof.
  intros Hx Hy Ho. destruct (ord_cases x y Hx Hy) as [(a & b & Ha & Hb & E)|[Hf E]]; rewrite E in Ho; injection Ho as Ho; rewrite Z.compare_lt_iff in Ho.
  - split; [rewrite (exactly_int _ _ Ha), (exactly_int _ _ Hb); apply Z.mul_lt_mono_pos_r; [apply scale_pos | lia] |].
    split; [eapply roughly_int_mono; [eassumption | eassumption | lia] |].
    intros [[f ->]|[f ->]]; [inversion Ha | inversion Hb].
  - split; [| split; [lia | auto]]. eapply nearest_order; [apply roughly_nearest, Hx | apply roughly_nearest, Hy | | exact Ho].
    destruct Hf as [[f ->]|[f ->]]; [left | right]; reflexivity.
Qed.
Lemma ord_trans x y z : proper x -> proper y -> proper z -> num_ord x y = Some Lt -> num_ord y z = Some Lt -> num_ord x z = Some Lt.
Proof.
  intros Hx Hy Hz H1 H2. destruct (ord_lt x y Hx Hy H1) as (E1 & R1 & S1). destruct (ord_lt y z Hy Hz H2) as (E2 & R2 & S2).
  destruct (ord_cases x z Hx Hz) as [(a & c & Ha & Hc & E)|[Hf E]]; rewrite E; f_equal; apply Z.compare_lt_iff.
  - rewrite (exactly_int _ _ Ha) in E1. rewrite (exactly_int _ _ Hc) in E2. pose proof scale_pos. nia.
  - destruct (integer_or_float y Hy) as [[b Hb]|Hfy].
    + destruct Hf as [Hf|Hf]; [specialize (S1 (or_introl Hf)); lia | specialize (S2 (or_intror Hf)); lia].
    + specialize (S1 (or_intror Hfy)). lia.
Qed.

(** * Words *)
Lemma f_int_units f k : double f -> units f = k * scale -> f_int f = k.
Proof.
  intros Hf Hk. pose proof scale_pos as Hs. destruct f as [s|s| |s m e]; try (destruct Hf as [Hf _]; discriminate Hf); cbn [f_int units] in *; [nia |].
  pose proof (canonical_bounds _ _ _ Hf) as (He & Hm & _). rewrite cond_mul in Hk.
  destruct (Z.leb_spec 0 e) as [H|H].
  - rewrite Z.pow_add_r in Hk by lia. fold scale in Hk. rewrite Z.mul_assoc in Hk. rewrite <- cond_mul in Hk. apply Z.mul_reg_r in Hk; [exact Hk | lia].
  - assert (E : scale = 2 ^ (- e) * 2 ^ (e + 1074)) by (unfold scale; rewrite <- Z.pow_add_r by lia; f_equal; lia).
    pose proof (pow_pos (e + 1074) ltac:(lia)) as P1. pose proof (pow_pos (- e) ltac:(lia)) as P2.
    rewrite E, Z.mul_assoc in Hk. apply Z.mul_reg_r in Hk; [| lia]. rewrite Hk. apply Z.quot_mul. lia.
Qed.
Lemma trunc_eq f : double f -> f_eqb (f_trunc f) f = true <-> exists k, units f = k * scale.
Proof.
  intros Hf. destruct (trunc_units f Hf) as [Hd Hu]. unfold f_eqb. rewrite compare_units by assumption. rewrite Hu. pose proof scale_pos.
  split.
  - destruct (Z.compare_spec (Z.quot (units f) scale * scale) (units f)) as [E|E|E]; [| discriminate | discriminate]. eauto.
  - intros [k Hk]. rewrite Hk, Z.quot_mul by lia. rewrite Z.compare_refl. reflexivity.
Qed.
Lemma f_leb_units f g : double f -> double g -> f_leb f g = (units f <=? units g).
Proof. intros Hf Hg. unfold f_leb, Z.leb. rewrite compare_units by assumption. destruct (units f ?= units g); reflexivity. Qed.
Lemma min_double : double (f_of_int i64_min) /\ units (f_of_int i64_min) = - 2 ^ 63 * scale.
Proof. split; [apply f_of_int_double; unfold i64_min; lia |]. rewrite f_of_int_units by (unfold i64_min; lia). reflexivity. Qed.
Lemma max_double : double (f_of_int i64_max) /\ units (f_of_int i64_max) = 2 ^ 63 * scale.
Proof. split; [apply f_of_int_double; unfold i64_max; lia |]. rewrite f_of_int_units by (unfold i64_max; lia). reflexivity. Qed.
Lemma require_spec x : proper x -> exactly x <> 2 ^ 63 * scale ->
  (exists i, exactly x = i * scale /\ signed i /\ require_i64 x = Ok i) \/
  ((forall i, signed i -> exactly x <> i * scale) /\ require_i64 x = Err NotInteger).
Proof.
  intros Hx Hne. pose proof scale_pos as Hs. destruct x as [n|n|f]; unfold require_i64; cbn [as_i64 as_u64 exactly as_f64] in *.
  - destruct Hx as [z Hz]. inversion Hz; subst. unfold i64_max. destruct (Z.leb_spec z (2 ^ 63 - 1)).
    + left. exists z. split; [reflexivity | split; [unfold signed; lia | reflexivity]].
    + right. split; [| reflexivity]. unfold signed. intros i Hi E. apply Z.mul_reg_r in E; lia.
  - destruct Hx as [z Hz]. inversion Hz; subst. left. exists z. split; [reflexivity | split; [unfold signed; lia | reflexivity]].
  - cbn [proper] in Hx. destruct min_double as [Dmin Umin], max_double as [Dmax Umax].
    rewrite !f_leb_units by assumption. rewrite Umin, Umax. pose proof (trunc_eq f Hx) as Ht.
    destruct (f_eqb (f_trunc f) f); cbn [andb].
    + destruct (proj1 Ht eq_refl) as [k Hk].
      destruct (Z.leb_spec (- 2 ^ 63 * scale) (units f)), (Z.leb_spec (units f) (2 ^ 63 * scale)); cbn [andb].
      * left. exists k. split; [exact Hk |]. assert (signed k) by (unfold signed; nia). split; [assumption |].
        f_equal. unfold f_to_i64. rewrite (f_int_units f k Hx Hk). unfold i64_min, i64_max, signed in *. lia.
      * right. split; [| reflexivity]. unfold signed. intros i Hi E. nia.
      * right. split; [| reflexivity]. unfold signed. intros i Hi E. nia.
      * right. split; [| reflexivity]. unfold signed. intros i Hi E. nia.
    + right. split; [| reflexivity]. intros i Hi E. assert (false = true) by (apply Ht; eauto). discriminate.
Qed.
Lemma wrap_spec z : signed (wrap_i64 z) /\ (wrap_i64 z - z) mod 2 ^ 64 = 0.
Proof.
  unfold wrap_i64, signed. pose proof (Z.mod_pos_bound (z + 2 ^ 63) (2 ^ 64) ltac:(lia)). split; [lia |].
  pose proof (Z.div_mod (z + 2 ^ 63) (2 ^ 64) ltac:(lia)) as D.
  replace ((z + 2 ^ 63) mod 2 ^ 64 - 2 ^ 63 - z) with (- ((z + 2 ^ 63) / 2 ^ 64) * 2 ^ 64) by lia. apply Z.mod_mul. lia.
Qed.

(** * Lists *)
Lemma insert_perm f l : Permutation (f :: l) (insert f l).
Proof.
  induction l as [|g l IH]; cbn [insert]; [apply Permutation_refl |]. destruct (SFcompare f g) as [[]|]; try apply Permutation_refl.
  eapply perm_trans; [apply perm_swap |]. constructor. exact IH.
Qed.
Lemma sort_perm l : Permutation l (fold_right insert [] l).
Proof. induction l as [|f l IH]; cbn [fold_right]; [constructor |]. eapply perm_trans; [constructor; exact IH | apply insert_perm]. Qed.
Lemma insert_asc f l : double f -> Forall double l -> ascending (map units l) -> ascending (map units (insert f l)).
Proof.
  intros Hf. induction l as [|g l IH]; intros Hl Ha; cbn [insert map]; [constructor; [intros ? [] | constructor] |].
  inversion Hl as [|? ? Hg Hl']; subst. inversion Ha as [|? ? Hle Ha']; subst. rewrite compare_units by assumption.
  destruct (Z.compare_spec (units f) (units g)) as [E|E|E]; cbn [map].
  - constructor; [| exact Ha]. intros z [<-|Hz]; [lia |]. specialize (Hle z Hz). lia.
  - constructor; [| exact Ha]. intros z [<-|Hz]; [lia |]. specialize (Hle z Hz). lia.
  - constructor; [| apply IH; assumption]. intros z Hz.
    apply (Permutation_in _ (Permutation_map units (Permutation_sym (insert_perm f l)))) in Hz. destruct Hz as [<-|Hz]; [lia | auto].
Qed.
Lemma sort_asc l : Forall double l -> ascending (map units (fold_right insert [] l)).
Proof.
  induction l as [|f l IH]; intros H; cbn [fold_right]; [constructor |]. inversion H; subst. apply insert_asc; [assumption | | apply IH; assumption].
  eapply Permutation_Forall; [apply sort_perm | assumption].
Qed.
Lemma return_doubles l : Forall double l -> map exactly (return_num_list l) = map units l.
Proof.
  induction l as [|f l IH]; intros H; [reflexivity |]. inversion H as [|? ? [H1 _] H2]; subst.
  cbn [return_num_list map] in *. unfold of_f64. rewrite H1. cbn [exactly]. f_equal. apply IH, H2.
Qed.
Lemma collect_doubles xs : Forall proper xs -> Forall double (collect_num_list xs).
Proof. intros H. unfold collect_num_list. apply Forall_map. eapply Forall_impl; [| exact H]. apply as_f64_double. Qed.
