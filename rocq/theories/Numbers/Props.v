(** Numbers: arithmetic, division, comparison, words of bits, sorting. *)
From Coq Require Import ZArith List Bool Lia Floats.SpecFloat Permutation.
From Verif.Numbers Require Import Model Spec Round Floats Nearest Closed Quotient Proofs Lists.
Import ListNotations.
Open Scope Z_scope.
Local Arguments Z.pow : simpl never.
Local Arguments Z.mul : simpl never.

(** * C45: integer arithmetic is exact or an error *)
Theorem C45_add_exact x y a b : integer x a -> integer y b -> alike a b ->
  (exists z, add x y = Ok z /\ integer z (a + b)) \/ (add x y = Err RangeError /\ ~ signed (a + b)).
Proof. apply add_exact. Qed.
Theorem C45_sub_exact x y a b : integer x a -> integer y b -> alike a b ->
  (exists z, sub x y = Ok z /\ integer z (a - b)) \/ (sub x y = Err RangeError /\ ~ (0 <= a - b < 2 ^ 63)).
Proof. apply sub_exact. Qed.
Theorem C45_mul_exact x y a b : integer x a -> integer y b -> alike a b ->
  (exists z, mul x y = Ok z /\ integer z (a * b)) \/ (mul x y = Err RangeError /\ ~ signed (a * b)).
Proof. apply mul_exact. Qed.
(** Differences of signed words that are signed words are computed. *)
Theorem C45_sub_signed x y a b : integer x a -> integer y b -> signed a -> signed b -> signed (a - b) ->
  exists z, sub x y = Ok z /\ integer z (a - b).
Proof.
  intros Hx Hy Ha Hb Hr. unfold sub. rewrite (tiered_int _ _ _ x y a b Hx Hy). unfold i64_max, signed in *.
  destruct (Z.leb_spec a (2 ^ 63 - 1)), (Z.leb_spec b (2 ^ 63 - 1)); try lia. cbn [andb].
  destruct (exact_i64 (a - b)) as [H4|[H4 H5]]; [exact H4 | unfold signed in H5; lia].
Qed.
(** Powers: a result that fits is exact. *)
Theorem C45_pow_exact powf x y a b : integer x a -> integer y b -> 0 <= b < 2 ^ 32 ->
  (signed a /\ signed (a ^ b)) \/ (2 ^ 63 <= a /\ a ^ b < 2 ^ 64) -> exists z, pow powf x y = Ok z /\ integer z (a ^ b).
Proof.
  intros Hx Hy Hb H. exists (of_int (a ^ b)). unfold pow.
  rewrite (as_i64_int _ _ Hx), (as_u64_int _ _ Hx), (as_u64_int _ _ Hy). unfold i64_max.
  destruct (Z.leb_spec 0 b); [| lia]. unfold signed in *. destruct H as [[H1 H2]|[H1 H2]].
  - destruct (Z.leb_spec a (2 ^ 63 - 1)); [| lia]. unfold checked_int_pow. destruct (Z.leb_spec b (2 ^ 32 - 1)); [| lia].
    unfold checked_i64. rewrite (proj2 (in_i64_iff _)) by (unfold signed; lia). split; [reflexivity |]. apply of_int_integer. lia.
  - destruct (Z.leb_spec a (2 ^ 63 - 1)); [lia |]. destruct (Z.leb_spec 0 a); [| lia]. rewrite Z.min_l by lia.
    assert (0 <= a ^ b) by (apply Z.pow_nonneg; lia).
    unfold checked_u64. rewrite (proj2 (in_u64_iff _)) by lia. split; [reflexivity |]. apply of_int_integer. lia.
Qed.
(** The order of the operands of a sum or a product does not matter, whatever the numbers. *)
Theorem C45_add_commutes x y : add x y = add y x.
Proof. apply tiered_comm; intros; [rewrite Z.add_comm; reflexivity .. | rewrite f_add_comm; reflexivity]. Qed.
Theorem C45_mul_commutes x y : mul x y = mul y x.
Proof. apply tiered_comm; intros; [rewrite Z.mul_comm; reflexivity .. | rewrite f_mul_comm; reflexivity]. Qed.
(** Otherwise the operands are rounded to doubles, and the result is the nearest double. *)
Theorem C45_float_add x y z : proper x -> proper y -> ~ both_alike x y -> add x y = Ok z ->
  exists f, z = Float f /\ nearest_double (roughly x + roughly y) f.
Proof.
  intros Hx Hy Hn. unfold add. rewrite tiered_double by assumption. intros H. apply from_f64_ok in H. destruct H as [-> H].
  eexists. split; [reflexivity |]. apply add_nearest; [apply as_f64_double; assumption .. | exact H].
Qed.
Theorem C45_float_sub x y z : proper x -> proper y -> ~ both_alike x y -> sub x y = Ok z ->
  exists f, z = Float f /\ nearest_double (roughly x - roughly y) f.
Proof.
  intros Hx Hy Hn. unfold sub. rewrite tiered_double by assumption. intros H. apply from_f64_ok in H. destruct H as [-> H].
  eexists. split; [reflexivity |]. apply sub_nearest; [apply as_f64_double; assumption .. | exact H].
Qed.
(** Values are in units of 1 / scale, so the product of the values is the product of the units over scale. *)
Theorem C45_float_mul x y z : proper x -> proper y -> ~ both_alike x y -> mul x y = Ok z ->
  exists f, z = Float f /\ nearest_ratio (roughly x * roughly y) scale f.
Proof.
  intros Hx Hy Hn. unfold mul. rewrite tiered_double by assumption. intros H. apply from_f64_ok in H. destruct H as [-> H].
  eexists. split; [reflexivity |]. apply mul_nearest; [apply as_f64_double; assumption .. | exact H].
Qed.
Theorem C45_float_nearest x : proper x -> nearest_double (exactly x) (as_f64 x).
Proof. apply roughly_nearest. Qed.

(** Results are numbers again. *)
Lemma i64_proper o z : (forall i, o = Some i -> signed i) -> from_i64 o = Ok z -> proper z.
Proof. intros H Ho. eapply from_checked; [exact Ho |]. intros i Hi. apply H in Hi. unfold signed in Hi. lia. Qed.
Lemma u64_proper o z : (forall i, o = Some i -> 0 <= i <= 2 ^ 64 - 1) -> from_i64 o = Ok z -> proper z.
Proof. intros H Ho. eapply from_checked; [exact Ho |]. intros i Hi. apply H in Hi. lia. Qed.
Lemma c_i64 z i : checked_i64 z = Some i -> signed i. Proof. intros H. apply checked_i64_some in H. destruct H as [-> H]. exact H. Qed.
Lemma c_u64 z i : checked_u64 z = Some i -> 0 <= i <= 2 ^ 64 - 1. Proof. intros H. apply checked_u64_some in H. destruct H as [-> H]. exact H. Qed.
Theorem C45_closed x y z : proper x -> proper y ->
  add x y = Ok z \/ sub x y = Ok z \/ mul x y = Ok z \/ div x y = Ok z \/ modulo x y = Ok z \/ quot x y = Ok z \/
  rem x y = Ok z \/ precise_div x y = Ok z \/ floor x = Ok z \/ ceiling x = Ok z -> proper z.
Proof.
  intros Hx Hy [H|[H|[H|[H|[H|[H|[H|[H|[H|H]]]]]]]]].
  - revert H. apply (tiered_cases _ _ _ _ _ (fun r => r = Ok z -> proper z) Hx Hy);
      [intros; eapply i64_proper; [apply c_i64 | eassumption] | intros; eapply u64_proper; [apply c_u64 | eassumption] |].
    intros Hf Hg. apply from_f64_proper, add_valid; assumption.
  - revert H. apply (tiered_cases _ _ _ _ _ (fun r => r = Ok z -> proper z) Hx Hy);
      [intros; eapply i64_proper; [apply c_i64 | eassumption] | intros; eapply u64_proper; [apply c_u64 | eassumption] |].
    intros Hf Hg. apply from_f64_proper, sub_valid; assumption.
  - revert H. apply (tiered_cases _ _ _ _ _ (fun r => r = Ok z -> proper z) Hx Hy);
      [intros; eapply i64_proper; [apply c_i64 | eassumption] | intros; eapply u64_proper; [apply c_u64 | eassumption] |].
    intros Hf Hg. apply from_f64_proper, mul_valid; assumption.
  - pose proof (guarded_ok _ _ _ H) as H'. revert H'. apply (tiered_cases _ _ _ _ _ (fun r => r = Ok z -> proper z) Hx Hy).
    + intros a b Ha Hb Sa Sb. apply i64_proper. intros i. destruct (Z.eq_dec b 0) as [->|Hnz]; [discriminate |].
      rewrite floor_div_spec by exact Hnz. destruct (in_i64 (Z.quot a b)) eqn:E; [| discriminate]. intros [= <-].
      apply div_signed; try assumption. apply quot_signed; assumption.
    + intros a b Ha Hb Sa Sb. apply u64_proper. intros i. unfold checked_div_u64. destruct (Z.eqb_spec b 0); [discriminate |]. intros [= <-].
      apply integer_range in Ha. split; [apply Z.div_pos; lia | transitivity a; [apply Z.div_le_upper_bound; nia | lia]].
    + intros Hf Hg. unfold ok_or. destruct (num_from_floored _) eqn:E; [| discriminate]. intros [= <-].
      eapply num_from_floored_proper; [| exact E]. apply floor_valid, div_valid; assumption.
  - pose proof (guarded_ok _ _ _ H) as H'. revert H'. apply (tiered_cases _ _ _ _ _ (fun r => r = Ok z -> proper z) Hx Hy).
    + intros a b Ha Hb Sa Sb. apply i64_proper. intros i. destruct (Z.eq_dec b 0) as [->|Hnz]; [discriminate |].
      rewrite floor_mod_spec by exact Hnz. destruct (in_i64 (Z.quot a b)) eqn:E; [| discriminate]. intros [= <-].
      apply div_signed; try assumption. apply quot_signed; assumption.
    + intros a b Ha Hb Sa Sb. apply u64_proper. intros i. unfold checked_rem_u64. destruct (Z.eqb_spec b 0); [discriminate |]. intros [= <-].
      apply integer_range in Hb. pose proof (Z.mod_pos_bound a b ltac:(lia)). lia.
    + intros Hf Hg H1. apply from_f64_proper in H1; [exact H1 |].
      assert (Hd := div_valid _ _ Hf Hg). assert (Hfl := floor_valid _ Hd).
      destruct (is_finite (f_floor (f_div (as_f64 x) (as_f64 y)))) eqn:E1.
      * assert (Hm := mul_valid (as_f64 y) (f_floor (f_div (as_f64 x) (as_f64 y))) Hg (conj E1 Hfl)).
        destruct (is_finite (f_mul (as_f64 y) (f_floor (f_div (as_f64 x) (as_f64 y))))) eqn:E2; [apply sub_valid; [assumption | split; assumption] |].
        destruct (f_mul _ _); try discriminate; destruct Hf as [Hf _]; destruct (as_f64 x); try discriminate; reflexivity.
      * destruct (f_floor (f_div (as_f64 x) (as_f64 y))) as [s|s| |s m e]; try discriminate;
          destruct Hg as [Hg _], Hf as [Hf _]; destruct (as_f64 y); try discriminate; destruct (as_f64 x); try discriminate; reflexivity.
  - pose proof (guarded_ok _ _ _ H) as H'. revert H'. apply (tiered_cases _ _ _ _ _ (fun r => r = Ok z -> proper z) Hx Hy).
    + intros a b Ha Hb Sa Sb. apply i64_proper. intros i Hi. apply quot_range in Hi. apply Hi.
    + intros a b Ha Hb Sa Sb. apply u64_proper. intros i. unfold checked_div_u64. destruct (Z.eqb_spec b 0); [discriminate |]. intros [= <-].
      apply integer_range in Ha. split; [apply Z.div_pos; lia | transitivity a; [apply Z.div_le_upper_bound; nia | lia]].
    + intros Hf Hg. unfold ok_or. destruct (num_from_floored _) eqn:E; [| discriminate]. intros [= <-].
      eapply num_from_floored_proper; [| exact E]. apply trunc_valid, div_valid; assumption.
  - pose proof H as H'. unfold rem, guarded in H'. destruct (is_zero y) eqn:Ez; [discriminate |]. revert H'.
    apply (tiered_cases _ _ _ _ _ (fun r => r = Ok z -> proper z) Hx Hy).
    + intros a b Ha Hb Sa Sb. apply i64_proper. intros i Hi. apply rem_range in Hi. destruct Hi as (Hnz & -> & Hq).
      pose proof (Z.rem_bound_abs a b Hnz). unfold signed in *. lia.
    + intros a b Ha Hb Sa Sb. apply u64_proper. intros i. unfold checked_rem_u64. destruct (Z.eqb_spec b 0); [discriminate |]. intros [= <-].
      apply integer_range in Hb. pose proof (Z.mod_pos_bound a b ltac:(lia)). lia.
    + intros Hf Hg. apply from_f64_proper. apply rem_units; try assumption. apply is_zero_rough; assumption.
  - apply guarded_ok in H. apply from_f64_proper in H; [exact H |]. apply div_valid; apply as_f64_double; assumption.
  - destruct x as [n|n|f]; try (injection H as <-; exact Hx). apply from_f64_proper in H; [exact H |]. apply floor_units, Hx.
  - destruct x as [n|n|f]; try (injection H as <-; exact Hx). apply from_f64_proper in H; [exact H |]. apply ceil_units, Hx.
Qed.

(** A negative number and one above 2^63 are added as doubles, and the sum is wrong. *)
Theorem C45_mixed_refuted : exists x y a b z, integer x a /\ integer y b /\ integer (of_int (a + b)) (a + b) /\
  add x y = Ok z /\ exactly z <> (a + b) * scale.
Proof.
  exists (PosInt (2 ^ 64 - 1)), (NegInt (-1)), (2 ^ 64 - 1), (-1), (Float (S754_finite false 4503599627370496 12)).
  split; [constructor; lia |]. split; [constructor; lia |]. split; [apply of_int_integer; lia |]. split; [reflexivity |].
  cbn [exactly units]. intros H. apply (f_equal (fun z => z mod 3)) in H. vm_compute in H. discriminate.
Qed.
(** An error although the result is a number: beyond the signed range, and below zero. *)
Theorem C45_avoidable_error_refuted : exists x y a b, integer x a /\ integer y b /\ alike a b /\
  integer (of_int (a + b)) (a + b) /\ add x y = Err RangeError.
Proof.
  exists (PosInt (2 ^ 63 - 1)), (PosInt 1), (2 ^ 63 - 1), 1. split; [constructor; lia |]. split; [constructor; lia |].
  split; [right; lia |]. split; [apply of_int_integer; lia | reflexivity].
Qed.
Theorem C45_negative_difference_refuted : exists x y a b, integer x a /\ integer y b /\ alike a b /\
  integer (of_int (a - b)) (a - b) /\ sub x y = Err RangeError.
Proof.
  exists (PosInt (2 ^ 63)), (PosInt (2 ^ 63 + 1)), (2 ^ 63), (2 ^ 63 + 1). split; [constructor; lia |]. split; [constructor; lia |].
  split; [right; lia |]. split; [apply of_int_integer; lia | reflexivity].
Qed.
Example C45_example : add (PosInt 9000000000000000000) (PosInt 9300000000000000000) = Ok (PosInt 18300000000000000000) /\
  sub (PosInt 3) (PosInt 5) = Ok (NegInt (-2)) /\ mul (NegInt (-3)) (PosInt 7) = Ok (NegInt (-21)) /\
  mul (PosInt 4294967296) (PosInt 4294967296) = Err RangeError.
Proof. repeat split; reflexivity. Qed.
Example C45_example_alike : integer (PosInt 9000000000000000000) 9000000000000000000 /\ integer (PosInt 9300000000000000000) 9300000000000000000 /\
  alike 9000000000000000000 9300000000000000000 /\ ~ both_alike (Float (f_of_int 1)) (PosInt 3) /\
  add (Float (f_of_int 1)) (PosInt 3) = Ok (Float (f_of_int 4)).
Proof.
  split; [constructor; lia |]. split; [constructor; lia |]. split; [right; lia |].
  split; [intros (a & b & H & _); inversion H | reflexivity].
Qed.

(** * C46: division *)
(** Floored division: [/] and [mod] of integers. *)
Theorem C46_floored x y a b : integer x a -> integer y b -> alike a b -> b <> 0 -> ~ lowest_by_minus_one a b ->
  exists u v q r, div x y = Ok u /\ integer u q /\ modulo x y = Ok v /\ integer v r /\
    a = b * q + r /\ (0 <= r < b \/ b < r <= 0).
Proof.
  intros Hx Hy Hal Hnz Hex. destruct (int_division x y a b Hx Hy Hal Hnz Hex) as ((D1 & D2 & _) & I1 & I2 & _).
  exists (of_int (a / b)), (of_int (a mod b)), (a / b), (a mod b). pose proof (Z.div_mod a b Hnz). pose proof (Z.mod_bound_or a b Hnz). auto 10.
Qed.
(** Truncated division: [quot] and [rem] of integers. *)
Theorem C46_truncated x y a b : integer x a -> integer y b -> alike a b -> b <> 0 -> ~ lowest_by_minus_one a b ->
  exists u v q r, quot x y = Ok u /\ integer u q /\ rem x y = Ok v /\ integer v r /\
    a = b * q + r /\ Z.abs r < Z.abs b /\ 0 <= r * a.
Proof.
  intros Hx Hy Hal Hnz Hex. destruct (int_division x y a b Hx Hy Hal Hnz Hex) as ((_ & _ & D1 & D2) & _ & _ & I1 & I2).
  exists (of_int (Z.quot a b)), (of_int (Z.rem a b)), (Z.quot a b), (Z.rem a b). pose proof (Z.quot_rem a b Hnz).
  pose proof (Z.rem_bound_abs a b Hnz). pose proof (Z.rem_sign_mul a b Hnz). auto 10.
Qed.
(** Division by zero is an error, and only that. *)
Lemma not_div_zero y r : r <> Err DivisionByZero -> proper y -> guarded y r = Err DivisionByZero <-> exactly y = 0.
Proof.
  intros Hr Hy. rewrite <- (is_zero_spec y Hy). unfold guarded. destruct (is_zero y); split; intros H; try reflexivity; try discriminate; congruence.
Qed.
Theorem C46_division_by_zero x y : proper y ->
  (div x y = Err DivisionByZero <-> exactly y = 0) /\ (modulo x y = Err DivisionByZero <-> exactly y = 0) /\
  (quot x y = Err DivisionByZero <-> exactly y = 0) /\ (rem x y = Err DivisionByZero <-> exactly y = 0) /\
  (precise_div x y = Err DivisionByZero <-> exactly y = 0).
Proof.
  intros Hy.
  assert (Hi : forall o, from_i64 o <> Err DivisionByZero) by (intros [i|]; discriminate).
  assert (Hd : forall f, from_f64 f <> Err DivisionByZero) by (intros f; unfold from_f64, of_f64; destruct (is_finite f); discriminate).
  assert (Ho : forall o : option number, ok_or o DomainError <> Err DivisionByZero) by (intros [i|]; discriminate).
  repeat match goal with |- _ /\ _ => split end; apply not_div_zero; try exact Hy; try apply Hd;
    apply (tiered_always _ _ _ _ _ (fun r => r <> Err DivisionByZero)); intros; try apply Hi; try apply Hd; apply Ho.
Qed.
(** Quotients are whole numbers, whatever the operands. *)
Theorem C46_quotients_whole x y z : div x y = Ok z \/ quot x y = Ok z -> exists k, exactly z = k * scale.
Proof. intros [H|H]; [eapply div_integral | eapply quot_integral]; exact H. Qed.
(** Rounding down and up. *)
Theorem C46_floor x : proper x -> exists z k, floor x = Ok z /\ exactly z = k * scale /\ k * scale <= exactly x < (k + 1) * scale.
Proof.
  intros Hx. pose proof scale_pos as Hs. destruct x as [n|n|f]; [exists (PosInt n), n | exists (NegInt n), n |]; try (split; [reflexivity | cbn [exactly]; split; [reflexivity | nia]]).
  cbn [proper] in Hx. destruct (floor_units f Hx) as [[H1 H2] H3]. exists (Float (f_floor f)), (units f / scale).
  cbn [floor round_with exactly]. unfold floor, round_with, from_f64, of_f64. rewrite H1. split; [reflexivity |]. split; [exact H3 |].
  pose proof (Z.div_mod (units f) scale ltac:(lia)). pose proof (Z.mod_pos_bound (units f) scale Hs). nia.
Qed.
Theorem C46_ceiling x : proper x -> exists z k, ceiling x = Ok z /\ exactly z = k * scale /\ (k - 1) * scale < exactly x <= k * scale.
Proof.
  intros Hx. pose proof scale_pos as Hs. destruct x as [n|n|f]; [exists (PosInt n), n | exists (NegInt n), n |]; try (split; [reflexivity | cbn [exactly]; split; [reflexivity | nia]]).
  cbn [proper] in Hx. destruct (ceil_units f Hx) as [[H1 H2] H3]. exists (Float (f_ceil f)), (- (- units f / scale)).
  cbn [exactly]. unfold ceiling, round_with, from_f64, of_f64. rewrite H1. split; [reflexivity |]. split; [exact H3 |].
  pose proof (Z.div_mod (- units f) scale ltac:(lia)). pose proof (Z.mod_pos_bound (- units f) scale Hs). nia.
Qed.
(** The remainder of doubles is exact. *)
Theorem C46_float_remainder x y : proper x -> proper y -> ~ both_alike x y -> exactly y <> 0 ->
  exists z q, rem x y = Ok z /\ roughly x = roughly y * q + exactly z /\
    Z.abs (exactly z) < Z.abs (roughly y) /\ 0 <= exactly z * roughly x.
Proof.
  intros Hx Hy Hn Hnz. unfold rem, guarded.
  assert (Ez : is_zero y = false) by (destruct (is_zero y) eqn:E; [apply is_zero_spec in E; [contradiction | exact Hy] | reflexivity]).
  rewrite Ez, tiered_double by assumption. assert (Hr := is_zero_rough y Hy Ez).
  destruct (rem_units (as_f64 x) (as_f64 y)) as [[H1 H2] H3]; [apply as_f64_double; assumption .. | exact Hr |].
  exists (Float (f_rem (as_f64 x) (as_f64 y))), (Z.quot (roughly x) (roughly y)). unfold from_f64, of_f64. rewrite H1. split; [reflexivity |].
  cbn [exactly]. rewrite H3. fold (roughly x) (roughly y). pose proof (Z.quot_rem (roughly x) (roughly y) Hr).
  pose proof (Z.rem_bound_abs (roughly x) (roughly y) Hr). pose proof (Z.rem_sign_mul (roughly x) (roughly y) Hr). auto.
Qed.
(** Exact division: the double nearest to the quotient of the operands as doubles, even for two integers. *)
Theorem C46_exact_division x y z : proper x -> proper y -> precise_div x y = Ok z ->
  exists f, z = Float f /\ nearest_ratio (roughly x * scale) (roughly y) f.
Proof.
  intros Hx Hy H. unfold precise_div, guarded in H. destruct (is_zero y) eqn:Ez; [discriminate |].
  apply from_f64_ok in H. destruct H as [-> H]. eexists. split; [reflexivity |].
  apply div_nearest; [apply as_f64_double; assumption .. | apply is_zero_rough; assumption | exact H].
Qed.
Example C46_exact_division_example : proper (PosInt 1) /\ proper (NegInt (-3)) /\
  precise_div (PosInt 1) (NegInt (-3)) = Ok (Float (S754_finite true 6004799503160661 (-54))) /\
  mul (Float (S754_finite false 6004799503160661 (-54))) (PosInt 3) = Ok (Float (S754_finite false 4503599627370496 (-52))).
Proof. split; [exists 1; constructor; lia |]. split; [exists (-3); constructor; lia |]. split; vm_compute; reflexivity. Qed.
(** The lowest word divided by -1 is an error even where the result is zero. *)
Theorem C46_lowest_refuted : modulo (NegInt (- 2 ^ 63)) (NegInt (-1)) = Err RangeError /\ rem (NegInt (- 2 ^ 63)) (NegInt (-1)) = Err RangeError /\
  integer (NegInt (- 2 ^ 63)) (- 2 ^ 63) /\ (- 2 ^ 63) mod (-1) = 0.
Proof. split; [reflexivity |]. split; [reflexivity |]. split; [constructor; lia | reflexivity]. Qed.
(** The modulus of doubles may reach the divisor: -1e-20 mod 1 is 1. *)
Definition tiny : number := Float (f_div (f_of_int (-1)) (f_of_int (10 ^ 20))).
Theorem C46_float_mod_refuted : exists z, modulo tiny (PosInt 1) = Ok z /\ exactly z = exactly (PosInt 1) /\ proper tiny.
Proof.
  exists (Float (f_of_int 1)). split; [vm_compute; reflexivity |].
  split; [cbn [exactly]; apply f_of_int_exact; lia |]. split; vm_compute; reflexivity.
Qed.
(** 2^63 divided by 1, as doubles, is 2^63 - 1. *)
Theorem C46_float_quotient_refuted : exists z, div (Float (f_of_int (2 ^ 63))) (PosInt 1) = Ok z /\ integer z (2 ^ 63 - 1) /\
  exactly (Float (f_of_int (2 ^ 63))) = 2 ^ 63 * scale /\ proper (Float (f_of_int (2 ^ 63))).
Proof.
  exists (PosInt (2 ^ 63 - 1)). split; [vm_compute; reflexivity |]. split; [constructor; lia |].
  split; [cbn [exactly]; rewrite f_of_int_units by lia; reflexivity |]. apply f_of_int_double. lia.
Qed.
(** A negative number and one above 2^63 are divided as doubles, and the law fails. *)
Theorem C46_mixed_refuted : exists x y a b u v q r, integer x a /\ integer y b /\ b <> 0 /\
  div x y = Ok u /\ exactly u = q * scale /\ modulo x y = Ok v /\ exactly v = r * scale /\ a <> b * q + r.
Proof.
  exists (PosInt (2 ^ 64 - 1)), (NegInt (-1)), (2 ^ 64 - 1), (-1), (Float (f_of_int (- 2 ^ 64))), (Float (S754_zero false)), (- 2 ^ 64), 0.
  split; [constructor; lia |]. split; [constructor; lia |]. split; [lia |]. split; [vm_compute; reflexivity |].
  split; [cbn [exactly]; rewrite f_of_int_units by lia; reflexivity |]. split; [vm_compute; reflexivity |]. split; [reflexivity | lia].
Qed.
Example C46_example : div (NegInt (-7)) (PosInt 2) = Ok (NegInt (-4)) /\ modulo (NegInt (-7)) (PosInt 2) = Ok (PosInt 1) /\
  quot (NegInt (-7)) (PosInt 2) = Ok (NegInt (-3)) /\ rem (NegInt (-7)) (PosInt 2) = Ok (NegInt (-1)) /\
  div (PosInt 7) (Float (S754_zero true)) = Err DivisionByZero /\ ~ lowest_by_minus_one (-7) 2 /\ alike (-7) 2.
Proof. repeat split; try reflexivity; [intros [H _]; discriminate | left; unfold signed; lia]. Qed.

(** * C47: comparison *)
(** Integers are compared exactly, and so are numbers that doubles represent exactly. *)
Theorem C47_exact x y : proper x -> proper y -> comparable x y ->
  lt x y = Some (exactly x <? exactly y) /\ lte x y = Some (exactly x <=? exactly y) /\
  gt x y = Some (exactly y <? exactly x) /\ gte x y = Some (exactly y <=? exactly x) /\ num_eq x y = (exactly x =? exactly y).
Proof.
  intros Hx Hy Hc.
  assert (Ho : num_ord x y = Some (exactly x ?= exactly y)).
  { destruct (ord_cases x y Hx Hy) as [(a & b & Ha & Hb & ->)|[Hf ->]].
    - rewrite (exactly_int _ _ Ha), (exactly_int _ _ Hb), mul_compare by apply scale_pos. reflexivity.
    - destruct Hc as [(a & b & Ha & Hb)|[-> ->]]; [| reflexivity]. destruct Hf as [[f ->]|[f ->]]; [inversion Ha | inversion Hb]. }
  unfold lt, lte, gt, gte, ordered. rewrite num_eq_ord by assumption. rewrite Ho.
  destruct (Z.compare_spec (exactly x) (exactly y)), (Z.ltb_spec (exactly x) (exactly y)), (Z.leb_spec (exactly x) (exactly y)),
    (Z.ltb_spec (exactly y) (exactly x)), (Z.leb_spec (exactly y) (exactly x)), (Z.eqb_spec (exactly x) (exactly y)); try lia; auto.
Qed.
Theorem C47_small_integers_comparable x y : (forall a, integer x a -> - 2 ^ 53 <= a <= 2 ^ 53) -> (forall a, integer y a -> - 2 ^ 53 <= a <= 2 ^ 53) ->
  proper x -> proper y -> comparable x y.
Proof.
  assert (H : forall x, (forall a, integer x a -> - 2 ^ 53 <= a <= 2 ^ 53) -> proper x -> exactly x = roughly x).
  { intros w Hw Hp. destruct w as [n|n|f]; [| | reflexivity]; unfold roughly; cbn [exactly as_f64]; destruct Hp as [z Hz]; specialize (Hw z Hz);
      inversion Hz; subst; symmetry; apply f_of_int_exact; assumption. }
  intros Hx Hy Px Py. right. auto.
Qed.
(** For all numbers: comparison never fails; exactly one of less, equal, greater; the four tests agree. *)
Theorem C47_trichotomy x y : proper x -> proper y ->
  exists l e g, lt x y = Some l /\ num_eq x y = e /\ gt x y = Some g /\ lte x y = Some (negb g) /\ gte x y = Some (negb l) /\
    ((l = true /\ e = false /\ g = false) \/ (l = false /\ e = true /\ g = false) \/ (l = false /\ e = false /\ g = true)).
Proof.
  intros Hx Hy. assert (exists c, num_ord x y = Some c) as [c Hc].
  { destruct (ord_cases x y Hx Hy) as [(a & b & _ & _ & ->)|[_ ->]]; eauto. }
  unfold lt, lte, gt, gte, ordered. rewrite num_eq_ord by assumption. rewrite Hc.
  destruct c; do 3 eexists; repeat split; auto.
Qed.
Lemma ord_swap x y : proper x -> proper y -> num_ord y x = match num_ord x y with Some c => Some (CompOpp c) | None => None end.
Proof.
  intros Hx Hy. destruct (ord_cases x y Hx Hy) as [(a & b & Ha & Hb & ->)|[Hf ->]].
  - rewrite (num_ord_int y x b a Hb Ha), Z.compare_antisym. reflexivity.
  - rewrite num_ord_float by (tauto || assumption). rewrite Z.compare_antisym. reflexivity.
Qed.
(** Swapping the operands. *)
Theorem C47_swap x y : proper x -> proper y -> gt x y = lt y x /\ gte x y = lte y x /\ num_eq x y = num_eq y x.
Proof.
  intros Hx Hy. unfold lt, lte, gt, gte, ordered. rewrite !num_eq_ord by assumption. rewrite (ord_swap x y Hx Hy).
  destruct (num_ord x y) as [[]|]; auto.
Qed.
(** What compares as less is less. *)
Theorem C47_less_is_less x y : proper x -> proper y -> lt x y = Some true -> exactly x < exactly y.
Proof.
  intros Hx Hy H. apply ord_lt; try assumption. unfold lt, ordered in H. destruct (num_ord x y) as [[]|]; try discriminate. reflexivity.
Qed.
(** Less-than is a strict order on all numbers. *)
Theorem C47_less_transitive x y z : proper x -> proper y -> proper z -> lt x y = Some true -> lt y z = Some true -> lt x z = Some true.
Proof.
  intros Hx Hy Hz H1 H2. unfold lt, ordered in *.
  destruct (num_ord x y) as [[]|] eqn:E1; try discriminate. destruct (num_ord y z) as [[]|] eqn:E2; try discriminate.
  rewrite (ord_trans x y z Hx Hy Hz E1 E2). reflexivity.
Qed.
Theorem C47_reflexive x : proper x -> lt x x = Some false /\ num_eq x x = true.
Proof.
  intros Hx. unfold lt, ordered. rewrite num_eq_ord by assumption.
  destruct (ord_cases x x Hx Hx) as [(a & b & Ha & Hb & ->)|[Hf ->]].
  - rewrite (integer_unique _ _ _ Ha Hb), Z.compare_refl. auto.
  - rewrite Z.compare_refl. auto.
Qed.
(** At-most and equality are not transitive: 2^53 + 1, the double 2^53, and 2^53. *)
Definition big_double : number := Float (f_of_int (2 ^ 53)).
Lemma big_proper : proper (PosInt (2 ^ 53 + 1)) /\ proper big_double /\ proper (PosInt (2 ^ 53)).
Proof. split; [eexists; constructor; lia |]. split; [apply f_of_int_double; lia | eexists; constructor; lia]. Qed.
Theorem C47_at_most_transitive_refuted : exists x y z, proper x /\ proper y /\ proper z /\
  lte x y = Some true /\ lte y z = Some true /\ lte x z = Some false.
Proof. exists (PosInt (2 ^ 53 + 1)), big_double, (PosInt (2 ^ 53)). destruct big_proper as (? & ? & ?). repeat split; auto. Qed.
Theorem C47_equal_transitive_refuted : exists x y z, proper x /\ proper y /\ proper z /\
  num_eq x y = true /\ num_eq y z = true /\ num_eq x z = false.
Proof. exists (PosInt (2 ^ 53 + 1)), big_double, (PosInt (2 ^ 53)). destruct big_proper as (? & ? & ?). repeat split; auto. Qed.
Example C47_example : lt (NegInt (-1)) (PosInt (2 ^ 64 - 1)) = Some true /\ gte (PosInt (2 ^ 64 - 1)) (PosInt (2 ^ 64 - 2)) = Some true /\
  lt tiny (PosInt 0) = Some true /\ comparable (NegInt (-1)) (PosInt (2 ^ 64 - 1)).
Proof. repeat split; try (vm_compute; reflexivity). left. exists (-1), (2 ^ 64 - 1). split; constructor; lia. Qed.

(** * C48: operations on bits *)
Lemma word_require x a : word x a -> require_i64 x = Ok a.
Proof.
  intros (Hx & Ha & He). pose proof scale_pos.
  assert (exactly x <> 2 ^ 63 * scale) as Hne by (rewrite He; unfold signed in Ha; nia).
  destruct (require_spec x Hx Hne) as [(i & H1 & _ & ->)|[H1 _]].
  - rewrite He in H1. apply Z.mul_reg_r in H1; [congruence | lia].
  - destruct (H1 a Ha He).
Qed.
Lemma land_signed a b : signed a -> signed b -> signed (Z.land a b) /\ signed (Z.lor a b) /\ signed (Z.lxor a b).
Proof.
  assert (H : forall z, signed z <-> forall i, 63 <= i -> Z.testbit z i = Z.testbit z 63).
  { intros z. unfold signed. split.
    - intros Hz i Hi. destruct (Z.le_gt_cases 0 z).
      + rewrite !Z.bits_above_log2; try reflexivity; try assumption; destruct (Z.eq_dec z 0) as [->|]; try (cbn; lia);
          assert (Z.log2 z < 63) by (apply Z.log2_lt_pow2; lia); lia.
      + rewrite !Z.bits_above_log2_neg; try reflexivity; try assumption; destruct (Z.eq_dec z (-1)) as [->|]; try (cbn; lia);
          assert (Z.log2 (Z.pred (- z)) < 63) by (apply Z.log2_lt_pow2; lia); lia.
    - intros Hi. assert (Hs : Z.shiftr z 63 = if Z.testbit z 63 then -1 else 0).
      { apply Z.bits_inj'. intros n Hn. rewrite Z.shiftr_spec by exact Hn. rewrite Hi by lia.
        destruct (Z.testbit z 63); [rewrite Z.bits_m1 by exact Hn | rewrite Z.bits_0]; reflexivity. }
      rewrite Z.shiftr_div_pow2 in Hs by lia. pose proof (Z.div_mod z (2 ^ 63) ltac:(lia)). pose proof (Z.mod_pos_bound z (2 ^ 63) ltac:(lia)).
      destruct (Z.testbit z 63); lia. }
  intros Ha Hb. rewrite H in Ha, Hb. rewrite !H. repeat split; intros i Hi; rewrite ?Z.land_spec, ?Z.lor_spec, ?Z.lxor_spec;
    rewrite (Ha i Hi), (Hb i Hi); reflexivity.
Qed.
Lemma of_int_word c : signed c -> word (of_int c) c.
Proof.
  intros Hc. split; [| split; [exact Hc | apply of_int_exactly]]. eapply integer_proper, of_int_integer. unfold signed in Hc. lia.
Qed.
Lemma on_i64_ok op x y a b c : word x a -> word y b -> op a b = Ok c -> on_i64 op x y = Ok (of_int c).
Proof. intros Hx Hy Ho. unfold on_i64. rewrite (word_require x a Hx), (word_require y b Hy). cbn [and_then]. rewrite Ho. reflexivity. Qed.
Theorem C48_bits x y a b : word x a -> word y b ->
  (exists z c, bit_and x y = Ok z /\ word z c /\ forall i, Z.testbit c i = Z.testbit a i && Z.testbit b i) /\
  (exists z c, bit_or x y = Ok z /\ word z c /\ forall i, Z.testbit c i = Z.testbit a i || Z.testbit b i) /\
  (exists z c, bit_xor x y = Ok z /\ word z c /\ forall i, Z.testbit c i = xorb (Z.testbit a i) (Z.testbit b i)) /\
  (exists z, bit_not x = Ok z /\ word z (- a - 1)).
Proof.
  intros Hx Hy. destruct (land_signed a b) as (S1 & S2 & S3); [apply Hx | apply Hy |].
  split; [| split; [| split]].
  - exists (of_int (Z.land a b)), (Z.land a b). split; [eapply on_i64_ok; [eassumption | eassumption | reflexivity] |]. split; [apply of_int_word, S1 | apply Z.land_spec].
  - exists (of_int (Z.lor a b)), (Z.lor a b). split; [eapply on_i64_ok; [eassumption | eassumption | reflexivity] |]. split; [apply of_int_word, S2 | apply Z.lor_spec].
  - exists (of_int (Z.lxor a b)), (Z.lxor a b). split; [eapply on_i64_ok; [eassumption | eassumption | reflexivity] |]. split; [apply of_int_word, S3 | apply Z.lxor_spec].
  - exists (of_int (- a - 1)). unfold bit_not. rewrite (word_require x a Hx). cbn [map_ok]. replace (Z.lnot a) with (- a - 1) by (unfold Z.lnot; lia).
    split; [reflexivity |]. apply of_int_word. destruct Hx as (_ & Ha & _). unfold signed in *. lia.
Qed.
(** Shifts by 0 to 63 places: left modulo 2^64, right rounding down. *)
Theorem C48_shifts x y a k : word x a -> word y k -> 0 <= k < 64 ->
  (exists z c, shl x y = Ok z /\ word z c /\ (c - a * 2 ^ k) mod 2 ^ 64 = 0) /\
  (exists z c, shr x y = Ok z /\ word z c /\ c * 2 ^ k <= a < (c + 1) * 2 ^ k).
Proof.
  intros Hx Hy Hk. assert (Hin : in_shift k = true) by (unfold in_shift; destruct (Z.leb_spec 0 k), (Z.ltb_spec k 64); try lia; reflexivity).
  pose proof (pow_pos k ltac:(lia)) as Hp. destruct (wrap_spec (a * 2 ^ k)) as [W1 W2]. split.
  - exists (of_int (wrap_i64 (a * 2 ^ k))), (wrap_i64 (a * 2 ^ k)).
    split; [eapply on_i64_ok; [eassumption | eassumption | cbn beta; rewrite Hin; reflexivity] |]. split; [apply of_int_word, W1 | exact W2].
  - exists (of_int (a / 2 ^ k)), (a / 2 ^ k).
    split; [eapply on_i64_ok; [eassumption | eassumption | cbn beta; rewrite Hin; reflexivity] |].
    pose proof (Z.div_mod a (2 ^ k) ltac:(lia)). pose proof (Z.mod_pos_bound a (2 ^ k) Hp). split; [| nia].
    apply of_int_word. destruct Hx as (_ & Ha & _). unfold signed in *. split; [apply Z.div_le_lower_bound; nia | apply Z.div_lt_upper_bound; nia].
Qed.
(** A left shift that fits is multiplication. *)
Theorem C48_shift_left_fits x y a k : word x a -> word y k -> 0 <= k < 64 -> signed (a * 2 ^ k) ->
  exists z, shl x y = Ok z /\ word z (a * 2 ^ k).
Proof.
  intros Hx Hy Hk Hs. destruct (C48_shifts x y a k Hx Hy Hk) as [(z & c & H1 & H2 & H3) _]. exists z. split; [exact H1 |].
  assert (c = a * 2 ^ k); [| congruence]. destruct H2 as (_ & Hc & _). unfold signed in *.
  apply Z.mod_divide in H3; [| lia]. destruct H3 as [d Hd]. nia.
Qed.
(** Everything else is refused. *)
Theorem C48_refused x y : proper x -> proper y -> exactly x <> 2 ^ 63 * scale ->
  (forall a, ~ word x a) -> bit_and x y = Err NotInteger /\ bit_or x y = Err NotInteger /\ bit_xor x y = Err NotInteger /\
  bit_not x = Err NotInteger /\ shl x y = Err NotInteger /\ shr x y = Err NotInteger.
Proof.
  intros Hx Hy Hne Hw. assert (Hr : require_i64 x = Err NotInteger).
  { destruct (require_spec x Hx Hne) as [(i & H1 & H2 & _)|[_ H1]]; [| exact H1]. destruct (Hw i). split; [exact Hx | split; assumption]. }
  unfold bit_and, bit_or, bit_xor, bit_not, shl, shr, on_i64. rewrite Hr. repeat split; reflexivity.
Qed.
Theorem C48_shift_range x y a k : word x a -> word y k -> ~ (0 <= k < 64) -> shl x y = Err ShiftRange /\ shr x y = Err ShiftRange.
Proof.
  intros Hx Hy Hk. assert (Hin : in_shift k = false) by (unfold in_shift; destruct (Z.leb_spec 0 k), (Z.ltb_spec k 64); try lia; reflexivity).
  unfold shl, shr, on_i64. rewrite (word_require x a Hx), (word_require y k Hy). cbn [and_then]. rewrite Hin. split; reflexivity.
Qed.
(** The double 2^63 is taken for 2^63 - 1. *)
Theorem C48_double_refuted : exists x, proper x /\ exactly x = 2 ^ 63 * scale /\ bit_and x (NegInt (-1)) = Ok (PosInt (2 ^ 63 - 1)).
Proof.
  exists (Float (f_of_int (2 ^ 63))). split; [apply f_of_int_double; lia |].
  split; [cbn [exactly]; rewrite f_of_int_units by lia; reflexivity | vm_compute; reflexivity].
Qed.
(** A left shift that does not fit changes sign without an error. *)
Theorem C48_shift_overflow_refuted : shl (PosInt 1) (PosInt 63) = Ok (NegInt (- 2 ^ 63)) /\ ~ signed (1 * 2 ^ 63).
Proof. split; [reflexivity | unfold signed; lia]. Qed.
Example C48_example : word (Float (f_of_int 12)) 12 /\ word (NegInt (-6)) (-6) /\
  bit_and (Float (f_of_int 12)) (NegInt (-6)) = Ok (PosInt 8) /\ shr (NegInt (-7)) (PosInt 1) = Ok (NegInt (-4)).
Proof.
  split; [split; [apply f_of_int_double; lia | split; [unfold signed; lia | cbn [exactly]; apply f_of_int_exact; lia]] |].
  split; [apply (of_int_word (-6)); unfold signed; lia |]. split; vm_compute; reflexivity.
Qed.

(** * C49: sorting and running totals *)
Theorem C49_sort xs : Forall proper xs ->
  ascending (map exactly (sort_nums xs)) /\ Permutation (map roughly xs) (map exactly (sort_nums xs)).
Proof.
  intros H. assert (Hd := collect_doubles xs H). unfold sort_nums.
  assert (Hs : Forall double (fold_right insert [] (collect_num_list xs))) by (eapply Permutation_Forall; [apply sort_perm | exact Hd]).
  rewrite return_doubles by exact Hs. split; [apply sort_asc, Hd |].
  replace (map roughly xs) with (map units (collect_num_list xs)) by (unfold collect_num_list; rewrite map_map; reflexivity).
  apply Permutation_map, sort_perm.
Qed.
Theorem C49_running_max xs : Forall proper xs -> length (running_max xs) = length xs /\
  forall i v, nth_error (map exactly (running_max xs)) i = Some v -> tops Z.le (firstn (S i) (map roughly xs)) v.
Proof.
  intros H. assert (Hd := collect_doubles xs H). unfold running_max.
  destruct (running_extreme Z.le f_max Z.le_refl Z.le_trans f_max_spec (S754_infinity true) _ max_start Hd) as [H1 H2].
  rewrite return_doubles by exact H1. unfold return_num_list, collect_num_list in *. rewrite map_length, running_length, map_length.
  split; [reflexivity |]. intros i v Hv. specialize (H2 i v Hv). rewrite map_map in H2. exact H2.
Qed.
Theorem C49_running_min xs : Forall proper xs -> length (running_min xs) = length xs /\
  forall i v, nth_error (map exactly (running_min xs)) i = Some v -> tops Z.ge (firstn (S i) (map roughly xs)) v.
Proof.
  intros H. assert (Hd := collect_doubles xs H). unfold running_min.
  destruct (running_extreme Z.ge f_min (fun a => Z.le_ge _ _ (Z.le_refl a)) ltac:(intros; lia) f_min_spec (S754_infinity false) _ min_start Hd) as [H1 H2].
  rewrite return_doubles by exact H1. unfold return_num_list, collect_num_list in *. rewrite map_length, running_length, map_length.
  split; [reflexivity |]. intros i v Hv. specialize (H2 i v Hv). rewrite map_map in H2. exact H2.
Qed.
(** Running sums of whole numbers are exact while they stay within 2^53. *)
Theorem C49_running_sum xs zs : Forall proper xs -> map roughly xs = map (fun z => z * scale) zs ->
  Forall (fun s => - 2 ^ 53 <= s <= 2 ^ 53) (sums 0 zs) -> map exactly (running_sum xs) = map (fun s => s * scale) (sums 0 zs).
Proof.
  intros H Hz Hs. assert (Hd := collect_doubles xs H). unfold running_sum.
  destruct (running_add (collect_num_list xs) (S754_zero false) 0 zs) as [H1 H2]; try assumption; [split; reflexivity | reflexivity | |].
  - unfold collect_num_list. rewrite map_map. exact Hz.
  - rewrite return_doubles by exact H1. exact H2.
Qed.
(** Integers beyond 2^53 come back changed; a sum that overflows comes back as 0. *)
Theorem C49_sort_changes_refuted : exists xs, Forall proper xs /\ ~ Permutation (map exactly xs) (map exactly (sort_nums xs)).
Proof.
  exists [PosInt (2 ^ 53 + 1)]. split; [constructor; [apply big_proper | constructor] |].
  assert (E : map exactly (sort_nums [PosInt (2 ^ 53 + 1)]) = [2 ^ 53 * scale]).
  { change (sort_nums [PosInt (2 ^ 53 + 1)]) with [Float (f_of_int (2 ^ 53 + 1))]. cbn [map exactly]. rewrite f_of_int_units by lia. reflexivity. }
  rewrite E. intros H. apply Permutation_length_1 in H. cbn [exactly] in H. pose proof scale_pos. apply Z.mul_reg_r in H; lia.
Qed.
Definition huge : number := Float (f_of_int (2 ^ 1023)).
Theorem C49_running_sum_refuted : exists xs, Forall proper xs /\ running_sum xs = [huge; PosInt 0].
Proof. exists [huge; huge]. split; [repeat constructor; vm_compute; reflexivity | vm_compute; reflexivity]. Qed.
Example C49_example : map exactly (sort_nums [PosInt 3; NegInt (-1); Float (f_of_int 2)]) = [-1 * scale; 2 * scale; 3 * scale] /\
  Forall proper [PosInt 3; NegInt (-1); Float (f_of_int 2)].
Proof.
  split; [vm_compute; reflexivity |]. constructor; [eexists; constructor; lia |]. constructor; [eexists; constructor; lia |].
  constructor; [apply f_of_int_double; lia | constructor].
Qed.

Print Assumptions C45_add_exact.
Print Assumptions C45_sub_exact.
Print Assumptions C45_mul_exact.
Print Assumptions C45_sub_signed.
Print Assumptions C45_pow_exact.
Print Assumptions C45_add_commutes.
Print Assumptions C45_mul_commutes.
Print Assumptions C45_float_add.
Print Assumptions C45_float_sub.
Print Assumptions C45_float_mul.
Print Assumptions C45_float_nearest.
Print Assumptions C45_closed.
Print Assumptions C45_mixed_refuted.
Print Assumptions C45_avoidable_error_refuted.
Print Assumptions C45_negative_difference_refuted.
Print Assumptions C46_floored.
Print Assumptions C46_truncated.
Print Assumptions C46_division_by_zero.
Print Assumptions C46_quotients_whole.
Print Assumptions C46_floor.
Print Assumptions C46_ceiling.
Print Assumptions C46_float_remainder.
Print Assumptions C46_exact_division.
Print Assumptions C46_lowest_refuted.
Print Assumptions C46_float_mod_refuted.
Print Assumptions C46_float_quotient_refuted.
Print Assumptions C46_mixed_refuted.
Print Assumptions C47_exact.
Print Assumptions C47_small_integers_comparable.
Print Assumptions C47_trichotomy.
Print Assumptions C47_swap.
Print Assumptions C47_less_is_less.
Print Assumptions C47_less_transitive.
Print Assumptions C47_reflexive.
Print Assumptions C47_at_most_transitive_refuted.
Print Assumptions C47_equal_transitive_refuted.
Print Assumptions C48_bits.
Print Assumptions C48_shifts.
Print Assumptions C48_shift_left_fits.
Print Assumptions C48_refused.
Print Assumptions C48_shift_range.
Print Assumptions C48_double_refuted.
Print Assumptions C48_shift_overflow_refuted.
Print Assumptions C49_sort.
Print Assumptions C49_running_max.
Print Assumptions C49_running_min.
Print Assumptions C49_running_sum.
Print Assumptions C49_sort_changes_refuted.
Print Assumptions C49_running_sum_refuted.
