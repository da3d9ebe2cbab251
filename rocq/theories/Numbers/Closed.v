(** Every operation on doubles yields a canonical double, an infinity or no number; the operations on
    numbers yield proper numbers. *)
From Coq Require Import ZArith List Bool Lia Floats.SpecFloat.
From Verif.Numbers Require Import Model Spec Round Floats Nearest.
Import ListNotations.
Open Scope Z_scope.
Local Arguments Z.pow : simpl never.
Local Arguments Z.mul : simpl never.
Local Arguments Z.add : simpl never.
Local Arguments Z.sub : simpl never.

Lemma digits_mul a b : 0 < a -> 0 < b -> Zdigits2 a + Zdigits2 b - 1 <= Zdigits2 (a * b).
Proof.
  intros Ha Hb. destruct (digits_bounds a Ha) as (A1 & A2 & _), (digits_bounds b Hb) as (B1 & B2 & _).
  destruct (digits_bounds (a * b)) as (C1 & _ & C3); [nia |].
  assert (Zdigits2 a - 1 + (Zdigits2 b - 1) < Zdigits2 (a * b)); [| lia]. apply pow_lt_inv; [lia |].
  rewrite Z.pow_add_r by lia. pose proof (pow_pos (Zdigits2 a - 1)). pose proof (pow_pos (Zdigits2 b - 1)). nia.
Qed.
Lemma normal_digits s m e : double (S754_finite s m e) -> e = -1074 \/ Zdigits2 (Zpos m) = 53.
Proof. rewrite finite_valid. change (Zpos (digits2_pos m)) with (Zdigits2 (Zpos m)). unfold fexp, emin. lia. Qed.
Lemma mul_valid f g : double f -> double g -> valid_binary 53 1024 (f_mul f g) = true.
Proof.
  intros Hf Hg. destruct f as [s|s| |s m e]; try (destruct Hf as [Hf _]; discriminate Hf);
    destruct g as [s'|s'| |s' m' e']; try (destruct Hg as [Hg _]; discriminate Hg); try reflexivity.
  unfold f_mul. cbn [SFmul]. apply round_aux_valid; [lia |]. rewrite Pos2Z.inj_mul.
  pose proof (digits_mul (Zpos m) (Zpos m') ltac:(lia) ltac:(lia)).
  pose proof (normal_digits _ _ _ Hf). pose proof (normal_digits _ _ _ Hg).
  destruct (digits_bounds (Zpos m)) as (D1 & _); [lia |]. destruct (digits_bounds (Zpos m')) as (D2 & _); [lia |].
  apply canonical_bounds in Hf. apply canonical_bounds in Hg. unfold fexp, emin. lia.
Qed.
Lemma div_valid f g : double f -> double g -> valid_binary 53 1024 (f_div f g) = true.
Proof.
  intros Hf Hg. destruct f as [s|s| |s m e]; try (destruct Hf as [Hf _]; discriminate Hf);
    destruct g as [s'|s'| |s' m' e']; try (destruct Hg as [Hg _]; discriminate Hg); try reflexivity.
  unfold f_div. cbn [SFdiv]. unfold SFdiv_core_binary.
  set (E := Z.min _ _). set (k := e - e' - E).
  assert (Hk : 0 <= k) by (unfold k, E; lia).
  assert (Hm : match k with Zpos _ => Z.shiftl (Zpos m) k | Z0 => Zpos m | Zneg _ => 0 end = Zpos m * 2 ^ k).
  { destruct k as [|p|p]; [rewrite Z.mul_1_r; reflexivity | | lia]. apply Z.shiftl_mul_pow2. lia. }
  rewrite Hm. pose proof (pow_pos k Hk) as Hp.
  pose proof (Z.div_eucl_eq (Zpos m * 2 ^ k) (Zpos m') ltac:(lia)) as HD.
  assert (Hq : Zpos m * 2 ^ k / Zpos m' = fst (Z.div_eucl (Zpos m * 2 ^ k) (Zpos m'))) by (unfold Z.div; destruct (Z.div_eucl _ _); reflexivity).
  destruct (Z.div_eucl (Zpos m * 2 ^ k) (Zpos m')) as [q r]. cbn [fst] in Hq.
  assert (Hq0 : 0 <= q) by (rewrite <- Hq; apply Z.div_pos; nia).
  apply round_aux_valid; [exact Hq0 |].
  destruct (digits_bounds (Zpos m)) as (D1 & D2 & D3); [lia |]. destruct (digits_bounds (Zpos m')) as (D4 & D5 & D6); [lia |].
  assert (Hdq : Zdigits2 (Zpos m) + k - Zdigits2 (Zpos m') <= Zdigits2 q).
  { destruct (Z.le_gt_cases (Zdigits2 (Zpos m) + k - Zdigits2 (Zpos m')) 0) as [H|H].
    - destruct q as [|p|p]; [exact H | | lia]. destruct (digits_bounds (Zpos p)); lia.
    - assert (Hlow : 2 ^ (Zdigits2 (Zpos m) + k - Zdigits2 (Zpos m') - 1) <= q).
      { rewrite <- Hq. apply Z.div_le_lower_bound; [lia |].
        apply Z.le_trans with (2 ^ Zdigits2 (Zpos m') * 2 ^ (Zdigits2 (Zpos m) + k - Zdigits2 (Zpos m') - 1)).
        - apply Z.mul_le_mono_nonneg_r; [| lia]. apply Z.lt_le_incl, pow_pos. lia.
        - rewrite <- Z.pow_add_r by lia.
          replace (Zdigits2 (Zpos m') + (Zdigits2 (Zpos m) + k - Zdigits2 (Zpos m') - 1)) with (Zdigits2 (Zpos m) - 1 + k) by lia.
          rewrite Z.pow_add_r by lia. nia. }
      assert (0 < q) by (eapply Z.lt_le_trans; [| exact Hlow]; apply pow_pos; lia).
      destruct (digits_bounds q) as (Q1 & _ & Q3); [assumption |].
      assert (Zdigits2 (Zpos m) + k - Zdigits2 (Zpos m') - 1 < Zdigits2 q); [| lia]. apply pow_lt_inv; lia. }
  assert (HE : E <= fexp 53 1024 (Zdigits2 (Zpos m) + e - (Zdigits2 (Zpos m') + e'))) by (unfold E; lia).
  unfold fexp, emin in *. unfold k in *. lia.
Qed.
Lemma add_valid f g : double f -> double g -> valid_binary 53 1024 (f_add f g) = true.
Proof.
  intros Hf Hg. destruct (is_finite (f_add f g)) eqn:E; [apply add_nearest; assumption |]. destruct (f_add f g); try discriminate; reflexivity.
Qed.
Lemma sub_valid f g : double f -> double g -> valid_binary 53 1024 (f_sub f g) = true.
Proof.
  intros Hf Hg. destruct (is_finite (f_sub f g)) eqn:E; [apply sub_nearest; assumption |]. destruct (f_sub f g); try discriminate; reflexivity.
Qed.

(** * Proper numbers *)
Lemma integer_abs x z : integer x z -> Z.abs z <= 2 ^ 64. Proof. destruct 1; lia. Qed.
Lemma as_f64_double x : proper x -> double (as_f64 x).
Proof.
  destruct x as [n|n|f]; [| | auto]; cbn [proper as_f64]; intros [z Hz]; apply f_of_int_double;
    (pose proof (integer_abs _ _ Hz)); inversion Hz; subst; assumption.
Qed.
Lemma integer_proper x z : integer x z -> proper x. Proof. destruct 1; cbn [proper]; eexists; constructor; eassumption. Qed.
Lemma of_int_integer z : - 2 ^ 63 <= z <= 2 ^ 64 - 1 -> integer (of_int z) z.
Proof. intros Hz. unfold of_int. destruct (Z.ltb_spec z 0); constructor; lia. Qed.
Lemma in_i64_iff z : in_i64 z = true <-> signed z.
Proof. unfold in_i64, signed, i64_min, i64_max. rewrite andb_true_iff, !Z.leb_le. lia. Qed.
Lemma in_u64_iff z : in_u64 z = true <-> 0 <= z <= 2 ^ 64 - 1.
Proof. unfold in_u64, u64_max. rewrite andb_true_iff, !Z.leb_le. lia. Qed.
Lemma as_i64_spec x z : as_i64 x = Some z -> proper x -> integer x z /\ signed z.
Proof.
  destruct x as [n|n|f]; cbn [as_i64 proper]; [| | discriminate].
  - unfold i64_max. destruct (Z.leb_spec n (2 ^ 63 - 1)); [| discriminate]. intros [= <-] [w Hw]. inversion Hw; subst.
    split; [assumption | unfold signed; lia].
  - intros [= <-] [w Hw]. inversion Hw; subst. split; [assumption | unfold signed; lia].
Qed.
Lemma as_u64_spec x z : as_u64 x = Some z -> proper x -> integer x z /\ 0 <= z.
Proof. destruct x as [n|n|f]; try discriminate. intros [= <-] [w Hw]. inversion Hw; subst. split; [assumption | lia]. Qed.
Lemma from_f64_proper f x : valid_binary 53 1024 f = true -> from_f64 f = Ok x -> proper x.
Proof.
  intros Hv. unfold from_f64, of_f64. destruct (is_finite f) eqn:E; [| discriminate]. intros [= <-]. split; assumption.
Qed.
Lemma from_checked o x : from_i64 o = Ok x -> (forall z, o = Some z -> - 2 ^ 63 <= z <= 2 ^ 64 - 1) -> proper x.
Proof.
  unfold from_i64. destruct o as [z|]; [| discriminate]. intros [= <-] H. eapply integer_proper, of_int_integer, H. reflexivity.
Qed.
Lemma checked_i64_some z r : checked_i64 z = Some r -> r = z /\ signed z.
Proof. unfold checked_i64. destruct (in_i64 z) eqn:E; [| discriminate]. intros [= <-]. apply in_i64_iff in E. auto. Qed.
Lemma checked_u64_some z r : checked_u64 z = Some r -> r = z /\ 0 <= z <= 2 ^ 64 - 1.
Proof. unfold checked_u64. destruct (in_u64 z) eqn:E; [| discriminate]. intros [= <-]. apply in_u64_iff in E. auto. Qed.

(** Every number comparison and operation proceeds by one of three cases. *)
Lemma tiered_cases {A} (i u : Z -> Z -> A) d x y (P : A -> Prop) : proper x -> proper y ->
  (forall a b, integer x a -> integer y b -> signed a -> signed b -> P (i a b)) ->
  (forall a b, integer x a -> integer y b -> 0 <= a -> 0 <= b -> P (u a b)) ->
  (double (as_f64 x) -> double (as_f64 y) -> P (d (as_f64 x) (as_f64 y))) -> P (tiered i u d x y).
Proof.
  intros Hx Hy Hi Hu Hd. pose proof (as_f64_double x Hx). pose proof (as_f64_double y Hy). unfold tiered.
  destruct (as_i64 x) as [a|] eqn:E1, (as_i64 y) as [b|] eqn:E2;
    [| destruct (as_u64 x) as [a'|] eqn:E3, (as_u64 y) as [b'|] eqn:E4 ..]; auto;
    repeat match goal with
    | H : as_i64 _ = Some _ |- _ => apply as_i64_spec in H; [destruct H | assumption]
    | H : as_u64 _ = Some _ |- _ => apply as_u64_spec in H; [destruct H | assumption]
    end; auto.
Qed.
Lemma quot_range a b z : checked_div_i64 a b = Some z -> b <> 0 /\ z = Z.quot a b /\ signed z.
Proof.
  unfold checked_div_i64. destruct (Z.eqb_spec b 0); [discriminate |]. intros H. apply checked_i64_some in H. destruct H as [-> H]. auto.
Qed.
Lemma rem_range a b z : checked_rem_i64 a b = Some z -> b <> 0 /\ z = Z.rem a b /\ signed (Z.quot a b).
Proof.
  unfold checked_rem_i64. destruct (Z.eqb_spec b 0); [discriminate |]. destruct (in_i64 (Z.quot a b)) eqn:E; [| discriminate].
  intros [= <-]. apply in_i64_iff in E. auto.
Qed.
(** The exclusive or of two words is negative when exactly one of them is. *)
Lemma lxor_sign a b : (Z.lxor a b <? 0) = xorb (a <? 0) (b <? 0).
Proof.
  pose proof (Z.lxor_nonneg a b) as H. destruct (Z.ltb_spec a 0), (Z.ltb_spec b 0), (Z.ltb_spec (Z.lxor a b) 0);
    try reflexivity; exfalso; lia.
Qed.
(** Floored division from truncated division. *)
Lemma floored a b : b <> 0 ->
  if negb (Z.rem a b =? 0) && (Z.lxor (Z.rem a b) b <? 0)
  then a / b = Z.quot a b - 1 /\ a mod b = Z.rem a b + b
  else a / b = Z.quot a b /\ a mod b = Z.rem a b.
Proof.
  intros Hb. rewrite lxor_sign. pose proof (Z.quot_rem a b Hb) as HQ.
  pose proof (Z.rem_bound_abs a b Hb) as HR. pose proof (Z.rem_sign_nz a b Hb) as HS.
  assert (HU : forall q r, a = b * q + r -> (0 <= r < b \/ b < r <= 0) -> a / b = q /\ a mod b = r).
  { intros q r H1 H2. split; symmetry; [eapply Z.div_unique | eapply Z.mod_unique]; eassumption. }
  destruct (Z.eqb_spec (Z.rem a b) 0) as [E|E]; cbn [negb andb].
  - apply HU; [lia |]. rewrite E. lia.
  - specialize (HS E). destruct (Z.ltb_spec (Z.rem a b) 0), (Z.ltb_spec b 0); cbn [xorb]; apply HU; lia.
Qed.
Lemma floor_div_spec a b : b <> 0 -> floor_div_i64 a b = if in_i64 (Z.quot a b) then Some (a / b) else None.
Proof.
  intros Hb. unfold floor_div_i64, checked_div_i64, checked_rem_i64, checked_i64.
  destruct (Z.eqb_spec b 0); [lia |]. destruct (in_i64 (Z.quot a b)); [| reflexivity].
  pose proof (floored a b Hb) as H. destruct (negb _ && _); destruct H as [-> _]; reflexivity.
Qed.
Lemma floor_mod_spec a b : b <> 0 -> floor_mod_i64 a b = if in_i64 (Z.quot a b) then Some (a mod b) else None.
Proof.
  intros Hb. unfold floor_mod_i64, checked_rem_i64.
  destruct (Z.eqb_spec b 0); [lia |]. destruct (in_i64 (Z.quot a b)); [| reflexivity].
  pose proof (floored a b Hb) as H. destruct (negb _ && _); destruct H as [_ ->]; reflexivity.
Qed.
Lemma quot_signed a b : signed a -> signed b -> b <> 0 -> (in_i64 (Z.quot a b) = true <-> ~ (a = - 2 ^ 63 /\ b = -1)).
Proof.
  intros Ha Hb Hnz. rewrite in_i64_iff. unfold signed in *. split.
  - intros H [-> ->]. change (Z.quot (- 2 ^ 63) (-1)) with (2 ^ 63) in H. lia.
  - intros H. destruct (Z.eq_dec b 1) as [->|]; [rewrite Z.quot_1_r; lia |].
    destruct (Z.eq_dec b (-1)) as [->|].
    + replace (-1) with (- (1)) by lia. rewrite Z.quot_opp_r, Z.quot_1_r by lia. lia.
    + assert (Z.abs (Z.quot a b) <= 2 ^ 62); [| lia]. rewrite <- Z.quot_abs by lia.
      apply Z.quot_le_upper_bound; lia.
Qed.
Lemma div_signed a b : signed a -> signed b -> b <> 0 -> ~ (a = - 2 ^ 63 /\ b = -1) -> signed (a / b) /\ signed (a mod b).
Proof.
  intros Ha Hb Hnz Hex. pose proof (proj2 (quot_signed a b Ha Hb Hnz) Hex) as HQ. apply in_i64_iff in HQ.
  pose proof (floored a b Hnz) as HF. pose proof (Z.quot_rem a b Hnz). pose proof (Z.rem_bound_abs a b Hnz) as HR.
  pose proof (Z.mod_bound_or a b Hnz). split; [| unfold signed in *; lia].
  destruct (negb (Z.rem a b =? 0)) eqn:E1; cbn [andb] in HF; [| destruct HF as [-> _]; exact HQ].
  destruct (Z.lxor (Z.rem a b) b <? 0) eqn:E2; destruct HF as [-> _]; [| exact HQ].
  unfold signed in *. rewrite negb_true_iff in E1. apply Z.eqb_neq in E1.
  destruct (Z.eq_dec (Z.quot a b) (- 2 ^ 63)) as [E|E]; [| lia]. exfalso.
  rewrite E in *. destruct (Z.eq_dec b 1); [subst; rewrite Z.rem_1_r in E1; lia |].
  destruct (Z.eq_dec b (-1)); [subst; lia |]. assert (2 <= Z.abs b) by lia. nia.
Qed.
