(** Doubles: comparison, conversion of integers, rounding. *)
From Coq Require Import ZArith List Bool Lia Floats.SpecFloat.
From Verif.Numbers Require Import Model Spec Round.
Import ListNotations.
Open Scope Z_scope.
Local Arguments Z.pow : simpl never.
Local Arguments Z.mul : simpl never.
Local Arguments Z.add : simpl never.
Local Arguments Z.sub : simpl never.

Lemma pow_pos n : 0 <= n -> 0 < 2 ^ n. Proof. intros. apply Z.pow_pos_nonneg; lia. Qed.
Lemma scale_pos : 0 < scale. Proof. apply pow_pos. lia. Qed.

(** * Canonical doubles *)
Lemma finite_valid s m e : double (S754_finite s m e) <-> fexp 53 1024 (Zpos (digits2_pos m) + e) = e /\ e <= 971.
Proof.
  unfold double. cbn [is_finite valid_binary]. unfold bounded, canonical_mantissa.
  rewrite andb_true_iff, <- Zeq_is_eq_bool, Z.leb_le. change (1024 - 53) with 971. tauto.
Qed.
Lemma canonical_bounds s m e : double (S754_finite s m e) ->
  -1074 <= e <= 971 /\ 0 < Zpos m < 2 ^ 53 /\ (e = -1074 \/ 2 ^ 52 <= Zpos m).
Proof.
  rewrite finite_valid. unfold fexp, emin. intros [H1 H2]. pose proof (digits_pos m) as H.
  assert (Zpos (digits2_pos m) <= 53) by lia.
  split; [lia |]. split.
  - split; [lia |]. eapply Z.lt_le_trans; [apply H | apply Z.pow_le_mono_r; lia].
  - destruct (Z.eq_dec e (-1074)); [auto | right]. eapply Z.le_trans; [| apply H]. apply Z.pow_le_mono_r; lia.
Qed.
Lemma double_of_bounds s m e : -1074 <= e <= 971 -> Zpos m < 2 ^ 53 -> e = -1074 \/ 2 ^ 52 <= Zpos m ->
  double (S754_finite s m e).
Proof.
  intros He Hm Hc. rewrite finite_valid. split; [| lia]. pose proof (digits_pos m) as H.
  assert (Zpos (digits2_pos m) <= 53) by (assert (Zpos (digits2_pos m) - 1 < 53) by (apply pow_lt_inv; lia); lia).
  unfold fexp, emin. destruct Hc as [->|Hc]; [lia |].
  assert (52 < Zpos (digits2_pos m)) by (apply pow_lt_inv; lia). lia.
Qed.

(** Two canonical doubles of different exponents are ordered by exponent. *)
Lemma by_exponent s m e s' m' e' : double (S754_finite s m e) -> double (S754_finite s' m' e') -> e < e' ->
  Zpos m * 2 ^ (e + 1074) < Zpos m' * 2 ^ (e' + 1074).
Proof.
  intros H1 H2 Hlt. apply canonical_bounds in H1. apply canonical_bounds in H2.
  destruct H1 as (He & Hm & _), H2 as (He' & Hm' & [Hc|Hc]); [lia |].
  apply Z.lt_le_trans with (2 ^ 53 * 2 ^ (e + 1074)).
  - apply Z.mul_lt_mono_pos_r; [apply pow_pos; lia | lia].
  - rewrite <- Z.pow_add_r by lia. apply Z.le_trans with (2 ^ 52 * 2 ^ (e' + 1074)).
    + rewrite <- Z.pow_add_r by lia. apply Z.pow_le_mono_r; lia.
    + apply Z.mul_le_mono_nonneg_r; [apply Z.lt_le_incl, pow_pos; lia | exact Hc].
Qed.
Lemma pos_units m e : -1074 <= e -> 0 < Zpos m * 2 ^ (e + 1074).
Proof. intros. apply Z.mul_pos_pos; [lia | apply pow_pos; lia]. Qed.

Lemma Z_compare_opp a b : (- a ?= - b) = CompOpp (a ?= b).
Proof. destruct (Z.compare_spec a b), (Z.compare_spec (- a) (- b)); try reflexivity; lia. Qed.
Lemma mul_compare a b k : 0 < k -> (a * k ?= b * k) = (a ?= b).
Proof. intros Hk. destruct (Z.compare_spec a b), (Z.compare_spec (a * k) (b * k)); try reflexivity; nia. Qed.
Lemma magnitudes s m e s' m' e' : double (S754_finite s m e) -> double (S754_finite s' m' e') ->
  (Zpos m * 2 ^ (e + 1074) ?= Zpos m' * 2 ^ (e' + 1074)) =
  match e ?= e' with Lt => Lt | Gt => Gt | Eq => Pos.compare_cont Eq m m' end.
Proof.
  intros H H'. destruct (Z.compare_spec e e') as [->|Hlt|Hlt].
  - rewrite mul_compare; [reflexivity |]. apply pow_pos. apply canonical_bounds in H. lia.
  - apply Z.compare_lt_iff. eapply by_exponent; eassumption.
  - apply Z.compare_gt_iff. eapply by_exponent; eassumption.
Qed.
Theorem compare_units f g : double f -> double g -> SFcompare f g = Some (units f ?= units g).
Proof.
  intros Hf Hg.
  destruct f as [s|s| |s m e]; try (destruct Hf as [Hf _]; discriminate Hf);
  destruct g as [s'|s'| |s' m' e']; try (destruct Hg as [Hg _]; discriminate Hg).
  - reflexivity.
  - assert (0 < Zpos m' * 2 ^ (e' + 1074)) by (apply pos_units; apply canonical_bounds in Hg; lia).
    cbn [SFcompare units]. f_equal. destruct s'; cbn [cond_Zopp]; symmetry; [apply Z.compare_gt_iff | apply Z.compare_lt_iff]; lia.
  - assert (0 < Zpos m * 2 ^ (e + 1074)) by (apply pos_units; apply canonical_bounds in Hf; lia).
    cbn [SFcompare units]. f_equal. destruct s; cbn [cond_Zopp]; symmetry; [apply Z.compare_lt_iff | apply Z.compare_gt_iff]; lia.
  - assert (0 < Zpos m * 2 ^ (e + 1074)) by (apply pos_units; apply canonical_bounds in Hf; lia).
    assert (0 < Zpos m' * 2 ^ (e' + 1074)) by (apply pos_units; apply canonical_bounds in Hg; lia).
    pose proof (magnitudes s m e s' m' e' Hf Hg) as HM.
    cbn [SFcompare units]. destruct s, s'; cbn [cond_Zopp].
    + rewrite Z_compare_opp, HM. destruct (e ?= e'); reflexivity.
    + symmetry. f_equal. apply Z.compare_lt_iff. lia.
    + symmetry. f_equal. apply Z.compare_gt_iff. lia.
    + rewrite HM. destruct (e ?= e'); reflexivity.
Qed.

(** * Rounding *)
Lemma pack_units s q e : 0 <= q -> is_finite (pack s q e) = true -> units (pack s q e) = cond_Zopp s (q * 2 ^ (e + 1074)).
Proof.
  intros Hq. unfold pack. destruct q as [|p|p]; [| | lia].
  - intros _. cbn [units]. rewrite Z.mul_0_l. destruct s; reflexivity.
  - destruct (e <=? 971); [reflexivity | discriminate].
Qed.
Lemma rounded_units s m e : 0 < m -> 0 <= places m e -> is_finite (rounded s m e) = true ->
  units (rounded s m e) = cond_Zopp s (nearest m (places m e) * 2 ^ (e + places m e + 1074)).
Proof.
  intros Hm Hn. destruct (nearest_small m e Hm Hn) as [Hq _]. unfold rounded.
  assert (-1074 <= e + places m e) by (unfold places, fexp, emin; lia).
  destruct (Z.eqb_spec (nearest m (places m e)) (2 ^ 53)) as [E|E]; intros Hf.
  - rewrite pack_units by (try assumption; lia). rewrite E. f_equal. rewrite <- !Z.pow_add_r by lia. f_equal. lia.
  - rewrite pack_units by (try assumption; lia). reflexivity.
Qed.
Lemma shift_pos_spec d m : Zpos (shift_pos d m) = Zpos m * 2 ^ Zpos d.
Proof. rewrite shift_pos_correct, Z.pow_pos_fold || rewrite shift_pos_correct. rewrite Z.mul_comm. reflexivity. Qed.
Lemma digits_shift m d : 0 < m -> 0 <= d -> Zdigits2 (m * 2 ^ d) = Zdigits2 m + d.
Proof.
  intros Hm Hd. destruct (digits_bounds m Hm) as (H1 & H2 & H3). pose proof (pow_pos d Hd).
  apply digits_unique; [nia | lia |]. replace (Zdigits2 m + d - 1) with (Zdigits2 m - 1 + d) by lia.
  rewrite !Z.pow_add_r by lia. nia.
Qed.
Lemma binary_round_spec s m e :
  binary_round 53 1024 s m e =
  if 0 <=? places (Zpos m) e then rounded s (Zpos m) e
  else pack s (Zpos m * 2 ^ (- places (Zpos m) e)) (e + places (Zpos m) e).
Proof.
  unfold binary_round, shl_align. change (Zpos (digits2_pos m) + e) with (Zdigits2 (Zpos m) + e).
  fold (places (Zpos m) e). remember (places (Zpos m) e) as n eqn:En.
  destruct n as [|p|p].
  - rewrite round_aux_exact by lia. reflexivity.
  - rewrite round_aux_exact by lia. reflexivity.
  - assert (Hz : places (Zpos (shift_pos p m)) (fexp 53 1024 (Zdigits2 (Zpos m) + e)) = 0).
    { unfold places in En |- *. rewrite shift_pos_spec, digits_shift by lia.
      replace (fexp 53 1024 (Zdigits2 (Zpos m) + e)) with (e - Zpos p) at 1 2 by lia.
      replace (Zdigits2 (Zpos m) + Zpos p + (e - Zpos p)) with (Zdigits2 (Zpos m) + e) by lia. lia. }
    rewrite round_aux_exact by lia. unfold rounded. rewrite Hz, Z.add_0_r. cbn [Z.leb Z.compare].
    assert (nearest (Zpos (shift_pos p m)) 0 = Zpos (shift_pos p m)) as ->.
    { rewrite <- (Z.mul_1_r (Zpos (shift_pos p m))) at 1. change 1 with (2 ^ 0). apply nearest_exact. lia. }
    assert (Hd : Zdigits2 (Zpos m) + Zpos p <= 53) by (unfold places, fexp, emin in En; lia).
    assert (Zpos (shift_pos p m) < 2 ^ 53).
    { rewrite shift_pos_spec. destruct (digits_bounds (Zpos m)) as (H1 & _ & H2); [lia |]. pose proof (pow_pos (Zpos p)).
      apply Z.lt_le_trans with (2 ^ Zdigits2 (Zpos m) * 2 ^ Zpos p); [nia |]. rewrite <- Z.pow_add_r by lia. apply Z.pow_le_mono_r; lia. }
    destruct (Z.eqb_spec (Zpos (shift_pos p m)) (2 ^ 53)); [lia |].
    rewrite shift_pos_spec. cbn [Z.opp]. f_equal. unfold places in En. lia.
Qed.
(** Rounding is exact, or to a mantissa of 53 digits. *)
Lemma binary_round_units s m e : -1074 <= e -> is_finite (binary_round 53 1024 s m e) = true ->
  units (binary_round 53 1024 s m e) =
  cond_Zopp s (if 0 <=? places (Zpos m) e then nearest (Zpos m) (places (Zpos m) e) * 2 ^ (e + places (Zpos m) e + 1074)
               else Zpos m * 2 ^ (e + 1074)).
Proof.
  intros He. rewrite binary_round_spec. destruct (Z.leb_spec 0 (places (Zpos m) e)) as [Hn|Hn]; intros Hf.
  - rewrite rounded_units by (try assumption; lia). reflexivity.
  - assert (-1074 <= e + places (Zpos m) e) by (unfold places, fexp, emin; lia).
    pose proof (pow_pos (- places (Zpos m) e)). rewrite pack_units by (try assumption; lia). f_equal.
    rewrite <- Z.mul_assoc, <- Z.pow_add_r by lia. do 2 f_equal. lia.
Qed.
Lemma binary_round_valid s m e : -1074 <= e -> valid_binary 53 1024 (binary_round 53 1024 s m e) = true.
Proof.
  intros He. rewrite binary_round_spec. destruct (Z.leb_spec 0 (places (Zpos m) e)) as [Hn|Hn]; [apply rounded_valid; lia |].
  assert (Hc : -1074 <= e + places (Zpos m) e) by (unfold places, fexp, emin; lia).
  assert (Hd : Zdigits2 (Zpos m) - places (Zpos m) e <= 53) by (unfold places, fexp, emin in *; lia).
  assert (Hd' : e + places (Zpos m) e = -1074 \/ Zdigits2 (Zpos m) - places (Zpos m) e = 53) by (unfold places, fexp, emin in *; lia).
  set (n := places (Zpos m) e) in *. destruct (digits_bounds (Zpos m)) as (H1 & H2 & H3); [lia |].
  pose proof (pow_pos (- n) ltac:(lia)) as Hp.
  assert (Hub : Zpos m * 2 ^ (- n) < 2 ^ 53).
  { apply Z.lt_le_trans with (2 ^ Zdigits2 (Zpos m) * 2 ^ (- n)); [nia |]. rewrite <- Z.pow_add_r by lia. apply Z.pow_le_mono_r; lia. }
  assert (Hlb : e + n = -1074 \/ 2 ^ 52 <= Zpos m * 2 ^ (- n)).
  { destruct Hd' as [Hd'|Hd']; [auto | right]. apply Z.le_trans with (2 ^ (Zdigits2 (Zpos m) - 1) * 2 ^ (- n)); [| nia].
    rewrite <- Z.pow_add_r by lia. apply Z.pow_le_mono_r; lia. }
  unfold pack. destruct (Zpos m * 2 ^ (- n)) as [|p|p] eqn:Ep; [reflexivity | | lia].
  destruct (Z.leb_spec (e + n) 971); [| reflexivity]. apply double_of_bounds; lia.
Qed.

Definition negative (z : Z) : bool := z <? 0.
Lemma normalize_cases z e : z <> 0 -> binary_normalize 53 1024 z e false = binary_round 53 1024 (negative z) (Z.to_pos (Z.abs z)) e.
Proof. destruct z as [|p|p]; [congruence | reflexivity | reflexivity]. Qed.
Lemma abs_pos z : z <> 0 -> Zpos (Z.to_pos (Z.abs z)) = Z.abs z.
Proof. intros. apply Z2Pos.id. lia. Qed.

(** * Integers as doubles *)
(** The magnitude that the conversion yields. *)
Definition to_53 (z : Z) : Z := let n := Zdigits2 z - 53 in if 0 <=? n then nearest z n * 2 ^ n else z.
Lemma places_int m : 0 < m -> places m 0 = Zdigits2 m - 53.
Proof. intros Hm. destruct (digits_bounds m Hm). unfold places, fexp, emin. lia. Qed.
Lemma to_53_bounds z : 0 < z -> 2 ^ (Zdigits2 z - 1) <= to_53 z <= 2 ^ Zdigits2 z.
Proof.
  intros Hz. destruct (digits_bounds z Hz) as (H1 & H2 & H3). unfold to_53.
  destruct (Z.leb_spec 0 (Zdigits2 z - 53)) as [Hn|Hn]; [| lia].
  assert (Hpl := places_int z Hz). destruct (nearest_small z 0 Hz) as [H4 H5]; [lia |]. rewrite Hpl in *.
  pose proof (pow_pos (Zdigits2 z - 53) Hn). split.
  - replace (Zdigits2 z - 1) with (52 + (Zdigits2 z - 53)) by lia. rewrite Z.pow_add_r by lia.
    specialize (H5 ltac:(lia)). nia.
  - replace (Zdigits2 z) with (53 + (Zdigits2 z - 53)) at 3 by lia. rewrite Z.pow_add_r by lia. nia.
Qed.
Lemma digits_mono a b : 0 < a -> a <= b -> Zdigits2 a <= Zdigits2 b.
Proof.
  intros Ha Hab. destruct (digits_bounds a Ha) as (_ & H1 & _), (digits_bounds b ltac:(lia)) as (H2 & _ & H3).
  assert (Zdigits2 a - 1 < Zdigits2 b) by (apply pow_lt_inv; lia). lia.
Qed.
Lemma to_53_mono a b : 0 < a -> a <= b -> to_53 a <= to_53 b.
Proof.
  intros Ha Hab. pose proof (digits_mono a b Ha Hab) as Hd.
  destruct (Z.eq_dec (Zdigits2 a) (Zdigits2 b)) as [E|E].
  - unfold to_53. rewrite E. destruct (Z.leb_spec 0 (Zdigits2 b - 53)) as [Hn|Hn]; [| exact Hab].
    apply Z.mul_le_mono_nonneg_r; [apply Z.lt_le_incl, pow_pos, Hn | apply nearest_mono; assumption].
  - etransitivity; [apply to_53_bounds, Ha |]. etransitivity; [| apply to_53_bounds; lia].
    apply Z.pow_le_mono_r; lia.
Qed.
Lemma to_53_exact z : 0 < z <= 2 ^ 53 -> to_53 z = z.
Proof.
  intros Hz. unfold to_53. destruct (Z.leb_spec 0 (Zdigits2 z - 53)) as [Hn|Hn]; [| reflexivity].
  destruct (digits_bounds z) as (_ & H1 & _); [lia |].
  assert (Zdigits2 z - 1 < 54) by (apply pow_lt_inv; lia).
  assert (Zdigits2 z = 53 \/ Zdigits2 z = 54) as [E|E] by lia; rewrite E in *.
  - change (53 - 53) with 0. change (2 ^ 0) with 1. rewrite Z.mul_1_r. rewrite <- (Z.mul_1_r z) at 1. change 1 with (2 ^ 0). apply nearest_exact. lia.
  - change (54 - 1) with 53 in H1. assert (z = 2 ^ 53) as -> by lia. reflexivity.
Qed.

Definition signed_53 (z : Z) : Z := if z <? 0 then - to_53 (- z) else if z =? 0 then 0 else to_53 z.
Lemma signed_53_mono a b : a <= b -> signed_53 a <= signed_53 b.
Proof.
  intros Hab. assert (Hp : forall z, 0 < z -> 0 < to_53 z).
  { intros z Hz. eapply Z.lt_le_trans; [| apply to_53_bounds, Hz]. apply pow_pos. apply digits_bounds in Hz. lia. }
  unfold signed_53. destruct (Z.ltb_spec a 0), (Z.ltb_spec b 0); try lia.
  - apply -> Z.opp_le_mono. apply to_53_mono; lia.
  - pose proof (Hp (- a) ltac:(lia)). destruct (Z.eqb_spec b 0); [lia |]. specialize (Hp b). lia.
  - destruct (Z.eqb_spec a 0), (Z.eqb_spec b 0); try lia; [specialize (Hp b) | apply to_53_mono]; lia.
Qed.
Lemma signed_53_exact z : - 2 ^ 53 <= z <= 2 ^ 53 -> signed_53 z = z.
Proof. intros Hz. unfold signed_53. destruct (Z.ltb_spec z 0), (Z.eqb_spec z 0); try lia; rewrite to_53_exact; lia. Qed.

Lemma pack_double s q e : pack s q e = S754_infinity s -> 971 < e.
Proof. unfold pack. destruct q; try discriminate. destruct (Z.leb_spec e 971); [discriminate | lia]. Qed.
Lemma f_of_int_double z : Z.abs z <= 2 ^ 64 -> double (f_of_int z).
Proof.
  intros Hz. destruct (Z.eq_dec z 0) as [->|Hnz]; [split; reflexivity |]. unfold f_of_int. rewrite normalize_cases by exact Hnz.
  split; [| apply binary_round_valid; lia].
  rewrite binary_round_spec, abs_pos by exact Hnz. rewrite places_int by lia.
  assert (Hd : Zdigits2 (Z.abs z) <= 65).
  { destruct (digits_bounds (Z.abs z)) as (_ & H & _); [lia |]. assert (Zdigits2 (Z.abs z) - 1 < 65) by (apply pow_lt_inv; lia). lia. }
  assert (Hf : forall q e, e <= 971 -> is_finite (pack (negative z) q e) = true).
  { intros q e He. unfold pack. destruct q; try reflexivity. destruct (Z.leb_spec e 971); [reflexivity | lia]. }
  destruct (Z.leb_spec 0 (Zdigits2 (Z.abs z) - 53)) as [Hn|Hn].
  - unfold rounded. rewrite places_int by lia. destruct (_ =? _); apply Hf; lia.
  - apply Hf. destruct (digits_bounds (Z.abs z)); lia.
Qed.
Lemma f_of_int_units z : Z.abs z <= 2 ^ 64 -> units (f_of_int z) = signed_53 z * scale.
Proof.
  intros Hz. destruct (Z.eq_dec z 0) as [->|Hnz]; [reflexivity |].
  pose proof (f_of_int_double z Hz) as [Hf _]. unfold f_of_int in *. rewrite normalize_cases in * by exact Hnz.
  rewrite binary_round_units by (try assumption; lia). rewrite abs_pos by exact Hnz. rewrite places_int by lia.
  assert (E : (if 0 <=? Zdigits2 (Z.abs z) - 53
     then nearest (Z.abs z) (Zdigits2 (Z.abs z) - 53) * 2 ^ (0 + (Zdigits2 (Z.abs z) - 53) + 1074)
     else Z.abs z * 2 ^ (0 + 1074)) = to_53 (Z.abs z) * scale).
  { unfold to_53. destruct (Z.leb_spec 0 (Zdigits2 (Z.abs z) - 53)); [| reflexivity].
    rewrite Z.add_0_l, Z.pow_add_r by lia. rewrite Z.mul_assoc. reflexivity. }
  rewrite E. unfold signed_53, negative. destruct (Z.ltb_spec z 0); cbn [cond_Zopp].
  - replace (Z.abs z) with (- z) by lia. lia.
  - replace (Z.abs z) with z by lia. destruct (Z.eqb_spec z 0); [lia | reflexivity].
Qed.
Lemma f_of_int_exact z : - 2 ^ 53 <= z <= 2 ^ 53 -> units (f_of_int z) = z * scale.
Proof. intros Hz. rewrite f_of_int_units, signed_53_exact by lia. reflexivity. Qed.
Lemma f_of_int_mono a b : Z.abs a <= 2 ^ 64 -> Z.abs b <= 2 ^ 64 -> a <= b -> units (f_of_int a) <= units (f_of_int b).
Proof.
  intros Ha Hb Hab. rewrite !f_of_int_units by assumption. apply Z.mul_le_mono_nonneg_r; [apply Z.lt_le_incl, scale_pos | apply signed_53_mono, Hab].
Qed.
