(** Sums and differences are correctly rounded; integer parts and remainders are exact; every operation
    yields a double. *)
From Coq Require Import ZArith List Bool Lia Floats.SpecFloat.
From Verif.Numbers Require Import Model Spec Round Floats.
Import ListNotations.
Open Scope Z_scope.
Local Arguments Z.pow : simpl never.
Local Arguments Z.mul : simpl never.
Local Arguments Z.add : simpl never.
Local Arguments Z.sub : simpl never.

Lemma nearest_best m n k : 0 <= n -> Z.abs (nearest m n * 2 ^ n - m) <= Z.abs (k * 2 ^ n - m).
Proof.
  intros Hn. unfold nearest. pose proof (pow_pos n Hn) as Hp.
  pose proof (Z.div_mod m (2 ^ n) ltac:(lia)) as D. pose proof (Z.mod_pos_bound m (2 ^ n) Hp) as B.
  set (q := m / 2 ^ n) in *. set (t := m mod 2 ^ n) in *.
  assert (Hk : k <= q \/ q + 1 <= k) by lia.
  assert (Hd : k <= q -> t <= Z.abs (k * 2 ^ n - m)) by nia.
  assert (Hu : q + 1 <= k -> 2 ^ n - t <= Z.abs (k * 2 ^ n - m)) by nia.
  assert (E1 : Z.abs (q * 2 ^ n - m) = t) by nia.
  assert (E2 : Z.abs ((q + 1) * 2 ^ n - m) = 2 ^ n - t) by nia.
  destruct (Z.compare_spec (2 * t) (2 ^ n)); [destruct (Z.even q) | |]; rewrite ?E1, ?E2; destruct Hk; lia.
Qed.

(** A double is a multiple of a power of two, or small. *)
Lemma multiple_or_small g k : double g -> -1074 <= k ->
  (exists c, units g = c * 2 ^ (k + 1074)) \/ Z.abs (units g) < 2 ^ 52 * 2 ^ (k + 1074).
Proof.
  intros Hg Hk. destruct g as [s|s| |s m e]; try (destruct Hg as [Hg _]; discriminate Hg).
  - left. exists 0. reflexivity.
  - apply canonical_bounds in Hg. destruct Hg as (He & Hm & _). cbn [units].
    destruct (Z.le_gt_cases k e) as [Hke|Hke].
    + left. exists (cond_Zopp s (Zpos m * 2 ^ (e - k))).
      replace (e + 1074) with (e - k + (k + 1074)) by lia. rewrite Z.pow_add_r by lia.
      destruct s; cbn [cond_Zopp]; ring.
    + right. assert (E : Z.abs (cond_Zopp s (Zpos m * 2 ^ (e + 1074))) = Zpos m * 2 ^ (e + 1074)).
      { pose proof (pos_units m e ltac:(lia)). destruct s; cbn [cond_Zopp]; lia. }
      rewrite E. pose proof (pow_pos (e + 1074) ltac:(lia)).
      apply Z.lt_le_trans with (2 ^ 53 * 2 ^ (e + 1074)); [nia |]. rewrite <- !Z.pow_add_r by lia. apply Z.pow_le_mono_r; lia.
Qed.
Lemma round_best s m e g : -1074 <= e -> double g -> is_finite (binary_round 53 1024 s m e) = true ->
  Z.abs (units (binary_round 53 1024 s m e) - cond_Zopp s (Zpos m * 2 ^ (e + 1074))) <=
  Z.abs (units g - cond_Zopp s (Zpos m * 2 ^ (e + 1074))).
Proof.
  intros He Hg Hf. rewrite binary_round_units by assumption.
  assert (Hs : exists G, (units g = cond_Zopp s G) /\
      forall k, -1074 <= k -> (exists c, G = c * 2 ^ (k + 1074)) \/ Z.abs G < 2 ^ 52 * 2 ^ (k + 1074)).
  { exists (cond_Zopp s (units g)). split; [destruct s; cbn [cond_Zopp]; lia |].
    intros k Hk. destruct (multiple_or_small g k Hg Hk) as [[c Hc]|Hc].
    - left. exists (cond_Zopp s c). rewrite Hc. destruct s; cbn [cond_Zopp]; ring.
    - right. destruct s; cbn [cond_Zopp]; lia. }
  destruct Hs as (G & -> & HG).
  assert (Hgoal : Z.abs ((if 0 <=? places (Zpos m) e
      then nearest (Zpos m) (places (Zpos m) e) * 2 ^ (e + places (Zpos m) e + 1074)
      else Zpos m * 2 ^ (e + 1074)) - Zpos m * 2 ^ (e + 1074)) <= Z.abs (G - Zpos m * 2 ^ (e + 1074))).
  2: { destruct s; cbn [cond_Zopp]; lia. }
  destruct (Z.leb_spec 0 (places (Zpos m) e)) as [Hn|Hn]; [| lia].
  set (n := places (Zpos m) e) in *. pose proof (pow_pos n Hn) as Hpn. pose proof (pow_pos (e + 1074) ltac:(lia)) as Hpe.
  replace (e + n + 1074) with (n + (e + 1074)) by lia. rewrite Z.pow_add_r by lia. rewrite Z.mul_assoc.
  replace (nearest (Zpos m) n * 2 ^ n * 2 ^ (e + 1074) - Zpos m * 2 ^ (e + 1074)) with
    ((nearest (Zpos m) n * 2 ^ n - Zpos m) * 2 ^ (e + 1074)) by ring.
  rewrite Z.abs_mul, (Z.abs_eq (2 ^ (e + 1074))) by lia.
  assert (Hmul : forall k, Z.abs (nearest (Zpos m) n * 2 ^ n - Zpos m) * 2 ^ (e + 1074) <= Z.abs (k * (2 ^ n * 2 ^ (e + 1074)) - Zpos m * 2 ^ (e + 1074))).
  { intros k. replace (k * (2 ^ n * 2 ^ (e + 1074)) - Zpos m * 2 ^ (e + 1074)) with ((k * 2 ^ n - Zpos m) * 2 ^ (e + 1074)) by ring.
    rewrite Z.abs_mul, (Z.abs_eq (2 ^ (e + 1074))) by lia. apply Z.mul_le_mono_nonneg_r; [lia | apply nearest_best, Hn]. }
  destruct (Z.eq_dec n 0) as [E0|E0].
  - rewrite E0. change (2 ^ 0) with 1.
    assert (nearest (Zpos m) 0 = Zpos m) as ->.
    { rewrite <- (Z.mul_1_r (Zpos m)) at 1. change 1 with (2 ^ 0). apply nearest_exact. lia. }
    lia.
  - assert (En : n = Zdigits2 (Zpos m) - 53) by (unfold n, places, fexp, emin in *; lia).
    specialize (HG (e + n) ltac:(lia)). replace (e + n + 1074) with (n + (e + 1074)) in HG by lia. rewrite Z.pow_add_r in HG by lia.
    destruct HG as [[c ->]|HG]; [apply Hmul |].
    etransitivity; [apply (Hmul (2 ^ 52)) |].
    assert (2 ^ 52 * (2 ^ n * 2 ^ (e + 1074)) <= Zpos m * 2 ^ (e + 1074)); [| lia].
    rewrite Z.mul_assoc. apply Z.mul_le_mono_nonneg_r; [lia |].
    destruct (digits_bounds (Zpos m)) as (_ & H & _); [lia |]. rewrite <- Z.pow_add_r by lia.
    replace (52 + n) with (Zdigits2 (Zpos m) - 1) by lia. exact H.
Qed.
Theorem normalize_nearest z e : -1074 <= e -> is_finite (binary_normalize 53 1024 z e false) = true ->
  nearest_double (z * 2 ^ (e + 1074)) (binary_normalize 53 1024 z e false).
Proof.
  intros He Hf. destruct z as [|m|m]; cbn [binary_normalize] in *.
  - split; [split; reflexivity |]. intros g _. cbn [units]. lia.
  - split; [split; [exact Hf | apply binary_round_valid, He] |]. intros g Hg.
    apply (round_best false m e g He Hg Hf).
  - split; [split; [exact Hf | apply binary_round_valid, He] |]. intros g Hg.
    pose proof (round_best true m e g He Hg Hf) as H. cbn [cond_Zopp] in H.
    replace (Zneg m * 2 ^ (e + 1074)) with (- (Zpos m * 2 ^ (e + 1074))); [exact H |]. rewrite <- Z.mul_opp_l. reflexivity.
Qed.
Lemma nearest_self f : double f -> nearest_double (units f) f.
Proof. intros Hf. split; [exact Hf |]. intros. lia. Qed.

Lemma align m e e0 : e0 <= e -> Zpos (fst (shl_align m e e0)) = Zpos m * 2 ^ (e - e0).
Proof.
  intros H. unfold shl_align. destruct (e0 - e) as [|p|p] eqn:E; [| lia |]; cbn [fst].
  - replace (e - e0) with 0 by lia. rewrite Z.mul_1_r. reflexivity.
  - rewrite shift_pos_spec. do 2 f_equal. lia.
Qed.
Lemma aligned_units s m e e0 : -1074 <= e0 <= e ->
  cond_Zopp s (Zpos (fst (shl_align m e e0))) * 2 ^ (e0 + 1074) = units (S754_finite s m e).
Proof.
  intros H. rewrite align by lia. cbn [units]. replace (e + 1074) with (e - e0 + (e0 + 1074)) by lia. rewrite (Z.pow_add_r 2 (e - e0)) by lia.
  destruct s; cbn [cond_Zopp]; ring.
Qed.
Theorem add_nearest f g : double f -> double g -> is_finite (f_add f g) = true -> nearest_double (units f + units g) (f_add f g).
Proof.
  intros Hf Hg. destruct f as [s|s| |s m e]; try (destruct Hf as [Hf _]; discriminate Hf);
    destruct g as [s'|s'| |s' m' e']; try (destruct Hg as [Hg _]; discriminate Hg).
  - intros _. cbn. destruct (Bool.eqb s s'); apply nearest_self; split; reflexivity.
  - intros _. change (f_add _ _) with (S754_finite s' m' e'). change (units (S754_zero s)) with 0. rewrite Z.add_0_l. apply nearest_self, Hg.
  - intros _. change (f_add _ _) with (S754_finite s m e). change (units (S754_zero s')) with 0. rewrite Z.add_0_r. apply nearest_self, Hf.
  - unfold f_add. cbn [SFadd]. apply canonical_bounds in Hf. apply canonical_bounds in Hg. intros Hfin.
    assert (H0 : -1074 <= Z.min e e' <= e /\ Z.min e e' <= e') by lia. set (e0 := Z.min e e') in *.
    rewrite <- (aligned_units s m e e0), <- (aligned_units s' m' e' e0) by lia. rewrite <- Z.mul_add_distr_r.
    apply normalize_nearest; [lia | exact Hfin].
Qed.
Theorem sub_nearest f g : double f -> double g -> is_finite (f_sub f g) = true -> nearest_double (units f - units g) (f_sub f g).
Proof.
  intros Hf Hg. destruct f as [s|s| |s m e]; try (destruct Hf as [Hf _]; discriminate Hf);
    destruct g as [s'|s'| |s' m' e']; try (destruct Hg as [Hg _]; discriminate Hg).
  - intros _. cbn. destruct (Bool.eqb s (negb s')); apply nearest_self; split; reflexivity.
  - intros _. change (f_sub _ _) with (S754_finite (negb s') m' e'). change (units (S754_zero s)) with 0.
    replace (0 - units (S754_finite s' m' e')) with (units (S754_finite (negb s') m' e')); [apply nearest_self |].
    + apply finite_valid. apply finite_valid in Hg. exact Hg.
    + cbn [units]. destruct s'; cbn [negb cond_Zopp]; lia.
  - intros _. change (f_sub _ _) with (S754_finite s m e). change (units (S754_zero s')) with 0. rewrite Z.sub_0_r. apply nearest_self, Hf.
  - unfold f_sub. cbn [SFsub]. apply canonical_bounds in Hf. apply canonical_bounds in Hg. intros Hfin.
    assert (H0 : -1074 <= Z.min e e' <= e /\ Z.min e e' <= e') by lia. set (e0 := Z.min e e') in *.
    rewrite <- (aligned_units s m e e0), <- (aligned_units s' m' e' e0) by lia. rewrite <- Z.mul_sub_distr_r.
    apply normalize_nearest; [lia | exact Hfin].
Qed.

(** * Integer parts *)
Lemma cond_mul s a b : cond_Zopp s (a * b) = cond_Zopp s a * b.
Proof. destruct s; cbn [cond_Zopp]; ring. Qed.
Lemma integral_units part f : double f ->
  (forall a b, 0 < b -> Z.abs (part a b) <= Z.abs a) ->
  (forall a b c, 0 < b -> 0 < c -> part (a * c) (b * c) = part a b) -> (forall a b, 0 < b -> part (a * b) b = a) ->
  double (f_integral part f) /\ units (f_integral part f) = part (units f) scale * scale.
Proof.
  intros Hf H1 H2 H3. destruct f as [s|s| |s m e]; try (destruct Hf as [Hf _]; discriminate Hf); cbn [f_integral].
  - split; [split; reflexivity |]. cbn [units]. pose proof (H3 0 scale scale_pos) as E. rewrite Z.mul_0_l in E. rewrite E. reflexivity.
  - pose proof (canonical_bounds _ _ _ Hf) as (He & Hm & _). destruct (Z.leb_spec 0 e) as [H|H].
    + split; [exact Hf |]. cbn [units]. rewrite Z.pow_add_r by lia. fold scale. rewrite Z.mul_assoc, cond_mul, H3 by apply scale_pos. reflexivity.
    + assert (E : part (units (S754_finite s m e)) scale = part (cond_Zopp s (Zpos m)) (2 ^ (- e))).
      { cbn [units]. unfold scale. replace 1074 with (- e + (e + 1074)) at 2 by lia. rewrite (Z.pow_add_r 2 (- e)) by lia.
        rewrite cond_mul. apply H2; apply pow_pos; lia. }
      rewrite E. assert (Hz : Z.abs (part (cond_Zopp s (Zpos m)) (2 ^ (- e))) <= 2 ^ 53).
      { etransitivity; [apply H1, pow_pos; lia |]. destruct s; cbn [cond_Zopp]; lia. }
      destruct (part (cond_Zopp s (Zpos m)) (2 ^ (- e))) as [|p|p] eqn:Ep.
      * split; [split; reflexivity | reflexivity].
      * split; [apply f_of_int_double | apply f_of_int_exact]; lia.
      * split; [apply f_of_int_double | apply f_of_int_exact]; lia.
Qed.
Lemma floor_units f : double f -> double (f_floor f) /\ units (f_floor f) = units f / scale * scale.
Proof.
  intros Hf. apply (integral_units Z.div); [exact Hf | | |].
  - intros a b Hb. destruct (Z.eq_dec b 1) as [->|]; [rewrite Z.div_1_r; lia |].
    pose proof (Z.div_mod a b). pose proof (Z.mod_pos_bound a b Hb). nia.
  - intros. apply Z.div_mul_cancel_r; lia.
  - intros. apply Z.div_mul; lia.
Qed.
Lemma ceil_units f : double f -> double (f_ceil f) /\ units (f_ceil f) = - (- units f / scale) * scale.
Proof.
  intros Hf. apply (integral_units (fun a b => - (- a / b))); [exact Hf | | |].
  - intros a b Hb. pose proof (Z.div_mod (- a) b). pose proof (Z.mod_pos_bound (- a) b Hb). nia.
  - intros. rewrite <- Z.mul_opp_l. rewrite Z.div_mul_cancel_r by lia. reflexivity.
  - intros. rewrite <- Z.mul_opp_l. rewrite Z.div_mul by lia. lia.
Qed.
Lemma trunc_units f : double f -> double (f_trunc f) /\ units (f_trunc f) = Z.quot (units f) scale * scale.
Proof.
  intros Hf. apply (integral_units Z.quot); [exact Hf | | |].
  - intros a b Hb. rewrite <- Z.quot_abs by lia. apply Z.quot_le_upper_bound; [lia |]. rewrite (Z.abs_eq b) by lia. nia.
  - intros. apply Z.quot_mul_cancel_r; lia.
  - intros. apply Z.quot_mul; lia.
Qed.

(** * Remainders *)
Lemma normalize_exact z e : -1074 <= e <= 971 -> Z.abs z <= 2 ^ 53 -> is_finite (binary_normalize 53 1024 z e false) = true ->
  double (binary_normalize 53 1024 z e false) /\ units (binary_normalize 53 1024 z e false) = z * 2 ^ (e + 1074).
Proof.
  intros He Hz Hf. destruct (normalize_nearest z e ltac:(lia) Hf) as [Hd Hn]. split; [exact Hd |].
  destruct (Z.eq_dec z 0) as [->|Hnz]; [reflexivity |].
  pose proof (pow_pos (e + 1074) ltac:(lia)).
  rewrite normalize_cases in * by exact Hnz. rewrite binary_round_units by (try assumption; lia). rewrite abs_pos by exact Hnz.
  set (n := places (Z.abs z) e). destruct (digits_bounds (Z.abs z)) as (Hd1 & Hd2 & Hd3); [lia |].
  assert (Hd54 : Zdigits2 (Z.abs z) <= 54) by (assert (Zdigits2 (Z.abs z) - 1 < 54) by (apply pow_lt_inv; lia); lia).
  assert (Hs : forall w, w = Z.abs z * 2 ^ (e + 1074) -> cond_Zopp (negative z) w = z * 2 ^ (e + 1074)).
  { intros w ->. unfold negative. destruct (Z.ltb_spec z 0); cbn [cond_Zopp]; nia. }
  apply Hs. destruct (Z.leb_spec 0 n) as [Hle|Hlt]; [| reflexivity].
  assert (Hn1 : n = 0 \/ n = 1) by (unfold n, places, fexp, emin in *; lia). destruct Hn1 as [Hn1|Hn1].
  - rewrite Hn1, Z.add_0_r. f_equal. rewrite <- (Z.mul_1_r (Z.abs z)) at 1. change 1 with (2 ^ 0). apply nearest_exact. lia.
  - assert (Z.abs z = 2 ^ 53) as -> by (assert (Zdigits2 (Z.abs z) = 54) by (unfold n, places, fexp, emin in *; lia); 
      replace (Zdigits2 (Z.abs z) - 1) with 53 in Hd2 by lia; lia).
    rewrite Hn1. change (nearest (2 ^ 53) 1) with (2 ^ 52). rewrite <- !Z.pow_add_r by lia. f_equal. lia.
Qed.
Lemma normalize_finite z e : -1074 <= e <= 971 -> Z.abs z < 2 ^ 53 -> is_finite (binary_normalize 53 1024 z e false) = true.
Proof.
  intros He Hz. destruct (Z.eq_dec z 0) as [->|Hnz]; [reflexivity |]. rewrite normalize_cases by exact Hnz.
  rewrite binary_round_spec, abs_pos by exact Hnz. destruct (digits_bounds (Z.abs z)) as (Hd1 & Hd2 & Hd3); [lia |].
  assert (Hd : Zdigits2 (Z.abs z) <= 53) by (assert (Zdigits2 (Z.abs z) - 1 < 53) by (apply pow_lt_inv; lia); lia).
  assert (Hf : forall q e, e <= 971 -> is_finite (pack (negative z) q e) = true).
  { intros q e' He'. unfold pack. destruct q; try reflexivity. destruct (Z.leb_spec e' 971); [reflexivity | lia]. }
  assert (places (Z.abs z) e <= 0) by (unfold places, fexp, emin; lia).
  destruct (Z.leb_spec 0 (places (Z.abs z) e)); [| apply Hf; lia].
  assert (E : places (Z.abs z) e = 0) by lia. unfold rounded. rewrite E.
  assert (E2 : nearest (Z.abs z) 0 = Z.abs z) by (rewrite <- (Z.mul_1_r (Z.abs z)) at 1; change 1 with (2 ^ 0); apply nearest_exact; lia).
  rewrite E2. destruct (Z.eqb_spec (Z.abs z) (2 ^ 53)); [lia |]. apply Hf. lia.
Qed.
Lemma normalize_sign z e s : z <> 0 -> binary_normalize 53 1024 z e s = binary_normalize 53 1024 z e false.
Proof. destruct z; [congruence | reflexivity | reflexivity]. Qed.
Theorem rem_units f g : double f -> double g -> units g <> 0 ->
  double (f_rem f g) /\ units (f_rem f g) = Z.rem (units f) (units g).
Proof.
  intros Hf Hg Hnz. destruct f as [s|s| |s m e]; try (destruct Hf as [Hf _]; discriminate Hf);
    destruct g as [s'|s'| |s' m' e']; try (destruct Hg as [Hg _]; discriminate Hg); try (exfalso; apply Hnz; reflexivity).
  - split; [split; reflexivity |]. cbn [f_rem]. change (units (S754_zero s)) with 0. rewrite Z.rem_0_l by exact Hnz. reflexivity.
  - pose proof (canonical_bounds _ _ _ Hf) as (He & Hm & _). pose proof (canonical_bounds _ _ _ Hg) as (He' & Hm' & _).
    cbn [f_rem]. set (e0 := Z.min e e'). set (a := Zpos m * 2 ^ (e - e0)). set (b := Zpos m' * 2 ^ (e' - e0)).
    pose proof (pow_pos (e - e0) ltac:(lia)) as P1. pose proof (pow_pos (e' - e0) ltac:(lia)) as P2.
    assert (Ha : 0 < a) by (unfold a; nia). assert (Hb : 0 < b) by (unfold b; nia).
    pose proof (Z.mod_pos_bound a b Hb) as Hr. pose proof (Z.mod_le a b ltac:(lia) Hb) as Hle.
    assert (Hsmall : a mod b < 2 ^ 53).
    { destruct (Z.le_gt_cases e e').
      - assert (a = Zpos m) by (unfold a; replace (e - e0) with 0 by lia; rewrite Z.mul_1_r; reflexivity). lia.
      - assert (b = Zpos m') by (unfold b; replace (e' - e0) with 0 by lia; rewrite Z.mul_1_r; reflexivity). lia. }
    assert (Hu : units (S754_finite s m e) = cond_Zopp s a * 2 ^ (e0 + 1074)).
    { cbn [units]. unfold a. rewrite <- cond_mul, <- Z.mul_assoc, <- Z.pow_add_r by lia. do 3 f_equal. lia. }
    assert (Hu' : units (S754_finite s' m' e') = cond_Zopp s' b * 2 ^ (e0 + 1074)).
    { cbn [units]. unfold b. rewrite <- cond_mul, <- Z.mul_assoc, <- Z.pow_add_r by lia. do 3 f_equal. lia. }
    pose proof (pow_pos (e0 + 1074) ltac:(lia)) as P3.
    assert (HR : Z.rem (units (S754_finite s m e)) (units (S754_finite s' m' e')) = cond_Zopp s (a mod b) * 2 ^ (e0 + 1074)).
    { rewrite Hu, Hu', Z.mul_rem_distr_r by (try lia; destruct s'; cbn [cond_Zopp]; lia). f_equal.
      destruct s, s'; cbn [cond_Zopp]; rewrite ?Z.rem_opp_l, ?Z.rem_opp_r, ?Z.rem_mod_nonneg by lia; reflexivity. }
    rewrite HR. destruct (Z.eq_dec (a mod b) 0) as [E|E].
    + rewrite E. destruct s; (split; [split; reflexivity | reflexivity]).
    + assert (cond_Zopp s (a mod b) <> 0) by (destruct s; cbn [cond_Zopp]; lia).
      rewrite normalize_sign by assumption.
      assert (Z.abs (cond_Zopp s (a mod b)) < 2 ^ 53) by (destruct s; cbn [cond_Zopp]; lia).
      apply normalize_exact; [lia | lia |]. apply normalize_finite; lia.
Qed.

(** * Every operation yields a double or an infinity or no number *)
Lemma shr_m_step mrs : 0 <= shr_m mrs -> shr_m (shr_1 mrs) = shr_m mrs / 2.
Proof.
  destruct mrs as [m r s]. cbn [shr_m]. intros H. destruct m as [|[p|p|]|p]; [reflexivity | | | reflexivity | lia]; cbn [shr_1 shr_m].
  - rewrite Pos2Z.inj_xI. apply Z.div_unique with 1; lia.
  - rewrite Pos2Z.inj_xO. apply Z.div_unique with 0; lia.
Qed.
Lemma shr_m_iter p : forall mrs, 0 <= shr_m mrs -> shr_m (iter_pos shr_1 p mrs) = shr_m mrs / 2 ^ Zpos p.
Proof.
  assert (Hnn : forall m n, 0 <= m -> 0 <= n -> 0 <= m / 2 ^ n) by (intros m n Hm Hn; apply Z.div_pos; [exact Hm | apply pow_pos, Hn]).
  induction p as [p IH|p IH|]; intros mrs H; cbn [iter_pos].
  - rewrite !IH; rewrite ?IH; rewrite shr_m_step by exact H; [| apply (Hnn _ 1); lia | apply Hnn; [apply (Hnn _ 1); lia | lia] | apply (Hnn _ 1); lia].
    rewrite !Z.div_div by (try (pose proof (pow_pos (Zpos p))); lia). f_equal. rewrite (Pos2Z.inj_xI p).
    replace (2 * Zpos p + 1) with (1 + Zpos p + Zpos p) by lia. rewrite !Z.pow_add_r by lia. change (2 ^ 1) with 2. ring.
  - rewrite !IH; rewrite ?IH; try exact H; [| apply Hnn; lia].
    rewrite Z.div_div by (pose proof (pow_pos (Zpos p)); lia). f_equal. rewrite (Pos2Z.inj_xO p).
    replace (2 * Zpos p) with (Zpos p + Zpos p) by lia. rewrite Z.pow_add_r by lia. reflexivity.
  - rewrite shr_m_step by exact H. reflexivity.
Qed.
Lemma round_even_bounds q l : q <= round_nearest_even q l <= q + 1.
Proof. destruct l as [|[]]; cbn [round_nearest_even]; [lia | destruct (Z.even q); lia | lia | lia]. Qed.
Definition final (s : bool) (q e : Z) : spec_float := if q =? 2 ^ 53 then pack s (2 ^ 52) (e + 1) else pack s q e.
Lemma second_shift s q e : 0 <= q <= 2 ^ 53 -> -1074 <= e ->
  (let '(mrs, e'') := shr_fexp 53 1024 q e loc_Exact in
   match shr_m mrs with
   | 0 => S754_zero s
   | Zpos m => if e'' <=? 1024 - 53 then S754_finite s m e'' else S754_infinity s
   | Zneg _ => S754_nan
   end) = final s q e.
Proof.
  intros Hq He. unfold shr_fexp, final. cbn [shr_record_of_loc].
  destruct (Z.eqb_spec q (2 ^ 53)) as [E|E].
  - assert (fexp 53 1024 (Zdigits2 q + e) - e = 1) as ->.
    { rewrite E. change (Zdigits2 (2 ^ 53)) with 54. unfold fexp, emin. lia. }
    rewrite E. cbn [SpecFloat.shr iter_pos]. change (shr_1 (Build_shr_record (2 ^ 53) false false)) with (Build_shr_record (2 ^ 52) false false).
    cbn [shr_m]. unfold pack. reflexivity.
  - destruct (Z.eq_dec q 0) as [E0|E0].
    + rewrite E0.
      assert (Hz : forall k, shr_m (fst (SpecFloat.shr (Build_shr_record 0 false false) e k)) = 0).
      { intros k. destruct k as [|p|p]; [reflexivity | | reflexivity]. cbn [SpecFloat.shr fst]. rewrite shr_m_iter by (cbn; lia). reflexivity. }
      specialize (Hz (fexp 53 1024 (Zdigits2 0 + e) - e)). destruct (SpecFloat.shr _ _ _) as [mrs' e']. cbn [fst] in Hz. rewrite Hz. reflexivity.
    + assert (fexp 53 1024 (Zdigits2 q + e) - e <= 0).
      { assert (Zdigits2 q <= 53).
        { destruct (digits_bounds q ltac:(lia)) as (_ & H1 & _). assert (Zdigits2 q - 1 < 53) by (apply pow_lt_inv; lia). lia. }
        unfold fexp, emin. lia. }
      rewrite shr_negative by assumption. cbn [shr_m]. destruct q as [|p|p]; try lia. reflexivity.
Qed.
Lemma final_valid s q e : -1074 <= e -> 0 <= q <= 2 ^ 53 -> e = -1074 \/ 2 ^ 52 <= q -> valid_binary 53 1024 (final s q e) = true.
Proof.
  intros He Hq Hc. unfold final. destruct (Z.eqb_spec q (2 ^ 53)) as [E|E].
  - unfold pack. change (2 ^ 52) with (Zpos 4503599627370496). destruct (Z.leb_spec (e + 1) 971); [| reflexivity].
    apply double_of_bounds; lia.
  - unfold pack. destruct q as [|p|p]; [reflexivity | | lia]. destruct (Z.leb_spec e 971); [| reflexivity]. apply double_of_bounds; lia.
Qed.
Lemma round_aux_valid s m e l : 0 <= m -> 0 <= fexp 53 1024 (Zdigits2 m + e) - e -> valid_binary 53 1024 (binary_round_aux 53 1024 s m e l) = true.
Proof.
  intros Hm Hn. unfold binary_round_aux. unfold shr_fexp at 1.
  set (n := fexp 53 1024 (Zdigits2 m + e) - e) in *.
  assert (Hs : exists mrs, SpecFloat.shr (shr_record_of_loc m l) e n = (mrs, e + n) /\ shr_m mrs = m / 2 ^ n).
  { assert (E : shr_m (shr_record_of_loc m l) = m) by (destruct l as [|[]]; reflexivity).
    destruct n as [|p|p]; [| | lia]; cbn [SpecFloat.shr].
    - eexists. split; [rewrite Z.add_0_r; reflexivity |]. rewrite E, Z.div_1_r. reflexivity.
    - eexists. split; [reflexivity |]. rewrite shr_m_iter, E by (rewrite E; exact Hm). reflexivity. }
  destruct Hs as (mrs & -> & Hmrs).
  pose proof (round_even_bounds (shr_m mrs) (loc_of_shr_record mrs)) as Hq. rewrite Hmrs in *.
  set (q := round_nearest_even (m / 2 ^ n) (loc_of_shr_record mrs)) in *.
  assert (He : -1074 <= e + n) by (unfold n, fexp, emin; lia). pose proof (pow_pos n Hn) as Hp.
  assert (Hqn : 0 <= m / 2 ^ n) by (apply Z.div_pos; lia).
  assert (Hqb : m / 2 ^ n < 2 ^ 53 /\ (e + n = -1074 \/ 2 ^ 52 <= m / 2 ^ n)).
  { destruct (Z.eq_dec m 0) as [->|Hnz].
    - rewrite Z.div_0_l by lia. change (Zdigits2 0) with 0 in n. split; [lia |]. left. unfold n, fexp, emin in *. lia.
    - destruct (digits_bounds m) as (H1 & H2 & H3); [lia |]. split.
      + apply Z.div_lt_upper_bound; [lia |]. rewrite <- Z.pow_add_r by lia. eapply Z.lt_le_trans; [exact H3 |].
        apply Z.pow_le_mono_r; unfold n, fexp; lia.
      + assert (Hc : e + n = -1074 \/ n = Zdigits2 m - 53) by (unfold n, fexp, emin; lia). destruct Hc as [Hc|Hc]; [auto | right].
        apply Z.div_le_lower_bound; [lia |]. rewrite <- Z.pow_add_r by lia. replace (n + 52) with (Zdigits2 m - 1) by lia. exact H2. }
  cbv beta iota. pose proof (second_shift s q (e + n) ltac:(lia) He) as Hss. rewrite Hss. apply final_valid; lia.
Qed.
