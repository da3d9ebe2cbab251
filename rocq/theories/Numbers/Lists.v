(** Running maxima, minima and sums. *)
From Coq Require Import ZArith List Bool Lia Floats.SpecFloat Permutation.
From Verif.Numbers Require Import Model Spec Round Floats Nearest Closed Proofs.
Import ListNotations.
Open Scope Z_scope.
Local Arguments Z.pow : simpl never.
Local Arguments Z.mul : simpl never.
Local Arguments Z.add : simpl never.
Local Arguments Z.sub : simpl never.

(** * Sums of small integers *)
Lemma round_finite s m e : -1074 <= e -> Zdigits2 (Zpos m) + e <= 1023 -> is_finite (binary_round 53 1024 s m e) = true.
Proof.
  intros He Hd. rewrite binary_round_spec.
  assert (Hf : forall q e, e <= 971 -> is_finite (pack s q e) = true).
  { intros q e' He'. unfold pack. destruct q; try reflexivity. destruct (Z.leb_spec e' 971); [reflexivity | lia]. }
  assert (e + places (Zpos m) e <= 970) by (unfold places, fexp, emin; lia).
  destruct (0 <=? places (Zpos m) e); [| apply Hf; lia]. unfold rounded. destruct (_ =? _); apply Hf; lia.
Qed.
Lemma normalize_finite_small z e : -1074 <= e -> Z.abs z * 2 ^ (e + 1074) <= 2 ^ 53 * scale ->
  is_finite (binary_normalize 53 1024 z e false) = true.
Proof.
  intros He Hz. destruct (Z.eq_dec z 0) as [->|Hnz]; [reflexivity |]. rewrite normalize_cases by exact Hnz. apply round_finite; [exact He |].
  rewrite abs_pos by exact Hnz. destruct (digits_bounds (Z.abs z)) as (H1 & H2 & _); [lia |].
  assert (Zdigits2 (Z.abs z) - 1 + (e + 1074) < 53 + 1074 + 1); [| lia]. apply pow_lt_inv; [lia |].
  apply Z.le_lt_trans with (2 ^ 53 * scale).
  - etransitivity; [| exact Hz]. rewrite Z.pow_add_r by lia. apply Z.mul_le_mono_nonneg_r; [apply Z.lt_le_incl, pow_pos; lia | exact H2].
  - unfold scale. rewrite <- Z.pow_add_r by lia. apply Z.pow_lt_mono_r; lia.
Qed.
Lemma add_small f g a b : double f -> double g -> units f = a * scale -> units g = b * scale -> - 2 ^ 53 <= a + b <= 2 ^ 53 ->
  double (f_add f g) /\ units (f_add f g) = (a + b) * scale.
Proof.
  intros Hf Hg Ha Hb Hab. pose proof scale_pos as Hs.
  assert (Hfin : is_finite (f_add f g) = true).
  { destruct f as [s|s| |s m e]; try (destruct Hf as [Hf _]; discriminate Hf);
      destruct g as [s'|s'| |s' m' e']; try (destruct Hg as [Hg _]; discriminate Hg); try reflexivity.
    - cbn. destruct (Bool.eqb s s'); reflexivity.
    - unfold f_add. cbn [SFadd]. apply canonical_bounds in Hf. apply canonical_bounds in Hg.
      assert (H0 : -1074 <= Z.min e e' <= e /\ Z.min e e' <= e') by lia. set (e0 := Z.min e e') in *.
      apply normalize_finite_small; [lia |].
      rewrite <- (Z.abs_eq (2 ^ (e0 + 1074))) by (apply Z.lt_le_incl, pow_pos; lia). rewrite <- Z.abs_mul, Z.mul_add_distr_r, !aligned_units by lia.
      rewrite Ha, Hb. rewrite <- Z.mul_add_distr_r, Z.abs_mul, (Z.abs_eq scale) by lia. apply Z.mul_le_mono_nonneg_r; lia. }
  destruct (add_nearest f g Hf Hg Hfin) as [Hd Hn]. split; [exact Hd |].
  specialize (Hn (f_of_int (a + b)) (f_of_int_double (a + b) ltac:(lia))). rewrite f_of_int_exact in Hn by lia. lia.
Qed.
Lemma running_add fs : forall f a zs, double f -> units f = a * scale -> Forall double fs -> map units fs = map (fun z => z * scale) zs ->
  Forall (fun s => - 2 ^ 53 <= s <= 2 ^ 53) (sums a zs) ->
  Forall double (running f_add f fs) /\ map units (running f_add f fs) = map (fun z => z * scale) (sums a zs).
Proof.
  induction fs as [|g fs IH]; intros f a zs Hf Ha Hfs Hm Hs; destruct zs as [|z zs]; try discriminate; cbn [running sums map] in *.
  - split; [constructor | reflexivity].
  - inversion Hfs as [|? ? Hg Hfs']; subst. inversion Hs as [|? ? Hs1 Hs2]; subst. injection Hm as Hm1 Hm2.
    destruct (add_small f g a z Hf Hg Ha Hm1 Hs1) as [Hd Hu]. destruct (IH _ _ zs Hd Hu Hfs' Hm2 Hs2) as [H1 H2].
    split; [constructor; assumption |]. rewrite Hu, H2. reflexivity.
Qed.

(** * Maxima and minima *)
Section Extreme.
Variable le : Z -> Z -> Prop.
Variable pick : spec_float -> spec_float -> spec_float.
Hypothesis le_refl : forall a, le a a.
Hypothesis le_trans : forall a b c, le a b -> le b c -> le a c.
Hypothesis pick_spec : forall f g, double f -> double g ->
  (pick f g = f \/ pick f g = g) /\ le (units f) (units (pick f g)) /\ le (units g) (units (pick f g)).
Lemma running_pick fs : forall f seen, double f -> Forall double fs -> tops le seen (units f) ->
  Forall double (running pick f fs) /\
  forall i v, nth_error (map units (running pick f fs)) i = Some v -> tops le (seen ++ firstn (S i) (map units fs)) v.
Proof.
  induction fs as [|g fs IH]; intros f seen Hf Hfs Ht; cbn [running map].
  - split; [constructor |]. intros [|i] v H; discriminate.
  - inversion Hfs as [|? ? Hg Hfs']; subst. destruct (pick_spec f g Hf Hg) as (Hp & H1 & H2).
    assert (Hd : double (pick f g)) by (destruct Hp as [-> | ->]; assumption).
    assert (Ht' : tops le (seen ++ [units g]) (units (pick f g))).
    { destruct Ht as [Hin Hle]. split.
      - apply in_or_app. destruct Hp as [-> | ->]; [left; exact Hin | right; left; reflexivity].
      - intros w Hw. apply in_app_or in Hw. destruct Hw as [Hw|[<-|[]]]; [| exact H2]. eapply le_trans; [apply Hle, Hw | exact H1]. }
    destruct (IH (pick f g) (seen ++ [units g]) Hd Hfs' Ht') as [H3 H4]. split; [constructor; assumption |].
    intros [|i] v Hv; cbn [nth_error firstn] in *.
    + injection Hv as <-. exact Ht'.
    + specialize (H4 i v Hv). rewrite <- app_assoc in H4. exact H4.
Qed.
Lemma running_extreme start fs : (forall f, double f -> pick start f = f) -> Forall double fs ->
  Forall double (running pick start fs) /\
  forall i v, nth_error (map units (running pick start fs)) i = Some v -> tops le (firstn (S i) (map units fs)) v.
Proof.
  intros Hst Hfs. destruct fs as [|f fs]; [split; [constructor | intros [|i] v H; discriminate] |].
  inversion Hfs as [|? ? Hf Hfs']; subst. cbn [running map]. rewrite (Hst f Hf).
  assert (Ht : tops le [units f] (units f)) by (split; [left; reflexivity | intros w [<-|[]]; apply le_refl]).
  destruct (running_pick fs f [units f] Hf Hfs' Ht) as [H1 H2]. split; [constructor; assumption |].
  intros [|i] v Hv; cbn [nth_error firstn] in *; [injection Hv as <-; exact Ht | exact (H2 i v Hv)].
Qed.
End Extreme.
Lemma running_length step : forall fs f, length (running step f fs) = length fs.
Proof. induction fs as [|g fs IH]; intros f; cbn [running length]; [reflexivity | rewrite IH; reflexivity]. Qed.
Lemma f_max_spec f g : double f -> double g ->
  (f_max f g = f \/ f_max f g = g) /\ units f <= units (f_max f g) /\ units g <= units (f_max f g).
Proof.
  intros Hf Hg. unfold f_max. rewrite compare_units by assumption. destruct (Z.compare_spec (units f) (units g)); (split; [auto | lia]).
Qed.
Lemma f_min_spec f g : double f -> double g ->
  (f_min f g = f \/ f_min f g = g) /\ units f >= units (f_min f g) /\ units g >= units (f_min f g).
Proof.
  intros Hf Hg. unfold f_min. rewrite compare_units by assumption. destruct (Z.compare_spec (units f) (units g)); (split; [auto | lia]).
Qed.
Lemma max_start f : double f -> f_max (S754_infinity true) f = f.
Proof. intros [H _]. destruct f as [s|s| |s m e]; try discriminate; destruct s; reflexivity. Qed.
Lemma min_start f : double f -> f_min (S754_infinity false) f = f.
Proof. intros [H _]. destruct f as [s|s| |s m e]; try discriminate; destruct s; reflexivity. Qed.
