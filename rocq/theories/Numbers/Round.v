(** Rounding to a double: what the standard library's [binary_round_aux] computes. *)
From Coq Require Import ZArith List Bool Lia Floats.SpecFloat.
Import ListNotations.
Open Scope Z_scope.
Local Arguments Z.pow : simpl never.
Local Arguments Z.mul : simpl never.
Local Arguments Z.add : simpl never.
Local Arguments Z.sub : simpl never.

Lemma digits_pos p : 2 ^ (Zpos (digits2_pos p) - 1) <= Zpos p < 2 ^ Zpos (digits2_pos p).
Proof.
  induction p as [p IH|p IH|]; cbn [digits2_pos]; [| | cbn; lia];
    rewrite Pos2Z.inj_succ; replace (Z.succ (Zpos (digits2_pos p)) - 1) with (Z.succ (Zpos (digits2_pos p) - 1)) by lia;
    rewrite !Z.pow_succ_r by lia; [rewrite (Pos2Z.inj_xI p) | rewrite (Pos2Z.inj_xO p)]; lia.
Qed.
Lemma digits_bounds m : 0 < m -> 0 < Zdigits2 m /\ 2 ^ (Zdigits2 m - 1) <= m < 2 ^ Zdigits2 m.
Proof. destruct m as [|p|p]; try lia. intros _. split; [reflexivity | apply digits_pos]. Qed.
Lemma pow_lt_inv a b : 0 <= b -> 2 ^ a < 2 ^ b -> a < b.
Proof. intros Hb H. destruct (Z.lt_ge_cases a 0); [lia|]. apply (Z.pow_lt_mono_r_iff 2); lia. Qed.
Lemma digits_unique m d : 0 < m -> 0 < d -> 2 ^ (d - 1) <= m < 2 ^ d -> Zdigits2 m = d.
Proof.
  intros Hm Hd [H1 H2]. destruct (digits_bounds m Hm) as (Hp & H3 & H4).
  assert (d - 1 < Zdigits2 m) by (apply pow_lt_inv; lia).
  assert (Zdigits2 m - 1 < d) by (apply pow_lt_inv; lia). lia.
Qed.

(** Division by a power of two, rounded to nearest, ties to even. *)
Definition nearest (m n : Z) : Z :=
  let q := m / 2 ^ n in let t := m mod 2 ^ n in
  match 2 * t ?= 2 ^ n with
  | Lt => q
  | Gt => q + 1
  | Eq => if Z.even q then q else q + 1
  end.

(** [mrs] is [m] shifted right by [n] places. *)
Definition shifted (m n : Z) (mrs : shr_record) : Prop :=
  0 <= n /\ exists t, m = shr_m mrs * 2 ^ n + t /\ 0 <= t < 2 ^ n /\ 0 <= shr_m mrs /\
    (shr_r mrs = true <-> 2 ^ n <= 2 * t) /\ (shr_s mrs = false <-> t = 0 \/ 2 * t = 2 ^ n).
Lemma shifted_step m n mrs : shifted m n mrs -> shifted m (n + 1) (shr_1 mrs).
Proof.
  destruct mrs as [q r s]. intros (Hn & t & Hm & Ht & Hq & Hr & Hs). cbn [shr_m shr_r shr_s] in *.
  pose proof (Z.pow_pos_nonneg 2 n ltac:(lia) Hn) as Hp.
  assert (E : 2 ^ (n + 1) = 2 * 2 ^ n) by (rewrite Z.pow_add_r by lia; lia).
  assert (Hrs : r || s = false <-> t = 0).
  { rewrite orb_false_iff. split.
    - intros [-> ->]. destruct (proj1 Hs eq_refl) as [H|H]; [exact H |]. assert (false = true) by (apply Hr; lia). discriminate.
    - intros ->. split; [| apply Hs; left; reflexivity]. destruct r; [| reflexivity]. assert (2 ^ n <= 2 * 0) by (apply Hr; reflexivity). lia. }
  assert (Hrs' : r || s = true -> t <> 0) by (intros H1 H2; apply Hrs in H2; congruence).
  assert (Hrs0 : r || s = false -> t = 0) by (apply Hrs).
  split; [lia|]. rewrite E.
  destruct q as [|[p|p|]|p]; [| | | |lia]; cbn [shr_1]; cbn [shr_m shr_r shr_s].
  - exists t. split; [lia|]. split; [lia|]. split; [lia|]. split; [split; [discriminate | lia] |].
    rewrite Hrs. split; intros; lia.
  - exists (2 ^ n + t). rewrite Pos2Z.inj_xI in Hm. split; [lia|]. split; [lia|]. split; [lia|].
    split; [split; [lia | reflexivity] |]. rewrite Hrs. split; lia.
  - exists t. rewrite Pos2Z.inj_xO in Hm. split; [lia|]. split; [lia|]. split; [lia|].
    split; [split; [discriminate | lia] |]. rewrite Hrs. split; lia.
  - exists (2 ^ n + t). split; [lia|]. split; [lia|]. split; [lia|].
    split; [split; [lia | reflexivity] |]. rewrite Hrs. split; lia.
Qed.
Lemma shifted_iter m p : forall n mrs, shifted m n mrs -> shifted m (n + Zpos p) (iter_pos shr_1 p mrs).
Proof.
  induction p as [p IH|p IH|]; intros n mrs H; cbn [iter_pos].
  - apply shifted_step in H. do 2 apply IH in H. rewrite Pos2Z.inj_xI. replace (n + (2 * Zpos p + 1)) with (n + 1 + Zpos p + Zpos p) by lia. exact H.
  - do 2 apply IH in H. rewrite Pos2Z.inj_xO. replace (n + 2 * Zpos p) with (n + Zpos p + Zpos p) by lia. exact H.
  - apply shifted_step, H.
Qed.
Lemma shifted_zero m : 0 <= m -> shifted m 0 (Build_shr_record m false false).
Proof.
  intros Hm. split; [lia|]. exists 0. cbn [shr_m shr_r shr_s]. change (2 ^ 0) with 1.
  split; [lia|]. split; [lia|]. split; [lia|]. split; [split; [discriminate | lia] | split; [left; reflexivity | reflexivity]].
Qed.
Lemma shifted_round m n mrs : shifted m n mrs ->
  shr_m mrs = m / 2 ^ n /\ round_nearest_even (shr_m mrs) (loc_of_shr_record mrs) = nearest m n.
Proof.
  intros (Hn & t & Hm & Ht & Hq & Hr & Hs). pose proof (Z.pow_pos_nonneg 2 n ltac:(lia) Hn) as Hp.
  assert (Hd : m / 2 ^ n = shr_m mrs) by (symmetry; apply Z.div_unique with t; lia).
  assert (Hmod : m mod 2 ^ n = t) by (symmetry; apply Z.mod_unique with (shr_m mrs); lia).
  split; [congruence |]. unfold nearest. rewrite Hd, Hmod. destruct mrs as [q r s]. cbn [shr_m shr_r shr_s loc_of_shr_record] in *.
  destruct (Z.compare_spec (2 * t) (2 ^ n)) as [E|E|E].
  - assert (r = true) as -> by (apply Hr; lia). assert (s = false) as -> by (apply Hs; lia). reflexivity.
  - assert (r = false) as -> by (destruct r; [assert (2 ^ n <= 2 * t) by (apply Hr; reflexivity); lia | reflexivity]).
    destruct s; reflexivity.
  - assert (r = true) as -> by (apply Hr; lia).
    assert (s = true) as -> by (destruct s; [reflexivity | destruct (proj1 Hs eq_refl); lia]). reflexivity.
Qed.
Lemma shr_shifted m e n : 0 <= m -> 0 <= n ->
  let '(mrs, e') := shr (Build_shr_record m false false) e n in shifted m n mrs /\ e' = e + n.
Proof.
  intros Hm Hn. destruct n as [|p|p]; [| | lia]; cbn [shr].
  - split; [apply shifted_zero, Hm | lia].
  - split; [| reflexivity]. apply (shifted_iter m p 0), shifted_zero, Hm.
Qed.

Lemma nearest_bounds m n : 0 <= n -> m / 2 ^ n <= nearest m n <= m / 2 ^ n + 1.
Proof. intros Hn. unfold nearest. destruct (_ ?= _); [destruct (Z.even _) | |]; lia. Qed.
(** The rounded value is within half a unit. *)
Lemma nearest_close m n : 0 <= n -> 2 * Z.abs (nearest m n * 2 ^ n - m) <= 2 ^ n.
Proof.
  intros Hn. unfold nearest. pose proof (Z.pow_pos_nonneg 2 n ltac:(lia) Hn) as Hp.
  pose proof (Z.div_mod m (2 ^ n) ltac:(lia)) as D. pose proof (Z.mod_pos_bound m (2 ^ n) Hp) as B.
  destruct (Z.compare_spec (2 * (m mod 2 ^ n)) (2 ^ n)); [destruct (Z.even _) | |]; nia.
Qed.
Lemma nearest_exact q n : 0 <= n -> nearest (q * 2 ^ n) n = q.
Proof.
  intros Hn. unfold nearest. pose proof (Z.pow_pos_nonneg 2 n ltac:(lia) Hn) as Hp.
  rewrite Z.div_mul, Z.mod_mul by lia. destruct (Z.compare_spec (2 * 0) (2 ^ n)); lia.
Qed.
Lemma nearest_mono a b n : 0 <= n -> a <= b -> nearest a n <= nearest b n.
Proof.
  intros Hn Hab. unfold nearest. pose proof (Z.pow_pos_nonneg 2 n ltac:(lia) Hn) as Hp.
  pose proof (Z.div_mod a (2 ^ n) ltac:(lia)) as Da. pose proof (Z.mod_pos_bound a (2 ^ n) Hp) as Ba.
  pose proof (Z.div_mod b (2 ^ n) ltac:(lia)) as Db. pose proof (Z.mod_pos_bound b (2 ^ n) Hp) as Bb.
  pose proof (Z.div_le_mono a b (2 ^ n) Hp Hab) as Q.
  destruct (Z.eq_dec (a / 2 ^ n) (b / 2 ^ n)) as [E|E].
  - rewrite E in *. destruct (Z.compare_spec (2 * (a mod 2 ^ n)) (2 ^ n)), (Z.compare_spec (2 * (b mod 2 ^ n)) (2 ^ n));
      destruct (Z.even (b / 2 ^ n)); lia.
  - destruct (Z.compare_spec (2 * (a mod 2 ^ n)) (2 ^ n)), (Z.compare_spec (2 * (b mod 2 ^ n)) (2 ^ n));
      destruct (Z.even (a / 2 ^ n)), (Z.even (b / 2 ^ n)); lia.
Qed.

(** What rounding an exact positive number [m * 2 ^ e] yields. *)
Definition places (m e : Z) : Z := fexp 53 1024 (Zdigits2 m + e) - e.
Definition pack (s : bool) (q e : Z) : spec_float :=
  match q with
  | Zpos p => if e <=? 971 then S754_finite s p e else S754_infinity s
  | _ => S754_zero s
  end.
Definition rounded (s : bool) (m e : Z) : spec_float :=
  let n := places m e in let q := nearest m n in
  if q =? 2 ^ 53 then pack s (2 ^ 52) (e + n + 1) else pack s q (e + n).

Lemma nearest_small m e : 0 < m -> 0 <= places m e ->
  0 <= nearest m (places m e) <= 2 ^ 53 /\ (places m e = Zdigits2 m - 53 -> 2 ^ 52 <= nearest m (places m e)).
Proof.
  intros Hm Hn. destruct (digits_bounds m Hm) as (Hd & H1 & H2).
  set (n := places m e) in *. pose proof (Z.pow_pos_nonneg 2 n ltac:(lia) Hn) as Hp.
  assert (Hle : Zdigits2 m - 53 <= n) by (unfold n, places, fexp; lia).
  assert (Hup : m < 2 ^ 53 * 2 ^ n).
  { rewrite <- Z.pow_add_r by lia. eapply Z.lt_le_trans; [exact H2 |]. apply Z.pow_le_mono_r; lia. }
  split; [split |].
  - transitivity (m / 2 ^ n); [apply Z.div_pos; lia | apply nearest_bounds, Hn].
  - rewrite <- (nearest_exact (2 ^ 53) n Hn). apply nearest_mono; lia.
  - intros En. rewrite <- (nearest_exact (2 ^ 52) n Hn). apply nearest_mono; [lia |].
    rewrite <- Z.pow_add_r by lia. replace (52 + n) with (Zdigits2 m - 1) by lia. exact H1.
Qed.
Lemma shr_negative mrs e n : n <= 0 -> shr mrs e n = (mrs, e).
Proof. destruct n; cbn; [reflexivity | lia | reflexivity]. Qed.
Lemma round_aux_exact s m e : 0 < m -> 0 <= places m e -> binary_round_aux 53 1024 s m e loc_Exact = rounded s m e.
Proof.
  intros Hm Hn. unfold binary_round_aux. unfold shr_fexp at 1. cbn [shr_record_of_loc]. fold (places m e).
  pose proof (shr_shifted m e (places m e) ltac:(lia) Hn) as H.
  destruct (shr (Build_shr_record m false false) e (places m e)) as [mrs e']. destruct H as [Hs ->].
  destruct (shifted_round _ _ _ Hs) as [_ ->]. destruct (nearest_small m e Hm Hn) as [Hq Hbig].
  unfold rounded. set (n := places m e) in *. set (q := nearest m n) in *.
  unfold shr_fexp. cbn [shr_record_of_loc].
  assert (Hemin : -1074 <= e + n) by (unfold n, places, fexp, emin; lia).
  destruct (Z.eqb_spec q (2 ^ 53)) as [E|E].
  - assert (fexp 53 1024 (Zdigits2 q + (e + n)) - (e + n) = 1) as ->.
    { rewrite E. change (Zdigits2 (2 ^ 53)) with 54. unfold fexp, emin. lia. }
    rewrite E. cbn [shr iter_pos]. change (shr_1 (Build_shr_record (2 ^ 53) false false)) with (Build_shr_record (2 ^ 52) false false).
    cbn [shr_m]. unfold pack. reflexivity.
  - destruct (Z.eq_dec q 0) as [E0|E0].
    + rewrite E0.
      assert (Hz : forall k, shr_m (fst (shr (Build_shr_record 0 false false) (e + n) k)) = 0).
      { intros k. destruct (Z.le_gt_cases k 0) as [Hk|Hk]; [rewrite shr_negative by exact Hk; reflexivity |].
        pose proof (shr_shifted 0 (e + n) k ltac:(lia) ltac:(lia)) as H. destruct (shr _ _ k) as [mrs' e']. destruct H as [H _].
        apply shifted_round in H. destruct H as [H _]. cbn [fst]. rewrite H. apply Z.div_0_l. pose proof (Z.pow_pos_nonneg 2 k). lia. }
      specialize (Hz (fexp 53 1024 (Zdigits2 0 + (e + n)) - (e + n))). destruct (shr _ _ _) as [mrs' e']. cbn [fst] in Hz. rewrite Hz.
      reflexivity.
    + assert (fexp 53 1024 (Zdigits2 q + (e + n)) - (e + n) <= 0).
      { assert (Zdigits2 q <= 53).
        { destruct (digits_bounds q ltac:(lia)) as (_ & H1 & _). assert (Zdigits2 q - 1 < 53) by (apply pow_lt_inv; lia). lia. }
        unfold fexp, emin. lia. }
      rewrite shr_negative by assumption. cbn [shr_m]. destruct q as [|p|p]; try lia. reflexivity.
Qed.

(** Results are doubles. *)
Lemma rounded_valid s m e : 0 < m -> 0 <= places m e -> valid_binary 53 1024 (rounded s m e) = true.
Proof.
  intros Hm Hn. destruct (nearest_small m e Hm Hn) as [Hq Hbig]. unfold rounded.
  destruct (digits_bounds m Hm) as (Hd & _).
  set (n := places m e) in *. set (q := nearest m n) in *.
  assert (Hemin : -1074 <= e + n) by (unfold n, places, fexp, emin; lia).
  assert (Hcase : n = Zdigits2 m - 53 \/ e + n = -1074) by (unfold n, places, fexp, emin; lia).
  destruct (Z.eqb_spec q (2 ^ 53)) as [E|E].
  - change (2 ^ 52) with (Zpos 4503599627370496). unfold pack. destruct (Z.leb_spec (e + n + 1) 971); [| reflexivity].
    cbn [valid_binary]. unfold bounded, canonical_mantissa. change (Zpos (digits2_pos 4503599627370496)) with 53.
    rewrite andb_true_iff. split; [apply Zeq_is_eq_bool; unfold fexp, emin; lia | apply Z.leb_le; lia].
  - destruct q as [|p|p] eqn:Eq; [reflexivity | | lia]. unfold pack. destruct (Z.leb_spec (e + n) 971); [| reflexivity].
    cbn [valid_binary]. unfold bounded, canonical_mantissa. rewrite andb_true_iff.
    split; [| apply Z.leb_le; lia]. apply Zeq_is_eq_bool. pose proof (digits_pos p) as Hp.
    assert (Zpos (digits2_pos p) <= 53) by (assert (Zpos (digits2_pos p) - 1 < 53) by (apply pow_lt_inv; lia); lia).
    unfold fexp, emin. destruct Hcase as [Hc|Hc]; [| lia].
    assert (52 < Zpos (digits2_pos p)) by (apply pow_lt_inv; [lia |]; specialize (Hbig Hc); lia). lia.
Qed.
