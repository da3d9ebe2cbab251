(** Products and quotients are correctly rounded. *)
From Coq Require Import ZArith List Bool Lia Floats.SpecFloat.
From Verif.Numbers Require Import Model Spec Round Floats Nearest Closed.
Import ListNotations.
Open Scope Z_scope.
Local Arguments Z.pow : simpl never.
Local Arguments Z.mul : simpl never.
Local Arguments Z.add : simpl never.
Local Arguments Z.sub : simpl never.

(** [N] divided by [U], rounded to nearest, ties to even. *)
Definition near (N U : Z) : Z :=
  let q := N / U in let t := N mod U in
  match 2 * t ?= U with
  | Lt => q
  | Gt => q + 1
  | Eq => if Z.even q then q else q + 1
  end.
Lemma near_best N U k : 0 < U -> Z.abs (near N U * U - N) <= Z.abs (k * U - N).
Proof.
  intros Hp. unfold near.
  pose proof (Z.div_mod N U ltac:(lia)) as D. pose proof (Z.mod_pos_bound N U Hp) as B.
  set (q := N / U) in *. set (t := N mod U) in *.
  assert (Hk : k <= q \/ q + 1 <= k) by lia.
  assert (Hd : k <= q -> t <= Z.abs (k * U - N)) by nia.
  assert (Hu : q + 1 <= k -> U - t <= Z.abs (k * U - N)) by nia.
  assert (E1 : Z.abs (q * U - N) = t) by nia.
  assert (E2 : Z.abs ((q + 1) * U - N) = U - t) by nia.
  destruct (Z.compare_spec (2 * t) U); [destruct (Z.even q) | |]; rewrite ?E1, ?E2; destruct Hk; lia.
Qed.
Lemma near_bounds N U : N / U <= near N U <= N / U + 1.
Proof. unfold near. destruct (_ ?= _); [destruct (Z.even _) | |]; lia. Qed.

(** [mrs] is [N / U] cut off to an integer, with what was cut off. *)
Definition cut (N U : Z) (mrs : shr_record) : Prop :=
  0 < U /\ exists t, N = shr_m mrs * U + t /\ 0 <= t < U /\ 0 <= shr_m mrs /\
    (shr_r mrs = true <-> U <= 2 * t) /\ (shr_s mrs = false <-> t = 0 \/ 2 * t = U).
Lemma cut_step N U mrs : cut N U mrs -> cut N (2 * U) (shr_1 mrs).
Proof.
  destruct mrs as [q r s]. intros (Hp & t & Hm & Ht & Hq & Hr & Hs). cbn [shr_m shr_r shr_s] in *.
  assert (Hrs : r || s = false <-> t = 0).
  { rewrite orb_false_iff. split.
    - intros [-> ->]. destruct (proj1 Hs eq_refl) as [H|H]; [exact H |]. assert (false = true) by (apply Hr; lia). discriminate.
    - intros ->. split; [| apply Hs; left; reflexivity]. destruct r; [| reflexivity]. assert (U <= 2 * 0) by (apply Hr; reflexivity). lia. }
  assert (Hrs' : r || s = true -> t <> 0) by (intros H1 H2; apply Hrs in H2; congruence).
  split; [lia|].
  destruct q as [|[p|p|]|p]; [| | | |lia]; cbn [shr_1]; cbn [shr_m shr_r shr_s].
  - exists t. split; [lia|]. split; [lia|]. split; [lia|]. split; [split; [discriminate | lia] |].
    rewrite Hrs. split; intros; lia.
  - exists (U + t). rewrite Pos2Z.inj_xI in Hm. split; [lia|]. split; [lia|]. split; [lia|].
    split; [split; [lia | reflexivity] |]. rewrite Hrs. split; lia.
  - exists t. rewrite Pos2Z.inj_xO in Hm. split; [lia|]. split; [lia|]. split; [lia|].
    split; [split; [discriminate | lia] |]. rewrite Hrs. split; lia.
  - exists (U + t). split; [lia|]. split; [lia|]. split; [lia|].
    split; [split; [lia | reflexivity] |]. rewrite Hrs. split; lia.
Qed.
Lemma cut_iter N p : forall U mrs, cut N U mrs -> cut N (2 ^ Zpos p * U) (iter_pos shr_1 p mrs).
Proof.
  induction p as [p IH|p IH|]; intros U mrs H; cbn [iter_pos].
  - apply cut_step in H. do 2 apply IH in H. rewrite (Pos2Z.inj_xI p). replace (2 * Zpos p + 1) with (Zpos p + Zpos p + 1) by lia.
    rewrite !Z.pow_add_r by lia. change (2 ^ 1) with 2. replace (2 ^ Zpos p * 2 ^ Zpos p * 2 * U) with (2 ^ Zpos p * (2 ^ Zpos p * (2 * U))) by ring. exact H.
  - do 2 apply IH in H. rewrite (Pos2Z.inj_xO p). replace (2 * Zpos p) with (Zpos p + Zpos p) by lia. rewrite Z.pow_add_r by lia. rewrite <- Z.mul_assoc. exact H.
  - apply cut_step, H.
Qed.
Lemma cut_round N U mrs : cut N U mrs ->
  shr_m mrs = N / U /\ round_nearest_even (shr_m mrs) (loc_of_shr_record mrs) = near N U.
Proof.
  intros (Hp & t & Hm & Ht & Hq & Hr & Hs).
  assert (Hd : N / U = shr_m mrs) by (symmetry; apply Z.div_unique with t; lia).
  assert (Hmod : N mod U = t) by (symmetry; apply Z.mod_unique with (shr_m mrs); lia).
  split; [congruence |]. unfold near. rewrite Hd, Hmod. destruct mrs as [q r s]. cbn [shr_m shr_r shr_s loc_of_shr_record] in *.
  destruct (Z.compare_spec (2 * t) U) as [E|E|E].
  - assert (r = true) as -> by (apply Hr; lia). assert (s = false) as -> by (apply Hs; lia). reflexivity.
  - assert (r = false) as -> by (destruct r; [assert (U <= 2 * t) by (apply Hr; reflexivity); lia | reflexivity]).
    destruct s; reflexivity.
  - assert (r = true) as -> by (apply Hr; lia).
    assert (s = true) as -> by (destruct s; [reflexivity | destruct (proj1 Hs eq_refl); lia]). reflexivity.
Qed.

(** Where [N / U] lies between its integer part and the next integer. *)
Definition located (N U m : Z) (l : location) : Prop := cut N U (shr_record_of_loc m l).
Lemma located_exact m : 0 <= m -> located m 1 m loc_Exact.
Proof.
  intros Hm. split; [lia|]. exists 0. cbn [shr_record_of_loc shr_m shr_r shr_s].
  split; [lia|]. split; [lia|]. split; [lia|]. split; [split; [discriminate | lia] | split; [left; reflexivity | reflexivity]].
Qed.
Lemma located_new U q r : 0 <= q -> 0 <= r < U -> located (q * U + r) U q (new_location U r).
Proof.
  intros Hq Hr. split; [lia |]. exists r. 
  assert (Hm : forall l, shr_m (shr_record_of_loc q l) = q) by (intros [|[]]; reflexivity). rewrite Hm.
  split; [lia|]. split; [lia|]. split; [lia|].
  unfold new_location. destruct (Z.even U) eqn:Ev.
  - unfold new_location_even. destruct (Zeq_bool r 0) eqn:Ez; [apply Zeq_bool_eq in Ez | apply Zeq_bool_neq in Ez]; cbn [shr_record_of_loc shr_r shr_s].
    + split; split; intros; solve [discriminate | reflexivity | lia | exfalso; lia | auto].
    + destruct (Z.compare_spec (2 * r) U); cbn [shr_record_of_loc shr_r shr_s]; split; split; intros; solve [discriminate | reflexivity | lia | exfalso; lia | auto].
  - assert (Hodd : 2 * r <> U) by (intros <-; rewrite Z.even_mul in Ev; discriminate).
    unfold new_location_odd. destruct (Zeq_bool r 0) eqn:Ez; [apply Zeq_bool_eq in Ez | apply Zeq_bool_neq in Ez]; cbn [shr_record_of_loc shr_r shr_s].
    + split; split; intros; solve [discriminate | reflexivity | lia | exfalso; lia | auto].
    + destruct (Z.compare_spec (2 * r + 1) U); cbn [shr_record_of_loc shr_r shr_s]; split; split; intros; solve [discriminate | reflexivity | lia | exfalso; lia | auto].
Qed.

(** Rounding a quotient: what [binary_round_aux] computes from its integer part and location. *)
Lemma round_aux_near s N D m e l : located N D m l -> 0 <= places m e ->
  binary_round_aux 53 1024 s m e l = final s (near N (2 ^ places m e * D)) (e + places m e) /\
  0 <= near N (2 ^ places m e * D) <= 2 ^ 53 /\ (e + places m e = -1074 \/ 2 ^ 52 * (2 ^ places m e * D) <= N).
Proof.
  intros Hl Hn. unfold binary_round_aux. unfold shr_fexp at 1. fold (places m e). set (n := places m e) in *.
  assert (Hm : shr_m (shr_record_of_loc m l) = m) by (destruct l as [|[]]; reflexivity).
  assert (HmN : m = N / D /\ 0 <= m /\ 0 < D).
  { pose proof (cut_round _ _ _ Hl) as [H _]. destruct Hl as (Hp & t & _ & _ & Hq & _). rewrite Hm in *. auto. }
  destruct HmN as (HmN & Hm0 & HD).
  assert (Hs : exists mrs, SpecFloat.shr (shr_record_of_loc m l) e n = (mrs, e + n) /\ cut N (2 ^ n * D) mrs).
  { destruct n as [|p|p]; [| | lia]; cbn [SpecFloat.shr].
    - eexists. split; [rewrite Z.add_0_r; reflexivity |]. rewrite Z.mul_1_l. exact Hl.
    - eexists. split; [reflexivity |]. apply cut_iter, Hl. }
  destruct Hs as (mrs & -> & Hmrs). destruct (cut_round _ _ _ Hmrs) as [_ ->].
  pose proof (pow_pos n Hn) as Hp. pose proof (near_bounds N (2 ^ n * D)) as Hb. set (q := near N (2 ^ n * D)) in *.
  assert (HE : N / (2 ^ n * D) = m / 2 ^ n) by (rewrite HmN, Z.div_div by lia; f_equal; ring).
  assert (He : -1074 <= e + n) by (unfold n, places, fexp, emin; lia).
  assert (Hqn : 0 <= m / 2 ^ n) by (apply Z.div_pos; lia).
  assert (Hqb : m / 2 ^ n < 2 ^ 53 /\ (e + n = -1074 \/ 2 ^ 52 <= m / 2 ^ n)).
  { destruct (Z.eq_dec m 0) as [Ez|Hnz].
    - assert (Hd0 : Zdigits2 m = 0) by (rewrite Ez; reflexivity). rewrite Ez at 1 2. rewrite Z.div_0_l by lia. split; [lia |]. left. unfold n, places, fexp, emin in *. lia.
    - destruct (digits_bounds m) as (H1 & H2 & H3); [lia |]. split.
      + apply Z.div_lt_upper_bound; [lia |]. rewrite <- Z.pow_add_r by lia. eapply Z.lt_le_trans; [exact H3 |].
        apply Z.pow_le_mono_r; unfold n, places, fexp; lia.
      + assert (Hc : e + n = -1074 \/ n = Zdigits2 m - 53) by (unfold n, places, fexp, emin; lia). destruct Hc as [Hc|Hc]; [auto | right].
        apply Z.div_le_lower_bound; [lia |]. rewrite <- Z.pow_add_r by lia. replace (n + 52) with (Zdigits2 m - 1) by lia. exact H2. }
  cbv beta iota. pose proof (second_shift s q (e + n) ltac:(lia) He) as Hss. rewrite Hss.
  split; [reflexivity |]. split; [lia |]. destruct Hqb as [_ [H|H]]; [left; exact H | right].
  assert (0 < 2 ^ n * D) by nia. pose proof (Z.mul_div_le N (2 ^ n * D) ltac:(lia)). rewrite HE in *. nia.
Qed.
Lemma final_units s q e : -1074 <= e -> 0 <= q <= 2 ^ 53 -> is_finite (final s q e) = true ->
  units (final s q e) = cond_Zopp s (q * 2 ^ (e + 1074)).
Proof.
  intros He Hq. unfold final. destruct (Z.eqb_spec q (2 ^ 53)) as [->|E].
  - unfold pack. change (2 ^ 52) with (Zpos 4503599627370496). destruct (e + 1 <=? 971); [| discriminate]. intros _. cbn [units].
    f_equal. change (Zpos 4503599627370496) with (2 ^ 52). rewrite <- !Z.pow_add_r by lia. f_equal. lia.
  - unfold pack. destruct q as [|p|p]; [destruct s; reflexivity | | lia]. destruct (e <=? 971); [reflexivity | discriminate].
Qed.
Lemma ratio_scale n d n' d' f : d <> 0 -> d' <> 0 -> n * d' = n' * d -> nearest_ratio n d f -> nearest_ratio n' d' f.
Proof.
  intros Hd Hd' E [Hf H]. split; [exact Hf |]. intros g Hg. specialize (H g Hg).
  assert (K : forall u, Z.abs (u * d' - n') * Z.abs d = Z.abs (u * d - n) * Z.abs d').
  { intros u. rewrite <- !Z.abs_mul. f_equal. rewrite !Z.mul_sub_distr_r. rewrite <- E. ring. }
  apply Z.mul_le_mono_pos_r with (Z.abs d); [lia |]. rewrite !K. apply Z.mul_le_mono_nonneg_r; [lia | exact H].
Qed.
Lemma cond_abs s a : Z.abs (cond_Zopp s a) = Z.abs a. Proof. destruct s; cbn [cond_Zopp]; lia. Qed.
Lemma round_aux_ratio s N D m e l : located N D m l -> 0 <= places m e ->
  is_finite (binary_round_aux 53 1024 s m e l) = true ->
  nearest_ratio (cond_Zopp s N * 2 ^ (e + places m e + 1074)) (2 ^ places m e * D) (binary_round_aux 53 1024 s m e l).
Proof.
  intros Hl Hn Hf. assert (HD : 0 < D) by apply Hl.
  split. { split; [exact Hf |]. apply round_aux_valid; [| exact Hn]. destruct Hl as (_ & t & _ & _ & H & _). destruct l as [|[]]; exact H. }
  destruct (round_aux_near s N D m e l Hl Hn) as (E & Hq & Hc). rewrite E in *.
  set (n := places m e) in *. set (U := 2 ^ n * D) in *. pose proof (pow_pos n Hn) as Hp. assert (HU : 0 < U) by (unfold U; nia).
  assert (He : -1074 <= e + n) by (unfold n, places, fexp, emin; lia).
  rewrite final_units by assumption. pose proof (pow_pos (e + n + 1074) ltac:(lia)) as HP. set (P := 2 ^ (e + n + 1074)) in *.
  intros g Hg.
  assert (Hs : exists G, units g = cond_Zopp s G /\
      ((exists c, G = c * P) \/ (Z.abs G < 2 ^ 52 * P))).
  { exists (cond_Zopp s (units g)). split; [destruct s; cbn [cond_Zopp]; lia |].
    destruct (multiple_or_small g (e + n) Hg He) as [[c Hc']|Hc'].
    - left. exists (cond_Zopp s c). rewrite Hc'. unfold P. destruct s; cbn [cond_Zopp]; ring.
    - right. rewrite cond_abs. exact Hc'. }
  destruct Hs as (G & -> & HG).
  assert (HX : forall a, Z.abs (cond_Zopp s a * U - cond_Zopp s N * P) = Z.abs (a * U - N * P)) by (intros; destruct s; cbn [cond_Zopp]; lia).
  rewrite !HX. set (q := near N U) in *.
  assert (Hbest : forall k, Z.abs (q * P * U - N * P) <= Z.abs (k * P * U - N * P)).
  { intros k. replace (q * P * U - N * P) with ((q * U - N) * P) by ring. replace (k * P * U - N * P) with ((k * U - N) * P) by ring.
    rewrite !Z.abs_mul. apply Z.mul_le_mono_nonneg_r; [lia | apply near_best, HU]. }
  destruct HG as [[c ->]|HG]; [apply Hbest |].
  destruct Hc as [Hc|Hc].
  - assert (EP : P = 1) by (unfold P; rewrite Hc; reflexivity).
    specialize (Hbest G). rewrite EP in *. rewrite !Z.mul_1_r in *. exact Hbest.
  - etransitivity; [apply (Hbest (2 ^ 52)) |].
    assert (2 ^ 52 * P * U <= N * P) by nia. assert (G * U <= 2 ^ 52 * P * U) by nia. lia.
Qed.

Lemma cond_xor s s' a b : cond_Zopp (xorb s s') (a * b) = cond_Zopp s a * cond_Zopp s' b.
Proof. destruct s, s'; cbn [xorb cond_Zopp]; ring. Qed.
Lemma nearest_zero d f : double f -> units f = 0 -> nearest_ratio 0 d f.
Proof. intros Hf E. split; [exact Hf |]. intros g _. rewrite E. lia. Qed.
Theorem mul_nearest f g : double f -> double g -> is_finite (f_mul f g) = true -> nearest_ratio (units f * units g) scale (f_mul f g).
Proof.
  intros Hf Hg. destruct f as [s|s| |s m e]; try (destruct Hf as [Hf _]; discriminate Hf);
    destruct g as [s'|s'| |s' m' e']; try (destruct Hg as [Hg _]; discriminate Hg).
  1-3: intros _; cbn [units]; rewrite ?Z.mul_0_r, ?Z.mul_0_l; apply nearest_zero; [split; reflexivity | reflexivity].
  unfold f_mul. cbn [SFmul]. intros Hfin.
  assert (Hn : 0 <= places (Zpos (m * m')) (e + e')).
  { unfold places. rewrite Pos2Z.inj_mul.
    pose proof (digits_mul (Zpos m) (Zpos m') ltac:(lia) ltac:(lia)).
    pose proof (normal_digits _ _ _ Hf). pose proof (normal_digits _ _ _ Hg).
    destruct (digits_bounds (Zpos m)) as (D1 & _); [lia |]. destruct (digits_bounds (Zpos m')) as (D2 & _); [lia |].
    apply canonical_bounds in Hf. apply canonical_bounds in Hg. unfold fexp, emin. lia. }
  pose proof (round_aux_ratio (xorb s s') _ _ _ _ _ (located_exact (Zpos (m * m')) ltac:(lia)) Hn Hfin) as H.
  apply canonical_bounds in Hf. apply canonical_bounds in Hg.
  set (n := places _ _) in *. assert (He : -1074 <= e + e' + n) by (unfold n, places, fexp, emin; lia).
  pose proof (pow_pos n Hn). pose proof scale_pos.
  eapply ratio_scale; [| | | exact H]; [lia | lia |].
  rewrite Pos2Z.inj_mul, cond_xor. cbn [units]. rewrite !cond_mul.
  replace (e + e' + n + 1074) with (e + e' + (n + 1074)) by lia. unfold scale.
  transitivity (cond_Zopp s (Zpos m) * cond_Zopp s' (Zpos m') * (2 ^ (e + e' + (n + 1074)) * 2 ^ 1074)); [ring |].
  rewrite <- Z.pow_add_r by lia.
  transitivity (cond_Zopp s (Zpos m) * cond_Zopp s' (Zpos m') * (2 ^ (e + 1074) * 2 ^ (e' + 1074) * 2 ^ n)); [| ring].
  rewrite <- !Z.pow_add_r by lia. do 2 f_equal. lia.
Qed.
Theorem div_nearest f g : double f -> double g -> units g <> 0 -> is_finite (f_div f g) = true ->
  nearest_ratio (units f * scale) (units g) (f_div f g).
Proof.
  intros Hf Hg Hnz. destruct f as [s|s| |s m e]; try (destruct Hf as [Hf _]; discriminate Hf);
    destruct g as [s'|s'| |s' m' e']; try (destruct Hg as [Hg _]; discriminate Hg); try (exfalso; apply Hnz; reflexivity).
  { intros _; cbn [units]; rewrite ?Z.mul_0_l; apply nearest_zero; [split; reflexivity | reflexivity]. }
  unfold f_div. cbn [SFdiv]. unfold SFdiv_core_binary.
  set (E := Z.min _ _). set (k := e - e' - E).
  assert (Hk : 0 <= k) by (unfold k, E; lia).
  assert (Hm : match k with Zpos _ => Z.shiftl (Zpos m) k | Z0 => Zpos m | Zneg _ => 0 end = Zpos m * 2 ^ k).
  { destruct k as [|p|p]; [rewrite Z.mul_1_r; reflexivity | | lia]. apply Z.shiftl_mul_pow2. lia. }
  rewrite Hm. pose proof (pow_pos k Hk) as Hp.
  pose proof (Z.div_eucl_eq (Zpos m * 2 ^ k) (Zpos m') ltac:(lia)) as HD.
  assert (Hq : Zpos m * 2 ^ k / Zpos m' = fst (Z.div_eucl (Zpos m * 2 ^ k) (Zpos m'))) by (unfold Z.div; destruct (Z.div_eucl _ _); reflexivity).
  assert (Hr : (Zpos m * 2 ^ k) mod Zpos m' = snd (Z.div_eucl (Zpos m * 2 ^ k) (Zpos m'))) by (unfold Z.modulo; destruct (Z.div_eucl _ _); reflexivity).
  pose proof (Z.mod_pos_bound (Zpos m * 2 ^ k) (Zpos m') ltac:(lia)) as Hrb. rewrite Hr in Hrb.
  destruct (Z.div_eucl (Zpos m * 2 ^ k) (Zpos m')) as [q r]. cbn [fst snd] in Hq, Hrb. clear Hr.
  assert (Hq0 : 0 <= q) by (rewrite <- Hq; apply Z.div_pos; nia).
  intros Hfin.
  assert (Hn : 0 <= places q E).
  { destruct (digits_bounds (Zpos m)) as (D1 & D2 & D3); [lia |]. destruct (digits_bounds (Zpos m')) as (D4 & D5 & D6); [lia |].
    assert (Hdq : Zdigits2 (Zpos m) + k - Zdigits2 (Zpos m') <= Zdigits2 q).
    { destruct (Z.le_gt_cases (Zdigits2 (Zpos m) + k - Zdigits2 (Zpos m')) 0) as [H|H].
      - destruct q as [|p|p]; [exact H | | lia]. destruct (digits_bounds (Zpos p)); lia.
      - assert (Hlow : 2 ^ (Zdigits2 (Zpos m) + k - Zdigits2 (Zpos m') - 1) <= q).
        { rewrite <- Hq. apply Z.div_le_lower_bound; [lia |].
          apply Z.le_trans with (2 ^ Zdigits2 (Zpos m') * 2 ^ (Zdigits2 (Zpos m) + k - Zdigits2 (Zpos m') - 1)).
          - apply Z.mul_le_mono_nonneg_r; [| lia]. apply Z.lt_le_incl, pow_pos. lia.
          - rewrite <- Z.pow_add_r by lia.
            replace (Zdigits2 (Zpos m') + (Zdigits2 (Zpos m) + k - Zdigits2 (Zpos m') - 1)) with (Zdigits2 (Zpos m) - 1 + k) by lia.
            rewrite Z.pow_add_r by lia. nia. }
        assert (0 < q) by (eapply Z.lt_le_trans; [| exact Hlow]; apply pow_pos; lia).
        destruct (digits_bounds q) as (Q1 & _ & Q3); [assumption |].
        assert (Zdigits2 (Zpos m) + k - Zdigits2 (Zpos m') - 1 < Zdigits2 q); [| lia]. apply pow_lt_inv; lia. }
    assert (HE : E <= fexp 53 1024 (Zdigits2 (Zpos m) + e - (Zdigits2 (Zpos m') + e'))) by (unfold E; lia).
    unfold places, fexp, emin in *. unfold k in *. lia. }
  assert (Hloc : located (Zpos m * 2 ^ k) (Zpos m') q (new_location (Zpos m') r)).
  { rewrite HD, (Z.mul_comm (Zpos m') q). apply located_new; assumption. }
  pose proof (round_aux_ratio (xorb s s') _ _ _ _ _ Hloc Hn Hfin) as H.
  apply canonical_bounds in Hf. apply canonical_bounds in Hg.
  set (n := places _ _) in *. assert (He : -1074 <= E + n) by (unfold n, places, fexp, emin; lia).
  pose proof (pow_pos n Hn).
  eapply ratio_scale; [| | | exact H]; [nia | exact Hnz |].
  cbn [units]. rewrite !cond_mul.
  assert (X : cond_Zopp (xorb s s') (Zpos m) * cond_Zopp s' (Zpos m') = cond_Zopp s (Zpos m) * Zpos m')
    by (destruct s, s'; cbn [xorb cond_Zopp]; ring).
  transitivity (cond_Zopp (xorb s s') (Zpos m) * cond_Zopp s' (Zpos m') * (2 ^ k * 2 ^ (E + n + 1074) * 2 ^ (e' + 1074))); [ring |].
  rewrite X. transitivity (cond_Zopp s (Zpos m) * Zpos m' * (2 ^ (e + 1074) * scale * 2 ^ n)); [| ring].
  unfold scale. rewrite <- !Z.pow_add_r by (unfold k; lia). do 2 f_equal. unfold k. lia.
Qed.
