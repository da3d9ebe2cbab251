From Coq Require Import List NArith ZArith Bool Lia Znumtheory ZifyN ZifyNat ZifyBool.
From Verif.Words Require Import Model.
Import ListNotations.
Open Scope N_scope.

Ltac Zify.zify_post_hook ::= Z.div_mod_to_equations.

(** ** Words *)

Lemma shiftr_lt_W64 x k : x < W64 -> N.shiftr x k < W64.
Proof.
  intros H. rewrite N.shiftr_div_pow2. pose proof (N.pow_nonzero 2 k ltac:(lia)).
  assert (x / 2 ^ k <= x); [|lia]. apply N.div_le_upper_bound; auto. nia.
Qed.

Lemma lt_W64_log2 x : x < W64 <-> (x = 0 \/ N.log2 x < 64).
Proof.
  change W64 with (2 ^ 64). split.
  - intros H. destruct (N.eq_dec x 0); auto. right. apply N.log2_lt_pow2; lia.
  - intros [-> | H]; [reflexivity|]. destruct (N.eq_dec x 0); [subst; reflexivity|].
    apply N.log2_lt_pow2; lia.
Qed.

Lemma lxor_lt_W64 x y : x < W64 -> y < W64 -> N.lxor x y < W64.
Proof.
  rewrite !lt_W64_log2. intros Hx Hy.
  destruct (N.eq_dec (N.lxor x y) 0) as [|Hn]; auto. right.
  pose proof (N.log2_lxor x y).
  destruct Hx as [-> |Hx]; destruct Hy as [-> |Hy]; rewrite ?N.lxor_0_l, ?N.lxor_0_r in *; try lia.
Qed.

Lemma shiftr_big x k : x < W64 -> 64 <= k -> N.shiftr x k = 0.
Proof.
  intros H Hk. apply lt_W64_log2 in H. destruct H as [-> |H]; [apply N.shiftr_0_l|].
  apply N.shiftr_eq_0. lia.
Qed.

(** ** xor-shift is undone by iterating it *)
Definition xs (k x : N) : N := N.lxor x (N.shiftr x k).

Lemma xs_lt k x : x < W64 -> xs k x < W64.
Proof. intros. apply lxor_lt_W64; auto using shiftr_lt_W64. Qed.

Lemma xs_lxor k x y : xs k (N.lxor x y) = N.lxor (xs k x) (xs k y).
Proof.
  unfold xs. rewrite N.shiftr_lxor. rewrite !N.lxor_assoc. f_equal.
  rewrite <- !N.lxor_assoc. f_equal. apply N.lxor_comm.
Qed.

Lemma xs_shiftr k j x : xs k (N.shiftr x j) = N.shiftr (xs k x) j.
Proof.
  unfold xs. rewrite N.shiftr_lxor, !N.shiftr_shiftr. do 2 f_equal. lia.
Qed.

(** (1 + D)(1 + D) = 1 + D^2 over GF(2). *)
Lemma xs_twice k x : xs k (xs k x) = xs (k + k) x.
Proof.
  unfold xs at 2. rewrite xs_lxor, xs_shiftr. unfold xs.
  rewrite N.shiftr_lxor, N.shiftr_shiftr.
  rewrite N.lxor_assoc, <- (N.lxor_assoc (N.shiftr x k)), N.lxor_nilpotent, N.lxor_0_l. reflexivity.
Qed.

Lemma xs_big k x : x < W64 -> 64 <= k -> xs k x = x.
Proof. intros. unfold xs. rewrite shiftr_big by auto. apply N.lxor_0_r. Qed.

(** Three applications undo one, when [4k >= 64]. *)
Definition unxs (k x : N) : N := xs k (xs k (xs k x)).
Lemma unxs_xs k x : x < W64 -> 16 <= k -> unxs k (xs k x) = x.
Proof.
  intros. unfold unxs. rewrite (xs_twice k x), (xs_twice k (xs (k + k) x)).
  rewrite xs_twice. apply xs_big; auto. lia.
Qed.
Lemma xs_unxs k x : x < W64 -> 16 <= k -> xs k (unxs k x) = x.
Proof. exact (unxs_xs k x). Qed.
Lemma unxs_lt k x : x < W64 -> unxs k x < W64.
Proof. intros. unfold unxs. auto using xs_lt. Qed.

(** ** multiplication by an odd constant *)
Lemma mul_inv c d : (c * d) mod W64 = 1 -> forall x, x < W64 ->
  wrapping_mul (wrapping_mul x c) d = x.
Proof.
  intros H x Hx. unfold wrapping_mul.
  rewrite N.mul_mod_idemp_l by discriminate.
  rewrite <- N.mul_assoc, <- N.mul_mod_idemp_r, H by discriminate.
  rewrite N.mul_1_r. now apply N.mod_small.
Qed.
Lemma wrapping_mul_lt a b : wrapping_mul a b < W64.
Proof. apply N.mod_lt. discriminate. Qed.

Definition C1 : N := 0xbf58476d1ce4e5b9.
Definition C2 : N := 0x94d049bb133111eb.
(** Inverses mod 2^64, by Newton iteration. *)
Definition inv_step (c d : N) : N := (d * ((2 + W64 - (c * d) mod W64) mod W64)) mod W64.
Definition inv (c : N) : N := Nat.iter 6 (inv_step c) c.
Definition D1 : N := Eval vm_compute in inv C1.
Definition D2 : N := Eval vm_compute in inv C2.
Definition DG : N := Eval vm_compute in inv GOLDEN.

Lemma mix_xs s :
  mix s = xs 31 (wrapping_mul (xs 27 (wrapping_mul (xs 30 s) C1)) C2).
Proof. reflexivity. Qed.

Definition unmix (o : N) : N :=
  unxs 30 (wrapping_mul (unxs 27 (wrapping_mul (unxs 31 o) D2)) D1).

Lemma unmix_mix s : s < W64 -> unmix (mix s) = s.
Proof.
  intros H. rewrite mix_xs. unfold unmix.
  rewrite unxs_xs by (auto using wrapping_mul_lt; lia).
  rewrite mul_inv by (auto using xs_lt, wrapping_mul_lt; reflexivity).
  rewrite unxs_xs by (auto using wrapping_mul_lt; lia).
  rewrite mul_inv by (auto using xs_lt; reflexivity).
  apply unxs_xs; auto. lia.
Qed.
Lemma mix_unmix o : o < W64 -> mix (unmix o) = o.
Proof.
  intros H. rewrite mix_xs. unfold unmix.
  rewrite xs_unxs by (auto using wrapping_mul_lt; lia).
  rewrite mul_inv by (auto using unxs_lt, wrapping_mul_lt; reflexivity).
  rewrite xs_unxs by (auto using wrapping_mul_lt; lia).
  rewrite mul_inv by (auto using unxs_lt; reflexivity).
  apply xs_unxs; auto. lia.
Qed.
Lemma mix_lt s : mix s < W64.
Proof. rewrite mix_xs. apply xs_lt, wrapping_mul_lt. Qed.
Lemma unmix_lt s : unmix s < W64.
Proof. unfold unmix. apply unxs_lt, wrapping_mul_lt. Qed.

(** ** The state walk *)
Definition advance_n (n : N) (s : N) : N := N.iter n stream_advance s.

Lemma advance_n_eq n s : s < W64 -> advance_n n s = (s + n * GOLDEN) mod W64.
Proof.
  intros H. unfold advance_n. revert n. apply N.peano_ind.
  - cbn [N.iter]. rewrite N.mul_0_l, N.add_0_r. symmetry. now apply N.mod_small.
  - intros n IH. rewrite N.iter_succ, IH. unfold stream_advance, splitmix64, wrapping_add.
    cbn [fst]. rewrite N.add_mod_idemp_l by discriminate. f_equal. lia.
Qed.

Lemma DG_GOLDEN : (DG * GOLDEN) mod W64 = 1.
Proof. reflexivity. Qed.

Lemma mod_eq_div a b : a mod W64 = b mod W64 -> exists k : Z, (Z.of_N a - Z.of_N b = k * Z.of_N W64)%Z.
Proof.
  intros H. exists (Z.of_N (a / W64) - Z.of_N (b / W64))%Z.
  pose proof (N.div_mod a W64 ltac:(discriminate)) as Ha.
  pose proof (N.div_mod b W64 ltac:(discriminate)) as Hb.
  rewrite H in Ha.
  generalize dependent (a / W64). generalize dependent (b / W64).
  generalize dependent (b mod W64). intros r _ q Hq q' Hq'. unfold W64 in *. lia.
Qed.

Lemma advance_period n s : s < W64 -> (advance_n n s = s <-> n mod W64 = 0).
Proof.
  intros H. rewrite advance_n_eq by auto. split.
  - intros E.
    assert (E1 : (n * GOLDEN) mod W64 = 0).
    { assert (E2 : (s + n * GOLDEN) mod W64 = s mod W64) by (rewrite E; symmetry; now apply N.mod_small).
      apply mod_eq_div in E2. destruct E2 as [k Hk].
      apply N2Z.inj. rewrite N2Z.inj_mod. change (Z.of_N 0) with 0%Z.
      apply Z.mod_divide; [discriminate|]. exists k. lia. }
    assert (E2 : ((n * GOLDEN) * DG) mod W64 = 0).
    { rewrite <- N.mul_mod_idemp_l by discriminate. now rewrite E1. }
    rewrite <- N.mul_assoc, (N.mul_comm GOLDEN), <- N.mul_mod_idemp_r, DG_GOLDEN, N.mul_1_r in E2 by discriminate.
    exact E2.
  - intros E. rewrite N.add_mod by discriminate. rewrite (N.mul_mod n) by discriminate.
    rewrite E. rewrite N.mul_0_l. change (0 mod W64) with 0. rewrite N.add_0_r, N.mod_mod by discriminate.
    now apply N.mod_small.
Qed.

Lemma advance_reaches s t : s < W64 -> t < W64 -> exists n, n < W64 /\ advance_n n s = t.
Proof.
  intros Hs Ht.
  exists (((t + (W64 - s)) * DG) mod W64). split; [apply N.mod_lt; discriminate|].
  rewrite advance_n_eq by auto.
  rewrite <- N.add_mod_idemp_r by discriminate.
  rewrite N.mul_mod_idemp_l by discriminate.
  rewrite <- N.mul_assoc, <- N.mul_mod_idemp_r, DG_GOLDEN, N.mul_1_r by discriminate.
  rewrite N.add_mod_idemp_r by discriminate.
  replace (s + (t + (W64 - s))) with (t + 1 * W64) by lia.
  rewrite N.mod_add by discriminate. now apply N.mod_small.
Qed.

Lemma splitmix_injective s t : s < W64 -> t < W64 ->
  snd (splitmix64 s) = snd (splitmix64 t) -> s = t.
Proof.
  intros Hs Ht. unfold splitmix64. cbn [snd]. intros H.
  apply (f_equal unmix) in H. rewrite !unmix_mix in H by (apply N.mod_lt; discriminate).
  unfold wrapping_add, W64, GOLDEN in *. lia.
Qed.

Lemma splitmix_surjective o : o < W64 -> exists s, s < W64 /\ snd (splitmix64 s) = o.
Proof.
  intros H. exists ((unmix o + (W64 - GOLDEN)) mod W64). split; [apply N.mod_lt; discriminate|].
  unfold splitmix64. cbn [snd]. replace (wrapping_add _ GOLDEN) with (unmix o).
  - now apply mix_unmix.
  - unfold wrapping_add. rewrite N.add_mod_idemp_l by discriminate.
    pose proof (unmix_lt o). unfold W64, GOLDEN in *. lia.
Qed.

Lemma stream_int_range n s : (0 < n <= 2 ^ 63)%Z ->
  (0 <= fst (stream_int (Some n) s) < n)%Z.
Proof.
  intros H. unfold stream_int, splitmix64. cbn [fst as_u64].
  destruct (Z.ltb_spec n 0); [lia|].
  set (m := N.max (Z.to_N n) 1). assert (Hm : m = Z.to_N n) by lia.
  pose proof (N.mod_lt (mix (wrapping_add s GOLDEN)) m ltac:(lia)) as Hlt.
  unfold as_i64. destruct (N.ltb_spec (mix (wrapping_add s GOLDEN) mod m) 9223372036854775808); lia.
Qed.

Lemma stream_split_inj s t : s < W64 -> t < W64 ->
  (fst (stream_split s) = fst (stream_split t) -> s = t) /\
  (snd (stream_split s) = snd (stream_split t) -> s = t).
Proof.
  intros Hs Ht. unfold stream_split. split; [|now apply splitmix_injective].
  unfold splitmix64, wrapping_add, W64, GOLDEN in *. cbn [fst]. lia.
Qed.

Lemma numerator_lt s : stream_numerator s < 2 ^ 53.
Proof.
  unfold stream_numerator, splitmix64. cbn [snd]. pose proof (mix_lt (wrapping_add s GOLDEN)) as H.
  rewrite N.shiftr_div_pow2. change (2 ^ 11) with 2048. change (2 ^ 53) with 9007199254740992.
  unfold W64 in H. lia.
Qed.

(** ** Info words *)
Lemma land_disjoint a s : a < 256 -> N.land (N.shiftl s 32) (N.shiftl a 24) = 0.
Proof.
  intros H. apply N.bits_inj. intros i. rewrite N.land_spec, N.bits_0.
  destruct (N.ltb_spec i 32) as [L|L].
  - now rewrite N.shiftl_spec_low.
  - rewrite (N.shiftl_spec_high' a) by lia.
    assert (Z : N.testbit a (i - 24) = false).
    { destruct (N.eq_dec a 0) as [-> |]; [apply N.bits_0|].
      apply N.bits_above_log2. apply N.lt_le_trans with 8; [|lia].
      apply N.log2_lt_pow2; [lia|]. exact H. }
    rewrite Z. apply andb_false_r.
Qed.

Lemma info_new_arith u a s : a < 256 ->
  info_new u a s = s * 2 ^ 32 + a * 2 ^ 24 + (if u then 1 else 0).
Proof.
  intros H. unfold info_new.
  rewrite <- N.lxor_lor, <- N.add_nocarry_lxor by auto using land_disjoint.
  rewrite !N.shiftl_mul_pow2. destruct u; lia.
Qed.

Lemma info_update_new u a s : a < 256 -> info_update (info_new u a s) = u.
Proof.
  intros H. rewrite info_new_arith by auto. unfold info_update.
  change 1 with (N.ones 1) at 2. rewrite N.land_ones.
  change (2 ^ 1) with 2. change (2 ^ 32) with 4294967296. change (2 ^ 24) with 16777216.
  destruct u.
  - apply N.eqb_eq. change (N.ones 1) with 1. lia.
  - apply N.eqb_neq. change (N.ones 1) with 1. lia.
Qed.

Lemma info_arity_new u a s : a < 256 -> info_arity (info_new u a s) = a.
Proof.
  intros H. rewrite info_new_arith by auto. unfold info_arity.
  rewrite N.shiftr_land. change (N.shiftr 0xff000000 24) with (N.ones 8).
  rewrite N.land_ones, N.shiftr_div_pow2.
  change (2 ^ 8) with 256. change (2 ^ 32) with 4294967296. change (2 ^ 24) with 16777216.
  destruct u; lia.
Qed.

Lemma info_annotation_new u a s : a < 256 -> s < 2 ^ 32 -> info_annotation (info_new u a s) = s.
Proof.
  intros H Hs. rewrite info_new_arith by auto. unfold info_annotation.
  rewrite N.shiftr_div_pow2.
  change (2 ^ 32) with 4294967296 in *. change (2 ^ 24) with 16777216.
  destruct u; lia.
Qed.

Lemma info_new_lt u a s : a < 256 -> s < 2 ^ 32 -> info_new u a s < W64.
Proof.
  intros H Hs. rewrite info_new_arith by auto. unfold W64.
  change (2 ^ 32) with 4294967296 in *. change (2 ^ 24) with 16777216. destruct u; lia.
Qed.

(** ** Byte streams *)
Lemma le_bytes_length n x : length (le_bytes n x) = n.
Proof. revert x; induction n; cbn; auto. Qed.

Lemma le_bytes_inj n : forall x y, x < 256 ^ N.of_nat n -> y < 256 ^ N.of_nat n ->
  le_bytes n x = le_bytes n y -> x = y.
Proof.
  induction n as [|n IH]; intros x y Hx Hy; cbn [le_bytes].
  - change (256 ^ N.of_nat 0) with 1 in *. lia.
  - rewrite Nat2N.inj_succ, N.pow_succ_r' in *. intros [= H1 H2].
    apply IH in H2; lia.
Qed.

Lemma app_inv_length {A} (a b c d : list A) :
  length a = length c -> a ++ b = c ++ d -> a = c /\ b = d.
Proof.
  revert c; induction a as [|x a IH]; intros [|y c]; cbn; try discriminate; auto.
  intros [= L] [= -> E]. destruct (IH c L E). subst; auto.
Qed.

Lemma absorb_inj tag b b' r r' :
  N.of_nat (length b) < W64 -> N.of_nat (length b') < W64 ->
  absorb tag b ++ r = absorb tag b' ++ r' -> b = b' /\ r = r'.
Proof.
  intros Hb Hb'. unfold absorb. rewrite <- !app_assoc. intros E.
  apply app_inv_head in E. apply app_inv_head in E.
  apply app_inv_length in E; [|now rewrite !le_bytes_length].
  destruct E as [E1 E2]. apply le_bytes_inj in E1; auto.
  apply app_inv_length in E2; auto. lia.
Qed.

(** Labels may differ too. *)
Lemma absorb_inj_tag tag tag' b b' r r' :
  N.of_nat (length tag) < W64 -> N.of_nat (length tag') < W64 ->
  N.of_nat (length b) < W64 -> N.of_nat (length b') < W64 ->
  absorb tag b ++ r = absorb tag' b' ++ r' -> tag = tag' /\ b = b' /\ r = r'.
Proof.
  intros Ht Ht' Hb Hb'. unfold absorb. rewrite <- !app_assoc. intros E.
  apply app_inv_length in E; [|now rewrite !le_bytes_length]. destruct E as [E1 E2].
  apply le_bytes_inj in E1; auto. apply app_inv_length in E2; [|lia]. destruct E2 as [-> E].
  apply app_inv_length in E; [|now rewrite !le_bytes_length].
  destruct E as [E3 E2]. apply le_bytes_inj in E3; auto.
  apply app_inv_length in E2; [|lia]. tauto.
Qed.

Lemma blob_stream_inj v p t v' p' t' :
  v < 2 ^ 32 -> v' < 2 ^ 32 ->
  N.of_nat (length p) < W64 -> N.of_nat (length p') < W64 ->
  N.of_nat (length t) < W64 -> N.of_nat (length t') < W64 ->
  blob_stream v p t = blob_stream v' p' t' -> v = v' /\ p = p' /\ t = t'.
Proof.
  intros Hv Hv' Hp Hp' Ht Ht' E. unfold blob_stream in E.
  apply absorb_inj in E; try (rewrite le_bytes_length; reflexivity). destruct E as [E1 E].
  apply le_bytes_inj in E1; auto.
  apply absorb_inj in E; auto. destruct E as [E2 E].
  rewrite <- (app_nil_r (absorb _ t)), <- (app_nil_r (absorb _ t')) in E.
  apply absorb_inj in E; auto. tauto.
Qed.

Lemma bytes_eqb_eq a b : bytes_eqb a b = true <-> a = b.
Proof.
  revert b; induction a as [|x a IH]; intros [|y b]; cbn; try (split; congruence).
  rewrite andb_true_iff, N.eqb_eq, IH. split; [intros [-> ->]; auto|intros [= -> ->]; auto].
Qed.

Lemma classify_fresh blob expected :
  length expected = 32%nat ->
  (classify_blob blob expected = Fresh <->
   exists payload, blob = Some (expected ++ payload)).
Proof.
  intros L. unfold classify_blob, read_blob_source_hash. split.
  - destruct blob as [b|]; [|discriminate].
    destruct (Nat.ltb_spec (length b) 32); [discriminate|].
    destruct (bytes_eqb (firstn 32 b) expected) eqn:E; [|discriminate].
    apply bytes_eqb_eq in E. exists (skipn 32 b). rewrite <- E at 1.
    now rewrite firstn_skipn.
  - intros [payload ->]. rewrite app_length, L.
    destruct (Nat.ltb_spec (32 + length payload) 32); [lia|].
    rewrite firstn_app, L, Nat.sub_diag, firstn_O, app_nil_r.
    rewrite <- L, firstn_all. now rewrite (proj2 (bytes_eqb_eq _ _) eq_refl).
Qed.

(** ** Large objects *)
Lemma div_ceil_spec a b : 0 < b -> a <= div_ceil a b * b < a + b.
Proof.
  intros H. unfold div_ceil. pose proof (N.div_mod a b ltac:(lia)) as D.
  pose proof (N.mod_lt a b ltac:(lia)) as M.
  destruct (N.eqb_spec (a mod b) 0); nia.
Qed.

Lemma div_ceil_mono a b c : 0 < c -> a <= b -> div_ceil a c <= div_ceil b c.
Proof.
  intros Hc H. pose proof (div_ceil_spec a c Hc). pose proof (div_ceil_spec b c Hc).
  assert (div_ceil a c * c < (div_ceil b c + 1) * c) by lia.
  apply N.mul_lt_mono_pos_r in H2; lia.
Qed.

Definition granule (req : N) : N :=
  if req <=? 128 * KB then 16 * KB else if req <=? MB then 64 * KB else 256 * KB.

Lemma efficient_granule req : efficient_size_for req = div_ceil req (granule req) * granule req.
Proof. unfold efficient_size_for, granule. destruct (req <=? 128 * KB), (req <=? MB); reflexivity. Qed.

Lemma granule_pos req : 0 < granule req.
Proof. unfold granule. destruct (req <=? 128 * KB), (req <=? MB); reflexivity. Qed.

Lemma efficient_covers req :
  req <= efficient_size_for req < req + granule req /\ efficient_size_for req mod granule req = 0.
Proof.
  rewrite efficient_granule. split; [apply div_ceil_spec, granule_pos|].
  apply N.mod_mul. pose proof (granule_pos req). lia.
Qed.

Lemma efficient_mono a b : a <= b -> efficient_size_for a <= efficient_size_for b.
Proof.
  intros H. unfold efficient_size_for, KB, MB, KB.
  assert (P : forall c x, 0 < c -> x <= div_ceil x c * c < x + c) by (intros; now apply div_ceil_spec).
  destruct (N.leb_spec a (128 * 1024)), (N.leb_spec b (128 * 1024)).
  - apply N.mul_le_mono_r, div_ceil_mono; lia.
  - assert (div_ceil a (16 * 1024) * (16 * 1024) <= 8 * (16 * 1024)).
    { apply N.mul_le_mono_r. etransitivity; [apply (div_ceil_mono a (128 * 1024)); lia|]. vm_compute. discriminate. }
    destruct (N.leb_spec b (1024 * 1024)).
    + pose proof (P (64 * 1024) b ltac:(lia)). lia.
    + pose proof (P (256 * 1024) b ltac:(lia)). lia.
  - lia.
  - destruct (N.leb_spec a (1024 * 1024)), (N.leb_spec b (1024 * 1024)).
    + apply N.mul_le_mono_r, div_ceil_mono; lia.
    + assert (div_ceil a (64 * 1024) * (64 * 1024) <= 16 * (64 * 1024)).
      { apply N.mul_le_mono_r. etransitivity; [apply (div_ceil_mono a (1024 * 1024)); lia|]. vm_compute. discriminate. }
      pose proof (P (256 * 1024) b ltac:(lia)). lia.
    + lia.
    + apply N.mul_le_mono_r, div_ceil_mono; lia.
Qed.

(** Relative waste for the sizes the heap sends here (at least 32K). *)
Lemma efficient_waste req : 32 * KB <= req ->
  3 * (efficient_size_for req - req) <= 2 * req.
Proof.
  intros H. destruct (efficient_covers req) as [Hc _].
  unfold granule in Hc. unfold KB, MB, KB in *.
  destruct (N.leb_spec req (128 * 1024)), (N.leb_spec req (1024 * 1024)); lia.
Qed.
