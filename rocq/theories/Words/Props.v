(** Properties C21, C28, C35, C36, C37. *)
From Coq Require Import List NArith ZArith Bool Lia.
From Verif.Words Require Import Model Proofs.
Import ListNotations.
Open Scope N_scope.

(** ** C21: the PRNG *)

(** Output is a bijection of the state. *)
Theorem C21_outputs_distinct : forall s t,
  s < 2 ^ 64 -> t < 2 ^ 64 -> snd (splitmix64 s) = snd (splitmix64 t) -> s = t.
Proof. exact splitmix_injective. Qed.
Print Assumptions C21_outputs_distinct.

Theorem C21_outputs_cover : forall o, o < 2 ^ 64 -> exists s, s < 2 ^ 64 /\ snd (splitmix64 s) = o.
Proof. exact splitmix_surjective. Qed.
Print Assumptions C21_outputs_cover.

(** Advancing returns to a state exactly after multiples of 2^64 steps, and
    reaches every state from every state. *)
Theorem C21_full_period : forall n s,
  s < 2 ^ 64 -> (N.iter n stream_advance s = s <-> n mod 2 ^ 64 = 0).
Proof. exact advance_period. Qed.
Print Assumptions C21_full_period.

Theorem C21_single_orbit : forall s t,
  s < 2 ^ 64 -> t < 2 ^ 64 -> exists n, n < 2 ^ 64 /\ N.iter n stream_advance s = t.
Proof. exact advance_reaches. Qed.
Print Assumptions C21_single_orbit.

Example splitmix_42 : splitmix64 42 = (11400714819323198527, 13679457532755275413).
Proof. reflexivity. Qed.

(** ** C37: random integers, floats and splitting *)

Theorem C37_int_in_range : forall n s,
  (0 < n <= 2 ^ 63)%Z -> (0 <= fst (stream_int (Some n) s) < n)%Z.
Proof. exact stream_int_range. Qed.
Print Assumptions C37_int_in_range.

(** Beyond 2^63 the result can be negative. *)
Theorem C37_int_large_refuted : exists n s,
  (0 < n < 2 ^ 64)%Z /\ s < 2 ^ 64 /\ (fst (stream_int (Some n) s) < 0)%Z.
Proof. exists 18446744073709551615%Z, 42. repeat split. Qed.
Print Assumptions C37_int_large_refuted.

(** Floats are k / 2^53 with k < 2^53, so in [0, 1). *)
Theorem C37_float_below_one : forall s, stream_numerator s < 2 ^ 53.
Proof. exact numerator_lt. Qed.
Print Assumptions C37_float_below_one.

(** Splitting can return the same stream twice. *)
Theorem C37_split_distinct_refuted : exists s,
  s < 2 ^ 64 /\ fst (stream_split s) = snd (stream_split s).
Proof. exists 7046029254386353131. split; reflexivity. Qed.
Print Assumptions C37_split_distinct_refuted.

(** Different streams split differently, in both halves. *)
Theorem C37_split_injective : forall s t,
  s < 2 ^ 64 -> t < 2 ^ 64 ->
  (fst (stream_split s) = fst (stream_split t) -> s = t) /\
  (snd (stream_split s) = snd (stream_split t) -> s = t).
Proof. exact stream_split_inj. Qed.
Print Assumptions C37_split_injective.

Example split_42 : fst (stream_split 42) <> snd (stream_split 42).
Proof. discriminate. Qed.

(** ** C28: info words *)

Theorem C28_round_trip : forall update arity annotation,
  arity < 2 ^ 8 -> annotation < 2 ^ 32 ->
  let w := info_new update arity annotation in
  w < 2 ^ 64 /\ info_update w = update /\ info_arity w = arity /\ info_annotation w = annotation.
Proof.
  intros u a s Ha Hs. exact (conj (info_new_lt u a s Ha Hs) (conj (info_update_new u a s Ha)
    (conj (info_arity_new u a s Ha) (info_annotation_new u a s Ha Hs)))).
Qed.
Print Assumptions C28_round_trip.

Example info_word : info_new true 12 99 = 99 * 2 ^ 32 + 12 * 2 ^ 24 + 1.
Proof. reflexivity. Qed.

(** ** C35: the blob freshness key *)

Theorem C35_key_injective : forall v p t v' p' t',
  v < 2 ^ 32 -> v' < 2 ^ 32 ->
  N.of_nat (length p) < 2 ^ 64 -> N.of_nat (length p') < 2 ^ 64 ->
  N.of_nat (length t) < 2 ^ 64 -> N.of_nat (length t') < 2 ^ 64 ->
  blob_stream v p t = blob_stream v' p' t' -> v = v' /\ p = p' /\ t = t'.
Proof. exact blob_stream_inj. Qed.
Print Assumptions C35_key_injective.

(** Labelled inputs cannot be confused either. *)
Theorem C35_labels_injective : forall tag tag' b b' r r',
  N.of_nat (length tag) < 2 ^ 64 -> N.of_nat (length tag') < 2 ^ 64 ->
  N.of_nat (length b) < 2 ^ 64 -> N.of_nat (length b') < 2 ^ 64 ->
  absorb tag b ++ r = absorb tag' b' ++ r' -> tag = tag' /\ b = b' /\ r = r'.
Proof. exact absorb_inj_tag. Qed.
Print Assumptions C35_labels_injective.

(** A blob is used exactly when it starts with the expected hash. *)
Theorem C35_fresh_iff : forall blob expected,
  length expected = 32%nat ->
  (classify_blob blob expected = Fresh <-> exists payload, blob = Some (expected ++ payload)).
Proof. exact classify_fresh. Qed.
Print Assumptions C35_fresh_iff.

Example key_boundary : blob_stream 7 [97; 98] [99] <> blob_stream 7 [97] [98; 99].
Proof. discriminate. Qed.

(** ** C36: large-object sizing *)

Theorem C36_covers : forall req,
  let g := if req <=? 128 * 1024 then 16 * 1024
           else if req <=? 1024 * 1024 then 64 * 1024 else 256 * 1024 in
  req <= efficient_size_for req < req + g /\ efficient_size_for req mod g = 0.
Proof. exact efficient_covers. Qed.
Print Assumptions C36_covers.

Theorem C36_monotone : forall a b, a <= b -> efficient_size_for a <= efficient_size_for b.
Proof. exact efficient_mono. Qed.
Print Assumptions C36_monotone.

Example size_33k : efficient_size_for (33 * 1024) = 48 * 1024.
Proof. reflexivity. Qed.
