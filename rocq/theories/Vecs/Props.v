(** Properties C38 and C39. *)
From Coq Require Import List Arith NArith ZArith QArith Bool Lia Permutation.
From Verif.Vecs Require Import Model Proofs.
Import ListNotations.
Open Scope nat_scope.

(** ** C38: indexing and slicing *)

(** For a non-negative integer index, [vec.nth] gives that element, and an error
    exactly when the index is not below the length. *)
Theorem C38_nth_in_range : forall (P : Type) (v : list P) (i : N),
  intr_nth (PosInt i) v = nth_error v (N.to_nat i) /\
  (intr_nth (PosInt i) v = None <-> (N.of_nat (length v) <= i)%N).
Proof.
  intros P v i. split; [reflexivity|]. unfold intr_nth, vec_get, index_of.
  rewrite nth_error_None. lia.
Qed.
Print Assumptions C38_nth_in_range.

(** The documented out-of-bounds error is not raised for negative indices: every
    one of them reads the first element. *)
Theorem C38_nth_negative_refuted : forall (P : Type) (v : list P) (z : Z),
  (z < 0)%Z -> intr_nth (NegInt z) v = hd_error v.
Proof.
  intros P v z Hz. unfold intr_nth, vec_get, index_of. rewrite f64_neg.
  - now destruct v.
  - unfold Qlt. cbn. lia.
Qed.
Print Assumptions C38_nth_negative_refuted.
Example nth_minus_one : intr_nth (NegInt (-1)) [10; 20; 30] = Some 10.
Proof. reflexivity. Qed.

(** [vec.slice(from, to)] holds exactly the elements at positions from..to-1. *)
Theorem C38_slice : forall (P : Type) (v : list P) (from to : N) (k : nat),
  nth_error (intr_slice (PosInt from) (PosInt to) v) k =
  if N.to_nat from + k <? N.to_nat to then nth_error v (N.to_nat from + k) else None.
Proof. intros. apply slice_spec. Qed.
Print Assumptions C38_slice.
Example slice_ex : intr_slice (PosInt 1) (PosInt 9) [10; 20; 30] = [20; 30].
Proof. reflexivity. Qed.

(** ** C39: sampling and shuffling.

    [pick] is what turns a random float and a bound into a machine integer; the
    theorems hold for every such function, so for every float, including those
    outside [0,1). *)

(** Sampling never panics and returns min(k, len) elements taken from distinct
    positions. *)
Theorem C39_sample : forall (P F : Type) (pick : F -> nat -> nat) (fs : list F) (v : list P),
  exists r, intr_sample pick fs v = Some r /\ length r = Nat.min (length fs) (length v)
    /\ exists ix, NoDup ix /\ map Some r = map (nth_error v) ix.
Proof. exact @sample_spec. Qed.
Print Assumptions C39_sample.
(** Without replacement: the sample can be completed to the whole vec. *)
Theorem C39_sample_without_replacement : forall (P F : Type) (pick : F -> nat -> nat) fs (v r : list P),
  intr_sample pick fs v = Some r -> exists rest, Permutation (r ++ rest) v.
Proof. exact @sample_sub. Qed.
Print Assumptions C39_sample_without_replacement.

(** Shuffling a non-empty vec never panics and permutes it ... *)
Theorem C39_shuffle : forall (P F : Type) (pick : F -> nat -> nat) (fs : list F) (v : list P),
  v <> [] -> exists r, intr_shuffle pick fs v = Some r /\ Permutation v r.
Proof. exact @shuffle_perm. Qed.
Print Assumptions C39_shuffle.
(** ... and every permutation can come out, provided the floats can select every
    index. *)
Theorem C39_shuffle_reaches_all : forall (P F : Type) (pick : F -> nat -> nat),
  (forall n k, k < n -> exists f, pick f n mod n = k) ->
  forall v t : list P, Permutation v t -> exists fs, intr_shuffle pick fs v = Some t.
Proof. exact @shuffle_reaches. Qed.
Print Assumptions C39_shuffle_reaches_all.
(** Shuffling the empty vec with any float panics. *)
Theorem C39_shuffle_empty_refuted : forall (P F : Type) (pick : F -> nat -> nat) f fs,
  intr_shuffle pick (f :: fs) (@nil P) = None.
Proof. reflexivity. Qed.
Print Assumptions C39_shuffle_empty_refuted.

Example pick_onto : forall n k, k < n -> exists f, (fun f _ : nat => f) f n mod n = k.
Proof. intros n k H. exists k. now apply Nat.mod_small. Qed.
Example shuffle_ex : intr_shuffle (fun f _ : nat => f) [0; 1] [10; 20; 30] = Some [30; 20; 10].
Proof. reflexivity. Qed.
Example sample_ex : intr_sample (fun f _ : nat => f) [2; 5] [10; 20; 30] = Some [30; 10].
Proof. reflexivity. Qed.
