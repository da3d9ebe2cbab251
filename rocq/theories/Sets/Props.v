(** Property C23: native sets. *)
From Coq Require Import List Arith NArith ZArith Bool Lia Permutation Sorted.
From Verif.Sets Require Import Model Spec Proofs.
Import ListNotations.

(** Membership after any program of set operations is what the program denotes,
    whatever the hash tables' iteration orders. *)
Theorem C23_membership : forall e s p, runs e s -> (contains s p = true <-> denotes e p).
Proof. exact (fun e s p R => proj2 (runs_spec e s R) p). Qed.
Print Assumptions C23_membership.

(** The rendered elements are strictly increasing, are the members, and their
    number is the reported size. *)
Theorem C23_rendered : forall e s, runs e s ->
  StronglySorted before (sorted_elements s) /\
  (forall p, denotes e p <-> exists q, In q (sorted_elements s) /\ same p q) /\
  length (sorted_elements s) = hs_len s.
Proof.
  intros e s R. destruct (runs_spec e s R) as [D C]. split; [now apply sorted_sorted|]. split.
  - intros p. now rewrite <- C, <- contains_spec, (contains_perm _ _ p (sorted_perm s)).
  - apply Permutation_length, sorted_perm.
Qed.
Print Assumptions C23_rendered.

(** Two programs denoting the same set render the same elements, up to [same]
    (i.e. up to the sign of a zero) ... *)
Theorem C23_canonical : forall e e' s s',
  runs e s -> runs e' s' -> (forall p, denotes e p <-> denotes e' p) ->
  Forall2 same (sorted_elements s) (sorted_elements s').
Proof. exact canonical. Qed.
Print Assumptions C23_canonical.

(** ... and exactly, when no negative zero is involved. *)
Theorem C23_canonical_exact : forall e e' s s',
  Forall plain (mentions e) -> Forall plain (mentions e') ->
  runs e s -> runs e' s' -> (forall p, denotes e p <-> denotes e' p) ->
  sorted_elements s = sorted_elements s'.
Proof. exact canonical_plain. Qed.
Print Assumptions C23_canonical_exact.

(** With both zeros the rendering depends on the order of insertion. *)
Theorem C23_zero_refuted : exists e e' s s',
  runs e s /\ runs e' s' /\ (forall p, denotes e p <-> denotes e' p) /\
  sorted_elements s <> sorted_elements s'.
Proof.
  set (z := PNum (mkF 0 false)). set (nz := PNum (mkF 0 true)).
  exists (EOf [z; nz]), (EOf [nz; z]), [z], [nz].
  split; [constructor; reflexivity|]. split; [constructor; reflexivity|]. split.
  - intros p. cbn. split; intros (q & [<-|[<-|[]]] & H); eauto.
  - discriminate.
Qed.
Print Assumptions C23_zero_refuted.

(** Integers up to 2^53 keep their identity as set elements ... *)
Theorem C23_integers_distinct : forall a b,
  (Z.abs a <= 2 ^ 53)%Z -> (Z.abs b <= 2 ^ 53)%Z ->
  same (from_number (NInt a)) (from_number (NInt b)) -> a = b.
Proof. exact from_int_inj. Qed.
Print Assumptions C23_integers_distinct.
(** ... but beyond that two different integers can become one element. *)
Theorem C23_large_integers_refuted : exists a b,
  a <> b /\ (Z.abs a < 2 ^ 63)%Z /\ (Z.abs b < 2 ^ 63)%Z /\
  exists s, runs (EOf [from_number (NInt a); from_number (NInt b)]) s /\ hs_len s = 1%nat.
Proof.
  exists 9007199254740992%Z, 9007199254740993%Z. split; [discriminate|]. split; [reflexivity|].
  split; [reflexivity|]. eexists. split; [constructor; reflexivity|]. vm_compute. reflexivity.
Qed.
Print Assumptions C23_large_integers_refuted.

Example set_program :
  let n z := from_number (NInt z) in
  exists s, runs (EDiff (EUnion (EOf [n 3; PStr [98%N]; n 1]%Z) (EOf [PSym 0%N; n 3]%Z)) (EAdd (n 1%Z) EEmpty)) s
   /\ sorted_elements s = [n 3%Z; PStr [98]; PSym 0]%N.
Proof.
  cbv zeta. eexists. split.
  - eapply r_diff; [eapply r_union; [constructor; reflexivity|constructor; reflexivity|reflexivity]
      |eapply r_add; [constructor|reflexivity]|reflexivity].
  - vm_compute. reflexivity.
Qed.
