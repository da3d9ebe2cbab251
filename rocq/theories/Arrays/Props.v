(** Property C24: heap arrays behave as lists. *)
From Coq Require Import List Arith Bool Lia.
From Verif.Arrays Require Import Model Spec Proofs.
Import ListNotations.

(** Every program over any number of arrays runs without undefined behaviour and
    shows exactly what the same program shows on lists. *)
Theorem C24_lists : forall (T : Type) (os : list (op T)),
  exists s, run ([], []) os = Some (s, snd (lrun [] os)) /\
    Forall2 (fun a l => as_slice (fst s) a = Some l /\ length_ a = length l /\ length_ a <= capacity a)
            (snd s) (fst (lrun [] os)).
Proof.
  intros T os. destruct (run_sim os ([], []) []) as (s & E & R).
  - split; [constructor|]. intros [|i] j a b p H; discriminate H.
  - exists s. split; auto. destruct s as [m arrs], R as [F _]. cbn. clear E.
    induction F as [|a l arrs ls (L & C & P) F IH]; constructor; auto. repeat split; auto; [|lia].
    unfold as_slice. destruct (ptr a) as [p|].
    + destruct P as (b & Hb & Lb & Fb). rewrite Hb, (proj2 (Nat.leb_le _ _)) by lia.
      now rewrite L, Fb, sequence_map.
    + destruct l; auto; cbn in *; lia.
Qed.
Print Assumptions C24_lists.

(** A clone with another length reads as a prefix of the original. *)
Theorem C24_clone_reads_prefix : forall (T : Type) (m : mem T) a l n,
  as_slice m a = Some l -> length_ a = length l ->
  as_slice m (clone_with_length a n) = Some (firstn n l).
Proof.
  intros T m a l n H L. unfold as_slice in *. cbn [ptr clone_with_length length_].
  destruct (ptr a) as [p|].
  - destruct (nth_error m p) as [b|]; [|discriminate].
    destruct (Nat.leb_spec (length_ a) (length b)) as [Le|]; [|discriminate].
    rewrite (proj2 (Nat.leb_le _ _)) by lia.
    rewrite L in *. clear L.
    assert (G : forall k b (l : list T), sequence b = Some l -> sequence (firstn k b) = Some (firstn k l)).
    { clear. induction k as [|k IH]; intros b l H; auto. destruct b as [|c b]; cbn in *.
      - injection H as <-. reflexivity.
      - destruct c as [x|]; [|discriminate]. destruct (sequence b) as [xs|] eqn:E; [|discriminate].
        injection H as <-. now rewrite (IH _ _ E). }
    replace (firstn (Nat.min n (length l)) b) with (firstn n (firstn (length l) b)) by apply firstn_firstn.
    apply G, H.
  - injection H as <-. now destruct n.
Qed.
Print Assumptions C24_clone_reads_prefix.

(** The clone shares its storage: pushing onto a shortened clone overwrites an
    element of the original (the sharing the code's comment announces; a value
    semantics does not hold for clones). *)
Theorem C24_clone_is_value_refuted : exists (m m' : mem nat) a b,
  run ([], []) [OFromSlice [1; 2; 3]] = Some ((m, [a]), [VUnit]) /\
  push m (clone_with_length a 1) 9 = Some (m', b) /\
  as_slice m a = Some [1; 2; 3] /\ as_slice m' a = Some [1; 9; 3].
Proof. do 4 eexists. repeat split. Qed.
Print Assumptions C24_clone_is_value_refuted.

(** Growth from a full array of one, interleaved with a second array. *)
Example arrays_ex : exists s,
  run ([], []) [OWithCapacity 1; OPush 0 5; OFromSlice [7]; OPush 0 6; OPush 1 8; OSet 1 0 4; OPop 0; OSlice 0; OSlice 1; OGet 1 9]
  = Some (s, [VUnit; VUnit; VUnit; VUnit; VUnit; VOk true; VOpt (Some 6); VList [5]; VList [4; 8]; VOpt None]).
Proof. eexists. reflexivity. Qed.
