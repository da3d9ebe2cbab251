(** Following variables that stand for variables: the bound on the chase loses nothing. *)
From Coq Require Import List Bool Arith NArith Lia.
From Verif.Bytecode Require Import Model Spec.
From Verif.Machine Require Import Model Spec.
Import ListNotations.
Open Scope nat_scope.

Section Chase.
Context {native : Type}.
Notation mval := (mval (native := native)).
Notation heap := (heap (native := native)).

(** As [stands_for], counting the variables. *)
Inductive follows (h : heap) : nat -> mval -> native -> Prop :=
| fo_native n : follows h 0 (MNat n) n
| fo_variable k r a u e v n :
    resolve_ref h e r = Some v -> follows h k v n -> follows h (S k) (MClo (SAtom r) a u e) n.

Lemma stands_follows (h : heap) v n : stands_for h v n -> exists k, follows h k v n.
Proof.
  induction 1 as [n | r a u e v n Hr _ [k IH]]; [exists 0; constructor | exists (S k); econstructor; eassumption].
Qed.
Lemma follows_stands h k v n : follows h k v n -> stands_for h v n.
Proof. induction 1; [constructor | econstructor; eassumption]. Qed.
Lemma follows_unique h k v n : follows h k v n -> forall k' n', follows h k' v n' -> k = k' /\ n = n'.
Proof.
  induction 1 as [n | k r a u e v n Hr _ IH]; intros k' n' H'; inversion H'; subst; [auto |].
  match goal with H1 : resolve_ref h e r = Some ?w, H2 : follows h ?m ?w n' |- _ =>
    rewrite Hr in H1; injection H1 as ->; destruct (IH _ _ H2); auto end.
Qed.
Lemma follows_native h k v n fuel : follows h k v n -> k <= fuel -> native_from fuel h v = Some n.
Proof.
  intros H. revert fuel. induction H as [n | k r a u e v n Hr _ IH]; intros fuel Hf.
  - destruct fuel; reflexivity.
  - destruct fuel; [lia |]. simpl. rewrite Hr. apply IH. lia.
Qed.
Lemma native_stands fuel (h : heap) v n : native_from fuel h v = Some n -> stands_for h v n.
Proof.
  revert v. induction fuel as [|fuel IH]; intros v H.
  - destruct v as [k | c a u e]; [injection H as ->; constructor | destruct c; discriminate].
  - destruct v as [k | c a u e]; [injection H as ->; constructor |].
    destruct c; try discriminate. simpl in H. destruct (resolve_ref h e evaluand) as [w|] eqn:E; [| discriminate].
    econstructor; [exact E | auto].
Qed.

Definition cells (h : heap) : list (nat * nat) :=
  flat_map (fun a => map (pair a) (seq 0 (length (array h a)))) (seq 0 (length h)).
Lemma in_cells (h : heap) a j v : slot h a j = Some v -> In (a, j) (cells h).
Proof.
  unfold slot. intros H. assert (Hj : j < length (array h a)) by (apply nth_error_Some; congruence).
  assert (Ha : a < length h).
  { destruct (Nat.lt_ge_cases a (length h)); [assumption |]. unfold array in Hj. rewrite nth_overflow in Hj by assumption.
    simpl in Hj. lia. }
  unfold cells. apply in_flat_map. exists a. split; [apply in_seq; lia |].
  apply in_map, in_seq. lia.
Qed.
Lemma length_cells_from (h : heap) k : forall pre, length pre = k ->
  length (flat_map (fun a => map (pair a) (seq 0 (length (array (pre ++ h) a)))) (seq k (length h))) =
  fold_right (fun a n => length a + n) 0 h.
Proof.
  revert k. induction h as [|x h IH]; intros k pre Hp; [reflexivity |].
  cbn [length seq flat_map fold_right]. rewrite app_length, map_length, seq_length. f_equal.
  - unfold array. rewrite app_nth2 by lia. rewrite Hp, Nat.sub_diag. reflexivity.
  - specialize (IH (S k) (pre ++ [x])). rewrite <- app_assoc in IH. apply IH.
    rewrite app_length. simpl. lia.
Qed.
Lemma length_cells (h : heap) : length (cells h) = fold_right (fun a n => length a + n) 0 h.
Proof. apply (length_cells_from h 0 []). reflexivity. Qed.

Lemma resolve_cell (h : heap) e r v : resolve_ref h e r = Some v ->
  (exists n, v = MNat n) \/ exists a j, slot h a j = Some v.
Proof.
  destruct r as [i | i | n]; simpl; unfold get; intros H.
  - destruct (cell h e (N.to_nat i)) as [[a j]|]; [| discriminate]. right. eauto.
  - destruct (cell h globals_env (N.to_nat i)) as [[a j]|]; [| discriminate]. right. eauto.
  - left. injection H as <-. eauto.
Qed.
(** The slots gone through are distinct. *)
Lemma follows_cells h k v n : follows h k v n ->
  exists l, NoDup l /\ k <= S (length l) /\
    forall a j, In (a, j) l -> exists w k', slot h a j = Some w /\ follows h k' w n /\ k' < k.
Proof.
  induction 1 as [n | k r a u e v n Hr Hf IH].
  - exists []. split; [constructor | split; [simpl; lia | intros a j []]].
  - destruct IH as (l & Hnd & Hlen & Hl).
    destruct (resolve_cell h e r v Hr) as [[m ->] | (b & i & Hs)].
    + inversion Hf; subst. exists []. split; [constructor | split; [simpl; lia | intros ? ? []]].
    + exists ((b, i) :: l). split; [| split].
      * constructor; [| exact Hnd]. intros Hin. destruct (Hl b i Hin) as (w & k' & Hs' & Hf' & Hlt).
        rewrite Hs in Hs'. injection Hs' as <-. destruct (follows_unique _ _ _ _ Hf _ _ Hf'). lia.
      * simpl. lia.
      * intros c j [[= <- <-] | Hin]; [exists v, k; auto |].
        destruct (Hl c j Hin) as (w & k' & H1 & H2 & H3). exists w, k'. repeat split; try assumption. lia.
Qed.

Theorem chase_complete (h : heap) v n : stands_for h v n <-> native_from (chase_fuel h) h v = Some n.
Proof.
  split; [| apply native_stands]. intros H. destruct (stands_follows h v n H) as [k Hk].
  apply (follows_native h k); [exact Hk |].
  destruct (follows_cells h k v n Hk) as (l & Hnd & Hlen & Hl).
  assert (length l <= length (cells h)).
  { apply NoDup_incl_length; [exact Hnd |]. intros [a j] Hin. destruct (Hl a j Hin) as (w & _ & Hs & _).
    eapply in_cells; exact Hs. }
  unfold chase_fuel. rewrite length_cells in H0. lia.
Qed.
Lemma natives_none (h : heap) vs : natives_from h vs = None -> exists v, In v vs /\ forall n, ~ stands_for h v n.
Proof.
  induction vs as [|v vs IH]; [discriminate |]. cbn [natives_from]. intros H.
  destruct (native_from (chase_fuel h) h v) as [n|] eqn:E.
  - destruct (natives_from h vs); [discriminate |]. destruct (IH eq_refl) as (w & Hw & Hn).
    exists w. split; [right; exact Hw | exact Hn].
  - exists v. split; [left; reflexivity |]. intros n Hn. apply chase_complete in Hn. congruence.
Qed.
End Chase.
