(** Looking up a literal key: the machine's fast path. *)
From Coq Require Import List Bool Arith NArith Lia.
From Verif.Bytecode Require Import Model Spec.
From Verif.Machine Require Import Model Spec LookupSpec Chase Lookup Props.
Import ListNotations.
Open Scope nat_scope.

Section Literal.
Context {native : Type}.
Variable prim : N -> list native -> prim_result (native := native).
Variable is_symbol : native -> bool.
Variable symbols_equal : native -> native -> bool.
Variable merge : N.
Notation step := (step prim is_symbol symbols_equal merge).
Notation block_finds := (block_finds is_symbol symbols_equal).

(** A lookup of a literal key in a block goes on with the value of the first entry known to have the key, or
    with the default if there is none; at once if the block is evaluated, and otherwise when it has been. *)
Theorem C56_literal_lookup smid k obj default u e K h block :
  is_symbol k = true -> (forall n, obj <> RV n) -> resolve_ref h e obj = Some block -> is_block_value block ->
  (forall x, block_finds h k block x -> step (mkState (MClo (SLookupLit smid (RV k) obj default) 0 u e) K h) = Next (mkState x K h)) /\
  ((forall x, ~ block_finds h k block x) ->
     step (mkState (MClo (SLookupLit smid (RV k) obj default) 0 u e) K h) = Next (mkState (clo (SAtom default) e) K h)).
Proof.
  intros Hk Ho Hb (args & a & u' & e' & ->).
  assert (Hs : step (mkState (MClo (SLookupLit smid (RV k) obj default) 0 u e) K h) =
    Next (mkState (or_default (lookup_in_block is_symbol symbols_equal h (MClo (SCons tag_block args) a u' e') k) (clo (SAtom default) e)) K h)).
  { cbn [Model.step handle_op lookup_lit]. rewrite Hk. destruct obj as [i|i|n]; [| | destruct (Ho n eq_refl)]; rewrite Hb, N.eqb_refl; reflexivity. }
  rewrite Hs. split.
  - intros x Hx. apply lookup_iff in Hx. rewrite Hx. reflexivity.
  - intros Hn. destruct (lookup_in_block _ _ _ _ _) as [x|] eqn:E; [| reflexivity]. apply lookup_iff in E. destruct (Hn x E).
Qed.
Theorem C56_literal_lookup_waits smid k i default u e K h v : is_symbol k = true -> get h e (N.to_nat i) = Some v ->
  ~ is_block_value v -> (forall n, v <> MNat n) ->
  step (mkState (MClo (SLookupLit smid (RV k) (RL i) default) 0 u e) K h) =
  enter_callable (KLookup k (clo (SAtom default) e) :: K) h e (RL i).
Proof.
  intros Hk Hg Hb Hn. cbn [Model.step handle_op lookup_lit]. rewrite Hk. cbn [resolve_ref]. rewrite Hg.
  destruct v as [n|c a u' e']; [destruct (Hn n eq_refl) |].
  assert (E : match c with SCons tag _ => (tag =? tag_block)%N | _ => false end = false); [| rewrite E; reflexivity].
  destruct c; try reflexivity. destruct (N.eqb_spec tag tag_block) as [->|]; [| reflexivity]. destruct Hb. do 4 eexists. reflexivity.
Qed.
Theorem C56_literal_lookup_resumes k default args u e K h :
  let block := MClo (SCons tag_block args) 0 u e in
  (forall x, block_finds h k block x -> step (mkState block (KLookup k default :: K) h) = Next (mkState x K h)) /\
  ((forall x, ~ block_finds h k block x) -> step (mkState block (KLookup k default :: K) h) = Next (mkState default K h)).
Proof.
  intros block.
  assert (Hs : step (mkState block (KLookup k default :: K) h) = Next (mkState (or_default (lookup_in_block is_symbol symbols_equal h block k) default) K h)) by reflexivity.
  rewrite Hs. split.
  - intros x Hx. apply lookup_iff in Hx. rewrite Hx. reflexivity.
  - intros Hn. destruct (lookup_in_block _ _ _ _ _) as [x|] eqn:E; [| reflexivity]. apply lookup_iff in E. destruct (Hn x E).
Qed.
(** There is at most one such value. *)
Theorem C56_literal_unique h k block x y : block_finds h k block x -> block_finds h k block y -> x = y.
Proof. intros Hx Hy. apply lookup_iff in Hx. apply lookup_iff in Hy. congruence. Qed.
End Literal.

(** * Examples. Natives are numbers, and those from 100 on are symbols. *)
Definition sym (n : nat) : bool := 100 <=? n.
Notation step1 := (step add sym Nat.eqb 0%N).
Notation run1 := (run add sym Nat.eqb 0%N).
Notation visits1 := (visits add sym Nat.eqb 0%N).
Definition entry_of (key : nat) (value : ref nat) : syn nat := SCons tag_block_pair [RV key; value].

(** [letrec p = (:b, 2); q = (:a, 3); l = [p, q]; b = {l} in b.a] *)
Definition two_entries : list (fkind * syn nat) :=
  [(FValue, entry_of 101 (RV 2)); (FValue, entry_of 100 (RV 3)); (FValue, SCons 6 []);
   (FValue, SCons tag_list_cons [RL 1; RL 2]); (FValue, SCons tag_list_cons [RL 0; RL 3]); (FValue, SCons tag_block [RL 4; RV 0])].
Example C56_literal_example : exists e h block,
  step1 (start [] (SLet true two_entries (SLookupLit 0 (RV 100) (RL 5) (RV 9)))) =
    Next (mkState (clo (SLookupLit 0 (RV 100) (RL 5) (RV 9)) e) [] h) /\
  resolve_ref h e (RL 5) = Some block /\ is_block_value block /\ block_finds sym Nat.eqb h 100 block (MNat 3) /\
  forall x, ~ block_finds sym Nat.eqb h 102 block x.
Proof.
  do 3 eexists. split; [vm_compute; reflexivity |]. split; [vm_compute; reflexivity |]. split; [do 4 eexists; reflexivity |].
  split; [apply lookup_iff; vm_compute; reflexivity |]. intros x H. apply lookup_iff in H. vm_compute in H. discriminate.
Qed.

(** The fast path passes over entries that are not evaluated yet. With two entries for one key, the value of
    [b.a] depends on what has been evaluated before. *)
Definition late_entry : list (fkind * syn nat) :=
  [(FThunk, SSeq (SAtom (RV 0)) (entry_of 100 (RV 1))); (FValue, entry_of 100 (RV 2)); (FValue, SCons 6 []);
   (FValue, SCons tag_list_cons [RL 1; RL 2]); (FValue, SCons tag_list_cons [RL 0; RL 3]); (FValue, SCons tag_block [RL 4; RV 0])].
Definition look : syn nat := SLookupLit 0 (RV 100) (RL 5) (RV 9).
Ltac run_all := first [eapply run_stop; vm_compute; reflexivity | eapply run_next; [vm_compute; reflexivity |]; run_all].
Theorem C56_literal_order_refuted : exists bindings first obj s t h h',
  s = start [] (SLet true bindings (SLookupLit 0 (RV 100) obj (RV 9))) /\
  t = start [] (SLet true bindings (SSeq (SAtom first) (SLookupLit 0 (RV 100) obj (RV 9)))) /\
  run1 s (Stop (mkState (MNat 2) [] h)) /\ run1 t (Stop (mkState (MNat 1) [] h')).
Proof.
  exists late_entry, (RL 0), (RL 5). do 4 eexists. split; [reflexivity |]. split; [reflexivity |]. split; run_all.
Qed.

(** The value found is evaluated without the result being recorded: looking the same key up twice evaluates
    the same expression, in the same environment, twice. *)
Definition found_twice : syn nat :=
  SLet true [(FThunk, sum12); (FValue, entry_of 100 (RL 0)); (FValue, SCons 6 []);
             (FValue, SCons tag_list_cons [RL 1; RL 2]); (FValue, SCons tag_block [RL 3; RV 0])]
    (SSeq (SLookupLit 0 (RV 100) (RL 4) (RV 9)) (SLookupLit 0 (RV 100) (RL 4) (RV 9))).
Theorem C44_looked_up_refuted : exists root s s' t x h, visits1 (start [] root) s /\ step1 s = Next s' /\ visits1 s' t /\
  s_cur s = x /\ s_cur t = x /\ ~ evaluated x /\ run1 (start [] root) (Stop (mkState (MNat 3) [] h)).
Proof.
  exists found_twice. do 5 eexists. split; [do 3 (eapply vi_next; [vm_compute; reflexivity |]); apply vi_here |].
  split; [vm_compute; reflexivity |].
  split; [do 4 (eapply vi_next; [vm_compute; reflexivity |]); apply vi_here |].
  split; [reflexivity |]. split; [vm_compute; reflexivity |]. split; [exact (fun H => H) |]. run_all.
Qed.

Print Assumptions C56_literal_lookup.
Print Assumptions C56_literal_lookup_waits.
Print Assumptions C56_literal_lookup_resumes.
Print Assumptions C56_literal_unique.
Print Assumptions C56_literal_order_refuted.
Print Assumptions C44_looked_up_refuted.
