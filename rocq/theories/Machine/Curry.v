(** Supplying arguments together or in stages. *)
From Coq Require Import List Bool Arith NArith Lia.
From Verif.Bytecode Require Import Model Spec.
From Verif.Machine Require Import Model Spec Name Rel Chase Sim Steps Clean Correct.
Import ListNotations.
Open Scope nat_scope.

Section Curry.
Context {native : Type}.
Notation syn := (syn native).
Notation form := (form native).
Notation value := (value (native := native)).
Variable prim : N -> list native -> prim_result (native := native).
Variable merge : N.
Variable globals : list form.
Notation strips := (strips prim merge globals).
Notation applies := (applies prim merge globals).
Notation evals := (evals prim merge globals).
Notation reaches := (reaches prim merge globals).

Lemma strips_unique p v w : strips p v -> strips p w -> v = w.
Proof.
  intros Hv Hw.
  assert (Hr : forall u, strips p u -> reaches (p, [PBranch [] (Some (SAtom (RL 0))) []]) (u, []) /\ final (u, [])).
  { intros u Hu. destruct (strips_whnf prim merge globals p u Hu) as [Hwh Hm]. split; [| repeat split; assumption].
    eapply reaches_trans; [apply (proj1 (proj2 (big_small prim merge globals)) _ _ Hu); reflexivity |].
    eapply reaches_step; [rewrite pstep_return by assumption; cbn [preturn]; destruct u as [n | c [|a] e | f args]; try destruct c; reflexivity |].
    apply reaches_one. reflexivity. }
  destruct (Hr v Hv) as [H1 F1], (Hr w Hw) as [H2 F2].
  pose proof (final_unique prim merge globals _ _ _ H1 F1 H2 (final_stops prim merge globals _ F2)) as H.
  injection H as ->. reflexivity.
Qed.
Lemma strips_self p w : strips p w -> strips w w.
Proof. intros H. destruct (strips_whnf _ _ _ _ _ H) as [H1 H2]. apply st_plain; [apply whnf_evals; exact H1 | exact H2]. Qed.
Lemma applies_strip p w args v : strips p w -> (applies p args v <-> applies w args v).
Proof.
  intros Hw. assert (Hself := strips_self _ _ Hw).
  assert (Hmove : forall p q, strips p w -> strips q w -> applies p args v -> applies q args v).
  { clear. intros p q Hp Hq H.
    inversion H as [? ? c e ? Hs Hl He | ? ? f held ? Hs Ht Hl Ha | ? ? x Hs Hl | ? ? x u ? Hs Hl H1 H2 | ? ? fs e m ? Hs Hm Ha]; subst;
      pose proof (strips_unique _ _ _ Hp Hs); subst.
    - eapply ap_saturated; eassumption.
    - eapply ap_completed; eassumption.
    - apply ap_partial; assumption.
    - eapply ap_surplus; eassumption.
    - eapply ap_block; eassumption. }
  split; apply Hmove; assumption.
Qed.

Lemma apply_partial w xs : strips w w -> length xs < takes w -> applies w xs (VPap w xs).
Proof. apply ap_partial. Qed.

(** Exactly the missing arguments. *)
Lemma complete_iff w xs ys v : strips w w -> length xs < takes w -> length xs + length ys = takes w ->
  (applies (VPap w xs) ys v <-> applies w (xs ++ ys) v).
Proof.
  intros Hw Hlt Heq. assert (Hp : strips (VPap w xs) (VPap w xs)) by (apply st_plain; [constructor | reflexivity]).
  split.
  - intros H. inversion H as [? ? c e ? Hs Hl He | ? ? f held ? Hs Ht Hl Ha | ? ? x Hs Hl | ? ? x u ? Hs Hl H1 H2 | ? ? fs e m ? Hs Hm Ha]; subst;
      pose proof (strips_unique _ _ _ Hp Hs) as E; try discriminate E; subst.
    + injection E as <- <-. exact Ha.
    + simpl in Hl. lia.
    + simpl in Hl. lia.
  - intros H. eapply ap_completed; [exact Hp | simpl; lia | lia | exact H].
Qed.
Lemma surplus_iff w xs v : strips w w -> 0 < takes w < length xs ->
  (applies w xs v <-> exists u, applies w (firstn (takes w) xs) u /\ applies u (skipn (takes w) xs) v).
Proof.
  intros Hw Hlt. split.
  - intros H. inversion H as [? ? c e ? Hs Hl He | ? ? f held ? Hs Ht Hl Ha | ? ? x Hs Hl | ? ? x u ? Hs Hl H1 H2 | ? ? fs e m ? Hs Hm Ha]; subst;
      pose proof (strips_unique _ _ _ Hw Hs) as E; subst; simpl in *; try lia. eauto.
  - intros (u & H1 & H2). eapply ap_surplus; eassumption.
Qed.

Theorem stages w xs ys v : strips w w -> length xs < takes w <= length xs + length ys ->
  (applies (VPap w xs) ys v <-> applies w (xs ++ ys) v).
Proof.
  intros Hw [Hlt Hle]. destruct (Nat.eq_dec (length xs + length ys) (takes w)) as [Heq|Hne]; [apply complete_iff; assumption |].
  assert (Hp : strips (VPap w xs) (VPap w xs)) by (apply st_plain; [constructor | reflexivity]).
  assert (Hc : forall u, applies (VPap w xs) (firstn (takes w - length xs) ys) u <-> applies w (xs ++ firstn (takes w - length xs) ys) u).
  { intros u. apply complete_iff; [exact Hw | exact Hlt |]. rewrite firstn_length. lia. }
  rewrite (surplus_iff (VPap w xs) ys v Hp) by (simpl; lia).
  rewrite (surplus_iff w (xs ++ ys) v Hw) by (rewrite app_length; lia).
  cbn [takes]. rewrite firstn_app, skipn_app, (firstn_all2 xs), (skipn_all2 xs) by lia. cbn [app].
  split; intros (u & H1 & H2); exists u; (split; [apply Hc; exact H1 | exact H2]).
Qed.
End Curry.
