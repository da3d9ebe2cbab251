(** Lemmas about generalised lookup and replaced bodies. *)
From Coq Require Import String List Bool Arith Lia.
From Verif.Scope Require Import Model Spec Proofs.
From Verif.Lookup Require Import Model Spec.
Import ListNotations.
Local Open Scope list_scope.
Local Arguments Nat.leb : simpl never.

Definition inner (d : nat) (v : var) : Prop := match v with Bound s _ _ => s < d | Free _ => True end.

Lemma closed_inner e : closed_under 0 e -> every_ref inner 0 e.
Proof. apply every_ref_impl. intros d [n|s b n]; cbn; auto. lia. Qed.

Lemma succ_inner e : forall d, every_ref inner d e -> succ_at d e = e.
Proof.
  induction e as [[n|s b n]|bs body t IHbs IHb|i ps body IHb|k xs IHxs] using expr_ind'; intros d H; cbn in *; auto.
  - destruct (Nat.leb_spec d s); [lia|auto].
  - destruct H as [H1 H2]. rewrite IHb by auto. f_equal. apply every_ref_bs in H1.
    apply map_id_forall. rewrite Forall_forall in *. intros b Hb. unfold map_b. rewrite IHbs by auto. apply mkBinding_eta.
  - rewrite IHb; auto.
  - f_equal. apply every_ref_xs in H. apply map_id_forall. rewrite Forall_forall in *. auto.
Qed.

Lemma substs_same sub e : (forall n r, sub n = Some r -> r = EVar (Free n)) -> substs_free sub e = e.
Proof.
  intros Hs. induction e as [[n|s b n]|bs body t IHbs IHb|i ps body IHb|k xs IHxs] using expr_ind'; cbn; auto.
  - destruct (sub n) eqn:E; auto.
  - rewrite IHb. f_equal. apply map_id_forall. eapply Forall_impl; [|exact IHbs]. intros b H. unfold map_b. rewrite H.
    apply mkBinding_eta.
  - rewrite IHb; auto.
  - f_equal. apply map_id_forall; auto.
Qed.

Section Dynamise.
  Variable normal : string -> bool.
  Variable param : string.
  Notation process := (process normal param).

  Lemma process_inner e : forall d, every_ref inner d e -> every_ref inner d (process d e).
  Proof.
    induction e as [[n|s b n]|bs body t IHbs IHb|i ps body IHb|k xs IHxs] using expr_ind'; intros d H; cbn in *; auto.
    - destruct (normal n); cbn; auto.
    - destruct n as [n|]; cbn; auto. destruct (Nat.leb_spec d s); [lia|]. cbn. auto.
    - destruct H as [H1 H2]. split; auto. apply every_ref_bs in H1. apply every_ref_bs.
      rewrite Forall_map. rewrite Forall_forall in *. intros b Hb. apply IHbs; auto.
    - apply every_ref_xs in H. apply every_ref_xs. rewrite Forall_map. rewrite Forall_forall in *. auto.
  Qed.

  Lemma process_id e : forall d, every_ref inner d e -> (forall n, In n (free_vars e) -> normal n = false) -> process d e = e.
  Proof.
    induction e as [[n|s b n]|bs body t IHbs IHb|i ps body IHb|k xs IHxs] using expr_ind'; intros d H N; cbn in *; auto.
    - rewrite N; auto.
    - destruct n as [n|]; cbn; auto. destruct (Nat.leb_spec d s); [lia|auto].
    - destruct H as [H1 H2]. rewrite IHb; [|auto|intros n Hn; apply N, in_or_app; auto]. f_equal.
      apply every_ref_bs in H1. apply map_id_forall. rewrite Forall_forall in *. intros b Hb. unfold map_b.
      rewrite IHbs; auto using mkBinding_eta. intros n Hn. apply N, in_or_app. left. apply in_flat_map. eauto.
    - rewrite IHb; auto.
    - f_equal. apply every_ref_xs in H. apply map_id_forall. rewrite Forall_forall in *. intros x Hx.
      apply IHxs; auto. intros n Hn. apply N, in_flat_map. eauto.
  Qed.

  Lemma flagged_inner e : forall d, every_ref inner d e ->
    (flagged normal d e = true <-> exists n, In n (free_vars e) /\ normal n = true).
  Proof.
    induction e as [[n|s b n]|bs body t IHbs IHb|i ps body IHb|k xs IHxs] using expr_ind'; intros d H; cbn in *.
    - split; [intros; exists n; auto|]. intros (m & [->|[]] & E); auto.
    - split; [|intros (m & [] & _)]. destruct n as [n|]; [|discriminate]. destruct (Nat.leb_spec d s); [lia|discriminate].
    - destruct H as [H1 H2]. apply every_ref_bs in H1. rewrite Forall_forall in *.
      rewrite orb_true_iff, existsb_exists, (IHb _ H2). split.
      + intros [(b & Hb & F) | (n & Hn & F)].
        * apply (IHbs b Hb) in F; auto. destruct F as (n & Hn & F). exists n. split; auto. apply in_or_app. left.
          apply in_flat_map. eauto.
        * exists n. split; auto. apply in_or_app; auto.
      + intros (n & Hn & F). apply in_app_or in Hn as [Hn | Hn]; [left|right; eauto].
        apply in_flat_map in Hn as (b & Hb & Hn). exists b. split; auto. apply (IHbs b Hb); eauto.
    - auto.
    - apply every_ref_xs in H. rewrite Forall_forall in *. rewrite existsb_exists. split.
      + intros (x & Hx & F). apply (IHxs x Hx) in F; auto. destruct F as (n & Hn & F). exists n. split; auto.
        apply in_flat_map. eauto.
      + intros (n & Hn & F). apply in_flat_map in Hn as (x & Hx & Hn). exists x. split; auto. apply (IHxs x Hx); eauto.
  Qed.

  Variable I : interp.

  Lemma process_den rho1 e : forall d env, every_ref inner d e ->
    den I rho1 env (process d e) = den I (looked_up I normal (rho1 param) rho1) env e.
  Proof.
    induction e as [[n|s b n]|bs body t IHbs IHb|i ps body IHb|k xs IHxs] using expr_ind'; intros d env H; cbn in *.
    - unfold looked_up. destruct (normal n); reflexivity.
    - destruct n as [n|]; cbn; auto. destruct (Nat.leb_spec d s); [lia|]. reflexivity.
    - destruct H as [H1 H2]. apply every_ref_bs in H1. rewrite map_names. apply i_let_ext; intros vs.
      + rewrite map_map. apply map_ext_forall. rewrite Forall_forall in *. intros b Hb. apply IHbs; auto.
      + auto.
    - apply i_lam_ext. auto.
    - apply every_ref_xs in H. f_equal. rewrite map_map. apply map_ext_forall. rewrite Forall_forall in *. auto.
  Qed.
End Dynamise.

(** Whether a name occurs does not depend on the depth. *)
Lemma not_free_at n e : forall d d', every_ref (fun _ v => match v with Free m => m <> n | Bound _ _ _ => True end) d e ->
  every_ref (fun _ v => match v with Free m => m <> n | Bound _ _ _ => True end) d' e.
Proof.
  induction e as [v|bs body t IHbs IHb|i ps body IHb|k xs IHxs] using expr_ind'; intros d d' H; cbn in *; eauto.
  - destruct H as [H1 H2]. split; eauto. apply every_ref_bs in H1. apply every_ref_bs. rewrite Forall_forall in *. eauto.
  - apply every_ref_xs in H. apply every_ref_xs. rewrite Forall_forall in *. eauto.
Qed.

Section Rebody.
  Variable I : interp.

  (** Same values of all names but one that does not occur. *)
  Lemma den_but x rho rho' e env : (forall n, n <> x -> rho n = rho' n) -> not_free x e -> den I rho env e = den I rho' env e.
  Proof.
    intros H N. change (den I rho ([] ++ env) e = den I rho' ([] ++ env) e). apply den_ext. cbn [List.length].
    eapply every_ref_impl; [|exact N]. intros d [n|s b n]; cbn; auto.
  Qed.

  Definition public (e : expr) : bool := negb (has_internal_export e).

  Lemma exports_mask bs : forall vs rho n, n <> placeholder ->
    bind_names (i_dangling I) (capture_mask bs) vs rho n = exports I public bs vs rho n.
  Proof.
    induction bs as [|b bs IH]; intros vs rho n Hn; cbn; auto. unfold public at 1.
    destruct (has_internal_export (b_expr b)); cbn [negb].
    - rewrite andb_false_r. destruct (String.eqb_spec placeholder n); [congruence|]. apply IH; auto.
    - rewrite andb_true_r. destruct (String.eqb (b_name b) n); auto.
  Qed.

  Lemma exports_but x bs : forall vs rho rho', (forall n, n <> x -> rho n = rho' n) ->
    forall n, n <> x -> exports I public bs vs rho n = exports I public bs vs rho' n.
  Proof. induction bs as [|b bs IH]; intros vs rho rho' H n Hn; cbn; auto. destruct (_ && _); auto. Qed.

  Lemma within_but x k : (forall rho rho' env, (forall n, n <> x -> rho n = rho' n) -> k rho env = k rho' env) ->
    forall self rho rho' env, (forall n, n <> x -> rho n = rho' n) -> not_free x self ->
    within I public k rho env self = within I public k rho' env self.
  Proof.
    intros Hk. induction self as [v|bs body t IHbs IHb|i ps body IHb|kd xs IHxs] using expr_ind'; intros rho rho' env H N; cbn; auto.
    - destruct N as [N1 N2]. apply every_ref_bs in N1. apply i_let_ext; intros vs.
      + apply map_ext_forall. rewrite Forall_forall in *. intros b Hb. eapply den_but; eauto.
        apply (not_free_at _ _ 1). apply N1; auto.
      + apply IHb; [apply exports_but; auto|]. apply (not_free_at _ _ 1), N2.
    - destruct kd; auto. destruct xs as [|e m]; auto. inversion IHxs; subst. cbn in N. destruct N as [N1 N2].
      f_equal. f_equal; auto. apply map_ext_forall. apply every_ref_xs in N2. rewrite Forall_forall in *.
      intros y Hy. eapply den_but; eauto. apply N2; auto.
  Qed.

  Lemma rebody_int_den new : not_free placeholder new ->
    forall self, not_free placeholder self -> forall names rho env,
    den I rho env (rebody_int names self new) =
    within I public (fun rho env => den I rho env new) rho env self.
  Proof.
    intros Nn.
    assert (Same : forall names, substs_free (fun n => if existsb (String.eqb n) names then Some (EVar (Free n)) else None) new = new).
    { intros names. apply substs_same. intros n r. destruct (existsb _ _); congruence. }
    induction self as [v|bs body t IHbs IHb|i ps body IHb|kd xs IHxs] using expr_ind'; intros N names rho env; cbn.
    - rewrite Same. reflexivity.
    - destruct N as [N1 N2]. assert (N3 : not_free placeholder body) by apply (not_free_at _ _ 1 0 N2).
      apply i_let_ext; intros vs; auto.
      etransitivity; [apply (bind_free_den I (capture_mask bs) vs _ rho [] env)|]. cbn.
      rewrite IHb; auto. apply within_but with (x := placeholder); auto.
      + intros. eapply den_but; eauto.
      + intros n Hn. apply exports_mask; auto.
    - rewrite Same. reflexivity.
    - destruct kd; cbn; try (rewrite Same; reflexivity). destruct xs as [|e m]; cbn; [rewrite Same; reflexivity|].
      inversion IHxs; subst. destruct N as [N1 N2]. rewrite H1; auto.
  Qed.
End Rebody.
