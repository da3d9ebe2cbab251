(** Proofs about merging nested lets. *)
From Coq Require Import String List Bool Arith Lia Permutation.
From Verif.Scope Require Import Model Spec Proofs.
From Verif.Simplify Require Import Compress.
From Verif.Letrec Require Import Tarjan TarjanSpec Model Spec Proofs.
Import ListNotations.
Local Arguments Nat.eqb : simpl never.
Local Arguments Nat.leb : simpl never.
Local Arguments Nat.ltb : simpl never.

Lemma every_let_bs P (bs : list (binding expr)) : fold_right (fun b acc => every_let P (b_expr b) /\ acc) True bs <-> forall b, In b bs -> every_let P (b_expr b).
Proof.
  induction bs as [|b bs IH]; cbn; [split; [intros _ b []|auto]|]. rewrite IH. split; [intros [H1 H2] c [<-|Hc]; auto|auto].
Qed.
Lemma every_let_xs P xs : fold_right (fun x acc => every_let P x /\ acc) True xs <-> forall x, In x xs -> every_let P x.
Proof.
  induction xs as [|x xs IH]; cbn; [split; [intros _ b []|auto]|]. rewrite IH. split; [intros [H1 H2] c [<-|Hc]; auto|auto].
Qed.
Lemma every_let_let P bs body t : every_let P (ELet bs body t) <-> (t = OtherLet -> P bs body) /\ (forall b, In b bs -> every_let P (b_expr b)) /\ every_let P body.
Proof. cbn [every_let]. rewrite every_let_bs. tauto. Qed.

Lemma flat_close names e : forall d, flat_lets (close_expr_vars names d e) <-> flat_lets e.
Proof.
  unfold flat_lets. induction e as [[m|s b m]|bs body t IHbs IHb|i ps body IHb|k xs IHxs] using expr_ind'; intros d.
  - cbn. destruct (position names m); cbn; tauto.
  - cbn. destruct (d <=? s); cbn; tauto.
  - change (close_expr_vars names d (ELet bs body t)) with (ELet (map (map_b (close_expr_vars names (S d))) bs) (close_expr_vars names (S d) body) t).
    rewrite !every_let_let, IHb, chain_close. rewrite Forall_forall in IHbs.
    assert (K : (forall b, In b (map (map_b (close_expr_vars names (S d))) bs) -> every_let (fun _ body => chain body = []) (b_expr b)) <->
                (forall b, In b bs -> every_let (fun _ body => chain body = []) (b_expr b))).
    { split; intros H b Hb.
      - apply (IHbs b Hb (S d)). apply (H _ (in_map _ _ _ Hb)).
      - apply in_map_iff in Hb. destruct Hb as (c & <- & Hc). apply (IHbs c Hc), H, Hc. }
    rewrite K. reflexivity.
  - apply IHb.
  - change (close_expr_vars names d (ENode k xs)) with (ENode k (map (close_expr_vars names d) xs)). cbn [every_let]. rewrite !every_let_xs.
    rewrite Forall_forall in IHxs. split; intros H b Hb.
    + apply (IHxs b Hb d). apply (H _ (in_map _ _ _ Hb)).
    + apply in_map_iff in Hb. destruct Hb as (c & <- & Hc). apply (IHxs c Hc), H, Hc.
Qed.
Lemma flat_open names e : forall d, flat_lets (open_expr_vars names d e) <-> flat_lets e.
Proof.
  unfold flat_lets. induction e as [[m|s b m]|bs body t IHbs IHb|i ps body IHb|k xs IHxs] using expr_ind'; intros d.
  - cbn. tauto.
  - cbn. destruct (s =? d); cbn; try tauto. destruct (d <? s); cbn; tauto.
  - change (open_expr_vars names d (ELet bs body t)) with (ELet (map (map_b (open_expr_vars names (S d))) bs) (open_expr_vars names (S d) body) t).
    rewrite !every_let_let, IHb, chain_open. rewrite Forall_forall in IHbs.
    assert (K : (forall b, In b (map (map_b (open_expr_vars names (S d))) bs) -> every_let (fun _ body => chain body = []) (b_expr b)) <->
                (forall b, In b bs -> every_let (fun _ body => chain body = []) (b_expr b))).
    { split; intros H b Hb.
      - apply (IHbs b Hb (S d)). apply (H _ (in_map _ _ _ Hb)).
      - apply in_map_iff in Hb. destruct Hb as (c & <- & Hc). apply (IHbs c Hc), H, Hc. }
    rewrite K. reflexivity.
  - apply IHb.
  - change (open_expr_vars names d (ENode k xs)) with (ENode k (map (open_expr_vars names d) xs)). cbn [every_let]. rewrite !every_let_xs.
    rewrite Forall_forall in IHxs. split; intros H b Hb.
    + apply (IHxs b Hb d). apply (H _ (in_map _ _ _ Hb)).
    + apply in_map_iff in Hb. destruct Hb as (c & <- & Hc). apply (IHxs c Hc), H, Hc.
Qed.
Definition chain_flat (e : expr) : Prop :=
  match e with ELet bs body OtherLet => (forall b, In b bs -> flat_lets (b_expr b)) /\ flat_lets body | _ => flat_lets e end.
Lemma flat_chain_flat e : flat_lets e -> chain_flat e.
Proof. destruct e as [|bs body t| |]; auto. destruct t; auto. intros H. apply every_let_let in H. destruct H as (_ & H1 & H2). split; auto. Qed.
Lemma collect_flat : forall k e, chain_length e = k -> chain_flat e ->
  (forall b, In b (fst (collect_chain k e)) -> flat_lets (b_expr b)) /\ flat_lets (snd (collect_chain k e)).
Proof.
  induction k as [|k IH]; intros e L H.
  - cbn. split; [intros b []|]. destruct e as [|bs body t| |]; auto. destruct t; auto. discriminate.
  - destruct e as [|bs body t| |]; try discriminate. destruct t; try discriminate. injection L as L. destruct H as [H1 H2]. cbn [collect_chain].
    specialize (IH (open_expr_vars (map b_name bs) 0 body)). rewrite chain_length_open in IH.
    specialize (IH L (flat_chain_flat _ (proj2 (flat_open _ _ _) H2))). destruct (collect_chain k _) as [rest inner]. cbn [fst snd] in *.
    destruct IH as [I1 I2]. split; auto. intros b Hb. apply in_app_or in Hb. destruct Hb as [Hb|Hb]; auto.
    apply in_map_iff in Hb. destruct Hb as (c & <- & Hc). cbn. apply flat_open, H1, Hc.
Qed.

Lemma fv_close_with_demand n g body : In n (free_vars (close_with_demand g body)) <->
  ((exists b, In b g /\ In n (free_vars (b_expr b))) \/ In n (free_vars body)) /\ ~ In n (names_of g).
Proof.
  unfold close_with_demand. rewrite fv_let, fv_close. split.
  - intros [(b & Hb & K)|K]; [|unfold names_of; tauto]. apply in_map_iff in Hb. destruct Hb as (c & <- & Hc). cbn in K. apply fv_close in K. split; [left; exists c; tauto|apply K].
  - intros [[(b & Hb & K)|K] N]; [|unfold names_of in N; tauto]. left. exists (map_b (close_expr_vars (map b_name g) 0) b). split; [apply in_map, Hb|]. cbn. apply fv_close. auto.
Qed.
Lemma verify_close_with_demand scopes g body : (forall b, In b g -> verify_in scopes (b_expr b) = true) -> verify_in scopes body = true ->
  verify_in scopes (close_with_demand g body) = true.
Proof.
  intros H1 H2. apply verify_let. rewrite map_names. split.
  - intros b Hb. apply in_map_iff in Hb. destruct Hb as (c & <- & Hc). cbn. apply (verify_close (map b_name g) _ []), H1, Hc.
  - apply (verify_close (map b_name g) _ []), H2.
Qed.
Lemma fv_flat_nest n inner : forall gs, ~ In n (names_of (concat gs)) ->
  (exists b, In b (concat gs) /\ In n (free_vars (b_expr b))) \/ In n (free_vars inner) -> In n (free_vars (nest gs inner)).
Proof.
  induction gs as [|g gs IH]; intros N H; cbn in *; [destruct H as [(b & [] & _)|H]; auto|].
  unfold names_of in N. rewrite map_app, in_app_iff in N. apply fv_close_with_demand. split; [|unfold names_of; tauto].
  destruct H as [(b & Hb & K)|K].
  - apply in_app_or in Hb. destruct Hb as [Hb|Hb]; [left; eauto|]. right. apply IH; [unfold names_of; tauto|]. left. eauto.
  - right. apply IH; [unfold names_of; tauto|auto].
Qed.

Record preserved (scopes : list (list string)) (e r : expr) : Prop := {
  k_verify : verify_in scopes r = true;
  k_chain : chain r = chain e;
  k_free : forall n, In n (free_vars r) -> In n (free_vars e);
  k_flat : flat_lets r;
  k_den : forall I rho env, merges_lets I -> den I rho env r = den I rho env e }.

Lemma flatten_chain_ok scopes bs body : let e := ELet bs body OtherLet in
  verify_in scopes e = true -> NoDup (map fst (chain e)) -> (forall n, In n (map fst (chain e)) -> ~ In n (free_vars e)) ->
  chain_flat e -> preserved scopes e (flatten_chain e).
Proof.
  intros e V N F Fl. subst e. cbv beta iota delta [flatten_chain]. destruct (is_mergeable_let body) eqn:Em.
  - set (e := ELet bs body OtherLet) in *.
    pose proof (collect_chain_nest (chain_length e) e scopes eq_refl V N F) as C.
    pose proof (collect_flat (chain_length e) e eq_refl Fl) as [Cf1 Cf2].
    destruct (collect_chain (chain_length e) e) as [all inner] eqn:Ec. destruct C as (gs & Lg & -> & En & Ly & Ci & Vb & Vi & Sg & Fv). cbn [fst snd] in *.
    assert (Lc : List.length (concat gs) = List.length bs + List.length (chain body)).
    { rewrite <- (map_length (fun b => (b_name b, b_demand b)) (concat gs)), Sg. unfold e. cbn. rewrite app_length, map_length. auto. }
    destruct (Nat.eqb_spec (List.length (concat gs)) (List.length bs)) as [El|El].
    + split; auto. apply every_let_let. destruct Fl as [Fl1 Fl2]. split; auto. intros _. destruct (chain body); auto. cbn in Lc. lia.
    + assert (Cc : chain (close_expr_vars (map b_name (concat gs)) 0 inner) = []) by (rewrite chain_close; apply chain_length_0, Ci).
      split.
      * apply verify_close_with_demand; auto.
      * unfold close_with_demand. cbn [chain]. rewrite Cc, app_nil_r, map_map. cbn. exact Sg.
      * intros n Hn. apply fv_close_with_demand in Hn. destruct Hn as [H Nn]. rewrite En. apply fv_flat_nest; auto.
      * apply every_let_let. split; [intros _; exact Cc|]. split.
        -- intros b Hb. apply in_map_iff in Hb. destruct Hb as (c & <- & Hc). cbn. apply flat_close, Cf1, Hc.
        -- apply flat_close, Cf2.
      * intros I rho env M. rewrite En. destruct gs as [|g gs]; [cbn in Lg; discriminate|]. symmetry. apply nest_den; auto.
  - split; auto. apply every_let_let. destruct Fl as [Fl1 Fl2]. split; auto. intros _. destruct body as [| ? ? [] | |]; auto. discriminate.
Qed.

Lemma let_names_let n bs body t : In n (let_names (ELet bs body t)) <->
  (t = OtherLet /\ In n (map b_name bs)) \/ (exists b, In b bs /\ In n (let_names (b_expr b))) \/ In n (let_names body).
Proof.
  cbn [let_names]. rewrite !in_app_iff, in_flat. destruct t; cbn; intuition discriminate.
Qed.
Lemma chain_let_names n e : In n (map fst (chain e)) -> In n (let_names e).
Proof.
  induction e as [v|bs body t _ IHb|i ps body _|k xs _] using expr_ind'; cbn [chain]; try (intros []; fail).
  destruct t; try (intros []; fail). rewrite map_app, map_map, in_app_iff, let_names_let. cbn [fst]. tauto.
Qed.

Lemma reflatten_ok e : forall scopes, verify_in scopes e = true -> no_shadowing_chains e ->
  (forall n, In n (let_names e) -> ~ In n (free_vars e)) -> preserved scopes e (reflatten e).
Proof.
  unfold no_shadowing_chains. induction e as [v|bs body t IHbs IHb|i ps body IHb|k xs IHxs] using expr_ind'; intros scopes V N F.
  - split; cbn; auto.
  - pose proof (proj1 (verify_let _ _ _ _) V) as [V1 V2]. apply every_let_let in N. destruct N as (N1 & N2 & N3).
    rewrite Forall_forall in IHbs.
    assert (Pb : forall b, In b bs -> preserved (map b_name bs :: scopes) (b_expr b) (reflatten (b_expr b))).
    { intros b Hb. apply IHbs; auto. intros n Hn K. apply (F n); [apply let_names_let; right; left; eauto|apply fv_let; left; eauto]. }
    assert (Pd : preserved (map b_name bs :: scopes) body (reflatten body)).
    { apply IHb; auto. intros n Hn K. apply (F n); [apply let_names_let; auto|apply fv_let; auto]. }
    set (rebuilt := ELet (map (map_b reflatten) bs) (reflatten body) t).
    assert (Vr : verify_in scopes rebuilt = true).
    { apply verify_let. rewrite map_names. split; [|apply (k_verify _ _ _ Pd)]. intros b Hb. apply in_map_iff in Hb. destruct Hb as (c & <- & Hc). apply (k_verify _ _ _ (Pb c Hc)). }
    assert (Cr : chain rebuilt = chain (ELet bs body t)).
    { unfold rebuilt. cbn [chain]. destruct t; auto. rewrite map_map, (k_chain _ _ _ Pd). auto. }
    assert (Fr : forall n, In n (free_vars rebuilt) -> In n (free_vars (ELet bs body t))).
    { intros n Hn. apply fv_let in Hn. apply fv_let. destruct Hn as [(b & Hb & K)|K]; [|right; apply (k_free _ _ _ Pd), K].
      apply in_map_iff in Hb. destruct Hb as (c & <- & Hc). left. exists c. split; auto. apply (k_free _ _ _ (Pb c Hc)), K. }
    assert (Dr : forall I rho env, merges_lets I -> den I rho env rebuilt = den I rho env (ELet bs body t)).
    { intros I rho env M. unfold rebuilt. cbn [den]. rewrite map_names. apply i_let_ext; intros vs; [|apply (k_den _ _ _ Pd), M].
      rewrite map_map. apply map_ext_in. intros b Hb. cbn. apply (k_den _ _ _ (Pb b Hb)), M. }
    assert (Flb : forall b, In b (map (map_b reflatten) bs) -> flat_lets (b_expr b)).
    { intros b Hb. apply in_map_iff in Hb. destruct Hb as (c & <- & Hc). apply (k_flat _ _ _ (Pb c Hc)). }
    change (reflatten (ELet bs body t)) with (if is_other t then flatten_chain rebuilt else rebuilt).
    destruct t; cbn [is_other]; try (split; auto; apply every_let_let; split; [discriminate|]; split; [exact Flb|apply (k_flat _ _ _ Pd)]).
    assert (P : preserved scopes rebuilt (flatten_chain rebuilt)).
    { apply flatten_chain_ok; auto; fold rebuilt.
      - rewrite Cr. apply N1. reflexivity.
      - rewrite Cr. intros n Hn K. apply (F n); [apply chain_let_names, Hn|auto].
      - split; [exact Flb|apply (k_flat _ _ _ Pd)]. }
    destruct P as [P1 P2 P3 P4 P5]. split; auto; [congruence|]. intros I rho env M. rewrite P5; auto.
  - cbn [verify_in every_let let_names free_vars] in *. destruct (IHb (ps :: scopes) V N F) as [P1 P2 P3 P4 P5].
    split; cbn [reflatten verify_in chain free_vars den]; auto. intros I rho env M. apply i_lam_ext. intros vs. auto.
  - cbn [verify_in every_let let_names free_vars] in *. rewrite every_let_xs in N. rewrite forallb_forall in V. rewrite Forall_forall in IHxs.
    assert (Pb : forall x, In x xs -> preserved scopes x (reflatten x)).
    { intros x Hx. apply IHxs; auto. intros n Hn K. apply (F n); apply in_flat; eauto. }
    split; cbn [reflatten verify_in chain free_vars den]; auto.
    + apply forallb_forall. intros x Hx. apply in_map_iff in Hx. destruct Hx as (c & <- & Hc). apply (k_verify _ _ _ (Pb c Hc)).
    + intros n Hn. apply in_flat in Hn. destruct Hn as (x & Hx & K). apply in_map_iff in Hx. destruct Hx as (c & <- & Hc). apply in_flat. exists c. split; auto. apply (k_free _ _ _ (Pb c Hc)), K.
    + cbn. apply every_let_xs. intros x Hx. apply in_map_iff in Hx. destruct Hx as (c & <- & Hc). apply (k_flat _ _ _ (Pb c Hc)).
    + intros I rho env M. rewrite map_map. f_equal. apply map_ext_in. intros x Hx. apply (k_den _ _ _ (Pb x Hx)), M.
Qed.
