(** Proofs about merging and splitting lets: meaning and names. *)
From Coq Require Import String List Bool Arith Lia Permutation.
From Verif.Scope Require Import Model Spec Proofs.
From Verif.Simplify Require Import Compress.
From Verif.Letrec Require Import Tarjan TarjanSpec Model Spec.
Import ListNotations.
Local Arguments Nat.eqb : simpl never.
Local Arguments Nat.leb : simpl never.
Local Arguments Nat.ltb : simpl never.

(** ** Free names *)
Lemma in_flat {A B} (f : A -> list B) l y : In y (flat_map f l) <-> exists x, In x l /\ In y (f x).
Proof. apply in_flat_map. Qed.
Lemma not_free_iff n e : forall d, every_ref (fun _ v => match v with Free m => m <> n | Bound _ _ _ => True end) d e <-> ~ In n (free_vars e).
Proof.
  induction e as [[m|s b m]|bs body t IHbs IHb|i ps body IHb|k xs IHxs] using expr_ind'; intros d; cbn.
  - split; [intros H [K|[]]; auto|intros H K; apply H; auto].
  - tauto.
  - rewrite every_ref_bs, IHb. rewrite in_app_iff, in_flat, Forall_forall. rewrite Forall_forall in IHbs. split.
    + intros [H1 H2] [(b & Hb & K)|K]; auto. apply (IHbs b Hb (S d)); auto.
    + intros H. split; [|tauto]. intros b Hb. apply (IHbs b Hb (S d)). intros K. apply H. left. eauto.
  - apply IHb.
  - rewrite every_ref_xs, in_flat, Forall_forall. rewrite Forall_forall in IHxs. split.
    + intros H (x & Hx & K). apply (IHxs x Hx d); auto.
    + intros H x Hx. apply (IHxs x Hx d). intros K. apply H. eauto.
Qed.
Lemma den_free (I : interp) e : forall rho rho' env, (forall n, In n (free_vars e) -> rho n = rho' n) -> den I rho env e = den I rho' env e.
Proof.
  induction e as [[m|s b m]|bs body t IHbs IHb|i ps body IHb|k xs IHxs] using expr_ind'; intros rho rho' env H; cbn [den free_vars] in *; auto.
  - apply H. left; auto.
  - apply i_let_ext; intros vs.
    + apply map_ext_forall. rewrite Forall_forall in *. intros b Hb. apply (IHbs b Hb). intros n Hn. apply H, in_or_app. left. apply in_flat. eauto.
    + apply IHb. intros n Hn. apply H, in_or_app. auto.
  - apply i_lam_ext. intros vs. apply IHb. auto.
  - f_equal. apply map_ext_forall. rewrite Forall_forall in *. intros x Hx. apply (IHxs x Hx). intros n Hn. apply H. apply in_flat. eauto.
Qed.
Lemma fv_close names n e : forall d, In n (free_vars (close_expr_vars names d e)) <-> In n (free_vars e) /\ ~ In n names.
Proof.
  induction e as [[m|s b m]|bs body t IHbs IHb|i ps body IHb|k xs IHxs] using expr_ind'; intros d; cbn.
  - destruct (position names m) as [j|] eqn:E; cbn.
    + apply position_some in E. apply nth_error_In in E. split; [intros []|]. intros [[<-|[]] H]. contradiction.
    + apply position_none in E. split; [intros [<-|[]]; auto|]. tauto.
  - destruct (d <=? s); cbn; tauto.
  - rewrite !in_app_iff, !in_flat, IHb. rewrite Forall_forall in IHbs. split.
    + intros [(b & Hb & K)|K]; [|tauto]. apply in_map_iff in Hb. destruct Hb as (c & <- & Hc). cbn in K. apply (IHbs c Hc) in K. split; [left; exists c; tauto|tauto].
    + intros [[(b & Hb & K)|K] N]; [|tauto]. left. exists (map_b (close_expr_vars names (S d)) b). split; [apply in_map, Hb|]. cbn. apply (IHbs b Hb). auto.
  - apply IHb.
  - rewrite !in_flat. rewrite Forall_forall in IHxs. split.
    + intros (x & Hx & K). apply in_map_iff in Hx. destruct Hx as (c & <- & Hc). apply (IHxs c Hc) in K. split; [exists c; tauto|tauto].
    + intros [(x & Hx & K) N]. exists (close_expr_vars names d x). split; [apply in_map, Hx|]. apply (IHxs x Hx). auto.
Qed.
Definition named_at (names : list string) (d : nat) (e : expr) : Prop :=
  every_ref (fun d v => match v with
    | Bound s b n => s = d -> exists x, nth_error names b = Some x /\ n = Some x
    | Free _ => True end) d e.
Lemma fv_open names n e : forall d, named_at names d e -> In n (free_vars (open_expr_vars names d e)) -> In n (free_vars e) \/ In n names.
Proof.
  unfold named_at. induction e as [[m|s b m]|bs body t IHbs IHb|i ps body IHb|k xs IHxs] using expr_ind'; intros d; cbn.
  - tauto.
  - intros H. destruct (Nat.eqb_spec s d) as [E|E].
    + destruct (H E) as (x & Ex & ->). rewrite Ex. cbn. intros [<-|[]]. right. eapply nth_error_In; eauto.
    + destruct (d <? s); cbn; tauto.
  - rewrite every_ref_bs. intros [H1 H2]. rewrite !in_app_iff, !in_flat. rewrite Forall_forall in *. intros [(b & Hb & K)|K].
    + apply in_map_iff in Hb. destruct Hb as (c & <- & Hc). cbn in K. apply (IHbs c Hc _ (H1 c Hc)) in K. destruct K; [left; left; eauto|auto].
    + apply (IHb _ H2) in K. tauto.
  - apply IHb.
  - rewrite every_ref_xs. intros H. rewrite !in_flat. rewrite Forall_forall in *. intros (x & Hx & K).
    apply in_map_iff in Hx. destruct Hx as (c & <- & Hc). apply (IHxs c Hc _ (H c Hc)) in K. destruct K; [left; eauto|auto].
Qed.

(** ** Grouping *)
Definition names_of (g : list (binding expr)) : list string := map b_name g.
Definition nest (gs : list (list (binding expr))) (body : expr) : expr := fold_right close_with_demand body gs.
Fixpoint layered (gs : list (list (binding expr))) : Prop :=
  match gs with
  | [] => True
  | g :: rest => (forall b n, In b g -> In n (names_of (concat rest)) -> ~ In n (free_vars (b_expr b))) /\
                 (forall n, In n (names_of g) -> ~ In n (names_of (concat rest))) /\ layered rest
  end.

Section Meaning.
  Variable I : interp.
  Notation dg := (i_dangling I).
  Lemma close_den0 names e rho env vs : den I rho (vs :: env) (close_expr_vars names 0 e) = den I (bind_names dg names vs rho) env e.
  Proof. apply (close_den I names vs e rho [] env). Qed.
  Lemma close_den1 names e rho env vs ws : den I rho (ws :: vs :: env) (close_expr_vars names 1 e) = den I (bind_names dg names vs rho) (ws :: env) e.
  Proof. apply (close_den I names vs e rho [ws] env). Qed.
  Lemma close_with_demand_den g body rho env : den I rho env (close_with_demand g body) =
    i_let I OtherLet (names_of g) (fun vs => map (fun b => den I (bind_names dg (names_of g) vs rho) env (b_expr b)) g)
      (fun vs => den I (bind_names dg (names_of g) vs rho) env body).
  Proof.
    unfold close_with_demand. cbn [den]. rewrite map_names. apply i_let_ext; intros vs; [|apply close_den0].
    rewrite map_map. apply map_ext. intros b. cbn. apply close_den0.
  Qed.

  Lemma nth_firstn {A} (d : A) k : forall i l, i < k -> nth i (firstn k l) d = nth i l d.
  Proof. induction k as [|k IH]; intros i l L; [lia|]. destruct l as [|x l]; cbn; [destruct i; auto|]. destruct i; auto. apply IH. lia. Qed.
  Lemma nth_skipn' {A} (d : A) k : forall i l, nth i (skipn k l) d = nth (k + i) l d.
  Proof. induction k as [|k IH]; intros i l; cbn; auto. destruct l; [destruct i; auto|]. apply IH. Qed.
  Lemma position_app xs ys n : position (xs ++ ys) n = match position xs n with Some i => Some i | None => option_map (Nat.add (List.length xs)) (position ys n) end.
  Proof.
    induction xs as [|x xs IH]; cbn; [destruct (position ys n); auto|]. destruct (String.eqb x n); auto. rewrite IH.
    destruct (position xs n); cbn; auto. destruct (position ys n); auto.
  Qed.
  Lemma position_lt xs n i : position xs n = Some i -> i < List.length xs.
  Proof. intros H. apply position_some in H. apply nth_error_Some. congruence. Qed.
  (** Splitting the values of a list of names. *)
  Lemma bind_app_left xs ys vs (rho : string -> D I) n : ~ In n ys -> bind_names dg (xs ++ ys) vs rho n = bind_names dg xs (firstn (List.length xs) vs) rho n.
  Proof.
    intros N. rewrite !bind_names_position, position_app. destruct (position xs n) as [i|] eqn:E.
    - rewrite nth_firstn; auto. eapply position_lt; eauto.
    - apply position_none in N. rewrite N. auto.
  Qed.
  Lemma bind_app xs ys vs (rho : string -> D I) n : (forall m, In m xs -> ~ In m ys) ->
    bind_names dg (xs ++ ys) vs rho n = bind_names dg ys (skipn (List.length xs) vs) (bind_names dg xs (firstn (List.length xs) vs) rho) n.
  Proof.
    intros D. rewrite !bind_names_position, position_app. destruct (position xs n) as [i|] eqn:E.
    - pose proof (position_some _ _ _ E) as K. apply nth_error_In, D in K. apply position_none in K. rewrite K.
      rewrite nth_firstn; auto. eapply position_lt; eauto.
    - destruct (position ys n) as [j|]; cbn.
      + rewrite nth_skipn'. auto.
      + auto.
  Qed.

  Lemma nest_den : merges_lets I -> forall gs g body rho env, layered (g :: gs) ->
    den I rho env (nest (g :: gs) body) = den I rho env (close_with_demand (concat (g :: gs)) body).
  Proof.
    intros M. induction gs as [|g2 gs IH]; intros g body rho env L.
    - cbn. rewrite app_nil_r. reflexivity.
    - destruct L as (L1 & L2 & L3). set (r := concat (g2 :: gs)) in *.
      change (nest (g :: g2 :: gs) body) with (close_with_demand g (nest (g2 :: gs) body)).
      transitivity (den I rho env (close_with_demand g (close_with_demand r body))).
      { rewrite !close_with_demand_den. apply i_let_ext; intros vs; [reflexivity|]. apply IH, L3. }
      change (concat (g :: g2 :: gs)) with (g ++ r).
      unfold close_with_demand at 1. unfold close_with_demand at 1. cbn [close_expr_vars]. rewrite M.
      rewrite !map_names. rewrite close_with_demand_den. unfold names_of at 1. rewrite map_app.
      apply i_let_ext; intros vs; cbv zeta; rewrite ?map_length.
      + rewrite map_app. f_equal.
        * rewrite map_map. apply map_ext_in. intros b Hb. cbn [b_expr map_b]. rewrite close_den0. apply den_free. intros n Hn.
          unfold names_of. rewrite map_app. rewrite bind_app_left; [rewrite map_length; auto|]. intros K. eapply L1; eauto.
        * rewrite !map_map. apply map_ext_in. intros b Hb. cbn [b_expr map_b]. rewrite close_den1, close_den0. apply den_free. intros n _.
          unfold names_of. rewrite map_app. rewrite bind_app by exact L2. rewrite map_length. auto.
      + rewrite close_den1, close_den0. apply den_free. intros n _. unfold names_of. rewrite map_app. rewrite bind_app by exact L2. rewrite map_length. auto.
  Qed.
End Meaning.

(** ** Collecting a chain *)
Lemma chain_close names e : forall d, chain (close_expr_vars names d e) = chain e.
Proof.
  induction e as [[m|s b m]|bs body t _ IHb|i ps body _|k xs _] using expr_ind'; intros d; cbn; auto.
  - destruct (position names m); auto.
  - destruct (d <=? s); auto.
  - destruct t; auto. rewrite map_map, IHb. auto.
Qed.
Lemma chain_open names e : forall d, chain (open_expr_vars names d e) = chain e.
Proof.
  induction e as [[m|s b m]|bs body t _ IHb|i ps body _|k xs _] using expr_ind'; intros d; cbn; auto.
  - destruct (s =? d); auto. destruct (d <? s); auto.
  - destruct t; auto. rewrite map_map, IHb. auto.
Qed.
Lemma chain_length_open names e : forall d, chain_length (open_expr_vars names d e) = chain_length e.
Proof.
  induction e as [[m|s b m]|bs body t _ IHb|i ps body _|k xs _] using expr_ind'; intros d; cbn; auto.
  - destruct (s =? d); auto. destruct (d <? s); auto.
  - destruct t; auto.
Qed.
Lemma chain_length_0 e : chain_length e = 0 -> chain e = [].
Proof. destruct e as [| ? ? [] | |]; cbn; auto. discriminate. Qed.
Lemma NoDup_app_l {A} (l m : list A) : NoDup (l ++ m) -> NoDup l.
Proof. induction l as [|x l IH]; intros H; [constructor|]. inversion H; subst. constructor; auto. intros K. apply H2, in_or_app; auto. Qed.
Lemma NoDup_app_r {A} (l m : list A) : NoDup (l ++ m) -> NoDup m.
Proof. induction l as [|x l IH]; intros H; auto. inversion H; auto. Qed.
Lemma NoDup_app_disjoint {A} (l m : list A) : NoDup (l ++ m) -> forall x, In x l -> ~ In x m.
Proof.
  induction l as [|y l IH]; intros H x Hx; [destruct Hx|]. inversion H; subst. destruct Hx as [->|Hx]; [|apply IH; auto].
  intros K. apply H2, in_or_app; auto.
Qed.
Lemma verify_named0 names scopes e : verify_in (names :: scopes) e = true -> named_at names 0 e.
Proof. exact (verify_named scopes e [] names). Qed.
Lemma close_open0 names scopes e : NoDup names -> verify_in (names :: scopes) e = true -> (forall n, In n names -> ~ In n (free_vars e)) ->
  close_expr_vars names 0 (open_expr_vars names 0 e) = e.
Proof.
  intros N V F. apply close_open; auto. pose proof (verify_named0 _ _ _ V) as H.
  pose proof (every_ref_forall (fun n _ v => match v with Free m => m <> n | Bound _ _ _ => True end) names e 0 (fun a Ha => proj2 (not_free_iff a e 0) (F a Ha))) as K.
  eapply every_ref_impl; [|exact (every_ref_and _ _ _ _ H K)]. intros d [m|s b m] [H1 H2]; auto. intros Hm. exact (H2 m Hm eq_refl).
Qed.
Lemma verify_let scopes bs body t : verify_in scopes (ELet bs body t) = true <->
  (forall b, In b bs -> verify_in (map b_name bs :: scopes) (b_expr b) = true) /\ verify_in (map b_name bs :: scopes) body = true.
Proof. cbn [verify_in]. rewrite andb_true_iff, forallb_forall. tauto. Qed.
Lemma fv_let n bs body t : In n (free_vars (ELet bs body t)) <-> (exists b, In b bs /\ In n (free_vars (b_expr b))) \/ In n (free_vars body).
Proof. cbn [free_vars]. rewrite in_app_iff, in_flat. tauto. Qed.

Definition group (bs : list (binding expr)) : list (binding expr) := map (map_b (open_expr_vars (map b_name bs) 0)) bs.
Lemma group_names bs : map b_name (group bs) = map b_name bs.
Proof. apply map_names. Qed.
Lemma close_group scopes bs body : NoDup (map b_name bs) -> verify_in scopes (ELet bs body OtherLet) = true ->
  (forall n, In n (map b_name bs) -> ~ In n (free_vars (ELet bs body OtherLet))) ->
  close_with_demand (group bs) (open_expr_vars (map b_name bs) 0 body) = ELet bs body OtherLet.
Proof.
  intros N V F. apply verify_let in V. destruct V as [V1 V2]. unfold close_with_demand. rewrite group_names. unfold group. rewrite map_map.
  rewrite (close_open0 _ scopes body N V2) by (intros n Hn K; apply (F n Hn), fv_let; auto).
  f_equal. apply map_id_forall, Forall_forall. intros b Hb. unfold map_b. cbn [b_name b_expr b_demand].
  rewrite (close_open0 _ scopes _ N (V1 b Hb)) by (intros n Hn K; apply (F n Hn), fv_let; eauto). apply mkBinding_eta.
Qed.

Lemma collect_chain_nest : forall k e scopes, chain_length e = k -> verify_in scopes e = true -> NoDup (map fst (chain e)) ->
  (forall n, In n (map fst (chain e)) -> ~ In n (free_vars e)) ->
  let '(bs, inner) := collect_chain k e in
  exists gs, List.length gs = k /\ bs = concat gs /\ e = nest gs inner /\ layered gs /\ chain_length inner = 0 /\
    (forall b, In b bs -> verify_in scopes (b_expr b) = true) /\ verify_in scopes inner = true /\
    map (fun b => (b_name b, b_demand b)) bs = chain e /\
    (forall b n, In b bs -> In n (free_vars (b_expr b)) -> In n (free_vars e) \/ In n (map fst (chain e))).
Proof.
  induction k as [|k IH]; intros e scopes Lk V N F.
  - cbn. exists []. split; auto. split; auto. split; auto. split; [cbn; auto|]. split; auto. split; [intros b []|]. split; auto.
    split; [symmetry; apply chain_length_0, Lk|]. intros b n [].
  - destruct e as [v|bs body t|i ps body|kd xs]; try discriminate. destruct t; try discriminate. cbn [collect_chain].
    injection Lk as Lk. cbn [chain] in N, F. rewrite map_app, map_map in N, F. cbn [fst] in N, F.
    pose proof (proj1 (verify_let _ _ _ _) V) as [V1 V2]. set (names := map b_name bs) in *.
    assert (Nn : NoDup names) by (eapply NoDup_app_l; eauto).
    assert (Fb : forall n, In n (free_vars (open_expr_vars names 0 body)) -> In n (free_vars body) \/ In n names).
    { intros n. apply fv_open, (verify_named0 _ scopes), V2. }
    specialize (IH (open_expr_vars names 0 body) scopes). rewrite chain_length_open, chain_open in IH. specialize (IH Lk (verify_open names body [] scopes V2) (NoDup_app_r _ _ N)).
    destruct (collect_chain k (open_expr_vars names 0 body)) as [rest inner]. destruct IH as (gs & L & -> & En & Ly & Ci & Vr & Vi & Sg & Fr).
    { intros n Hn K. apply Fb in K. destruct K as [K|K].
      - apply (F n); [apply in_or_app; auto|]. apply fv_let. auto.
      - eapply NoDup_app_disjoint; eauto. }
    fold (group bs). exists (group bs :: gs). split; [cbn; auto|]. split; [reflexivity|]. split.
    { cbn [nest fold_right]. fold (nest gs inner). rewrite <- En. symmetry. apply (close_group scopes); auto.
      intros n Hn. apply F, in_or_app. auto. }
    assert (Fg : forall b n, In b (group bs) -> In n (free_vars (b_expr b)) -> In n (free_vars (ELet bs body OtherLet)) \/ In n names).
    { intros b n Hb Hn. apply in_map_iff in Hb. destruct Hb as (c & <- & Hc). cbn [b_expr map_b] in Hn.
      apply fv_open in Hn; [|apply (verify_named0 _ scopes), V1, Hc]. destruct Hn as [Hn|Hn]; auto. left. apply fv_let. eauto. }
    assert (Ng : map b_name (concat gs) = map fst (chain body)) by (rewrite <- Sg, map_map; reflexivity).
    split.
    { cbn [layered]. split; [|split; auto].
      - intros b n Hb Hn K. unfold names_of in Hn. rewrite Ng in Hn. apply Fg in K; auto. destruct K as [K|K].
        + apply (F n); auto. apply in_or_app. auto.
        + eapply NoDup_app_disjoint; eauto.
      - intros n Hn. unfold names_of in *. rewrite Ng. rewrite group_names in Hn. eapply NoDup_app_disjoint; eauto. }
    split; auto. split.
    { intros b Hb. apply in_app_or in Hb. destruct Hb as [Hb|Hb]; auto. apply in_map_iff in Hb. destruct Hb as (c & <- & Hc). cbn [b_expr map_b].
      apply (verify_open names _ [] scopes), V1, Hc. }
    split; auto. split.
    { cbn [chain]. rewrite map_app. f_equal; auto. unfold group. rewrite map_map. reflexivity. }
    intros b n Hb Hn. cbn [chain]. rewrite map_app, map_map. cbn [fst]. fold names. rewrite in_app_iff. apply in_app_or in Hb. destruct Hb as [Hb|Hb].
    + apply Fg in Hn; auto. tauto.
    + apply Fr in Hn; auto. destruct Hn as [Hn|Hn]; auto. apply Fb in Hn. destruct Hn as [Hn|Hn]; auto. left. apply fv_let. auto.
Qed.
