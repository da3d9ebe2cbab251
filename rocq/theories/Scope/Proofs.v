(** Lemmas about scopes. *)
From Coq Require Import List Bool Arith String Lia.
From Verif.Scope Require Import Model Spec.
Import ListNotations.
Local Arguments Nat.ltb : simpl never.
Local Arguments Nat.leb : simpl never.
Local Arguments Nat.eqb : simpl never.

Section Ind.
  Variable P : expr -> Prop.
  Hypothesis Hvar : forall v, P (EVar v).
  Hypothesis Hlet : forall bs body t, Forall (fun b => P (b_expr b)) bs -> P body -> P (ELet bs body t).
  Hypothesis Hlam : forall i ps body, P body -> P (ELam i ps body).
  Hypothesis Hnode : forall k xs, Forall P xs -> P (ENode k xs).
  Fixpoint expr_ind' (e : expr) : P e :=
    match e with
    | EVar v => Hvar v
    | ELet bs body t =>
        Hlet bs body t
          ((fix go (l : list (binding expr)) : Forall (fun b => P (b_expr b)) l :=
              match l with
              | [] => Forall_nil _
              | b :: l' => Forall_cons b (expr_ind' (b_expr b)) (go l')
              end) bs) (expr_ind' body)
    | ELam i ps body => Hlam i ps body (expr_ind' body)
    | ENode k xs =>
        Hnode k xs ((fix go (l : list expr) : Forall P l :=
              match l with
              | [] => Forall_nil _
              | x :: l' => Forall_cons x (expr_ind' x) (go l')
              end) xs)
    end.
End Ind.

Lemma map_id_forall {A} (f : A -> A) l : Forall (fun x => f x = x) l -> map f l = l.
Proof. induction 1; cbn; congruence. Qed.
Lemma map_ext_forall {A B} (f g : A -> B) l : Forall (fun x => f x = g x) l -> map f l = map g l.
Proof. induction 1; cbn; congruence. Qed.
Lemma mkBinding_eta {T} (b : binding T) : mkBinding (b_name b) (b_expr b) (b_demand b) = b.
Proof. destruct b; reflexivity. Qed.
Lemma map_names {T U} (f : T -> U) bs : map b_name (map (map_b f) bs) = map b_name bs.
Proof. rewrite map_map. apply map_ext. reflexivity. Qed.

Lemma position_some names : forall n i, position names n = Some i -> nth_error names i = Some n.
Proof.
  induction names as [|x xs IH]; intros n i H; [discriminate|]. cbn in H.
  destruct (String.eqb_spec x n) as [->|Ne].
  - injection H as <-. reflexivity.
  - destruct (position xs n) as [j|] eqn:E; [|discriminate]. injection H as <-. cbn. auto.
Qed.
Lemma position_nodup names : NoDup names -> forall i n, nth_error names i = Some n -> position names n = Some i.
Proof.
  induction 1 as [|x xs Hx ND IH]; intros i n H; [destruct i; discriminate|]. cbn.
  destruct i as [|i]; cbn in H.
  - injection H as ->. rewrite String.eqb_refl. reflexivity.
  - destruct (String.eqb_spec x n) as [->|Ne].
    + exfalso. apply Hx. eapply nth_error_In, H.
    + rewrite (IH _ _ H). reflexivity.
Qed.
Lemma position_none names n : position names n = None <-> ~ In n names.
Proof.
  induction names as [|x xs IH]; cbn; [tauto|]. destruct (String.eqb_spec x n) as [->|Ne].
  - split; [discriminate|]. intros H. exfalso; apply H; auto.
  - destruct (position xs n) as [i|]; cbn.
    + split; [discriminate|]. intros H. assert (Some i = None) by (apply IH; tauto). discriminate.
    + split; auto. intros _ [K|K]; [congruence|]. apply IH in K; auto.
Qed.
Lemma bind_names_position {A} (dg : A) names : forall vs rho n,
  bind_names dg names vs rho n = match position names n with Some i => nth i vs dg | None => rho n end.
Proof.
  induction names as [|x xs IH]; intros vs rho n; cbn; auto.
  destruct (String.eqb x n).
  - destruct vs; reflexivity.
  - rewrite IH. destruct (position xs n); cbn; auto. destruct vs; cbn; auto. destruct n0; auto.
Qed.

(** ** Opening after closing *)
Lemma open_close names e : forall d, open_expr_vars names d (close_expr_vars names d e) = e.
Proof.
  induction e as [[n|s b n]|bs body t IHbs IHb|i ps body IHb|k xs IHxs] using expr_ind'; intros d.
  - cbn. destruct (position names n) as [i|] eqn:E; cbn; auto.
    rewrite Nat.eqb_refl, (position_some _ _ _ E). reflexivity.
  - cbn. destruct (Nat.leb_spec d s); cbn.
    + destruct (Nat.eqb_spec (s + 1) d); [lia|]. destruct (Nat.ltb_spec d (s + 1)); [|lia].
      replace (s + 1 - 1) with s by lia. reflexivity.
    + destruct (Nat.eqb_spec s d); [lia|]. destruct (Nat.ltb_spec d s); [lia|]. reflexivity.
  - cbn. f_equal; auto. rewrite map_map. apply map_id_forall. eapply Forall_impl; [|exact IHbs].
    intros b H. unfold map_b. cbn. rewrite H. apply mkBinding_eta.
  - cbn. f_equal; auto.
  - cbn. f_equal. rewrite map_map. apply map_id_forall. eapply Forall_impl; [|exact IHxs]. auto.
Qed.

Lemma every_ref_impl (P Q : nat -> var -> Prop) e : forall d, (forall d v, P d v -> Q d v) -> every_ref P d e -> every_ref Q d e.
Proof.
  induction e as [v|bs body t IHbs IHb|i ps body IHb|k xs IHxs] using expr_ind'; intros d H; cbn; auto.
  - intros [H1 H2]. split; auto. clear - H H1 IHbs. induction IHbs; cbn in *; auto. destruct H1; split; auto.
  - intros H1. induction IHxs; cbn in *; auto. destruct H1; split; auto.
Qed.
Lemma every_ref_bs P d (bs : list (binding expr)) : fold_right (fun b acc => every_ref P d (b_expr b) /\ acc) True bs <->
  Forall (fun b => every_ref P d (b_expr b)) bs.
Proof. induction bs; cbn; [split; auto|]. rewrite IHbs. split; [intros []; auto|]. inversion 1; auto. Qed.
Lemma every_ref_xs P d xs : fold_right (fun x acc => every_ref P d x /\ acc) True xs <-> Forall (every_ref P d) xs.
Proof. induction xs; cbn; [split; auto|]. rewrite IHxs. split; [intros []; auto|]. inversion 1; auto. Qed.

(** Shifting a predicate's depth. *)
Lemma every_ref_and P Q e : forall d, every_ref P d e -> every_ref Q d e -> every_ref (fun d v => P d v /\ Q d v) d e.
Proof.
  induction e as [v|bs body t IHbs IHb|i ps body IHb|k xs IHxs] using expr_ind'; intros d; cbn; auto.
  - intros [H1 H2] [H3 H4]. split; auto. clear - H1 H3 IHbs. induction IHbs; cbn in *; auto.
    destruct H1, H3; split; auto.
  - intros H1 H2. induction IHxs; cbn in *; auto. destruct H1, H2; split; auto.
Qed.
Lemma every_ref_forall {A} (P : A -> nat -> var -> Prop) (l : list A) e : forall d,
  (forall a, In a l -> every_ref (P a) d e) -> every_ref (fun d v => forall a, In a l -> P a d v) d e.
Proof.
  induction l as [|a l IH]; intros d H.
  - eapply every_ref_impl; [|]. 2:{ instantiate (1 := fun _ _ => True). clear.
      revert d. induction e as [v|bs body t IHbs IHb|i ps body IHb|k xs IHxs] using expr_ind'; intros d; cbn; auto.
      - split; auto. induction IHbs; cbn; auto.
      - induction IHxs; cbn; auto. }
    intros; contradiction.
  - eapply every_ref_impl; [|apply every_ref_and; [apply (H a); left; reflexivity|apply IH; intros; apply H; right; auto]].
    intros d' v [H1 H2] a' [<-|Ha]; auto.
Qed.

(** ** Closing after opening *)
Lemma close_open names e : NoDup names -> forall d,
  every_ref (fun d' v => match v with
    | Bound s b n => s = d' -> exists x, nth_error names b = Some x /\ n = Some x
    | Free m => ~ In m names end) d e ->
  close_expr_vars names d (open_expr_vars names d e) = e.
Proof.
  intros ND. induction e as [[n|s b n]|bs body t IHbs IHb|i ps body IHb|k xs IHxs] using expr_ind'; intros d H.
  - cbn in *. apply position_none in H. rewrite H. reflexivity.
  - cbn in *. destruct (Nat.eqb_spec s d) as [->|Ne].
    + destruct H as (x & H1 & ->); auto. rewrite H1. cbn. rewrite (position_nodup _ ND _ _ H1). reflexivity.
    + destruct (Nat.ltb_spec d s); cbn.
      * destruct (Nat.leb_spec d (s - 1)); [|lia]. replace (s - 1 + 1) with s by lia. reflexivity.
      * destruct (Nat.leb_spec d s); [lia|]. reflexivity.
  - cbn in *. destruct H as [H1 H2]. f_equal; auto. rewrite map_map. apply map_id_forall.
    apply every_ref_bs in H1. rewrite Forall_forall in *. intros b Hb. unfold map_b. cbn. rewrite IHbs; auto. apply mkBinding_eta.
  - cbn in *. f_equal; auto.
  - cbn in *. f_equal. rewrite map_map. apply map_id_forall. apply every_ref_xs in H.
    rewrite Forall_forall in *. auto.
Qed.

(** ** Meaning *)
Section Meaning.
  Variable I : interp.
  Notation denI := (den I).
  Notation lk := (lookup I).

  Lemma lookup_app_lt pre env s b : s < List.length pre -> lk (pre ++ env) s b = lk pre s b.
  Proof. intros H. unfold lookup. rewrite nth_error_app1; auto. Qed.
  Lemma lookup_app_ge pre env s b : List.length pre <= s -> lk (pre ++ env) s b = lk env (s - List.length pre) b.
  Proof. intros H. unfold lookup. rewrite nth_error_app2; auto. Qed.
  Lemma lookup_cons_S vs env s b : lk (vs :: env) (S s) b = lk env s b.
  Proof. reflexivity. Qed.

  (** The value only depends on the values of the references. *)
  Lemma den_ext e : forall rho rho' pre env env',
    every_ref (fun d v => match v with
      | Free n => rho n = rho' n
      | Bound s b _ => d <= s -> lk env (s - d) b = lk env' (s - d) b end) (List.length pre) e ->
    denI rho (pre ++ env) e = denI rho' (pre ++ env') e.
  Proof.
    induction e as [[n|s b n]|bs body t IHbs IHb|i ps body IHb|k xs IHxs] using expr_ind'; intros rho rho' pre env env' H; cbn in *; auto.
    - destruct (Nat.leb_spec (List.length pre) s).
      + rewrite !lookup_app_ge by lia. auto.
      + rewrite !lookup_app_lt by lia. auto.
    - destruct H as [H1 H2]. apply i_let_ext; intros vs.
      + apply map_ext_forall. apply every_ref_bs in H1. rewrite Forall_forall in *. intros b Hb.
        apply (IHbs b Hb rho rho' (vs :: pre)). auto.
      + apply (IHb rho rho' (vs :: pre)). auto.
    - apply i_lam_ext. intros vs. apply (IHb rho rho' (vs :: pre)). auto.
    - f_equal. apply map_ext_forall. apply every_ref_xs in H. rewrite Forall_forall in *. auto.
  Qed.

  Lemma close_den names vs e : forall rho pre env,
    denI rho (pre ++ vs :: env) (close_expr_vars names (List.length pre) e) =
    denI (bind_names (i_dangling I) names vs rho) (pre ++ env) e.
  Proof.
    induction e as [[n|s b n]|bs body t IHbs IHb|i ps body IHb|k xs IHxs] using expr_ind'; intros rho pre env.
    - cbn. rewrite bind_names_position. destruct (position names n); cbn; auto.
      rewrite lookup_app_ge by lia. rewrite Nat.sub_diag. reflexivity.
    - cbn. destruct (Nat.leb_spec (List.length pre) s); cbn.
      + rewrite !lookup_app_ge by lia. replace (s + 1 - List.length pre) with (S (s - List.length pre)) by lia. reflexivity.
      + rewrite !lookup_app_lt by lia. reflexivity.
    - cbn. rewrite map_names. apply i_let_ext; intros ws.
      + rewrite map_map. apply map_ext_forall. eapply Forall_impl; [|exact IHbs]. intros b Hb. apply (Hb rho (ws :: pre)).
      + apply (IHb rho (ws :: pre)).
    - cbn. apply i_lam_ext. intros ws. apply (IHb rho (ws :: pre)).
    - cbn. f_equal. rewrite map_map. apply map_ext_forall. eapply Forall_impl; [|exact IHxs]. auto.
  Qed.

  Lemma bind_free_den names vs e : forall rho pre env,
    denI rho (pre ++ vs :: env) (bind_free_vars names (List.length pre) e) =
    denI (bind_names (i_dangling I) names vs rho) (pre ++ vs :: env) e.
  Proof.
    induction e as [[n|s b n]|bs body t IHbs IHb|i ps body IHb|k xs IHxs] using expr_ind'; intros rho pre env.
    - cbn. rewrite bind_names_position. destruct (position names n); cbn; auto.
      rewrite lookup_app_ge by lia. rewrite Nat.sub_diag. reflexivity.
    - reflexivity.
    - cbn. rewrite map_names. apply i_let_ext; intros ws.
      + rewrite map_map. apply map_ext_forall. eapply Forall_impl; [|exact IHbs]. intros b Hb. apply (Hb rho (ws :: pre)).
      + apply (IHb rho (ws :: pre)).
    - cbn. apply i_lam_ext. intros ws. apply (IHb rho (ws :: pre)).
    - cbn. f_equal. rewrite map_map. apply map_ext_forall. eapply Forall_impl; [|exact IHxs]. auto.
  Qed.

  Lemma open_den names e : forall rho pre env,
    every_ref (fun d v => match v with Bound s b _ => s = d -> b < List.length names | Free _ => True end) (List.length pre) e ->
    denI rho (pre ++ env) (open_expr_vars names (List.length pre) e) =
    denI rho (pre ++ map rho names :: env) e.
  Proof.
    induction e as [[n|s b n]|bs body t IHbs IHb|i ps body IHb|k xs IHxs] using expr_ind'; intros rho pre env H.
    - reflexivity.
    - cbn in *. destruct (Nat.eqb_spec s (List.length pre)) as [->|Ne].
      + rewrite lookup_app_ge by lia. rewrite Nat.sub_diag. unfold lookup. cbn.
        specialize (H eq_refl). destruct (nth_error names b) as [x|] eqn:E.
        2:{ apply nth_error_None in E. lia. }
        symmetry. apply nth_error_nth. rewrite nth_error_map, E. reflexivity.
      + destruct (Nat.ltb_spec (List.length pre) s); cbn.
        * rewrite !lookup_app_ge by lia. replace (s - List.length pre) with (S (s - 1 - List.length pre)) by lia. reflexivity.
        * rewrite !lookup_app_lt by lia. reflexivity.
    - cbn in *. destruct H as [H1 H2]. rewrite map_names. apply i_let_ext; intros ws.
      + rewrite map_map. apply map_ext_forall. apply every_ref_bs in H1. rewrite Forall_forall in *.
        intros b Hb. apply (IHbs b Hb rho (ws :: pre)); auto.
      + apply (IHb rho (ws :: pre)); auto.
    - cbn in *. apply i_lam_ext. intros ws. apply (IHb rho (ws :: pre)); auto.
    - cbn in *. f_equal. rewrite map_map. apply map_ext_forall. apply every_ref_xs in H. rewrite Forall_forall in *. auto.
  Qed.

  Lemma succ_den vs e : forall rho pre env,
    denI rho (pre ++ vs :: env) (succ_at (List.length pre) e) = denI rho (pre ++ env) e.
  Proof.
    induction e as [[n|s b n]|bs body t IHbs IHb|i ps body IHb|k xs IHxs] using expr_ind'; intros rho pre env.
    - reflexivity.
    - cbn. destruct (Nat.leb_spec (List.length pre) s); cbn.
      + rewrite !lookup_app_ge by lia. replace (s + 1 - List.length pre) with (S (s - List.length pre)) by lia. reflexivity.
      + rewrite !lookup_app_lt by lia. reflexivity.
    - cbn. rewrite map_names. apply i_let_ext; intros ws.
      + rewrite map_map. apply map_ext_forall. eapply Forall_impl; [|exact IHbs]. intros b Hb. apply (Hb rho (ws :: pre)).
      + apply (IHb rho (ws :: pre)).
    - cbn. apply i_lam_ext. intros ws. apply (IHb rho (ws :: pre)).
    - cbn. f_equal. rewrite map_map. apply map_ext_forall. eapply Forall_impl; [|exact IHxs]. auto.
  Qed.

  Lemma substs_den sub e : forall rho pre env,
    (forall n r, sub n = Some r -> closed_under 0 r) ->
    denI rho (pre ++ env) (substs_free sub e) =
    denI (fun n => match sub n with Some r => denI rho [] r | None => rho n end) (pre ++ env) e.
  Proof.
    intros rho pre env Hs. revert pre env.
    induction e as [[n|s b n]|bs body t IHbs IHb|i ps body IHb|k xs IHxs] using expr_ind'; intros pre env.
    - cbn. destruct (sub n) as [r|] eqn:E; auto.
      change (denI rho ([] ++ (pre ++ env)) r = denI rho ([] ++ []) r). apply den_ext. cbn [List.length].
      eapply every_ref_impl; [|exact (Hs _ _ E)]. intros d [m|s b m]; auto. lia.
    - reflexivity.
    - cbn. rewrite map_names. apply i_let_ext; intros ws.
      + rewrite map_map. apply map_ext_forall. eapply Forall_impl; [|exact IHbs]. intros b Hb. apply (Hb (ws :: pre)).
      + apply (IHb (ws :: pre)).
    - cbn. apply i_lam_ext. intros ws. apply (IHb (ws :: pre)).
    - cbn. f_equal. rewrite map_map. apply map_ext_forall. eapply Forall_impl; [|exact IHxs]. auto.
  Qed.
End Meaning.

(** ** Shifting *)
Lemma sequence_some {A} (l : list A) : sequence (map Some l) = Some l.
Proof. induction l; cbn; auto. rewrite IHl. reflexivity. Qed.
Lemma sequence_forall2 {A} (l : list (option A)) l' : sequence l = Some l' <-> Forall2 (fun x y => x = Some y) l l'.
Proof.
  revert l'. induction l as [|x l IH]; intros l'; cbn.
  - split; [intros H; injection H as <-; constructor|]. inversion 1; reflexivity.
  - destruct x as [a|]; [|split; [discriminate|inversion 1; discriminate]].
    destruct (sequence l) as [r|] eqn:E.
    + split.
      * intros H; injection H as <-. constructor; auto. apply IH. reflexivity.
      * inversion 1; subst. injection H2 as <-. apply IH in H4. congruence.
    + split; [discriminate|]. inversion 1; subst. apply IH in H4. discriminate.
Qed.

Lemma pred_succ e : forall d, pred_at d (succ_at d e) = Some e.
Proof.
  induction e as [[n|s b n]|bs body t IHbs IHb|i ps body IHb|k xs IHxs] using expr_ind'; intros d.
  - reflexivity.
  - cbn. destruct (Nat.leb_spec d s); cbn.
    + destruct (Nat.leb_spec d (s + 1)); [|lia]. destruct (Nat.eqb_spec (s + 1) 0); [lia|]. replace (s + 1 - 1) with s by lia. reflexivity.
    + destruct (Nat.leb_spec d s); [lia|]. reflexivity.
  - cbn. rewrite IHb. rewrite map_map. rewrite (map_ext_forall _ Some).
    + rewrite sequence_some. reflexivity.
    + eapply Forall_impl; [|exact IHbs]. intros b H. unfold seq_b, map_b. cbn. rewrite H. cbn. rewrite mkBinding_eta. reflexivity.
  - cbn. rewrite IHb. reflexivity.
  - cbn. rewrite map_map. rewrite (map_ext_forall _ Some).
    + rewrite sequence_some. reflexivity.
    + eapply Forall_impl; [|exact IHxs]. auto.
Qed.

Lemma succ_pred e : forall d, every_ref (fun d' v => match v with Bound s _ _ => s <> d' | Free _ => True end) d e ->
  exists e', pred_at d e = Some e' /\ succ_at d e' = e.
Proof.
  induction e as [[n|s b n]|bs body t IHbs IHb|i ps body IHb|k xs IHxs] using expr_ind'; intros d H.
  - exists (EVar (Free n)). auto.
  - cbn in *. destruct (Nat.leb_spec d s).
    + destruct (Nat.eqb_spec s 0); [lia|]. eexists; split; [reflexivity|]. cbn.
      destruct (Nat.leb_spec d (s - 1)); [|lia]. replace (s - 1 + 1) with s by lia. reflexivity.
    + eexists; split; [reflexivity|]. cbn. destruct (Nat.leb_spec d s); [lia|reflexivity].
  - cbn in *. destruct H as [H1 H2]. destruct (IHb _ H2) as (body' & E1 & E2). rewrite E1.
    assert (K : exists bs', sequence (map (fun b => seq_b (map_b (pred_at (S d)) b)) bs) = Some bs' /\ map (map_b (succ_at (S d))) bs' = bs).
    { apply every_ref_bs in H1. clear - H1 IHbs. induction IHbs as [|b bs Hb _ IH]; cbn.
      - exists []. auto.
      - inversion H1; subst. destruct (Hb _ H2) as (e' & E1 & E2). destruct (IH H3) as (bs' & E3 & E4).
        unfold seq_b at 1, map_b at 1. cbn. rewrite E1, E3. cbn. eexists; split; [reflexivity|]. cbn. unfold map_b at 1. cbn.
        rewrite E2, E4, mkBinding_eta. reflexivity. }
    destruct K as (bs' & E3 & E4). rewrite E3. eexists; split; [reflexivity|]. cbn. congruence.
  - cbn in *. destruct (IHb _ H) as (e' & E1 & E2). rewrite E1. eexists; split; [reflexivity|]. cbn. congruence.
  - cbn in *. apply every_ref_xs in H.
    assert (K : exists xs', sequence (map (pred_at d) xs) = Some xs' /\ map (succ_at d) xs' = xs).
    { clear - H IHxs. induction IHxs as [|x xs Hx _ IH]; cbn.
      - exists []. auto.
      - inversion H; subst. destruct (Hx _ H2) as (e' & E1 & E2). destruct (IH H3) as (xs' & E3 & E4).
        rewrite E1, E3. eexists; split; [reflexivity|]. cbn. congruence. }
    destruct K as (xs' & E3 & E4). rewrite E3. eexists; split; [reflexivity|]. cbn. congruence.
Qed.

Lemma succ_refs (P Q : nat -> var -> Prop) e : forall d,
  (forall d n, P d (Free n) -> Q d (Free n)) ->
  (forall d' s b n, P d' (Bound s b n) -> Q d' (if d' <=? s then Bound (s + 1) b n else Bound s b n)) ->
  every_ref P d e -> every_ref Q d (succ_at d e).
Proof.
  intros d HF HB. revert d.
  induction e as [[n|s b n]|bs body t IHbs IHb|i ps body IHb|k xs IHxs] using expr_ind'; intros d H; cbn in *; auto.
  - specialize (HB d s b n H). destruct (d <=? s); auto.
  - destruct H as [H1 H2]. split; auto. apply every_ref_bs. apply every_ref_bs in H1. apply Forall_map.
    rewrite Forall_forall in *. intros b Hb. cbn. auto.
  - apply every_ref_xs. apply every_ref_xs in H. apply Forall_map. rewrite Forall_forall in *. auto.
Qed.

(** ** The verifier *)
Lemma verify_closed scopes e : verify_in scopes e = true -> forall d n, List.length scopes = d + n ->
  every_ref (fun d v => match v with Bound s _ _ => s < d + n | Free _ => True end) d e.
Proof.
  revert scopes. induction e as [[x|s b x]|bs body t IHbs IHb|i ps body IHb|k xs IHxs] using expr_ind'; intros scopes H d n L; cbn in *; auto.
  - destruct (nth_error scopes s) as [ns|] eqn:E; [|discriminate]. assert (s < List.length scopes) by (apply nth_error_Some; congruence). lia.
  - apply andb_prop in H. destruct H as [H1 H2]. rewrite forallb_forall in H1. split.
    + apply every_ref_bs. rewrite Forall_forall in *. intros b Hb. eapply IHbs; eauto. cbn. lia.
    + eapply IHb; eauto. cbn. lia.
  - eapply IHb; eauto. cbn. lia.
  - apply every_ref_xs. rewrite forallb_forall in H. rewrite Forall_forall in *. intros x Hx. eapply IHxs; eauto.
Qed.

Lemma verify_close names e : forall pre scopes,
  verify_in (pre ++ scopes) e = true ->
  verify_in (pre ++ names :: scopes) (close_expr_vars names (List.length pre) e) = true.
Proof.
  induction e as [[x|s b x]|bs body t IHbs IHb|i ps body IHb|k xs IHxs] using expr_ind'; intros pre scopes H.
  - cbn in *. destruct (position names x) as [j|] eqn:E; cbn; auto.
    rewrite nth_error_app2, Nat.sub_diag by lia. cbn. rewrite (position_some _ _ _ E). apply String.eqb_refl.
  - cbn in *. destruct (Nat.leb_spec (List.length pre) s); cbn.
    + rewrite nth_error_app2 in * by lia. replace (s + 1 - List.length pre) with (S (s - List.length pre)) by lia. cbn. auto.
    + rewrite nth_error_app1 in * by lia. auto.
  - cbn in *. apply andb_prop in H. destruct H as [H1 H2]. rewrite map_names. apply andb_true_intro. split.
    + rewrite forallb_forall in *. intros b Hb. apply in_map_iff in Hb. destruct Hb as (b0 & <- & Hb). cbn.
      rewrite Forall_forall in IHbs. apply (IHbs _ Hb (map b_name bs :: pre)). auto.
    + apply (IHb (map b_name bs :: pre)). auto.
  - cbn in *. apply (IHb (ps :: pre)). auto.
  - cbn in *. rewrite forallb_forall in *. intros x Hx. apply in_map_iff in Hx. destruct Hx as (x0 & <- & Hx).
    rewrite Forall_forall in IHxs. auto.
Qed.

Lemma verify_open names e : forall pre scopes,
  verify_in (pre ++ names :: scopes) e = true ->
  verify_in (pre ++ scopes) (open_expr_vars names (List.length pre) e) = true.
Proof.
  induction e as [[x|s b x]|bs body t IHbs IHb|i ps body IHb|k xs IHxs] using expr_ind'; intros pre scopes H.
  - reflexivity.
  - cbn in *. destruct (Nat.eqb_spec s (List.length pre)); cbn; auto. destruct (Nat.ltb_spec (List.length pre) s); cbn.
    + rewrite nth_error_app2 in * by lia. replace (s - List.length pre) with (S (s - 1 - List.length pre)) in H by lia. cbn in H. auto.
    + rewrite nth_error_app1 in * by lia. auto.
  - cbn in *. apply andb_prop in H. destruct H as [H1 H2]. rewrite map_names. apply andb_true_intro. split.
    + rewrite forallb_forall in *. intros b Hb. apply in_map_iff in Hb. destruct Hb as (b0 & <- & Hb). cbn.
      rewrite Forall_forall in IHbs. apply (IHbs _ Hb (map b_name bs :: pre)). auto.
    + apply (IHb (map b_name bs :: pre)). auto.
  - cbn in *. apply (IHb (ps :: pre)). auto.
  - cbn in *. rewrite forallb_forall in *. intros x Hx. apply in_map_iff in Hx. destruct Hx as (x0 & <- & Hx).
    rewrite Forall_forall in IHxs. auto.
Qed.

Lemma verify_named scopes e : forall pre names, verify_in (pre ++ names :: scopes) e = true ->
  every_ref (fun d v => match v with
    | Bound s b n => s = d -> exists x, nth_error names b = Some x /\ n = Some x
    | Free _ => True end) (List.length pre) e.
Proof.
  induction e as [[x|s b x]|bs body t IHbs IHb|i ps body IHb|k xs IHxs] using expr_ind'; intros pre names H; cbn in *; auto.
  - intros ->. rewrite nth_error_app2, Nat.sub_diag in H by lia. cbn in H. destruct (nth_error names b) as [y|]; [|discriminate].
    exists y. split; auto. destruct x as [x|]; [|discriminate]. cbn in H. apply String.eqb_eq in H. congruence.
  - apply andb_prop in H. destruct H as [H1 H2]. rewrite forallb_forall in H1. split.
    + apply every_ref_bs. rewrite Forall_forall in *. intros b Hb. apply (IHbs _ Hb (map b_name bs :: pre)). cbn. auto.
    + apply (IHb (map b_name bs :: pre)). auto.
  - apply (IHb (ps :: pre)). auto.
  - apply every_ref_xs. rewrite forallb_forall in H. rewrite Forall_forall in *. auto.
Qed.
