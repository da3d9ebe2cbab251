(** Verification, free names and the number of calls after applying inlinable functions. *)
From Coq Require Import String List Bool Arith Lia.
From Verif.Scope Require Import Model Spec Proofs Props.
From Verif.Letrec Require Import Proofs.
From Verif.Fuse Require Import Model Spec Proofs.
From Verif.Inline Require Import Model Spec Proofs.
Import ListNotations.
Local Open Scope list_scope.
Local Open Scope nat_scope.

(** ** Verification *)
Lemma verify_succ ns e : forall pre scopes, verify_in (pre ++ scopes) e = true -> verify_in (pre ++ ns :: scopes) (succ_at (List.length pre) e) = true.
Proof.
  induction e as [[n|s b n]|bs body t IHbs IHb|i ps body IHb|k xs IHxs] using expr_ind'; intros pre scopes V; cbn [succ_at]; auto.
  - cbn [verify_in] in V. destruct (Nat.leb_spec (List.length pre) s) as [H|H]; cbn [verify_in].
    + rewrite nth_error_app2 by lia. rewrite nth_error_app2 in V by lia. replace (s + 1 - List.length pre) with (S (s - List.length pre)) by lia. exact V.
    + rewrite nth_error_app1 by lia. rewrite nth_error_app1 in V by lia. exact V.
  - cbn [verify_in] in *. rewrite map_names. apply andb_prop in V. destruct V as [V1 V2]. apply andb_true_intro. split.
    + apply forallb_forall. intros b' Hb'. apply in_map_iff in Hb'. destruct Hb' as (b & <- & Hb). cbn [b_expr map_b]. rewrite Forall_forall in IHbs.
      apply (IHbs b Hb (map b_name bs :: pre) scopes). rewrite forallb_forall in V1. apply V1, Hb.
    + apply (IHb (map b_name bs :: pre) scopes), V2.
  - cbn [verify_in] in *. apply (IHb (ps :: pre) scopes), V.
  - cbn [verify_in] in *. apply forallb_forall. intros x' Hx'. apply in_map_iff in Hx'. destruct Hx' as (x & <- & Hx). rewrite Forall_forall in IHxs.
    apply IHxs; auto. rewrite forallb_forall in V. apply V, Hx.
Qed.
Lemma verify_iter_succ e scopes : verify_in scopes e = true -> forall pre, verify_in (pre ++ scopes) (Nat.iter (List.length pre) succ e) = true.
Proof.
  intros V. induction pre as [|ns pre IH]; [exact V|].
  change (Nat.iter (List.length (ns :: pre)) succ e) with (succ (Nat.iter (List.length pre) succ e)). apply (verify_succ ns _ [] (pre ++ scopes)), IH.
Qed.
Lemma verify_substs m scopes e : (forall n r, assoc m n = Some r -> verify_in scopes r = true) -> forall pre,
  verify_in (pre ++ scopes) e = true -> verify_in (pre ++ scopes) (substs_depth m (List.length pre) e) = true.
Proof.
  intros Hm. induction e as [[n|s b n]|bs body t IHbs IHb|i ps body IHb|k xs IHxs] using expr_ind'; intros pre V; cbn [substs_depth]; auto.
  - destruct (assoc m n) as [r|] eqn:E; auto. apply verify_iter_succ. eauto.
  - cbn [verify_in] in *. rewrite map_names. apply andb_prop in V. destruct V as [V1 V2]. apply andb_true_intro. split.
    + apply forallb_forall. intros b' Hb'. apply in_map_iff in Hb'. destruct Hb' as (b & <- & Hb). cbn [b_expr map_b]. rewrite Forall_forall in IHbs.
      apply (IHbs b Hb (map b_name bs :: pre)). rewrite forallb_forall in V1. apply V1, Hb.
    + apply (IHb (map b_name bs :: pre)), V2.
  - cbn [verify_in] in *. apply (IHb (ps :: pre)), V.
  - cbn [verify_in] in *. apply forallb_forall. intros x' Hx'. apply in_map_iff in Hx'. destruct Hx' as (x & <- & Hx). rewrite Forall_forall in IHxs.
    apply IHxs; auto. rewrite forallb_forall in V. apply V, Hx.
Qed.

(** ** Free names *)
Definition came (m : list (string * expr)) (n : string) (l : list string) : Prop :=
  (In n l /\ assoc m n = None) \/ (exists x r, In x l /\ assoc m x = Some r /\ In n (free_vars r)).
Lemma came_incl m n l l' : incl l l' -> came m n l -> came m n l'.
Proof. intros I [(H1 & H2)|(x & r & H1 & H2 & H3)]; [left|right; exists x, r]; auto. Qed.
Lemma incl_flat {A B} (f : A -> list B) l x : In x l -> incl (f x) (flat_map f l).
Proof. intros H y Hy. apply in_flat_map. eauto. Qed.
Lemma fv_substs m n e : forall d, In n (free_vars (substs_depth m d e)) -> came m n (free_vars e).
Proof.
  induction e as [[x|s b x]|bs body t IHbs IHb|i ps body IHb|k xs IHxs] using expr_ind'; intros d H; cbn [substs_depth free_vars] in *.
  - destruct (assoc m x) as [r|] eqn:E.
    + rewrite fv_iter_succ in H. right. exists x, r. cbn. auto.
    + cbn in H. destruct H as [<-|[]]. left. cbn. auto.
  - destruct H.
  - apply in_app_iff in H. destruct H as [H|H].
    + apply in_flat_map in H. destruct H as (b' & Hb' & H). apply in_map_iff in Hb'. destruct Hb' as (b & <- & Hb). rewrite Forall_forall in IHbs.
      eapply came_incl; [|apply (IHbs b Hb _ H)]. apply incl_appl. apply (incl_flat (fun b => free_vars (b_expr b)) bs b Hb).
    + eapply came_incl; [|apply (IHb _ H)]. apply incl_appr, incl_refl.
  - apply (IHb _ H).
  - apply in_flat_map in H. destruct H as (x' & Hx' & H). apply in_map_iff in Hx'. destruct Hx' as (x & <- & Hx). rewrite Forall_forall in IHxs.
    eapply came_incl; [|apply (IHxs x Hx _ H)]. apply (incl_flat free_vars xs x Hx).
Qed.

(** ** The number of calls *)
Lemma calls_walk (f : expr -> expr) (bs : list (binding expr)) : map (fun b => calls (b_expr b)) (map (map_b f) bs) = map (fun b => calls (f (b_expr b))) bs.
Proof. rewrite map_map. apply map_ext. reflexivity. Qed.
Lemma calls_succ e : forall d, calls (succ_at d e) = calls e.
Proof.
  induction e as [[x|s b x]|bs body t IHbs IHb|i ps body IHb|k xs IHxs] using expr_ind'; intros d; cbn [succ_at calls]; auto.
  - destruct (d <=? s); reflexivity.
  - rewrite IHb, calls_walk. do 2 f_equal. apply map_ext_forall. eapply Forall_impl; [|exact IHbs]. cbn. auto.
  - replace (map calls (map (succ_at d) xs)) with (map calls xs); [reflexivity|]. rewrite map_map. apply map_ext_forall. eapply Forall_impl; [|exact IHxs]. cbn. auto.
Qed.
Lemma calls_iter_succ d e : calls (Nat.iter d succ e) = calls e.
Proof. induction d as [|d IH]; auto. change (calls (succ (Nat.iter d succ e)) = calls e). unfold succ at 1. rewrite calls_succ. exact IH. Qed.
Lemma calls_open names e : forall d, calls (open_expr_vars names d e) = calls e.
Proof.
  induction e as [[x|s b x]|bs body t IHbs IHb|i ps body IHb|k xs IHxs] using expr_ind'; intros d; cbn [open_expr_vars calls]; auto.
  - destruct (s =? d); [reflexivity|]. destruct (d <? s); reflexivity.
  - rewrite IHb, calls_walk. do 2 f_equal. apply map_ext_forall. eapply Forall_impl; [|exact IHbs]. cbn. auto.
  - replace (map calls (map (open_expr_vars names d) xs)) with (map calls xs); [reflexivity|]. rewrite map_map. apply map_ext_forall. eapply Forall_impl; [|exact IHxs]. cbn. auto.
Qed.
Lemma calls_close names e : forall d, calls (close_expr_vars names d e) = calls e.
Proof.
  induction e as [[x|s b x]|bs body t IHbs IHb|i ps body IHb|k xs IHxs] using expr_ind'; intros d; cbn [close_expr_vars calls]; auto.
  - destruct (position names x); reflexivity.
  - destruct (d <=? s); reflexivity.
  - rewrite IHb, calls_walk. do 2 f_equal. apply map_ext_forall. eapply Forall_impl; [|exact IHbs]. cbn. auto.
  - replace (map calls (map (close_expr_vars names d) xs)) with (map calls xs); [reflexivity|]. rewrite map_map. apply map_ext_forall. eapply Forall_impl; [|exact IHxs]. cbn. auto.
Qed.
Definition weight (m : list (string * expr)) (n : string) : nat := match assoc m n with Some r => calls r | None => 0 end.
Lemma list_sum_app l l' : list_sum (l ++ l') = list_sum l + list_sum l'.
Proof. induction l as [|x l IH]; cbn; auto. unfold list_sum in *. lia. Qed.
Lemma list_sum_flat {A B} (f : B -> nat) (g : A -> list B) l : list_sum (map f (flat_map g l)) = list_sum (map (fun x => list_sum (map f (g x))) l).
Proof. induction l as [|x l IH]; cbn; auto. rewrite map_app, list_sum_app, IH. reflexivity. Qed.
Lemma list_sum_plus {A} (f g : A -> nat) l : list_sum (map (fun x => f x + g x) l) = list_sum (map f l) + list_sum (map g l).
Proof. induction l as [|x l IH]; cbn; auto. unfold list_sum in *. lia. Qed.
Lemma list_sum_mono {A} (f g : A -> nat) l : (forall x, In x l -> f x <= g x) -> list_sum (map f l) <= list_sum (map g l).
Proof. induction l as [|x l IH]; cbn; intros H; auto. unfold list_sum in *. pose proof (H x (or_introl eq_refl)). specialize (IH (fun y Hy => H y (or_intror Hy))). lia. Qed.
Lemma calls_substs m e : forall d, calls (substs_depth m d e) <= calls e + list_sum (map (weight m) (free_vars e)).
Proof.
  induction e as [[x|s b x]|bs body t IHbs IHb|i ps body IHb|k xs IHxs] using expr_ind'; intros d; cbn [substs_depth calls free_vars map]; auto.
  - unfold weight, list_sum. cbn. destruct (assoc m x); [rewrite calls_iter_succ|]; cbn; lia.
  - specialize (IHb (S d)). rewrite calls_walk, map_app, list_sum_app, list_sum_flat.
    assert (list_sum (map (fun b => calls (substs_depth m (S d) (b_expr b))) bs) <=
      list_sum (map (fun b => calls (b_expr b)) bs) + list_sum (map (fun b => list_sum (map (weight m) (free_vars (b_expr b)))) bs)); [|lia].
    rewrite <- list_sum_plus. apply list_sum_mono. rewrite Forall_forall in IHbs. intros b Hb. apply IHbs, Hb.
  - rewrite map_map, list_sum_flat.
    assert (list_sum (map (fun x => calls (substs_depth m d x)) xs) <=
      list_sum (map calls xs) + list_sum (map (fun x => list_sum (map (weight m) (free_vars x))) xs)).
    { rewrite <- list_sum_plus. apply list_sum_mono. rewrite Forall_forall in IHxs. intros x Hx. apply IHxs, Hx. }
    destruct k; lia.
Qed.
Lemma weight_cons p r m n : weight ((p, r) :: m) n <= (if string_dec n p then calls r else 0) + weight m n.
Proof. unfold weight. cbn. destruct (String.eqb_spec p n), (string_dec n p); try congruence; lia. Qed.
Lemma weight_sum m occ : list_sum (map (weight m) occ) <= list_sum (map (fun pr => uses occ (fst pr) * calls (snd pr)) m).
Proof.
  induction m as [|[p r] m IH].
  - cbn. clear. induction occ; cbn; auto.
  - assert (H : list_sum (map (weight ((p, r) :: m)) occ) <= uses occ p * calls r + list_sum (map (weight m) occ)).
    { clear. induction occ as [|n occ IH]; [cbn; lia|]. unfold list_sum, uses in *. cbn [map fold_right count_occ] in *. pose proof (weight_cons p r m n).
      destruct (string_dec n p); cbn [Nat.mul]; lia. }
    unfold list_sum in *. cbn [map fold_right fst snd]. lia.
Qed.
Lemma duplicable_calls e : duplicable e = true -> calls e = 0.
Proof. destruct e as [v|bs body t|i ps body|k xs]; intros H; try discriminate; auto. destruct k; try discriminate; reflexivity. Qed.
(** No argument with calls in it is used more than once. *)
Lemma plan_calls occ l : forall avoid m sh, plan occ avoid l = Some (m, sh) ->
  list_sum (map (fun pr => uses occ (fst pr) * calls (snd pr)) m) + list_sum (map (fun nv => calls (snd nv)) sh) <= list_sum (map (fun nv => calls (snd nv)) l).
Proof.
  induction l as [|[p a] l IH]; intros avoid m sh H; cbn [plan] in H; [injection H as <- <-; cbn; lia|].
  destruct ((1 <? uses occ p) && negb (duplicable a)) eqn:C.
  - destruct (fresh_name p avoid) as [name|]; [|discriminate]. destruct (plan occ (name :: avoid) l) as [[m' sh']|] eqn:E; [|discriminate]. injection H as <- <-.
    apply IH in E. unfold list_sum in *. cbn [map fold_right fst snd calls]. lia.
  - destruct (plan occ avoid l) as [[m' sh']|] eqn:E; [|discriminate]. injection H as <- <-. apply IH in E. unfold list_sum in *. cbn [map fold_right fst snd].
    assert (uses occ p * calls a <= calls a); [|lia]. destruct (duplicable a) eqn:Ed; [rewrite (duplicable_calls a Ed); lia|].
    destruct (Nat.ltb_spec 1 (uses occ p)); [discriminate|]. nia.
Qed.
Lemma apply_inline_calls ps body args r : List.length ps = List.length args -> apply_inline ps body args = Some r ->
  calls r <= calls body + list_sum (map calls args).
Proof.
  intros L H. unfold apply_inline, open_lam_scope in H. set (opened := open_expr_vars ps 0 body) in *. set (occ := free_vars opened) in *.
  destruct (plan occ (occ ++ flat_map free_vars args) (combine ps args)) as [[m sh]|] eqn:E; [|discriminate]. apply plan_calls in E.
  assert (El : list_sum (map (fun nv : string * expr => calls (snd nv)) (combine ps args)) = list_sum (map calls args)).
  { f_equal. rewrite <- (map_map snd calls), map_snd_combine by auto. reflexivity. }
  pose proof (calls_substs m opened 0) as K. fold occ in K. pose proof (weight_sum m occ) as K2. assert (Eo : calls opened = calls body) by apply calls_open.
  destruct sh as [|s0 sh0] eqn:Es; [injection H as <-; lia|]. rewrite <- Es in *. clear s0 sh0 Es. unfold close_let_scope in H. injection H as <-. cbn [calls].
  rewrite calls_close, map_map. cbn [b_expr].
  replace (map (fun x : string * expr => calls (close_expr_vars (map fst sh) 0 (snd x))) sh) with (map (fun nv : string * expr => calls (snd nv)) sh); [lia|].
  apply map_ext. intros x. symmetry. apply calls_close.
Qed.
Lemma apply_inline_verify ps body args r scopes : List.length ps = List.length args -> verify_in (ps :: scopes) body = true ->
  (forall a, In a args -> verify_in scopes a = true) -> apply_inline ps body args = Some r -> verify_in scopes r = true.
Proof.
  intros L Vb Va H. unfold apply_inline, open_lam_scope in H. set (opened := open_expr_vars ps 0 body) in *. set (occ := free_vars opened) in *.
  destruct (plan_ok occ (combine ps args) (occ ++ flat_map free_vars args)) as (m & sh & E & P1 & P2 & P3 & P4 & _). rewrite E in H.
  assert (Vo : verify_in scopes opened = true) by (apply (verify_open ps body [] scopes), Vb).
  assert (Vr : verify_in scopes (substs_depth m 0 opened) = true).
  { apply (verify_substs m scopes opened) with (pre := []); auto. intros n r' En. pose proof (assoc_planned sh _ m n P1) as K. rewrite En in K.
    destruct (assoc (combine ps args) n) as [a|] eqn:Ea; [|contradiction]. destruct K as [->|(name & -> & _)]; [|reflexivity].
    apply Va. apply assoc_in in Ea. apply in_combine_r in Ea. exact Ea. }
  destruct sh as [|s0 sh0] eqn:Es; [injection H as <-; auto|]. rewrite <- Es in *. clear s0 sh0 Es.
  pose proof (C05_verify_close scopes sh (substs_depth m 0 opened) OtherLet) as K. destruct (close_let_scope sh (substs_depth m 0 opened)) as [bs b]. injection H as <-.
  apply K; auto. apply Forall_forall. intros [n a] Hn. apply Va. rewrite map_snd_combine in P4 by auto. apply P4. apply in_map_iff. exists (n, a). auto.
Qed.
Lemma apply_inline_fv ps body args r n : List.length ps = List.length args -> named_at ps 0 body ->
  apply_inline ps body args = Some r -> In n (free_vars r) -> In n (free_vars body) \/ exists a, In a args /\ In n (free_vars a).
Proof.
  intros L Nb H Hn. unfold apply_inline, open_lam_scope in H. set (opened := open_expr_vars ps 0 body) in *. set (occ := free_vars opened) in *.
  destruct (plan_ok occ (combine ps args) (occ ++ flat_map free_vars args)) as (m & sh & E & P1 & P2 & P3 & P4 & _). rewrite E in H.
  assert (K : In n (free_vars (substs_depth m 0 opened)) -> (In n (free_vars body) \/ exists a, In a args /\ In n (free_vars a)) \/ In n (map fst sh)).
  { intros Hs. apply fv_substs in Hs. destruct Hs as [(H1 & H2)|(x & r' & H1 & H2 & H3)].
    - left. left. apply (fv_open ps n body 0 Nb) in H1. destruct H1 as [H1|H1]; auto. exfalso.
      pose proof (assoc_planned sh _ m n P1) as K. rewrite H2 in K. destruct (assoc (combine ps args) n) as [a|] eqn:Ea; [contradiction|].
      rewrite assoc_combine in Ea by auto. destruct (position ps n) as [i|] eqn:Ep; [|apply Scope.Proofs.position_none in Ep; auto].
      apply nth_error_None in Ea. apply position_some in Ep. assert (i < List.length ps) by (apply nth_error_Some; congruence). lia.
    - pose proof (assoc_planned sh _ m x P1) as K. rewrite H2 in K. destruct (assoc (combine ps args) x) as [a|] eqn:Ea; [|contradiction].
      destruct K as [->|(name & -> & K)].
      + left. right. exists a. split; auto. apply assoc_in in Ea. apply in_combine_r in Ea. exact Ea.
      + right. cbn in H3. destruct H3 as [<-|[]]. apply in_map_iff. exists (name, a). auto. }
  destruct sh as [|s0 sh0] eqn:Es; [injection H as <-; destruct (K Hn) as [|[]]; auto|]. rewrite <- Es in *. clear s0 sh0 Es.
  unfold close_let_scope in H. injection H as <-. apply fv_let in Hn. destruct Hn as [(b & Hb & Hn)|Hn].
  - apply in_map_iff in Hb. destruct Hb as ([x a] & <- & Hx). cbn in Hn. apply fv_close in Hn. right. exists a. split; [|tauto].
    rewrite map_snd_combine in P4 by auto. apply P4. apply in_map_iff. exists (x, a). auto.
  - apply fv_close in Hn. destruct Hn as [Hn Hs]. destruct (K Hn); auto. contradiction.
Qed.

Lemma beta_more e : forall r, beta_reduce e = Some r ->
  calls r <= calls e /\ (forall scopes, verify_in scopes e = true -> verify_in scopes r = true) /\
  (forall scopes n, verify_in scopes e = true -> In n (free_vars r) -> In n (free_vars e)).
Proof.
  induction e as [v|bs body t IHbs IHb|i ps body IHb|k xs IHxs] using expr_ind'; intros r H.
  - injection H as <-. auto.
  - cbn [beta_reduce] in H. destruct (sequence (map (fun b => seq_b (map_b beta_reduce b)) bs)) as [bs'|] eqn:Es; [|discriminate].
    destruct (beta_reduce body) as [body'|] eqn:Eb; [|discriminate]. injection H as <-. apply sequence_inv in Es. destruct (IHb body' eq_refl) as (B1 & B2 & B3).
    assert (F : Forall2 (fun b b' => beta_reduce (b_expr b) = Some (b_expr b') /\ b_name b' = b_name b) bs bs').
    { eapply forall2_weaken; [|exact Es]. cbn. intros b b' E. unfold seq_b, map_b in E. cbn in E. destruct (beta_reduce (b_expr b)); [|discriminate]. injection E as <-. auto. }
    assert (En : map b_name bs' = map b_name bs) by (symmetry; apply forall2_map_eq; eapply forall2_weaken; [|exact F]; cbn; intros x y [_ Hy]; auto).
    rewrite Forall_forall in IHbs. split; [|split].
    + cbn [calls]. assert (list_sum (map (fun b => calls (b_expr b)) bs') <= list_sum (map (fun b => calls (b_expr b)) bs)); [|lia].
      apply list_sum_le. eapply forall2_impl; [|exact F]. cbn. intros x y Hx _ [E _]. apply (IHbs x Hx _ E).
    + intros scopes V. apply verify_let in V. destruct V as [V1 V2]. apply verify_let. rewrite En. split; auto. intros b' Hb'.
      destruct (forall2_in_r _ _ _ _ F Hb') as (b & Hb & E & _). apply (IHbs b Hb _ E); auto.
    + intros scopes n V Hn. apply verify_let in V. destruct V as [V1 V2]. apply fv_let. apply fv_let in Hn. destruct Hn as [(b' & Hb' & Hn)|Hn]; [left|right; eauto].
      destruct (forall2_in_r _ _ _ _ F Hb') as (b & Hb & E & _). exists b. split; auto. destruct (IHbs b Hb _ E) as (_ & _ & K). eauto.
  - cbn [beta_reduce] in H. destruct (beta_reduce body) as [body'|] eqn:Eb; [|discriminate]. injection H as <-. destruct (IHb body' eq_refl) as (B1 & B2 & B3).
    split; [exact B1|]. split; [intros scopes; cbn [verify_in]; apply B2|]. intros scopes n. cbn [verify_in free_vars]. apply B3.
  - rewrite Forall_forall in IHxs. destruct (beta_node k xs) as (c & Ec & C). assert (Hc : c = Some r) by congruence. rewrite Hc in C. clear Ec H Hc c.
    destruct C as [(ps & body & args & -> & -> & L & C)|C].
    + destruct (sequence (map beta_reduce args)) as [args'|] eqn:Es; [|discriminate]. apply sequence_inv in Es.
      assert (L' : List.length ps = List.length args') by (rewrite L; eapply forall2_len; eauto).
      symmetry in C. split; [|split].
      * apply apply_inline_calls in C; auto. assert (list_sum (map calls args') <= list_sum (map calls args)).
        { apply list_sum_le. eapply forall2_impl; [|exact Es]. cbn. intros x y Hx _ E. apply (IHxs x (or_intror Hx) _ E). }
        change (calls (ENode KApp (ELam true ps body :: args))) with (S (calls body + list_sum (map calls args))). lia.
      * intros scopes V. cbn [verify_in forallb] in V. apply andb_prop in V. destruct V as [V1 V2]. eapply apply_inline_verify; eauto. intros a' Ha'.
        destruct (forall2_in_r _ _ _ _ Es Ha') as (a & Ha & E). apply (IHxs a (or_intror Ha) _ E). rewrite forallb_forall in V2. apply V2, Ha.
      * intros scopes n V Hn. cbn [verify_in forallb] in V. apply andb_prop in V. destruct V as [V1 V2]. cbn [free_vars flat_map]. apply in_app_iff.
        eapply apply_inline_fv in Hn; [..|exact C]; auto; [|apply (verify_named0 ps scopes body V1)]. destruct Hn as [Hn|(a' & Ha' & Hn)]; auto. right.
        destruct (forall2_in_r _ _ _ _ Es Ha') as (a & Ha & E). apply in_flat_map. exists a. split; auto. rewrite forallb_forall in V2.
        destruct (IHxs a (or_intror Ha) _ E) as (_ & _ & K). apply (K scopes n (V2 a Ha) Hn).
    + destruct (sequence (map beta_reduce xs)) as [ys|] eqn:Es; [|discriminate]. apply sequence_inv in Es. injection C as ->. split; [|split].
      * assert (list_sum (map calls ys) <= list_sum (map calls xs)); [|cbn [calls]; destruct k; lia].
        apply list_sum_le. eapply forall2_impl; [|exact Es]. cbn. intros x y Hx _ E. apply (IHxs x Hx _ E).
      * intros scopes V. cbn [verify_in] in *. revert V. apply forallb_forall2. eapply forall2_impl; [|exact Es]. cbn. intros x y Hx _ E. apply (IHxs x Hx _ E).
      * intros scopes n V Hn. cbn [verify_in free_vars] in *. rewrite forallb_forall in V. apply in_flat_map in Hn. destruct Hn as (y & Hy & Hn).
        destruct (forall2_in_r _ _ _ _ Es Hy) as (x & Hx & E). apply in_flat_map. exists x. split; auto. destruct (IHxs x Hx _ E) as (_ & _ & K). eauto.
Qed.
