(** Proofs about removing eliminated bindings. *)
From Coq Require Import List Bool Arith String Lia.
From Verif.Scope Require Import Model Spec Proofs.
From Verif.Simplify Require Import Compress CompressSpec.
Import ListNotations.
Local Arguments Nat.eqb : simpl never.
Local Arguments Nat.leb : simpl never.

Lemma all_forall {A} (P : A -> Prop) l :
  (fix all (l : list A) := match l with [] => True | x :: l => P x /\ all l end) l <-> Forall P l.
Proof. induction l as [|x l IH]; [split; auto|]. rewrite IH. split; [intros []; auto|]. inversion 1; auto. Qed.

(** * Outcomes *)
Lemma collect_done {A} (l : list (outcome A)) r : collect l = Done r <-> Forall2 (fun x y => x = Done y) l r.
Proof.
  revert r. induction l as [|x l IH]; intros r; cbn.
  - split; [intros H; injection H as <-; constructor|]. inversion 1; reflexivity.
  - destruct x as [a| |]; cbn; [|split; [discriminate|inversion 1; discriminate]..].
    destruct (collect l) as [r'| |] eqn:E; cbn.
    + split.
      * intros H. injection H as <-. constructor; auto. apply IH. reflexivity.
      * inversion 1; subst. match goal with H : Done _ = Done _ |- _ => injection H as -> end.
        match goal with H : Forall2 _ l _ |- _ => apply IH in H; injection H as -> end. reflexivity.
    + split; [discriminate|]. inversion 1; subst. match goal with H : Forall2 _ l _ |- _ => apply IH in H; discriminate end.
    + split; [discriminate|]. inversion 1; subst. match goal with H : Forall2 _ l _ |- _ => apply IH in H; discriminate end.
Qed.
Lemma collect_panic {A} (l : list (outcome A)) : collect l = Panic -> In Panic l.
Proof.
  induction l as [|x l IH]; cbn; [discriminate|]. destruct x as [a| |]; cbn; [|discriminate|auto].
  destruct (collect l) as [r'| |] eqn:E; cbn; [discriminate|discriminate|]. intros _. right. auto.
Qed.

(** * Keeping *)
Definition keep (b : binding expr) : bool := negb (is_eliminated (b_expr b)).
Lemma flat_map_keep {B} (f : binding expr -> B) bs :
  flat_map (fun b => if is_eliminated (b_expr b) then [] else [f b]) bs = map f (filter keep bs).
Proof.
  induction bs as [|b bs IH]; cbn [flat_map filter]; auto. unfold keep at 1. rewrite IH.
  destruct (is_eliminated (b_expr b)); reflexivity.
Qed.
Lemma sel_filter {A} (f : binding expr -> A) bs : sel (kept bs) (map f bs) = map f (filter keep bs).
Proof.
  induction bs as [|b bs IH]; cbn [kept map filter sel]; auto. unfold keep at 1.
  destruct (is_eliminated (b_expr b)); cbn [negb sel map]; [apply IH|]. f_equal. apply IH.
Qed.
Lemma kept_length bs : List.length (kept bs) = List.length bs.
Proof. apply map_length. Qed.

(** A permutation follows a mask: position [b] maps to the number of kept positions before it. *)
Fixpoint perm_of (i : nat) (m : list bool) : list (option nat) :=
  match m with
  | [] => []
  | true :: m => Some i :: perm_of (S i) m
  | false :: m => None :: perm_of i m
  end.
Lemma let_perm_of bs : forall i, let_perm_from i bs = perm_of i (kept bs).
Proof.
  induction bs as [|b bs IH]; intros i; cbn [let_perm_from kept map perm_of]; auto.
  destruct (is_eliminated (b_expr b)); cbn [negb]; f_equal; apply IH.
Qed.
Lemma lam_perm_of n : forall i, map Some (seq i n) = perm_of i (repeat true n).
Proof. induction n as [|n IH]; intros i; cbn; auto. f_equal. apply IH. Qed.
Lemma sel_all {A} (l : list A) : sel (repeat true (List.length l)) l = l.
Proof. induction l; cbn; congruence. Qed.

Lemma perm_nth m : forall i b j, nth_error (perm_of i m) b = Some (Some j) -> nth_error m b = Some true /\ i <= j.
Proof.
  induction m as [|[] m IH]; intros i b j H; [destruct b; discriminate|..]; destruct b as [|b]; cbn in *; try discriminate.
  - injection H as ->. auto.
  - apply IH in H. destruct H; split; auto; lia.
  - apply IH in H. auto.
Qed.
Lemma perm_some m : forall i b, nth_error m b = Some true -> exists j, nth_error (perm_of i m) b = Some (Some j).
Proof.
  induction m as [|[] m IH]; intros i b H; [destruct b; discriminate|..]; destruct b as [|b]; cbn in *; try discriminate; eauto.
Qed.
Lemma perm_sel {A} (dg : A) m : forall i b j vs, nth_error (perm_of i m) b = Some (Some j) ->
  nth b vs dg = nth (j - i) (sel m vs) dg.
Proof.
  induction m as [|[] m IH]; intros i b j vs H; [destruct b; discriminate|..]; destruct b as [|b]; cbn in *; try discriminate.
  - injection H as ->. rewrite Nat.sub_diag. destruct vs; reflexivity.
  - pose proof (perm_nth _ _ _ _ H) as [_ L]. destruct vs as [|v vs]; [destruct (j - i); reflexivity|].
    replace (j - i) with (S (j - S i)) by lia. cbn. apply (IH _ _ _ vs H).
  - destruct vs as [|v vs]; [destruct (j - i); reflexivity|]. cbn. apply IH. auto.
Qed.
Lemma perm_sel_error {A} m : forall i b j (vs : list A), nth_error (perm_of i m) b = Some (Some j) ->
  nth_error vs b = nth_error (sel m vs) (j - i).
Proof.
  induction m as [|[] m IH]; intros i b j vs H; [destruct b; discriminate|..]; destruct b as [|b]; cbn in *; try discriminate.
  - injection H as ->. rewrite Nat.sub_diag. destruct vs; reflexivity.
  - pose proof (perm_nth _ _ _ _ H) as [_ L]. destruct vs as [|v vs]; [destruct (j - i); reflexivity|].
    replace (j - i) with (S (j - S i)) by lia. cbn. apply (IH _ _ _ vs H).
  - destruct vs as [|v vs]; [destruct (j - i); reflexivity|]. cbn. apply IH. auto.
Qed.
Lemma perm_sel_length m : forall i b j, nth_error (perm_of i m) b = Some (Some j) -> exists n, List.length (sel m m) = S n.
Proof.
  induction m as [|[] m IH]; intros i b j H; [destruct b; discriminate|..]; destruct b as [|b]; cbn in *; try discriminate; eauto.
Qed.
Lemma filter_nil_kept bs : filter keep bs = [] -> forall b, nth_error (kept bs) b <> Some true.
Proof.
  induction bs as [|x bs IH]; intros H b; [destruct b; discriminate|]. cbn in H. unfold keep in H at 1.
  destruct b as [|b]; cbn; destruct (negb (is_eliminated (b_expr x))) eqn:E; try discriminate. apply IH, H.
Qed.

(** * Meaning *)
Lemma pred_den I rho e : forall d, every_ref (fun d' v => match v with Bound s _ _ => s <> d' | Free _ => True end) d e ->
  forall e', pred_at d e = Some e' -> forall pre w env, List.length pre = d ->
  den I rho (pre ++ w :: env) e = den I rho (pre ++ env) e'.
Proof.
  intros d A e' P pre w env L. destruct (succ_pred e d A) as (e2 & P2 & S2). rewrite P in P2. injection P2 as <-.
  rewrite <- S2. subst d. apply succ_den.
Qed.

(** Environments before and after. *)
Definition env_rel (I : interp) (masks : list (list bool)) (env env' : list (list (D I))) : Prop :=
  forall s m, nth_error masks s = Some m -> exists vs vs', nth_error env s = Some vs /\ nth_error env' s = Some vs' /\
    forall b j, nth_error (perm_of 0 m) b = Some (Some j) -> nth b vs (i_dangling I) = nth j vs' (i_dangling I).
Lemma env_rel_cons I m masks env env' vs : env_rel I masks env env' -> env_rel I (m :: masks) (vs :: env) (sel m vs :: env').
Proof.
  intros R s m' H. destruct s as [|s]; cbn in *; [|apply R, H]. injection H as <-. exists vs, (sel m vs). repeat split; auto.
  intros b j P. rewrite (perm_sel _ _ _ _ _ vs P), Nat.sub_0_r. reflexivity.
Qed.
Lemma perm_all n : forall i b j, nth_error (perm_of i (repeat true n)) b = Some (Some j) -> j = i + b.
Proof.
  induction n as [|n IH]; intros i b j H; [destruct b; discriminate|]. destruct b as [|b]; cbn in H.
  - injection H as ->. lia.
  - apply IH in H. lia.
Qed.
Lemma env_rel_lam I n masks env env' vs : env_rel I masks env env' -> env_rel I (repeat true n :: masks) (vs :: env) (vs :: env').
Proof.
  intros R s m' H. destruct s as [|s]; cbn in *; [|apply R, H]. injection H as <-. exists vs, vs. repeat split; auto.
  intros b j P. apply perm_all in P. cbn in P. subst. reflexivity.
Qed.

Definition perms_of (masks : list (list bool)) := map (perm_of 0) masks.

(** In an output, no reference is to an empty scope. *)
Lemma compress_refs e : forall masks e' , compress_in (perms_of masks) e = Done e' ->
  forall d m, nth_error masks d = Some m -> (forall b, nth_error m b <> Some true) ->
  every_ref (fun d' v => match v with Bound s _ _ => s <> d' | Free _ => True end) d e'.
Proof.
  induction e as [[n|s b n]|bs body t IHbs IHb|i ps body IHb|k xs IHxs] using expr_ind'; intros masks e' H d m Hm Em.
  - injection H as <-. exact Logic.I.
  - cbn in H. unfold encounter in H. unfold perms_of in H. rewrite nth_error_map in H.
    destruct (nth_error masks s) as [m'|] eqn:E; cbn in H; [|discriminate].
    destruct (nth_error (perm_of 0 m') b) as [[j|]|] eqn:P; try discriminate. injection H as <-. cbn. intros ->.
    rewrite Hm in E. injection E as <-. apply perm_nth in P. destruct P as [P _]. apply (Em b P).
  - cbn [compress_in] in H. rewrite flat_map_keep in H. unfold let_perm in H. rewrite let_perm_of in H.
    change (perm_of 0 (kept bs) :: perms_of masks) with (perms_of (kept bs :: masks)) in H.
    destruct (collect _) as [nb| |] eqn:C; cbn [obind] in H; try discriminate.
    destruct (compress_in (perms_of (kept bs :: masks)) body) as [body'| |] eqn:B; cbn [obind] in H; try discriminate.
    apply collect_done in C.
    pose proof (IHb _ _ B (S d) m Hm Em) as RB.
    destruct nb as [|b0 nb].
    + inversion C as [C1|]; subst. symmetry in C1. apply map_eq_nil in C1.
      pose proof (IHb _ _ B 0 _ eq_refl (filter_nil_kept _ C1)) as R0.
      destruct (succ_pred _ _ R0) as (e2 & P2 & S2). unfold pred in H. rewrite P2 in H. cbn in H. injection H as <-.
      rewrite <- S2 in RB. clear - RB. set (f := (fun (d' : nat) (v : var) => match v with Bound s _ _ => s <> d' | Free _ => True end)) in *.
      assert (G : forall e q d, q <= d -> every_ref f (S d) (succ_at q e) -> every_ref f d e).
      { clear. induction e as [[n|s b n]|bs body t IHbs IHb|i ps body IHb|k xs IHxs] using expr_ind'; intros q d L H; cbn in *; auto.
        - destruct (Nat.leb_spec q s); cbn in H; lia.
        - destruct H as [H1 H2]. split; [|eapply IHb; [|exact H2]; lia]. apply every_ref_bs in H1. apply every_ref_bs.
          rewrite Forall_forall in *. intros b Hb. specialize (H1 _ (in_map (map_b (succ_at (S q))) _ _ Hb)). cbn in H1.
          apply (IHbs b Hb (S q) (S d)); [lia|exact H1].
        - eapply IHb; [|exact H]; lia.
        - apply every_ref_xs in H. apply every_ref_xs. rewrite Forall_forall in *. intros x Hx.
          apply (IHxs x Hx q d L), H, in_map, Hx. }
      eapply G; [|exact RB]. lia.
    + injection H as <-. cbn [every_ref]. split; [|exact RB]. apply every_ref_bs. rewrite Forall_forall. intros b' Hb'.
      clear - IHbs C Hb' Hm Em. remember (b0 :: nb) as l. clear Heql.
      assert (exists b, In b bs /\ exists v, compress_in (perms_of (kept bs :: masks)) (b_expr b) = Done v /\ b_expr b' = v) as (b & Hb & v & Cv & ->).
      { assert (Q : forall l0, incl l0 bs -> Forall2 (fun x y => x = Done y)
            (map (fun b => obind (compress_in (perms_of (kept bs :: masks)) (b_expr b))
               (fun v => Done (mkBinding (b_name b) v (b_demand b)))) l0) l -> In b' l ->
            exists b, In b bs /\ exists v, compress_in (perms_of (kept bs :: masks)) (b_expr b) = Done v /\ b_expr b' = v).
        { clear. intros l0. revert l. induction l0 as [|x l0 IH]; intros l Inc F Hb'; inversion F; subst; [destruct Hb'|].
          destruct Hb' as [<-|Hb'].
          - exists x. split; [apply Inc; left; auto|]. destruct (compress_in _ (b_expr x)) as [v| |] eqn:E; cbn in H1; try discriminate.
            exists v. injection H1 as <-. auto.
          - eapply IH; eauto. intros z Hz. apply Inc. right; auto. }
        eapply Q; eauto. intros y Hy. apply filter_In in Hy. tauto. }
      rewrite Forall_forall in IHbs. eapply (IHbs b Hb); eauto.
  - cbn [compress_in] in H. unfold lam_perm in H. rewrite lam_perm_of in H.
    change (perm_of 0 (repeat true (List.length ps)) :: perms_of masks) with (perms_of (repeat true (List.length ps) :: masks)) in H.
    destruct (compress_in _ body) as [body'| |] eqn:B; cbn in H; try discriminate. injection H as <-. cbn.
    eapply IHb; eauto.
  - cbn [compress_in] in H. destruct (collect _) as [ys| |] eqn:C; cbn in H; try discriminate. injection H as <-.
    apply collect_done in C. cbn. apply every_ref_xs. rewrite Forall_forall. intros y Hy.
    assert (exists x, In x xs /\ compress_in (perms_of masks) x = Done y) as (x & Hx & Cx).
    { clear - C Hy. revert ys C Hy. induction xs as [|x xs IH]; intros ys C Hy; inversion C; subst; [destruct Hy|].
      destruct Hy as [<-|Hy]; [eexists; split; [left; reflexivity|auto]|]. edestruct IH as (x' & ? & ?); eauto. exists x'; split; auto. right; auto. }
    rewrite Forall_forall in IHxs. eapply IHxs; eauto.
Qed.

(** The bindings a let has after compression. *)
Lemma collect_bindings (f : expr -> outcome expr) l nb :
  Forall2 (fun x y => x = Done y) (map (fun b => obind (f (b_expr b)) (fun v => Done (mkBinding (b_name b) v (b_demand b)))) l) nb ->
  Forall2 (fun b b' => f (b_expr b) = Done (b_expr b') /\ b_name b' = b_name b /\ b_demand b' = b_demand b) l nb.
Proof.
  revert nb. induction l as [|b l IH]; intros nb H; inversion H; subst; constructor.
  - destruct (f (b_expr b)) eqn:E; cbn in *; try discriminate. match goal with H : Done _ = Done _ |- _ => injection H as <- end. auto.
  - apply IH; auto.
Qed.
Lemma collect_nodes (f : expr -> outcome expr) l r :
  Forall2 (fun x y => x = Done y) (map f l) r -> Forall2 (fun x y => f x = Done y) l r.
Proof. revert r. induction l as [|b l IH]; intros r H; inversion H; subst; constructor; auto. Qed.
Lemma forall2_names (P : expr -> expr -> Prop) l nb :
  Forall2 (fun b b' : binding expr => P (b_expr b) (b_expr b') /\ b_name b' = b_name b /\ b_demand b' = b_demand b) l nb ->
  map b_name nb = map b_name l.
Proof. induction 1 as [|b b' l nb (_ & E & _) F IH]; cbn; congruence. Qed.

Lemma compress_den I (L : drops_unused I) rho e : forall masks e', compress_in (perms_of masks) e = Done e' ->
  forall env env', env_rel I masks env env' -> den I rho env e = den I rho env' e'.
Proof.
  induction e as [[n|s b n]|bs body t IHbs IHb|i ps body IHb|k xs IHxs] using expr_ind'; intros masks e' H env env' R.
  - injection H as <-. reflexivity.
  - cbn in H. unfold encounter in H. unfold perms_of in H. rewrite nth_error_map in H.
    destruct (nth_error masks s) as [m|] eqn:E; cbn in H; [|discriminate].
    destruct (nth_error (perm_of 0 m) b) as [[j|]|] eqn:P; try discriminate. injection H as <-. cbn.
    destruct (R _ _ E) as (vs & vs' & E1 & E2 & Q). unfold lookup. rewrite E1, E2. apply Q, P.
  - cbn [compress_in] in H. rewrite flat_map_keep in H. unfold let_perm in H. rewrite let_perm_of in H.
    change (perm_of 0 (kept bs) :: perms_of masks) with (perms_of (kept bs :: masks)) in H.
    destruct (collect _) as [nb| |] eqn:C; cbn [obind] in H; try discriminate.
    destruct (compress_in (perms_of (kept bs :: masks)) body) as [body'| |] eqn:B; cbn [obind] in H; try discriminate.
    apply collect_done, collect_bindings in C.
    assert (HF : forall vs, map (fun b => den I rho (sel (kept bs) vs :: env') (b_expr b)) nb =
                 sel (kept bs) (map (fun b => den I rho (vs :: env) (b_expr b)) bs)).
    { intros vs. rewrite sel_filter. clear - C IHbs R L.
      assert (Q : forall l, incl l bs -> forall nb, Forall2 (fun b b' : binding expr => compress_in (perms_of (kept bs :: masks)) (b_expr b) = Done (b_expr b') /\
                b_name b' = b_name b /\ b_demand b' = b_demand b) l nb ->
              map (fun b => den I rho (sel (kept bs) vs :: env') (b_expr b)) nb = map (fun b => den I rho (vs :: env) (b_expr b)) l).
      { intros l Inc nb' F. induction F as [|b b' l nb' (Cb & _ & _) F IH]; cbn; auto. f_equal.
        - symmetry. rewrite Forall_forall in IHbs. eapply IHbs; [apply Inc; left; auto|exact Cb|]. apply env_rel_cons, R.
        - apply IH. intros y Hy. apply Inc. right; auto. }
      apply Q; auto. intros y Hy. apply filter_In in Hy. tauto. }
    assert (HB : forall vs, den I rho (sel (kept bs) vs :: env') body' = den I rho (vs :: env) body).
    { intros vs. symmetry. eapply IHb; eauto. apply env_rel_cons, R. }
    assert (HN : map b_name nb = sel (kept bs) (map b_name bs)).
    { rewrite sel_filter. eapply (forall2_names (fun x y => compress_in _ x = Done y)), C. }
    cbn [den].
    rewrite (drop_unused I L t (map b_name bs) (kept bs) _ _ (fun ws => map (fun b => den I rho (ws :: env') (b_expr b)) nb)
      (fun ws => den I rho (ws :: env') body')); auto; [|rewrite kept_length, map_length; reflexivity].
    rewrite <- HN. destruct nb as [|b0 nb].
    + cbn [map]. rewrite (drop_let I L) by reflexivity. inversion C as [C1|]; subst. symmetry in C1.
      pose proof (compress_refs _ _ _ B 0 _ eq_refl (filter_nil_kept _ C1)) as R0.
      unfold pred in H. destruct (pred_at 0 body') as [e2|] eqn:P; cbn in H; [|discriminate]. injection H as <-.
      exact (pred_den I rho body' 0 R0 e2 P [] [] env' eq_refl).
    + injection H as <-. reflexivity.
  - cbn [compress_in] in H. unfold lam_perm in H. rewrite lam_perm_of in H.
    change (perm_of 0 (repeat true (List.length ps)) :: perms_of masks) with (perms_of (repeat true (List.length ps) :: masks)) in H.
    destruct (compress_in _ body) as [body'| |] eqn:B; cbn in H; try discriminate. injection H as <-. cbn.
    apply i_lam_ext. intros vs. eapply IHb; eauto. apply env_rel_lam, R.
  - cbn [compress_in] in H. destruct (collect _) as [ys| |] eqn:C; cbn in H; try discriminate. injection H as <-.
    apply collect_done, collect_nodes in C. cbn. f_equal. clear - C IHxs R.
    induction C as [|x y xs ys Cx C IH]; cbn; auto. inversion IHxs; subst. f_equal; eauto.
Qed.

(** * Success and failure *)
Lemma compress_success e : forall masks, (exists e', compress_in (perms_of masks) e = Done e') <-> refs_live masks e.
Proof.
  induction e as [[n|s b n]|bs body t IHbs IHb|i ps body IHb|k xs IHxs] using expr_ind'; intros masks.
  - cbn. split; eauto.
  - cbn. unfold encounter, perms_of. rewrite nth_error_map. destruct (nth_error masks s) as [m|] eqn:E; cbn.
    + split.
      * intros (e' & H). destruct (nth_error (perm_of 0 m) b) as [[j|]|] eqn:P; try discriminate.
        apply perm_nth in P. exists m. tauto.
      * intros (m' & Em & H). injection Em as <-. destruct (perm_some m 0 b H) as (j & ->). eauto.
    + split; [intros (? & ?); discriminate|]. intros (m' & ? & ?); discriminate.
  - cbn [compress_in refs_live]. rewrite flat_map_keep. unfold let_perm. rewrite let_perm_of.
    change (perm_of 0 (kept bs) :: perms_of masks) with (perms_of (kept bs :: masks)).
    rewrite (all_forall (fun b => is_eliminated (b_expr b) = false -> refs_live (kept bs :: masks) (b_expr b))).
    rewrite <- (IHb (kept bs :: masks)).
    assert (Q : (exists nb, Forall2 (fun x y => x = Done y) (map (fun b => obind (compress_in (perms_of (kept bs :: masks)) (b_expr b))
               (fun v => Done (mkBinding (b_name b) v (b_demand b)))) (filter keep bs)) nb) <->
      Forall (fun b => is_eliminated (b_expr b) = false -> refs_live (kept bs :: masks) (b_expr b)) bs).
    { generalize (kept bs :: masks) as ms. intros ms. clear IHb. induction IHbs as [|b bs Hb IHbs IH]; cbn [filter map].
      - split; [constructor|]. exists []. constructor.
      - unfold keep at 1. destruct (is_eliminated (b_expr b)) eqn:E; cbn [negb map].
        + rewrite IH. split; [constructor; auto; congruence|]. inversion 1; auto.
        + split.
          * intros (nb & F). inversion F; subst. constructor; [|apply IH; eauto]. intros _. apply Hb.
            destruct (compress_in (perms_of ms) (b_expr b)); try discriminate. eauto.
          * inversion 1; subst. destruct (proj2 IH H3) as (nb & F). destruct (proj2 (Hb ms) (H2 E)) as (v & ->).
            cbn [obind]. eexists. constructor; eauto. }
    rewrite <- Q. split.
    + intros (e' & H). destruct (collect _) as [nb| |] eqn:C; cbn [obind] in H; try discriminate.
      apply collect_done in C. split; [eauto|].
      destruct (compress_in (perms_of (kept bs :: masks)) body); cbn in H; try discriminate. eauto.
    + intros ((nb & F) & body' & B). rewrite (proj2 (collect_done _ _) F), B. cbn [obind].
      destruct nb as [|b0 nb]; [|eauto]. inversion F as [F1|]; subst. symmetry in F1. apply map_eq_nil in F1.
      pose proof (compress_refs _ _ _ B 0 _ eq_refl (filter_nil_kept _ F1)) as R0.
      destruct (succ_pred _ _ R0) as (e2 & P2 & _). unfold pred. rewrite P2. cbn. eauto.
  - cbn [compress_in refs_live]. unfold lam_perm. rewrite lam_perm_of.
    change (perm_of 0 (repeat true (List.length ps)) :: perms_of masks) with (perms_of (repeat true (List.length ps) :: masks)).
    rewrite <- IHb. split.
    + intros (e' & H). destruct (compress_in _ body); cbn in H; try discriminate. eauto.
    + intros (b' & ->). cbn. eauto.
  - cbn [compress_in refs_live]. rewrite (all_forall (refs_live masks)).
    assert (Q : (exists ys, Forall2 (fun x y => x = Done y) (map (compress_in (perms_of masks)) xs) ys) <-> Forall (refs_live masks) xs).
    { induction IHxs as [|x xs Hx IHxs IH]; cbn; [split; eauto|]. split.
      - intros (ys & F). inversion F; subst. constructor; [apply Hx; eauto|apply IH; eauto].
      - inversion 1; subst. destruct (proj2 IH H3) as (ys & F). destruct (proj2 (Hx masks) H2) as (y & Hy).
        eexists. constructor; eauto. }
    rewrite <- Q. split.
    + intros (e' & H). destruct (collect _) as [ys| |] eqn:C; cbn in H; try discriminate. apply collect_done in C. eauto.
    + intros (ys & F). rewrite (proj2 (collect_done _ _) F). cbn. eauto.
Qed.

Lemma compress_panic e : forall masks, compress_in (perms_of masks) e = Panic -> forall d n, List.length masks = d + n ->
  ~ every_ref (fun d v => match v with Bound s _ _ => s < d + n | Free _ => True end) d e.
Proof.
  induction e as [[n0|s b n0]|bs body t IHbs IHb|i ps body IHb|k xs IHxs] using expr_ind'; intros masks H d n L A; cbn [every_ref] in A.
  - discriminate.
  - cbn in H. unfold encounter, perms_of in H. rewrite nth_error_map in H. destruct (nth_error masks s) as [m|] eqn:E; cbn in H.
    + destruct (nth_error (perm_of 0 m) b) as [[j|]|]; discriminate.
    + apply nth_error_None in E. lia.
  - destruct A as [A1 A2]. apply every_ref_bs in A1. cbn [compress_in] in H. rewrite flat_map_keep in H. unfold let_perm in H. rewrite let_perm_of in H.
    change (perm_of 0 (kept bs) :: perms_of masks) with (perms_of (kept bs :: masks)) in H.
    destruct (collect _) as [nb| |] eqn:C; cbn [obind] in H; try discriminate.
    + destruct (compress_in (perms_of (kept bs :: masks)) body) as [body'| |] eqn:B; cbn [obind] in H; try discriminate.
      * destruct nb; [|discriminate]. apply collect_done in C. inversion C as [C1|]; subst. symmetry in C1. apply map_eq_nil in C1.
        pose proof (compress_refs _ _ _ B 0 _ eq_refl (filter_nil_kept _ C1)) as R0.
        destruct (succ_pred _ _ R0) as (e2 & P2 & _). unfold pred in H. rewrite P2 in H. discriminate.
      * eapply (IHb _ B (S d) n); auto. cbn. lia.
    + apply collect_panic, in_map_iff in C. destruct C as (b & Hc & Hb). apply filter_In in Hb. destruct Hb as [Hb _].
      destruct (compress_in (perms_of (kept bs :: masks)) (b_expr b)) eqn:E; cbn in Hc; try discriminate.
      rewrite Forall_forall in IHbs, A1. eapply (IHbs b Hb _ E (S d) n); [cbn; lia|]. apply A1, Hb.
  - cbn [compress_in] in H. unfold lam_perm in H. rewrite lam_perm_of in H.
    change (perm_of 0 (repeat true (List.length ps)) :: perms_of masks) with (perms_of (repeat true (List.length ps) :: masks)) in H.
    destruct (compress_in _ body) as [body'| |] eqn:B; cbn in H; try discriminate.
    eapply (IHb _ B (S d) n); auto. cbn. lia.
  - apply every_ref_xs in A. cbn [compress_in] in H. destruct (collect _) as [nb| |] eqn:C; cbn [obind] in H; try discriminate.
    apply collect_panic, in_map_iff in C. destruct C as (x & Hc & Hx).
    rewrite Forall_forall in IHxs, A. eapply (IHxs x Hx _ Hc d n); auto.
Qed.

(** * Verification *)
Lemma verify_unsucc e : forall pre names scopes, verify_in (pre ++ names :: scopes) (succ_at (List.length pre) e) = true ->
  verify_in (pre ++ scopes) e = true.
Proof.
  induction e as [[x|s b x]|bs body t IHbs IHb|i ps body IHb|k xs IHxs] using expr_ind'; intros pre names scopes H.
  - reflexivity.
  - cbn in *. destruct (Nat.leb_spec (List.length pre) s); cbn in H.
    + rewrite nth_error_app2 in H by lia. rewrite nth_error_app2 by lia.
      replace (s + 1 - List.length pre) with (S (s - List.length pre)) in H by lia. exact H.
    + rewrite nth_error_app1 in H by lia. rewrite nth_error_app1 by lia. exact H.
  - cbn in H. rewrite map_names in H. apply andb_prop in H. destruct H as [H1 H2]. cbn. apply andb_true_intro. split.
    + rewrite forallb_forall in *. intros b Hb. specialize (H1 _ (in_map (map_b (succ_at (S (List.length pre)))) _ _ Hb)). cbn in H1.
      rewrite Forall_forall in IHbs. apply (IHbs b Hb (map b_name bs :: pre) names scopes). exact H1.
    + apply (IHb (map b_name bs :: pre) names scopes). exact H2.
  - cbn in *. apply (IHb (ps :: pre) names scopes). exact H.
  - cbn in *. rewrite forallb_forall in *. rewrite Forall_forall in IHxs. intros x Hx. eapply (IHxs x Hx). apply H, in_map, Hx.
Qed.

Definition names_rel (masks : list (list bool)) (ns ns' : list (list string)) : Prop :=
  forall s m, nth_error masks s = Some m -> exists vs vs', nth_error ns s = Some vs /\ nth_error ns' s = Some vs' /\
    forall b j, nth_error (perm_of 0 m) b = Some (Some j) -> nth_error vs b = nth_error vs' j.
Lemma names_rel_cons m masks env env' vs : names_rel masks env env' -> names_rel (m :: masks) (vs :: env) (sel m vs :: env').
Proof.
  intros R s m' H. destruct s as [|s]; cbn in *; [|apply R, H]. injection H as <-. exists vs, (sel m vs). repeat split; auto.
  intros b j P. rewrite (perm_sel_error _ _ _ _ vs P), Nat.sub_0_r. reflexivity.
Qed.
Lemma names_rel_lam n masks env env' vs : names_rel masks env env' -> names_rel (repeat true n :: masks) (vs :: env) (vs :: env').
Proof.
  intros R s m' H. destruct s as [|s]; cbn in *; [|apply R, H]. injection H as <-. exists vs, vs. repeat split; auto.
  intros b j P. apply perm_all in P. cbn in P. subst. reflexivity.
Qed.

Lemma forall2_in_r {A B} (R : A -> B -> Prop) l l' y : Forall2 R l l' -> In y l' -> exists x, In x l /\ R x y.
Proof.
  induction 1 as [|a b l l' H F IH]; [intros []|]. intros [<-|Hy]; [exists a; split; auto; left; auto|].
  destruct (IH Hy) as (x & ? & ?). exists x; split; auto. right; auto.
Qed.

Lemma compress_verify e : forall masks e', compress_in (perms_of masks) e = Done e' ->
  forall ns ns', names_rel masks ns ns' -> verify_in ns e = true -> verify_in ns' e' = true.
Proof.
  induction e as [[n|s b n]|bs body t IHbs IHb|i ps body IHb|k xs IHxs] using expr_ind'; intros masks e' H ns ns' R V.
  - injection H as <-. reflexivity.
  - cbn in H. unfold encounter in H. unfold perms_of in H. rewrite nth_error_map in H.
    destruct (nth_error masks s) as [m|] eqn:E; cbn in H; [|discriminate].
    destruct (nth_error (perm_of 0 m) b) as [[j|]|] eqn:P; try discriminate. injection H as <-. cbn in *.
    destruct (R _ _ E) as (vs & vs' & E1 & E2 & Q). rewrite E1 in V. rewrite E2, <- (Q _ _ P). exact V.
  - cbn [compress_in] in H. rewrite flat_map_keep in H. unfold let_perm in H. rewrite let_perm_of in H.
    change (perm_of 0 (kept bs) :: perms_of masks) with (perms_of (kept bs :: masks)) in H.
    destruct (collect _) as [nb| |] eqn:C; cbn [obind] in H; try discriminate.
    destruct (compress_in (perms_of (kept bs :: masks)) body) as [body'| |] eqn:B; cbn [obind] in H; try discriminate.
    apply collect_done, collect_bindings in C. cbn in V. apply andb_prop in V. destruct V as [V1 V2]. rewrite forallb_forall in V1.
    assert (HN : map b_name nb = sel (kept bs) (map b_name bs)).
    { rewrite sel_filter. eapply (forall2_names (fun x y => compress_in _ x = Done y)), C. }
    pose proof (names_rel_cons (kept bs) masks ns ns' (map b_name bs) R) as R'. rewrite <- HN in R'.
    pose proof (IHb _ _ B _ _ R' V2) as VB.
    destruct nb as [|b0 nb].
    + inversion C as [C1|]; subst. symmetry in C1.
      pose proof (compress_refs _ _ _ B 0 _ eq_refl (filter_nil_kept _ C1)) as R0.
      destruct (succ_pred _ _ R0) as (e2 & P2 & S2). unfold pred in H. rewrite P2 in H. cbn in H. injection H as <-.
      rewrite <- S2 in VB. exact (verify_unsucc e2 [] _ ns' VB).
    + injection H as <-. cbn [verify_in]. apply andb_true_intro. split; auto. apply forallb_forall. intros b' Hb'.
      destruct (forall2_in_r _ _ _ _ C Hb') as (b & Hb & Cb & _ & _). apply filter_In in Hb. destruct Hb as [Hb _].
      rewrite Forall_forall in IHbs. eapply (IHbs b Hb); eauto.
  - cbn [compress_in] in H. unfold lam_perm in H. rewrite lam_perm_of in H.
    change (perm_of 0 (repeat true (List.length ps)) :: perms_of masks) with (perms_of (repeat true (List.length ps) :: masks)) in H.
    destruct (compress_in _ body) as [body'| |] eqn:B; cbn in H; try discriminate. injection H as <-. cbn in *.
    eapply (IHb (repeat true (List.length ps) :: masks)); [exact B| |exact V]. apply names_rel_lam, R.
  - cbn [compress_in] in H. destruct (collect _) as [ys| |] eqn:C; cbn in H; try discriminate. injection H as <-.
    apply collect_done, collect_nodes in C. cbn in *. rewrite forallb_forall in *. intros y Hy.
    destruct (forall2_in_r _ _ _ _ C Hy) as (x & Hx & Cx). rewrite Forall_forall in IHxs. eapply (IHxs x Hx); eauto.
Qed.

(** * No empty lets *)
Lemma no_empty_succ e : forall d, no_empty_let (succ_at d e) -> no_empty_let e.
Proof.
  induction e as [[x|s b x]|bs body t IHbs IHb|i ps body IHb|k xs IHxs] using expr_ind'; intros d H.
  - exact Logic.I.
  - exact Logic.I.
  - cbn [succ_at walk no_empty_let] in *. rewrite (all_forall (fun b => no_empty_let (b_expr b))) in H.
    rewrite (all_forall (fun b => no_empty_let (b_expr b))). destruct H as (H1 & H2 & H3). split; [|split; eauto].
    + intros ->. apply H1. reflexivity.
    + rewrite Forall_forall in *. intros b Hb. specialize (H2 _ (in_map (map_b (succ_at (S d))) _ _ Hb)). cbn in H2. eauto.
  - cbn in *. eauto.
  - cbn [succ_at walk no_empty_let] in *. rewrite (all_forall no_empty_let) in *. rewrite Forall_forall in *. intros x Hx.
    specialize (H _ (in_map (succ_at d) _ _ Hx)). eauto.
Qed.
Lemma compress_no_empty e : forall masks e', compress_in (perms_of masks) e = Done e' -> no_empty_let e'.
Proof.
  induction e as [[n|s b n]|bs body t IHbs IHb|i ps body IHb|k xs IHxs] using expr_ind'; intros masks e' H.
  - injection H as <-. exact Logic.I.
  - cbn in H. unfold encounter in H. destruct (nth_error (perms_of masks) s) as [m|]; [|discriminate].
    destruct (nth_error m b) as [[j|]|]; try discriminate. injection H as <-. exact Logic.I.
  - cbn [compress_in] in H. rewrite flat_map_keep in H. unfold let_perm in H. rewrite let_perm_of in H.
    change (perm_of 0 (kept bs) :: perms_of masks) with (perms_of (kept bs :: masks)) in H.
    destruct (collect _) as [nb| |] eqn:C; cbn [obind] in H; try discriminate.
    destruct (compress_in (perms_of (kept bs :: masks)) body) as [body'| |] eqn:B; cbn [obind] in H; try discriminate.
    apply collect_done, collect_bindings in C. pose proof (IHb _ _ B) as NB.
    destruct nb as [|b0 nb].
    + inversion C as [C1|]; subst. symmetry in C1.
      pose proof (compress_refs _ _ _ B 0 _ eq_refl (filter_nil_kept _ C1)) as R0.
      destruct (succ_pred _ _ R0) as (e2 & P2 & S2). unfold pred in H. rewrite P2 in H. cbn in H. injection H as <-.
      rewrite <- S2 in NB. eapply no_empty_succ, NB.
    + injection H as <-. cbn [no_empty_let]. split; [discriminate|]. split; auto.
      apply (proj2 (all_forall (fun b => no_empty_let (b_expr b)) (b0 :: nb))). rewrite Forall_forall. intros b' Hb'.
      destruct (forall2_in_r _ _ _ _ C Hb') as (b & Hb & Cb & _ & _). apply filter_In in Hb. destruct Hb as [Hb _].
      rewrite Forall_forall in IHbs. eapply (IHbs b Hb); eauto.
  - cbn [compress_in] in H. unfold lam_perm in H. rewrite lam_perm_of in H.
    change (perm_of 0 (repeat true (List.length ps)) :: perms_of masks) with (perms_of (repeat true (List.length ps) :: masks)) in H.
    destruct (compress_in _ body) as [body'| |] eqn:B; cbn in H; try discriminate. injection H as <-. cbn [no_empty_let]. eapply IHb, B.
  - cbn [compress_in] in H. destruct (collect _) as [ys| |] eqn:C; cbn in H; try discriminate. injection H as <-.
    apply collect_done, collect_nodes in C. cbn [no_empty_let]. apply (all_forall no_empty_let). rewrite Forall_forall. intros y Hy.
    destruct (forall2_in_r _ _ _ _ C Hy) as (x & Hx & Cx). rewrite Forall_forall in IHxs. eapply (IHxs x Hx); eauto.
Qed.

(** * Nothing to do *)
Lemma kept_all bs : Forall (fun b => is_eliminated (b_expr b) = false) bs -> kept bs = repeat true (List.length bs).
Proof. induction 1 as [|b bs H F IH]; cbn; auto. rewrite H. cbn. f_equal. exact IH. Qed.
Lemma filter_all bs : Forall (fun b => is_eliminated (b_expr b) = false) bs -> filter keep bs = bs.
Proof. induction 1 as [|b bs H F IH]; cbn; auto. unfold keep at 1. rewrite H. cbn. f_equal. exact IH. Qed.
Lemma forall2_diag {A} (R : A -> A -> Prop) l : Forall2 R l l <-> Forall (fun x => R x x) l.
Proof. induction l; split; inversion 1; subst; constructor; auto; apply IHl; auto. Qed.

Lemma compress_id e : nothing_eliminated e -> no_empty_let e -> forall masks, Forall (fun m => exists n, m = repeat true n) masks ->
  refs_live masks e -> compress_in (perms_of masks) e = Done e.
Proof.
  induction e as [[n|s b n]|bs body t IHbs IHb|i ps body IHb|k xs IHxs] using expr_ind'; intros N E masks M R.
  - reflexivity.
  - cbn in *. destruct R as (m & R1 & R2). unfold encounter, perms_of. rewrite nth_error_map, R1. cbn.
    destruct (perm_some m 0 b R2) as (j & P). rewrite P.
    assert (exists n, m = repeat true n) as (q & ->).
    { rewrite Forall_forall in M. eapply M, nth_error_In, R1. }
    apply perm_all in P. cbn in P. subst. reflexivity.
  - cbn [nothing_eliminated no_empty_let refs_live] in N, E, R.
    rewrite (all_forall (fun b => is_eliminated (b_expr b) = false /\ nothing_eliminated (b_expr b))) in N.
    rewrite (all_forall (fun b => no_empty_let (b_expr b))) in E.
    rewrite (all_forall (fun b => is_eliminated (b_expr b) = false -> refs_live (kept bs :: masks) (b_expr b))) in R.
    destruct N as [N1 N2], E as (E0 & E1 & E2), R as [R1 R2].
    assert (K : Forall (fun b => is_eliminated (b_expr b) = false) bs) by (eapply Forall_impl; [|exact N1]; cbn; tauto).
    cbn [compress_in]. rewrite flat_map_keep, (filter_all _ K). unfold let_perm. rewrite let_perm_of.
    change (perm_of 0 (kept bs) :: perms_of masks) with (perms_of (kept bs :: masks)).
    assert (M' : Forall (fun m => exists n, m = repeat true n) (kept bs :: masks)).
    { constructor; auto. exists (List.length bs). apply kept_all, K. }
    rewrite (proj2 (collect_done _ bs)).
    + cbn [obind]. rewrite IHb; auto. cbn. destruct bs; [congruence|reflexivity].
    + rewrite Forall_forall in *.
      assert (Q : forall l, incl l bs -> Forall2 (fun x y => x = Done y) (map (fun b => obind (compress_in (perms_of (kept bs :: masks)) (b_expr b))
               (fun v => Done (mkBinding (b_name b) v (b_demand b)))) l) l).
      { intros l Inc. induction l as [|b l IH]; cbn [map]; constructor; [|apply IH; intros y Hy; apply Inc; right; auto].
        pose proof (Inc b (or_introl eq_refl)) as Hb. rewrite (IHbs b Hb); auto.
        - cbn. rewrite mkBinding_eta. reflexivity.
        - apply (N1 b Hb).
        - rewrite Forall_forall. exact M'. }
      apply Q. intros y Hy; exact Hy.
  - cbn in *. unfold lam_perm. rewrite lam_perm_of.
    change (perm_of 0 (repeat true (List.length ps)) :: perms_of masks) with (perms_of (repeat true (List.length ps) :: masks)).
    rewrite IHb; auto. constructor; eauto.
  - cbn [nothing_eliminated no_empty_let refs_live] in N, E, R.
    rewrite (all_forall nothing_eliminated) in N. rewrite (all_forall no_empty_let) in E. rewrite (all_forall (refs_live masks)) in R.
    cbn [compress_in]. rewrite (proj2 (collect_done _ xs)); [reflexivity|].
    clear - IHxs N E R M. induction IHxs as [|x xs Hx IHxs IH]; cbn; constructor; inversion N; inversion E; inversion R; subst; auto.
Qed.
