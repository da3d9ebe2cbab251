(** Proofs about folding literal structures. *)
From Coq Require Import String List Bool Arith Lia.
From Verif.Scope Require Import Model Spec Proofs.
From Verif.Fuse Require Import Model Spec.
Import ListNotations.
Local Open Scope string_scope.
Local Open Scope list_scope.

Lemma everywhere_bs P (bs : list (binding expr)) : fold_right (fun b acc => everywhere P (b_expr b) /\ acc) True bs <-> Forall (fun b => everywhere P (b_expr b)) bs.
Proof. induction bs; cbn; split; intros H; auto; [destruct H; constructor; tauto|inversion H; tauto]. Qed.
Lemma everywhere_xs P (xs : list expr) : fold_right (fun x acc => everywhere P x /\ acc) True xs <-> Forall (everywhere P) xs.
Proof. induction xs; cbn; split; intros H; auto; [destruct H; constructor; tauto|inversion H; tauto]. Qed.
Lemma everywhere_let P bs body t : everywhere P (ELet bs body t) <-> P (ELet bs body t) /\ Forall (fun b => everywhere P (b_expr b)) bs /\ everywhere P body.
Proof. cbn [everywhere]. rewrite everywhere_bs. tauto. Qed.
Lemma everywhere_lam P i ps body : everywhere P (ELam i ps body) <-> P (ELam i ps body) /\ everywhere P body.
Proof. cbn [everywhere]. tauto. Qed.
Lemma everywhere_node P k xs : everywhere P (ENode k xs) <-> P (ENode k xs) /\ Forall (everywhere P) xs.
Proof. cbn [everywhere]. rewrite everywhere_xs. tauto. Qed.
Lemma everywhere_here P e : everywhere P e -> P e.
Proof. destruct e; cbn [everywhere]; tauto. Qed.
Lemma everywhere_impl (P Q : expr -> Prop) e : (forall x, P x -> Q x) -> everywhere P e -> everywhere Q e.
Proof.
  intros H. induction e as [v|bs body t IHbs IHb|i ps body IHb|k xs IHxs] using expr_ind'.
  - cbn. intros []. auto.
  - rewrite !everywhere_let. intros (H1 & H2 & H3). split; auto. split; auto. rewrite Forall_forall in *. auto.
  - rewrite !everywhere_lam. intros (H1 & H2). auto.
  - rewrite !everywhere_node. intros (H1 & H2). split; auto. rewrite Forall_forall in *. auto.
Qed.

(** ** Sizes *)
Lemma size_pos e : 0 < size e.
Proof. destruct e; cbn; lia. Qed.
Lemma size_in xs x : In x xs -> size x <= list_sum (map size xs).
Proof. induction xs as [|y xs IH]; cbn; [tauto|]. unfold list_sum in *. cbn. intros [->|H]; [lia|]. specialize (IH H). lia. Qed.
Lemma size_in_b bs b : In b bs -> size (b_expr b) <= list_sum (map (fun b => size (b_expr b)) bs).
Proof. induction bs as [|y bs IH]; cbn; [tauto|]. unfold list_sum in *. cbn. intros [->|H]; [lia|]. specialize (IH H). lia. Qed.

(** ** Where nothing folds *)
Definition normal (e : expr) : Prop := everywhere (fun x => fold_step x = None) e.
Lemma sequence_map {A B} (f : A -> option B) xs ys : Forall2 (fun x y => f x = Some y) xs ys -> sequence (map f xs) = Some ys.
Proof. induction 1 as [|x y xs ys H _ IH]; cbn; auto. rewrite H, IH. reflexivity. Qed.
Lemma forall2_ex {A B} (R : A -> B -> Prop) xs : (forall x, In x xs -> exists y, R x y) -> exists ys, Forall2 R xs ys.
Proof.
  induction xs as [|x xs IH]; intros H; [exists []; constructor|].
  destruct (H x) as (y & Hy); [left; auto|]. destruct IH as (ys & Hys); [intros z Hz; apply H; right; auto|]. exists (y :: ys). constructor; auto.
Qed.
Lemma forall2_refl {A} (R : A -> A -> Prop) xs : (forall x, In x xs -> R x x) -> Forall2 R xs xs.
Proof. induction xs; intros H; constructor; [apply H; left; auto|apply IHxs; intros; apply H; right; auto]. Qed.
Lemma fuse_normal fuel : forall e, size e < fuel -> normal e -> fuse_in fuel e = Some e.
Proof.
  induction fuel as [|fuel IH]; intros e S N; [lia|]. cbn [fuse_in].
  assert (W : try_walk (fuse_in fuel) e = Some e).
  { destruct e as [v|bs body t|i ps body|k xs]; cbn [try_walk]; auto.
    - apply everywhere_let in N. destruct N as (_ & N1 & N2). cbn [size] in S. rewrite IH by (auto; lia).
      erewrite sequence_map; [reflexivity|]. apply forall2_refl. intros b Hb. unfold seq_b, map_b. cbn. rewrite IH; [cbn; f_equal; apply mkBinding_eta| |].
      + apply size_in_b in Hb. lia.
      + rewrite Forall_forall in N1. apply N1, Hb.
    - apply everywhere_lam in N. destruct N as (_ & N1). cbn [size] in S. rewrite IH by (auto; lia). reflexivity.
    - apply everywhere_node in N. destruct N as (_ & N1). cbn [size] in S. erewrite sequence_map; [reflexivity|]. apply forall2_refl. intros x Hx. apply IH.
      + apply size_in in Hx. lia.
      + rewrite Forall_forall in N1. apply N1, Hx. }
  rewrite W. apply everywhere_here in N. rewrite N. reflexivity.
Qed.

(** ** One step *)
Inductive step : expr -> expr -> Prop :=
| Step_present key keys xs fallback i v : position keys key = Some i -> nth_error xs i = Some v ->
    step (ENode (KLookup key) (ENode (KBlock keys) xs :: fallback)) v
| Step_absent key keys xs d rest : (position keys key = None \/ exists i, position keys key = Some i /\ nth_error xs i = None) ->
    step (ENode (KLookup key) (ENode (KBlock keys) xs :: d :: rest)) d
| Step_head ys x xs : step (ENode KApp [ENode (KIntrinsic "HEAD") ys; ENode KList (x :: xs)]) x
| Step_tail ys x xs : step (ENode KApp [ENode (KIntrinsic "TAIL") ys; ENode KList (x :: xs)]) (ENode KList xs).
Lemma step_iff e r : fold_step e = Some r <-> step e r.
Proof.
  unfold fold_step. split.
  - destruct (fold_block_lookup e) as [x|] eqn:E1; [|destruct (fold_head_call e) as [x|] eqn:E2]; cbn [or_else].
    + intros H. injection H as <-. destruct e as [v|bs body t|i ps body|k xs]; try discriminate. cbn in E1. destruct k; try discriminate.
      destruct xs as [|[v|bs body t|i ps body|k xs] fb]; try discriminate. destruct k; try discriminate. unfold block_get in E1.
      destruct (position keys key) as [i|] eqn:Ep.
      * destruct (nth_error xs i) as [v|] eqn:En; [injection E1 as <-; econstructor; eauto|].
        destruct fb as [|d fb]; [discriminate|]. injection E1 as <-. apply Step_absent. right. eauto.
      * destruct fb as [|d fb]; [discriminate|]. injection E1 as <-. apply Step_absent. auto.
    + intros H. injection H as <-. destruct e as [v|bs body t|i ps body|k xs]; try discriminate. cbn in E2. destruct k; try discriminate.
      destruct xs as [|[v|bs body t|i ps body|k ys] xs]; try discriminate. destruct k; try discriminate.
      destruct (String.eqb_spec name "HEAD") as [->|]; [|discriminate]. destruct xs as [|y [|z xs]]; try discriminate. cbn in E2.
      destruct y as [v|bs body t|i ps body|k zs]; try discriminate. destruct k; try discriminate. destruct zs; [discriminate|]. injection E2 as <-. constructor.
    + intros H. destruct e as [v|bs body t|i ps body|k xs]; try discriminate. cbn in H. destruct k; try discriminate.
      destruct xs as [|[v|bs body t|i ps body|k ys] xs]; try discriminate. destruct k; try discriminate.
      destruct (String.eqb_spec name "TAIL") as [->|]; [|discriminate]. destruct xs as [|y [|z xs]]; try discriminate. cbn in H.
      destruct y as [v|bs body t|i ps body|k zs]; try discriminate. destruct k; try discriminate. destruct zs; [discriminate|]. injection H as <-. constructor.
  - intros H. destruct H as [key keys xs fb i v Ep En|key keys xs d rest H|ys x xs|ys x xs]; cbn; auto.
    + unfold block_get. rewrite Ep, En. reflexivity.
    + unfold block_get. destruct H as [->|(i & -> & ->)]; reflexivity.
Qed.
Lemma step_size e r : step e r -> size r < size e.
Proof.
  intros H. destruct H as [key keys xs fb i v Ep En|key keys xs d rest H|ys x xs|ys x xs]; cbn.
  - apply nth_error_In in En. apply size_in in En. unfold list_sum in *. cbn. lia.
  - unfold list_sum. cbn. lia.
  - unfold list_sum. cbn. lia.
  - unfold list_sum. cbn. lia.
Qed.
Lemma step_everywhere (P : expr -> Prop) e r : (forall x xs, P (ENode KList (x :: xs)) -> P (ENode KList xs)) -> step e r -> everywhere P e -> everywhere P r.
Proof.
  intros HL H E. destruct H as [key keys xs fb i v Ep En|key keys xs d rest H|ys x xs|ys x xs];
    apply everywhere_node in E; destruct E as (_ & E).
  - inversion E as [|? ? E1 E2]; subst. apply everywhere_node in E1. destruct E1 as (_ & E1). rewrite Forall_forall in E1. apply E1. eapply nth_error_In; eauto.
  - inversion E as [|? ? E1 E2]; subst. inversion E2; auto.
  - inversion E as [|? ? E1 E2]; subst. inversion E2 as [|? ? E3 E4]; subst. apply everywhere_node in E3. destruct E3 as (_ & E3). inversion E3; auto.
  - inversion E as [|? ? E1 E2]; subst. inversion E2 as [|? ? E3 E4]; subst. apply everywhere_node in E3. destruct E3 as (E0 & E3). inversion E3.
    apply everywhere_node. split; auto. eapply HL; eauto.
Qed.
(** A node whose children fold nowhere and which folds itself gives something that folds
    nowhere. *)
Lemma step_normal k xs r : Forall normal xs -> step (ENode k xs) r -> normal r.
Proof.
  intros N H. remember (ENode k xs) as e eqn:Ee. destruct H as [key keys ys fb i v Ep En|key keys ys d rest H|ys x zs|ys x zs]; injection Ee as <- <-.
  - inversion N as [|? ? N1 N2]; subst. apply everywhere_node in N1. destruct N1 as (_ & N1). rewrite Forall_forall in N1. apply N1. eapply nth_error_In; eauto.
  - inversion N as [|? ? N1 N2]; subst. inversion N2; auto.
  - inversion N as [|? ? N1 N2]; subst. inversion N2 as [|? ? N3 N4]; subst. apply everywhere_node in N3. destruct N3 as (_ & N3). inversion N3; auto.
  - inversion N as [|? ? N1 N2]; subst. inversion N2 as [|? ? N3 N4]; subst. apply everywhere_node in N3. destruct N3 as (_ & N3). inversion N3.
    apply everywhere_node. split; auto.
Qed.

(** ** Verification and free names *)
Lemma forallb_in {A} (f : A -> bool) l x : forallb f l = true -> In x l -> f x = true.
Proof. intros H. apply forallb_forall, H. Qed.
Lemma step_verify scopes e r : step e r -> verify_in scopes e = true -> verify_in scopes r = true.
Proof.
  intros H V. destruct H as [key keys xs fb i v Ep En|key keys xs d rest H|ys x xs|ys x xs]; cbn in V.
  - apply andb_prop in V. destruct V as [V _]. eapply forallb_in; eauto. eapply nth_error_In; eauto.
  - apply andb_prop in V. destruct V as [_ V]. apply andb_prop in V. tauto.
  - rewrite !andb_true_iff in V. tauto.
  - rewrite !andb_true_iff in V. cbn. tauto.
Qed.
Lemma step_free e r n : step e r -> In n (free_vars r) -> In n (free_vars e).
Proof.
  intros H V. destruct H as [key keys xs fb i v Ep En|key keys xs d rest H|ys x xs|ys x xs]; cbn in *; rewrite ?in_app_iff; auto.
  - left. apply in_flat_map. exists v. split; auto. eapply nth_error_In; eauto.
Qed.

(** ** Meaning *)
Lemma position_split keys key : forall i, position keys key = Some i ->
  exists before after, keys = before ++ key :: after /\ List.length before = i /\ ~ In key before.
Proof.
  induction keys as [|x keys IH]; intros i H; [discriminate|]. cbn in H. destruct (String.eqb_spec x key) as [->|Ne].
  - injection H as <-. exists [], keys. auto.
  - destruct (position keys key) as [j|] eqn:E; [|discriminate]. injection H as <-. destruct (IH j eq_refl) as (b & a & -> & <- & N).
    exists (x :: b), a. split; auto. split; auto. intros [K|K]; auto.
Qed.
Lemma position_none keys key : position keys key = None <-> ~ In key keys.
Proof.
  induction keys as [|x keys IH]; cbn; [tauto|]. destruct (String.eqb_spec x key) as [->|Ne].
  - split; [discriminate|tauto].
  - destruct (position keys key); cbn; split; try discriminate.
    + intros H. exfalso. assert (K : ~ In key keys) by tauto. apply IH in K. discriminate.
    + intros _ [K|K]; [auto|]. apply IH in K; auto.
    + reflexivity.
Qed.
Definition shape (x : expr) : Prop :=
  match x with
  | ENode (KBlock keys) xs => List.length xs = List.length keys /\ NoDup keys
  | ENode (KLookup _) xs => List.length xs = 1 \/ List.length xs = 2
  | ENode (KIntrinsic _) xs => xs = []
  | _ => True
  end.
Lemma shaped_iff e : shaped e <-> everywhere shape e.
Proof. reflexivity. Qed.
Lemma step_den I rho env e r : lawful I -> shaped e -> step e r -> den I rho env r = den I rho env e.
Proof.
  intros L S H. destruct H as [key keys xs fb i v Ep En|key keys xs d rest H|ys x xs|ys x xs];
    apply everywhere_node in S; destruct S as (S0 & S); cbn [den map].
  - apply position_split in Ep. destruct Ep as (b & a & -> & Lb & Nb). apply nth_error_split in En. destruct En as (x1 & x2 & -> & Lx).
    rewrite map_app. cbn [map]. symmetry. apply (lookup_present I L); auto. rewrite map_length. congruence.
  - destruct H as [Ep|(i & Ep & En)].
    + destruct rest; [|exfalso; cbn in S0; lia]. symmetry. apply (lookup_absent I L). apply position_none, Ep.
    + exfalso. inversion S as [|? ? S1 S2]; subst. apply everywhere_node in S1. destruct S1 as ((S1 & _) & _).
      apply nth_error_None in En. apply position_split in Ep. destruct Ep as (b & a & -> & Lb & _). rewrite app_length in S1. cbn in S1. lia.
  - inversion S as [|? ? S1 S2]; subst. apply everywhere_node in S1. destruct S1 as (-> & _). symmetry. apply (head_of_list I L).
  - inversion S as [|? ? S1 S2]; subst. apply everywhere_node in S1. destruct S1 as (-> & _). symmetry. apply (tail_of_list I L).
Qed.

(** ** The pass *)
Record good (e r : expr) : Prop := mkGood {
  g_size : size r <= size e;
  g_normal : normal r;
  g_shaped : shaped e -> shaped r;
  g_den : forall I rho env, lawful I -> shaped e -> den I rho env r = den I rho env e;
  g_verify : forall scopes, verify_in scopes e = true -> verify_in scopes r = true;
  g_free : forall n, In n (free_vars r) -> In n (free_vars e) }.

Lemma good_step e w r : good e w \/ (size w <= size e /\ (shaped e -> shaped w) /\ (forall I rho env, lawful I -> shaped e -> den I rho env w = den I rho env e) /\
    (forall scopes, verify_in scopes e = true -> verify_in scopes w = true) /\ (forall n, In n (free_vars w) -> In n (free_vars e))) ->
  step w r -> normal r -> good e r.
Proof.
  intros H St N. assert (H' : size w <= size e /\ (shaped e -> shaped w) /\ (forall I rho env, lawful I -> shaped e -> den I rho env w = den I rho env e) /\
    (forall scopes, verify_in scopes e = true -> verify_in scopes w = true) /\ (forall n, In n (free_vars w) -> In n (free_vars e))).
  { destruct H as [[]|H]; auto. } destruct H' as (H1 & H2 & H3 & H4 & H5). constructor; auto.
  - apply step_size in St. lia.
  - intros S. eapply step_everywhere; [|exact St|apply H2, S]. cbn. auto.
  - intros I rho env L S. rewrite <- (H3 I rho env L S). apply step_den; auto.
  - intros scopes V. eapply step_verify; eauto.
  - intros n Hn. apply H5. eapply step_free; eauto.
Qed.
Lemma list_sum_le {A} (f g : A -> nat) xs ys : Forall2 (fun x y => g y <= f x) xs ys -> list_sum (map g ys) <= list_sum (map f xs).
Proof. induction 1; cbn; [lia|]. unfold list_sum in *. lia. Qed.
Lemma forall2_impl {A B} (R Q : A -> B -> Prop) xs ys : (forall x y, In x xs -> In y ys -> R x y -> Q x y) -> Forall2 R xs ys -> Forall2 Q xs ys.
Proof.
  intros H F. induction F as [|x y xs ys Hxy F IH]; constructor; [apply H; cbn; auto|]. apply IH. intros; apply H; cbn; auto.
Qed.
Lemma forall2_right {A B} (P : B -> Prop) (R : A -> B -> Prop) xs ys : (forall x y, In x xs -> R x y -> P y) -> Forall2 R xs ys -> Forall P ys.
Proof. intros H F. induction F as [|x y xs ys Hxy F IH]; constructor; [apply (H x); cbn; auto|apply IH; intros; eapply H; cbn; eauto]. Qed.
Lemma forall2_map_eq {A B C} (f : A -> C) (g : B -> C) xs ys : Forall2 (fun x y => f x = g y) xs ys -> map f xs = map g ys.
Proof. induction 1; cbn; congruence. Qed.
Lemma forall2_len {A B} (R : A -> B -> Prop) xs ys : Forall2 R xs ys -> List.length xs = List.length ys.
Proof. induction 1; cbn; congruence. Qed.
Lemma forall2_in_r {A B} (R : A -> B -> Prop) xs ys y : Forall2 R xs ys -> In y ys -> exists x, In x xs /\ R x y.
Proof. induction 1 as [|a b xs ys Hab F IH]; [intros []|]. intros [->|H]; [exists a; cbn; auto|]. destruct (IH H) as (x & ? & ?). exists x. cbn. auto. Qed.
Lemma forallb_forall2 {A B} (f : A -> bool) (g : B -> bool) xs ys : Forall2 (fun x y => f x = true -> g y = true) xs ys -> forallb f xs = true -> forallb g ys = true.
Proof. induction 1; cbn; auto. rewrite !andb_true_iff. intros []. auto. Qed.

Lemma shape_children k xs ys : List.length xs = List.length ys -> shape (ENode k xs) -> shape (ENode k ys).
Proof. intros L. destruct k; cbn; auto; try (rewrite <- L; auto). intros ->. destruct ys; [auto|discriminate]. Qed.

Lemma fuse_ok fuel : forall e, size e < fuel -> exists r, fuse_in fuel e = Some r /\ good e r.
Proof.
  induction fuel as [|fuel IH]; intros e Sz; [lia|]. cbn [fuse_in].
  destruct e as [v|bs body t|i ps body|k xs].
  - exists (EVar v). split; auto. constructor; auto. unfold normal. cbn. auto.
  - cbn [size] in Sz. destruct (IH body) as (body' & Eb & Gb); [lia|].
    destruct (forall2_ex (fun b b' => fuse_in fuel (b_expr b) = Some (b_expr b') /\ b_name b' = b_name b /\ b_demand b' = b_demand b /\ good (b_expr b) (b_expr b')) bs) as (bs' & F).
    { intros b Hb. destruct (IH (b_expr b)) as (r & E & G); [apply size_in_b in Hb; lia|]. exists (mkBinding (b_name b) r (b_demand b)). auto. }
    cbn [try_walk]. rewrite Eb. rewrite (sequence_map _ bs bs').
    2:{ eapply forall2_impl; [|exact F]. cbn. intros b b' _ _ (E & En & Ed & _). unfold seq_b, map_b. cbn. rewrite E. cbn. f_equal. rewrite <- En, <- Ed. apply mkBinding_eta. }
    cbn [fold_step or_else fold_block_lookup fold_head_call fold_tail_call]. exists (ELet bs' body' t). split; auto.
    assert (En : map b_name bs' = map b_name bs).
    { symmetry. apply forall2_map_eq. eapply forall2_impl; [|exact F]. cbn. intros x y _ _ (_ & H & _). auto. }
    constructor.
    + cbn [size]. pose proof (g_size _ _ Gb). assert (list_sum (map (fun b => size (b_expr b)) bs') <= list_sum (map (fun b => size (b_expr b)) bs)); [|lia].
      apply list_sum_le. eapply forall2_impl; [|exact F]. cbn. intros x y _ _ (_ & _ & _ & G). apply (g_size _ _ G).
    + apply everywhere_let. split; [reflexivity|]. split; [|apply (g_normal _ _ Gb)]. eapply forall2_right; [|exact F]. intros x y _ (_ & _ & _ & G). apply (g_normal _ _ G).
    + intros S. apply everywhere_let in S. destruct S as (_ & S1 & S2). apply everywhere_let. split; [exact Logic.I|]. split; [|apply (g_shaped _ _ Gb), S2].
      eapply forall2_right; [|exact F]. intros x y Hx (_ & _ & _ & G). apply (g_shaped _ _ G). rewrite Forall_forall in S1. apply S1, Hx.
    + intros I rho env L S. apply everywhere_let in S. destruct S as (_ & S1 & S2). cbn [den]. rewrite En. apply i_let_ext.
      * intros vs. symmetry. apply forall2_map_eq. eapply forall2_impl; [|exact F]. cbn. intros x y Hx _ (_ & _ & _ & G). symmetry. apply (g_den _ _ G); auto.
        rewrite Forall_forall in S1. apply S1, Hx.
      * intros vs. apply (g_den _ _ Gb); auto.
    + intros scopes V. cbn [verify_in] in *. rewrite En. apply andb_prop in V. destruct V as [V1 V2]. apply andb_true_intro. split; [|apply (g_verify _ _ Gb), V2].
      revert V1. apply forallb_forall2. eapply forall2_impl; [|exact F]. cbn. intros x y _ _ (_ & _ & _ & G). apply (g_verify _ _ G).
    + intros n. cbn [free_vars]. rewrite !in_app_iff, !in_flat_map. intros [(b & Hb & H)|H]; [left|right; apply (g_free _ _ Gb), H].
      destruct (forall2_in_r _ _ _ _ F Hb) as (x & Hx & (_ & _ & _ & G)). exists x. split; auto. apply (g_free _ _ G), H.
  - cbn [size] in Sz. destruct (IH body) as (body' & Eb & Gb); [lia|]. cbn [try_walk]. rewrite Eb. cbn [option_map].
    cbn [fold_step or_else fold_block_lookup fold_head_call fold_tail_call]. exists (ELam i ps body'). split; auto. constructor.
    + cbn [size]. pose proof (g_size _ _ Gb). lia.
    + apply everywhere_lam. split; [reflexivity|apply (g_normal _ _ Gb)].
    + intros S. apply everywhere_lam in S. destruct S as (_ & S). apply everywhere_lam. split; [exact Logic.I|apply (g_shaped _ _ Gb), S].
    + intros I rho env L S. apply everywhere_lam in S. destruct S as (_ & S). cbn [den]. apply i_lam_ext. intros vs. apply (g_den _ _ Gb); auto.
    + intros scopes V. cbn [verify_in] in *. apply (g_verify _ _ Gb), V.
    + intros n. cbn [free_vars]. apply (g_free _ _ Gb).
  - cbn [size] in Sz.
    destruct (forall2_ex (fun x y => fuse_in fuel x = Some y /\ good x y) xs) as (ys & F).
    { intros x Hx. apply IH. apply size_in in Hx. lia. }
    cbn [try_walk]. rewrite (sequence_map _ xs ys) by (eapply forall2_impl; [|exact F]; cbn; tauto). cbn [option_map].
    assert (Ny : Forall normal ys) by (eapply forall2_right; [|exact F]; intros x y _ (_ & G); apply (g_normal _ _ G)).
    assert (W1 : size (ENode k ys) <= size (ENode k xs)).
    { cbn [size]. assert (list_sum (map size ys) <= list_sum (map size xs)); [|lia]. apply list_sum_le. eapply forall2_impl; [|exact F]. cbn. intros x y _ _ (_ & G). apply (g_size _ _ G). }
    assert (W2 : shaped (ENode k xs) -> shaped (ENode k ys)).
    { intros S. apply everywhere_node in S. destruct S as (S0 & S). apply everywhere_node. split; [eapply shape_children; [eapply forall2_len, F|exact S0]|].
      eapply forall2_right; [|exact F]. intros x y Hx (_ & G). apply (g_shaped _ _ G). rewrite Forall_forall in S. apply S, Hx. }
    assert (W3 : forall I rho env, lawful I -> shaped (ENode k xs) -> den I rho env (ENode k ys) = den I rho env (ENode k xs)).
    { intros I rho env L S. apply everywhere_node in S. destruct S as (_ & S). cbn [den]. f_equal. symmetry. apply forall2_map_eq.
      eapply forall2_impl; [|exact F]. cbn. intros x y Hx _ (_ & G). symmetry. apply (g_den _ _ G); auto. rewrite Forall_forall in S. apply S, Hx. }
    assert (W4 : forall scopes, verify_in scopes (ENode k xs) = true -> verify_in scopes (ENode k ys) = true).
    { intros scopes V. cbn [verify_in] in *. revert V. apply forallb_forall2. eapply forall2_impl; [|exact F]. cbn. intros x y _ _ (_ & G). apply (g_verify _ _ G). }
    assert (W5 : forall n, In n (free_vars (ENode k ys)) -> In n (free_vars (ENode k xs))).
    { intros n. cbn [free_vars]. rewrite !in_flat_map. intros (y & Hy & H). destruct (forall2_in_r _ _ _ _ F Hy) as (x & Hx & (_ & G)). exists x. split; auto. apply (g_free _ _ G), H. }
    destruct (fold_step (ENode k ys)) as [r|] eqn:Er.
    + apply step_iff in Er. pose proof (step_normal k ys r Ny Er) as Nr. exists r. split.
      * apply fuse_normal; auto. apply step_size in Er. cbn [size] in *. lia.
      * eapply good_step; [right|exact Er|exact Nr]. auto.
    + exists (ENode k ys). split; auto. constructor; auto. apply everywhere_node. auto.
Qed.

Lemma normal_iff e : shaped e -> (normal e <-> nothing_to_fold e).
Proof.
  intros S. apply shaped_iff in S. unfold normal, nothing_to_fold. assert (K : forall x, shape x -> everywhere shape x -> (fold_step x = None <-> ~ foldable x)).
  { intros x _ Sx. split.
    - intros E H. destruct H as [key keys xs fb Hin|key keys xs d Hn|y ys|y ys]; try discriminate.
      + destruct (position keys key) as [j|] eqn:Ep; [|apply position_none in Ep; auto].
        apply everywhere_node in Sx. destruct Sx as (_ & Sx). inversion Sx as [|? ? S1 S2]; subst. apply everywhere_node in S1. destruct S1 as ((S1 & _) & _).
        destruct (nth_error xs j) as [v|] eqn:En.
        * rewrite (proj2 (step_iff _ v)) in E; [discriminate|]. econstructor; eauto.
        * apply nth_error_None in En. destruct (position_split _ _ _ Ep) as (b & a & -> & <- & _). rewrite app_length in S1. cbn in S1. lia.
      + rewrite (proj2 (step_iff _ d)) in E; [discriminate|]. constructor. left. apply position_none, Hn.
    - intros N. destruct (fold_step x) as [r|] eqn:E; auto. exfalso. apply N. apply step_iff in E.
      destruct E as [key keys xs fb i v Ep En|key keys xs d rest H|ys y zs|ys y zs]; apply everywhere_node in Sx; destruct Sx as (S0 & Sx).
      + constructor. apply position_some in Ep. eapply nth_error_In; eauto.
      + destruct rest; [|cbn in S0; lia]. destruct H as [Ep|(i & Ep & _)].
        * apply Foldable_absent. apply position_none, Ep.
        * apply Foldable_present. apply position_some in Ep. eapply nth_error_In; eauto.
      + inversion Sx as [|? ? S1 S2]; subst. apply everywhere_node in S1. destruct S1 as (-> & _). constructor.
      + inversion Sx as [|? ? S1 S2]; subst. apply everywhere_node in S1. destruct S1 as (-> & _). constructor. }
  induction e as [v|bs body t IHbs IHb|i ps body IHb|k xs IHxs] using expr_ind'.
  - cbn. pose proof (K (EVar v)) as H. cbn in H. specialize (H Logic.I (conj Logic.I Logic.I)). tauto.
  - pose proof (K _ (everywhere_here shape _ S) S) as H. apply everywhere_let in S. destruct S as (_ & S1 & S2). rewrite !everywhere_let, !Forall_forall in *. specialize (IHb S2).
    split; intros (H1 & H2 & H3); (split; [tauto|]); (split; [|tauto]); intros b Hb; apply (IHbs b Hb (S1 b Hb)), H2, Hb.
  - pose proof (K _ (everywhere_here shape _ S) S) as H. apply everywhere_lam in S. destruct S as (_ & S2). rewrite !everywhere_lam. specialize (IHb S2). tauto.
  - pose proof (K _ (everywhere_here shape _ S) S) as H. apply everywhere_node in S. destruct S as (_ & S1). rewrite !everywhere_node, !Forall_forall in *.
    split; intros (H1 & H2); (split; [tauto|]); intros x Hx; apply (IHxs x Hx (S1 x Hx)), H2, Hx.
Qed.
