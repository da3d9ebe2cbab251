(** The model's application of a substitution is the relation. *)
From Coq Require Import Ascii String List Bool Arith Lia.
From Verif.Types Require Import Model Spec Basics RuleProofs TermProofs UnifySpec ResProofs.
Import ListNotations.
Open Scope string_scope.
Open Scope list_scope.
Open Scope nat_scope.

Lemma mapm_Forall2 {A B} (f : A -> option B) l r : mapm f l = Some r <-> Forall2 (fun a b => f a = Some b) l r.
Proof.
  revert r. induction l as [|a l IH]; cbn; intros r.
  - split; [intros [= <-]; constructor|intros F; inversion F; reflexivity].
  - split.
    + destruct (f a) eqn:E; [|discriminate]. cbn. destruct (mapm f l) eqn:M; [|discriminate]. cbn. intros [= <-]. constructor; [exact E|now apply IH].
    + intros F. inversion F as [|? b ? bs H1 H2]; subst. rewrite H1. cbn. apply IH in H2. now rewrite H2.
Qed.
Lemma fieldsm_Forall2 {A B} (f : A -> option B) l r : fieldsm f l = Some r <->
  Forall2 (fun kp kp' => fst kp = fst kp' /\ is_required (snd kp) = is_required (snd kp') /\ f (pty (snd kp)) = Some (pty (snd kp'))) l r.
Proof.
  unfold fieldsm. rewrite mapm_Forall2.
  assert (E : forall (kp : string * presence A) (kp' : string * presence B),
    (do p <- presencem f (snd kp); Some (fst kp, p)) = Some kp' <-> fst kp = fst kp' /\ is_required (snd kp) = is_required (snd kp') /\ f (pty (snd kp)) = Some (pty (snd kp'))).
  { intros [k p] [k' p']. cbn. destruct p as [t|t]; cbn; (destruct (f t) as [u|]; cbn; [|split; [discriminate|intros (_ & _ & [=])]]);
      (split; [intros [= <- <-]; auto|intros (-> & E & [= ->]); destruct p'; cbn in *; congruence]). }
  split; apply Forall2_imp; intros a b; apply E.
Qed.

Section Apply.
Variable d : bool.
Variable s : subst.
Hypothesis HS : subst_first_order d s.

Lemma apply_record fuel f o : s <> [] -> apply_subst (S fuel) (TRecord f o []) s = do f <- fieldsm (fun t => apply_subst fuel t s) f; Some (TRecord f o []).
Proof. intros N. cbn. destruct s; [contradiction|]. destruct (fieldsm _ f); reflexivity. Qed.
Lemma beta_fo fuel f x : first_order d (TApp f x) = true -> beta_reduce fuel (TApp f x) = Some (TApp f x).
Proof. destruct f; try reflexivity. discriminate. Qed.

Theorem apply_res fuel : forall t u, first_order d t = true -> apply_subst fuel t s = Some u -> res s t u.
Proof.
  induction fuel as [|fuel IH]; intros t u G; [discriminate|]. assert (s = [] \/ s <> []) as [->|N] by (destruct s; [now left|now right]).
  - cbn. intros [= <-]. apply (resolved_res _ d); [exact G|]. now intros x _.
  - assert (L : forall l l', (forall t, In t l -> first_order d t = true) -> Forall2 (fun a b => apply_subst fuel a s = Some b) l l' -> Forall2 (res s) l l').
    { intros l l' Gl F. induction F; constructor; [apply IH; [apply Gl; now left|assumption]|]. apply IHF. intros; apply Gl; now right. }
    destruct t as [b| | | |n|f x|l|l a|f o r|a b|l|x|x|x k|x b|bs b|x b]; try discriminate;
      try (cbn [apply_subst]; destruct s; [contradiction|]; intros [= <-]; constructor; fail).
    + cbn [apply_subst]. assert (E : exists p q, s = p :: q) by (destruct s; [contradiction|eauto]). destruct E as (p & q & E). rewrite E. cbn iota. rewrite <- E.
      apply fo_app in G as G'. destruct G' as (G1 & G2).
      destruct (apply_subst fuel f s) as [f'|] eqn:E1; [|discriminate]. destruct (apply_subst fuel x s) as [x'|] eqn:E2; [|discriminate]. cbn [bind].
      apply IH in E1; [|exact G1]. apply IH in E2; [|exact G2]. assert (R : res s (TApp f x) (TApp f' x')) by now constructor.
      rewrite beta_fo by now apply (res_fo d s _ _ HS R). intros [= <-]. exact R.
    + cbn [apply_subst]. assert (E : exists p q, s = p :: q) by (destruct s; [contradiction|eauto]). destruct E as (p & q & E). rewrite E. cbn iota. rewrite <- E.
      destruct (mapm _ l) as [l'|] eqn:M; [|discriminate]. cbn [bind]. intros [= <-]. apply mapm_Forall2 in M. constructor. apply L; [|exact M].
      cbn in G. now apply forallb_forall.
    + cbn [apply_subst]. assert (E : exists p q, s = p :: q) by (destruct s; [contradiction|eauto]). destruct E as (p & q & E). rewrite E. cbn iota. rewrite <- E.
      apply fo_prefix in G as (N' & G1 & G2).
      destruct (mapm _ l) as [l'|] eqn:M; [|discriminate]. destruct (apply_subst fuel a s) as [a'|] eqn:E2; [|discriminate]. cbn [bind]. intros [= <-]. apply mapm_Forall2 in M.
      rewrite prefix_list_nonempty by (inversion M; subst; [contradiction|reflexivity]). constructor; [now apply L|now apply IH].
    + apply fo_record in G as (-> & G). rewrite apply_record by exact N.
      destruct (fieldsm _ f) as [f'|] eqn:M; [|discriminate]. cbn [bind]. intros [= <-]. apply fieldsm_Forall2 in M. constructor.
      clear -M G IH. induction M as [|? ? ? ? (E1 & E2 & E3)]; constructor; [|apply IHM; intros; apply G; now right].
      split; [exact E1|]. split; [exact E2|]. apply IH; [apply G; now left|exact E3].
    + cbn [apply_subst]. assert (E : exists p q, s = p :: q) by (destruct s; [contradiction|eauto]). destruct E as (p & q & E). rewrite E. cbn iota. rewrite <- E.
      cbn in G. apply andb_true_iff in G as (G1 & G2).
      destruct (apply_subst fuel a s) as [f'|] eqn:E1; [|discriminate]. destruct (apply_subst fuel b s) as [x'|] eqn:E2; [|discriminate]. cbn [bind].
      intros [= <-]. constructor; now apply IH.
    + cbn [apply_subst]. assert (E : exists p q, s = p :: q) by (destruct s; [contradiction|eauto]). destruct E as (p & q & E). rewrite E. cbn iota. rewrite <- E.
      destruct (mapm _ l) as [l'|] eqn:M; [|discriminate]. cbn [bind]. intros [= <-]. apply mapm_Forall2 in M. constructor. apply L; [|exact M].
      cbn in G. now apply forallb_forall.
    + cbn [apply_subst]. assert (E : exists p q, s = p :: q) by (destruct s; [contradiction|eauto]). destruct E as (p & q & E). rewrite E. cbn iota. rewrite <- E.
      destruct (get x s) as [t|] eqn:Eg; [|intros [= <-]; now constructor]. intros H. apply (res_bound s x k t u Eg). apply IH; [exact (HS x t Eg)|exact H].
Qed.

Lemma Forall2_bound {A B} (P : nat -> A -> B -> Prop) l l' : (forall n m a b, n <= m -> P n a b -> P m a b) ->
  Forall2 (fun a b => exists n, P n a b) l l' -> exists n, Forall2 (P n) l l'.
Proof.
  intros M F. induction F as [|a b l l' (n & H) _ (m & IH)]; [exists 0; constructor|]. exists (max n m). constructor; [apply (M n); [lia|exact H]|].
  revert IH. apply Forall2_imp. intros a' b'. apply M. lia.
Qed.
Theorem res_apply t u : res s t u -> first_order d t = true -> exists n, forall fuel, n <= fuel -> apply_subst fuel t s = Some u.
Proof.
  assert (s = [] \/ s <> []) as [N|N] by (destruct s; [now left|now right]).
  { intros H G. exists 1. intros [|fuel] Hf; [lia|]. rewrite N. cbn. f_equal. apply (res_functional s t); [|exact H]. apply (resolved_res _ d); [exact G|]. intros x _. now rewrite N. }
  assert (E : exists p q, s = p :: q) by (destruct s; [contradiction|eauto]). destruct E as (p & q & E).
  assert (L : forall l l', (forall t, In t l -> first_order d t = true) ->
    Forall2 (fun a b => res s a b /\ (first_order d a = true -> exists n, forall fuel, n <= fuel -> apply_subst fuel a s = Some b)) l l' ->
    exists n, forall fuel, n <= fuel -> mapm (fun t => apply_subst fuel t s) l = Some l').
  { intros l l' Gl F. assert (F' : Forall2 (fun a b => exists n, forall fuel, n <= fuel -> apply_subst fuel a s = Some b) l l').
    { induction F as [|a b l l' [_ H] F IH]; constructor; [apply H, Gl; now left|]. apply IH. intros; apply Gl; now right. }
    apply (Forall2_bound (fun n a b => forall fuel, n <= fuel -> apply_subst fuel a s = Some b)) in F'; [|intros n m a b Hn K fuel Hf; apply K; lia].
    destruct F' as (n & F'). exists n. intros fuel Hf. apply mapm_Forall2. revert F'. apply Forall2_imp. auto. }
  induction 1 as [x k t u Eg Hr IHres|x k Eg|t At|f x f' x' Hr1 Hr2 IHres1 IHres2|l l' H|l a l' a' H Hr IHres|f o f' H|a b a' b' Hr1 Hr2 IHres1 IHres2|l l' H] using res_induction; intros G.
  - destruct (IHres (HS x t Eg)) as (n & IH). exists (S n). intros [|fuel] Hf; [lia|]. cbn [apply_subst]. rewrite E at 1. rewrite Eg. apply IH. lia.
  - exists 1. intros [|fuel] Hf; [lia|]. cbn [apply_subst]. rewrite E at 1. now rewrite Eg.
  - exists 1. intros [|fuel] Hf; [lia|]. cbn [apply_subst]. rewrite E at 1. destruct t; try discriminate; reflexivity.
  - pose proof (res_fo d s _ _ HS (res_app s _ _ _ _ Hr1 Hr2) G) as G'. apply fo_app in G as (G1 & G2). destruct (IHres1 G1) as (n & IH1), (IHres2 G2) as (m & IH2).
    exists (S (max n m)). intros [|fuel] Hf; [lia|]. cbn [apply_subst]. rewrite E at 1. rewrite IH1, IH2 by lia. cbn [bind]. now apply beta_fo.
  - cbn in G. destruct (L l l') as (n & K); [now apply forallb_forall|exact H|]. exists (S n). intros [|fuel] Hf; [lia|]. cbn [apply_subst]. rewrite E at 1. now rewrite K by lia.
  - apply fo_prefix in G as (N' & G1 & G2). destruct (L l l') as (n & K); [exact G1|exact H|]. destruct (IHres G2) as (m & IH).
    exists (S (max n m)). intros [|fuel] Hf; [lia|]. cbn [apply_subst]. rewrite E at 1. rewrite K, IH by lia. cbn [bind]. f_equal. apply prefix_list_nonempty.
    inversion H; subst; [contradiction|reflexivity].
  - apply fo_record in G as (_ & G).
    assert (F' : Forall2 (fun kp kp' => exists n, forall fuel, n <= fuel -> fst kp = fst kp' /\ is_required (snd kp) = is_required (snd kp') /\ apply_subst fuel (pty (snd kp)) s = Some (pty (snd kp'))) f f').
    { clear -H G. induction H as [|a b l l' (E1 & E2 & _ & H) F IH]; constructor; [|apply IH; intros; apply G; now right].
      destruct (H (G a (or_introl eq_refl))) as (n & K). exists n. intros fuel Hf. auto. }
    apply (Forall2_bound (fun n kp kp' => forall fuel, n <= fuel -> fst kp = fst kp' /\ is_required (snd kp) = is_required (snd kp') /\ apply_subst fuel (pty (snd kp)) s = Some (pty (snd kp')))) in F';
      [|intros n m a b Hn K fuel Hf; apply K; lia].
    destruct F' as (n & F'). exists (S n). intros [|fuel] Hf; [lia|]. rewrite apply_record by exact N.
    replace (fieldsm (fun t => apply_subst fuel t s) f) with (Some f'); [reflexivity|]. symmetry. apply fieldsm_Forall2. revert F'. apply Forall2_imp. intros a b K. apply K. lia.
  - cbn in G. apply andb_true_iff in G as (G1 & G2). destruct (IHres1 G1) as (n & IH1), (IHres2 G2) as (m & IH2).
    exists (S (max n m)). intros [|fuel] Hf; [lia|]. cbn [apply_subst]. rewrite E at 1. rewrite IH1, IH2 by lia. reflexivity.
  - cbn in G. destruct (L l l') as (n & K); [now apply forallb_forall|exact H|]. exists (S n). intros [|fuel] Hf; [lia|]. cbn [apply_subst]. rewrite E at 1. now rewrite K by lia.
Qed.

(** Applying an acyclic substitution ends. *)
Lemma res_structural t : first_order d t = true -> (forall x k, occurs x t = true -> exists u, res s (TVar x k) u) -> exists u, res s t u.
Proof.
  induction t using type_induction; intros G V; try discriminate; try (eexists; constructor; fail).
  - apply fo_app in G as (G1 & G2). destruct IHt1 as (u1 & H1); [exact G1|intros; apply V; cbn; now rewrite H|].
    destruct IHt2 as (u2 & H2); [exact G2|intros; apply V; cbn; rewrite H; apply orb_true_r|]. exists (TApp u1 u2). now constructor.
  - cbn in G. rewrite forallb_forall in G. assert (K : exists l', Forall2 (res s) l l').
    { assert (V' : forall t x k, In t l -> occurs x t = true -> exists u, res s (TVar x k) u) by (intros t x k Ht Hx; apply V; cbn; apply existsb_exists; eauto).
      clear V. rewrite Forall_forall in H. induction l as [|a l IH]; [exists []; constructor|].
      destruct (H a (or_introl eq_refl) (G a (or_introl eq_refl)) (fun x k => V' a x k (or_introl eq_refl))) as (u & Hu).
      destruct IH as (l' & Hl); [intros; apply H; auto; now right|intros; apply G; now right|intros t x k Ht; apply V'; now right|]. exists (u :: l'). now constructor. }
    destruct K as (l' & K). exists (TTuple l'). now constructor.
  - apply fo_prefix in G as (_ & G & Ga). destruct IHt as (u & Hu); [exact Ga|intros; apply V; cbn; rewrite H0; apply orb_true_r|].
    assert (K : exists l', Forall2 (res s) l l').
    { assert (V' : forall t x k, In t l -> occurs x t = true -> exists u, res s (TVar x k) u) by (intros t' x k Ht Hx; apply V; cbn; apply orb_true_iff; left; apply existsb_exists; eauto).
      clear V. rewrite Forall_forall in H. induction l as [|a l IH]; [exists []; constructor|].
      destruct (H a (or_introl eq_refl) (G a (or_introl eq_refl)) (fun x k => V' a x k (or_introl eq_refl))) as (u' & Hu').
      destruct IH as (l' & Hl); [intros; apply H; auto; now right|intros; apply G; now right|intros t' x k Ht; apply V'; now right|]. exists (u' :: l'). now constructor. }
    destruct K as (l' & K). exists (TPrefix l' u). now constructor.
  - apply fo_record in G as (-> & G).
    assert (K : exists f', Forall2 (fun kp kp' => fst kp = fst kp' /\ is_required (snd kp) = is_required (snd kp') /\ res s (pty (snd kp)) (pty (snd kp'))) f f').
    { assert (V' : forall kp x k, In kp f -> occurs x (pty (snd kp)) = true -> exists u, res s (TVar x k) u) by (intros t' x k Ht Hx; apply V; cbn; apply orb_true_iff; left; apply existsb_exists; eauto).
      clear V. rewrite Forall_forall in H. induction f as [|a l IH]; [exists []; constructor|].
      destruct (H a (or_introl eq_refl) (G a (or_introl eq_refl)) (fun x k => V' a x k (or_introl eq_refl))) as (u' & Hu').
      destruct IH as (l' & Hl); [intros; apply H; auto; now right|intros; apply G; now right|intros t' x k Ht; apply V'; now right|].
      exists ((fst a, map_presence (fun _ => u') (snd a)) :: l'). constructor; [|exact Hl]. cbn. rewrite is_required_map, pty_map. auto. }
    destruct K as (l' & K). exists (TRecord l' o []). now constructor.
  - cbn in G. apply andb_true_iff in G as (G1 & G2). destruct IHt1 as (u1 & H1); [exact G1|intros; apply V; cbn; now rewrite H|].
    destruct IHt2 as (u2 & H2); [exact G2|intros; apply V; cbn; rewrite H; apply orb_true_r|]. exists (TFun u1 u2). now constructor.
  - cbn in G. rewrite forallb_forall in G. assert (K : exists l', Forall2 (res s) l l').
    { assert (V' : forall t x k, In t l -> occurs x t = true -> exists u, res s (TVar x k) u) by (intros t x k Ht Hx; apply V; cbn; apply existsb_exists; eauto).
      clear V. rewrite Forall_forall in H. induction l as [|a l IH]; [exists []; constructor|].
      destruct (H a (or_introl eq_refl) (G a (or_introl eq_refl)) (fun x k => V' a x k (or_introl eq_refl))) as (u & Hu).
      destruct IH as (l' & Hl); [intros; apply H; auto; now right|intros; apply G; now right|intros t x k Ht; apply V'; now right|]. exists (u :: l'). now constructor. }
    destruct K as (l' & K). exists (TUnion l'). now constructor.
  - apply V. cbn. apply String.eqb_refl.
Qed.
Theorem res_total t : acyclic s -> first_order d t = true -> exists u, res s t u.
Proof.
  intros A G. apply res_structural; [exact G|]. intros x k _. induction (A x) as [x _ IH] in k |- *.
  destruct (get x s) as [t'|] eqn:E; [|exists (TVar x k); now constructor].
  destruct (res_structural t') as (u & Hu); [exact (HS x t' E)| |exists u; now apply (res_bound s x k t')].
  intros y k' Hy. apply IH. exists t'. auto.
Qed.
Theorem applies_res t u : first_order d t = true -> (applies s t u <-> res s t u).
Proof.
  intros G. split; [intros (fuel & H); now apply (apply_res fuel)|]. intros H. destruct (res_apply t u H G) as (n & K). exists n. now apply K.
Qed.
End Apply.
