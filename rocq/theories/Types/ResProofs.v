(** Applying substitutions to first-order types. *)
From Coq Require Import Ascii String List Bool Arith Lia.
From Verif.Types Require Import Model Spec Basics RuleProofs TermProofs UnifySpec.
Import ListNotations.
Open Scope string_scope.
Open Scope list_scope.
Open Scope nat_scope.

(** Application as a relation. *)
Inductive res (s : subst) : type -> type -> Prop :=
| res_bound x k t u : get x s = Some t -> res s t u -> res s (TVar x k) u
| res_unbound x k : get x s = None -> res s (TVar x k) (TVar x k)
| res_base b : res s (TBase b) (TBase b) | res_any : res s TAny TAny | res_top : res s TTop TTop | res_never : res s TNever TNever
| res_con n : res s (TCon n) (TCon n) | res_sym l : res s (TSymLit l) (TSymLit l) | res_str l : res s (TStrLit l) (TStrLit l)
| res_app f x f' x' : res s f f' -> res s x x' -> res s (TApp f x) (TApp f' x')
| res_tuple l l' : Forall2 (res s) l l' -> res s (TTuple l) (TTuple l')
| res_prefix l a l' a' : Forall2 (res s) l l' -> res s a a' -> res s (TPrefix l a) (TPrefix l' a')
| res_record f o f' : Forall2 (fun kp kp' => fst kp = fst kp' /\ is_required (snd kp) = is_required (snd kp') /\ res s (pty (snd kp)) (pty (snd kp'))) f f' ->
    res s (TRecord f o []) (TRecord f' o [])
| res_fun a b a' b' : res s a a' -> res s b b' -> res s (TFun a b) (TFun a' b')
| res_union l l' : Forall2 (res s) l l' -> res s (TUnion l) (TUnion l').

Section Ind.
Variable s : subst.
Variable P : type -> type -> Prop.
Hypothesis Hbound : forall x k t u, get x s = Some t -> res s t u -> P t u -> P (TVar x k) u.
Hypothesis Hunbound : forall x k, get x s = None -> P (TVar x k) (TVar x k).
Hypothesis Hatom : forall t, match t with TBase _ | TAny | TTop | TNever | TCon _ | TSymLit _ | TStrLit _ => true | _ => false end = true -> P t t.
Hypothesis Happ : forall f x f' x', res s f f' -> res s x x' -> P f f' -> P x x' -> P (TApp f x) (TApp f' x').
Hypothesis Htuple : forall l l', Forall2 (fun a b => res s a b /\ P a b) l l' -> P (TTuple l) (TTuple l').
Hypothesis Hprefix : forall l a l' a', Forall2 (fun a b => res s a b /\ P a b) l l' -> res s a a' -> P a a' -> P (TPrefix l a) (TPrefix l' a').
Hypothesis Hrecord : forall f o f',
  Forall2 (fun kp kp' => fst kp = fst kp' /\ is_required (snd kp) = is_required (snd kp') /\ res s (pty (snd kp)) (pty (snd kp')) /\ P (pty (snd kp)) (pty (snd kp'))) f f' ->
  P (TRecord f o []) (TRecord f' o []).
Hypothesis Hfun : forall a b a' b', res s a a' -> res s b b' -> P a a' -> P b b' -> P (TFun a b) (TFun a' b').
Hypothesis Hunion : forall l l', Forall2 (fun a b => res s a b /\ P a b) l l' -> P (TUnion l) (TUnion l').
Fixpoint res_induction t u (H : res s t u) {struct H} : P t u.
Proof.
  assert (L : forall l l', Forall2 (res s) l l' -> Forall2 (fun a b => res s a b /\ P a b) l l') by exact
    (fix go l l' (F : Forall2 (res s) l l') {struct F} : Forall2 (fun a b => res s a b /\ P a b) l l' :=
       match F with Forall2_nil _ => Forall2_nil _ | Forall2_cons x y h t => Forall2_cons x y (conj h (res_induction _ _ h)) (go _ _ t) end).
  destruct H as [x k t u E H|x k E|b| | | |n|l|l|f x f' x' H1 H2|l l' F|l a l' a' F H|f o f' F|a b a' b' H1 H2|l l' F].
  - exact (Hbound x k t u E H (res_induction _ _ H)).
  - exact (Hunbound x k E).
  - now apply Hatom. - now apply Hatom. - now apply Hatom. - now apply Hatom. - now apply Hatom. - now apply Hatom. - now apply Hatom.
  - exact (Happ _ _ _ _ H1 H2 (res_induction _ _ H1) (res_induction _ _ H2)).
  - apply Htuple. exact (L l l' F).
  - exact (Hprefix l a l' a' (L l l' F) H (res_induction _ _ H)).
  - apply Hrecord. revert f f' F. 
    exact (fix go f f' (F : Forall2 (fun kp kp' => fst kp = fst kp' /\ is_required (snd kp) = is_required (snd kp') /\ res s (pty (snd kp)) (pty (snd kp'))) f f') {struct F} :=
      match F with
      | Forall2_nil _ => Forall2_nil _
      | Forall2_cons x y h t => match h with conj h1 (conj h2 h3) => Forall2_cons x y (conj h1 (conj h2 (conj h3 (res_induction _ _ h3)))) (go _ _ t) end
      end).
  - exact (Hfun _ _ _ _ H1 H2 (res_induction _ _ H1) (res_induction _ _ H2)).
  - apply Hunion. exact (L l l' F).
Qed.
End Ind.

Lemma Forall2_and_l {A B} (P Q : A -> B -> Prop) l l' : Forall2 (fun a b => P a b /\ Q a b) l l' -> Forall2 P l l' /\ Forall2 Q l l'.
Proof. induction 1 as [|? ? ? ? []]; firstorder. Qed.
Lemma Forall2_imp {A B} (P Q : A -> B -> Prop) l l' : (forall a b, P a b -> Q a b) -> Forall2 P l l' -> Forall2 Q l l'.
Proof. induction 2; constructor; auto. Qed.
Lemma Forall2_In_l {A B} (P : A -> B -> Prop) l l' a : Forall2 P l l' -> In a l -> exists b, In b l' /\ P a b.
Proof. induction 1; intros []; [subst; eexists; split; [now left|assumption]|]. destruct (IHForall2 H1) as (b & ? & ?). exists b. split; [now right|assumption]. Qed.
Lemma Forall2_In_r {A B} (P : A -> B -> Prop) l l' b : Forall2 P l l' -> In b l' -> exists a, In a l /\ P a b.
Proof. induction 1; intros []; [subst; eexists; split; [now left|assumption]|]. destruct (IHForall2 H1) as (a & ? & ?). exists a. split; [now right|assumption]. Qed.

Theorem res_functional s t u : res s t u -> forall u', res s t u' -> u = u'.
Proof.
  assert (L : forall l l', Forall2 (fun a b => res s a b /\ forall u', res s a u' -> b = u') l l' -> forall l'', Forall2 (res s) l l'' -> l' = l'').
  { induction 1 as [|a b l l' [_ H] _ IH]; intros l'' F; inversion F; subst; [reflexivity|]. f_equal; [now apply H|now apply IH]. }
  induction 1 as [x k t u Eg Hr IHres|x k Eg|t At|f x f' x' Hr1 Hr2 IHres1 IHres2|l l' H|l a l' a' H Hr IHres|f o f' H|a b a' b' Hr1 Hr2 IHres1 IHres2|l l' H] using res_induction; intros w H'.
  - inversion H' as [? ? t0 ? E0 H0|? ? E0| | | | | | | | | | | | |]; subst; [|congruence]. rewrite E0 in Eg. injection Eg as ->. auto.
  - inversion H'; subst; congruence.
  - destruct t; try discriminate; now inversion H'.
  - inversion H'; subst. f_equal; auto.
  - inversion H'; subst. f_equal. eapply L; eassumption.
  - inversion H'; subst. f_equal; [eapply L; eassumption|auto].
  - inversion H'; subst. f_equal. clear H' L. match goal with X : Forall2 _ f ?g |- _ => lazymatch X with H => fail | _ => revert X end end. revert f'0. induction H as [|[k p] [k' p'] f f' (E1 & E2 & E3 & E4) F IH]; intros g G; inversion G as [|? [k'' p''] ? ? (E5 & E6 & E7) ?]; subst; [reflexivity|].
    cbn in *. subst. f_equal; [|now apply IH]. f_equal. apply E4 in E7. destruct p, p', p''; cbn in *; try congruence.
  - inversion H'; subst. f_equal; auto.
  - inversion H'; subst. f_equal. eapply L; eassumption.
Qed.

(** ** Variables *)
Definition resolved (s : subst) (t : type) : Prop := forall x, occurs x t = true -> get x s = None.
Lemma occurs_parts_list x l : existsb (occurs x) l = true <-> exists t, In t l /\ occurs x t = true.
Proof. apply existsb_exists. Qed.
Lemma res_vars s t u : res s t u -> forall x, occurs x u = true -> get x s = None /\ (occurs x t = true \/ exists y t', get y s = Some t' /\ occurs x t' = true).
Proof.
  assert (L : forall l l' x, Forall2 (fun a b => res s a b /\ forall x, occurs x b = true -> get x s = None /\ (occurs x a = true \/ exists y t', get y s = Some t' /\ occurs x t' = true)) l l' ->
    existsb (occurs x) l' = true -> get x s = None /\ (existsb (occurs x) l = true \/ exists y t', get y s = Some t' /\ occurs x t' = true)).
  { intros l l' x F H. apply existsb_exists in H. destruct H as (b & Hb & H). destruct (Forall2_In_r _ _ _ _ F Hb) as (a & Ha & _ & K).
    destruct (K x H) as (K1 & K2). split; [exact K1|]. destruct K2; [left|now right]. apply existsb_exists. eauto. }
  induction 1 as [x k t u Eg Hr IHres|x k Eg|t At|f x f' x' Hr1 Hr2 IHres1 IHres2|l l' H|l a l' a' H Hr IHres|f o f' H|a b a' b' Hr1 Hr2 IHres1 IHres2|l l' H] using res_induction; intros z Hz; cbn [occurs] in *.
  - destruct (IHres z Hz) as (A & [B|B]); split; auto. right. eauto.
  - apply String.eqb_eq in Hz as ->. rewrite String.eqb_refl. auto.
  - destruct t; discriminate.
  - rewrite orb_true_iff in *. destruct Hz as [Hz|Hz]; [destruct (IHres1 z Hz) as (A & B)|destruct (IHres2 z Hz) as (A & B)]; tauto.
  - now apply (L l l').
  - rewrite orb_true_iff in *. destruct Hz as [Hz|Hz]; [destruct (L l l' z H Hz) as (A & B)|destruct (IHres z Hz) as (A & B)]; tauto.
  - rewrite orb_false_r in *. apply existsb_exists in Hz. destruct Hz as (kp & Hin & Hz). destruct (Forall2_In_r _ _ _ _ H Hin) as (kp0 & Hin0 & _ & _ & _ & K).
    destruct (K z Hz) as (A & B). split; [exact A|]. destruct B; [left|now right]. apply existsb_exists. eauto.
  - rewrite orb_true_iff in *. destruct Hz as [Hz|Hz]; [destruct (IHres1 z Hz) as (A & B)|destruct (IHres2 z Hz) as (A & B)]; tauto.
  - now apply (L l l').
Qed.
Lemma res_resolved s t u : res s t u -> resolved s u.
Proof. intros H x Hx. now apply (res_vars s t u H x). Qed.

(** ** First-order types *)
Lemma fo_app d f x : first_order d (TApp f x) = true -> first_order d f = true /\ first_order d x = true.
Proof. cbn. rewrite !andb_true_iff. tauto. Qed.
Lemma fo_prefix d l a : first_order d (TPrefix l a) = true -> l <> [] /\ (forall t, In t l -> first_order d t = true) /\ first_order d a = true.
Proof. cbn. rewrite !andb_true_iff, forallb_forall. intros [[H1 H2] H3]. split; [destruct l; discriminate|auto]. Qed.
Lemma fo_record d f o r : first_order d (TRecord f o r) = true -> r = [] /\ forall kp, In kp f -> first_order d (pty (snd kp)) = true.
Proof. cbn. rewrite !andb_true_iff, forallb_forall. intros [[_ H2] H3]. split; [destruct r; [reflexivity|discriminate]|auto]. Qed.
Lemma resolved_res s d t : first_order d t = true -> resolved s t -> res s t t.
Proof.
  induction t using type_induction; intros G R; try (constructor; fail); try discriminate.
  - apply fo_app in G as [G1 G2]. constructor; [apply IHt1|apply IHt2]; auto; intros x Hx; apply R; cbn; rewrite Hx; auto using orb_true_r.
  - constructor. rewrite Forall_forall in H. cbn in G. rewrite forallb_forall in G.
    assert (R' : forall t, In t l -> resolved s t) by (intros t Ht x Hx; apply R; cbn; apply existsb_exists; eauto). clear R.
    induction l as [|a l IH]; constructor; [apply H; [now left| |]|]; [apply G; now left|apply R'; now left|].
    apply IH; intros; [apply H|apply G|apply R']; auto; now right.
  - apply fo_prefix in G as (_ & G & Ga). constructor; [|apply IHt; auto; intros x Hx; apply R; cbn; rewrite Hx; apply orb_true_r].
    rewrite Forall_forall in H.
    assert (R' : forall t, In t l -> resolved s t) by (intros u Hu x Hx; apply R; cbn; apply orb_true_iff; left; apply existsb_exists; eauto). clear R.
    induction l as [|a l IH]; constructor; [apply H; [now left| |]|]; [apply G; now left|apply R'; now left|].
    apply IH; intros; [apply H|apply G|apply R']; auto; now right.
  - apply fo_record in G as (-> & G). constructor. rewrite Forall_forall in H.
    assert (R' : forall kp, In kp f -> resolved s (pty (snd kp))) by (intros u Hu x Hx; apply R; cbn; apply orb_true_iff; left; apply existsb_exists; eauto). clear R.
    induction f as [|a l IH]; constructor; [split; [reflexivity|split; [reflexivity|]]; apply H; [now left| |]|]; [apply G; now left|apply R'; now left|].
    apply IH; intros; [apply H|apply G|apply R']; auto; now right.
  - cbn in G. apply andb_true_iff in G as [G1 G2]. constructor; [apply IHt1|apply IHt2]; auto; intros x Hx; apply R; cbn; rewrite Hx; auto using orb_true_r.
  - constructor. rewrite Forall_forall in H. cbn in G. rewrite forallb_forall in G.
    assert (R' : forall t, In t l -> resolved s t) by (intros t Ht x Hx; apply R; cbn; apply existsb_exists; eauto). clear R.
    induction l as [|a l IH]; constructor; [apply H; [now left| |]|]; [apply G; now left|apply R'; now left|].
    apply IH; intros; [apply H|apply G|apply R']; auto; now right.
  - apply res_unbound. apply R. cbn. apply String.eqb_refl.
Qed.
Lemma forallb_Forall2_r {A B} (P : A -> B -> Prop) (f : A -> bool) (g : B -> bool) l l' :
  Forall2 P l l' -> (forall a b, In a l -> P a b -> f a = true -> g b = true) -> forallb f l = true -> forallb g l' = true.
Proof.
  induction 1; intros K H1; [reflexivity|]. cbn in *. apply andb_true_iff in H1 as [H1 H2]. apply andb_true_iff. split; [now apply (K x y); [left|..]|].
  apply IHForall2; auto. intros a b Ha. apply K. now right.
Qed.
Lemma res_fo d s t u : subst_first_order d s -> res s t u -> first_order d t = true -> first_order d u = true.
Proof.
  intros HS. induction 1 as [x k t u Eg Hr IHres|x k Eg|t At|f x f' x' Hr1 Hr2 IHres1 IHres2|l l' H|l a l' a' H Hr IHres|f o f' H|a b a' b' Hr1 Hr2 IHres1 IHres2|l l' H] using res_induction; intros G; auto.
  - apply IHres. exact (HS x t Eg).
  - cbn in *. rewrite !andb_true_iff in *. destruct G as [[G1 G2] G3]. split; [split; auto|]. destruct Hr1; try discriminate; reflexivity.
  - cbn in *. revert G. apply (forallb_Forall2_r _ _ _ _ _ H). intros a b _ [_ K]. exact K.
  - cbn in *. rewrite !andb_true_iff in *. destruct G as [[G1 G2] G3]. split; [split|]; auto.
    + destruct H; [discriminate|reflexivity]. + revert G2. apply (forallb_Forall2_r _ _ _ _ _ H). intros ? ? _ [_ K]. exact K.
  - cbn in *. rewrite !andb_true_iff in *. destruct G as [[G1 G2] _]. split; [split|]; auto.
    revert G2. apply (forallb_Forall2_r _ _ _ _ _ H). intros ? ? _ (_ & _ & _ & K). exact K.
  - cbn in *. rewrite !andb_true_iff in *. destruct G. auto.
  - cbn in *. revert G. apply (forallb_Forall2_r _ _ _ _ _ H). intros a b _ [_ K]. exact K.
Qed.

(** ** Extending *)
Lemma res_extends s s' t u : extends s s' -> res s t u -> forall w, res s' u w -> res s' t w.
Proof.
  intros E.
  assert (L : forall l l', Forall2 (fun a b => res s a b /\ forall w, res s' b w -> res s' a w) l l' -> forall l'', Forall2 (res s') l' l'' -> Forall2 (res s') l l'').
  { induction 1 as [|a b l l' [_ H] _ IH]; intros l'' F; inversion F; subst; constructor; auto. }
  induction 1 as [x k t u Eg Hr IHres|x k Eg|t At|f x f' x' Hr1 Hr2 IHres1 IHres2|l l' H|l a l' a' H Hr IHres|f o f' H|a b a' b' Hr1 Hr2 IHres1 IHres2|l l' H] using res_induction; intros w Hw; auto.
  - apply (res_bound s' x k t); auto.
  - inversion Hw; subst. constructor; auto.
  - inversion Hw; subst. constructor. eapply L; eassumption.
  - inversion Hw; subst. constructor; [eapply L; eassumption|auto].
  - inversion Hw; subst. constructor. clear Hw L. match goal with X : Forall2 _ f' ?g |- _ => revert X end. revert f'0. induction H as [|? ? ? ? (E1 & E2 & _ & E4) F IH]; intros g G; inversion G as [|? ? ? ? (E5 & E6 & E7) ?]; subst; constructor; auto.
    split; [congruence|]. split; [congruence|auto].
  - inversion Hw; subst. constructor; auto.
  - inversion Hw; subst. constructor. eapply L; eassumption.
Qed.

(** ** Agreement survives substitution *)
Section AgreeInd.
Variable P : type -> type -> Prop.
Hypothesis Hsame : forall t, P t t.
Hypothesis Hany : forall t, P TAny t.
Hypothesis Hany' : forall t, P t TAny.
Hypothesis Hsym : forall s, P (TSymLit s) (TBase Symbol).
Hypothesis Hsym' : forall s, P (TBase Symbol) (TSymLit s).
Hypothesis Hstr : forall s, P (TStrLit s) (TBase String).
Hypothesis Hstr' : forall s, P (TBase String) (TStrLit s).
Hypothesis Happ : forall f g a b, P f g -> P a b -> P (TApp f a) (TApp g b).
Hypothesis Hne : forall a b, P a b -> P (non_empty_of a) (list_of b).
Hypothesis Hne' : forall a b, P a b -> P (list_of a) (non_empty_of b).
Hypothesis Htuple : forall l l', Forall2 P l l' -> P (TTuple l) (TTuple l').
Hypothesis Hprefix : forall l l' a b, Forall2 P l l' -> P a b -> P (TPrefix l a) (TPrefix l' b).
Hypothesis Hfun : forall a b c d, P a c -> P b d -> P (TFun a b) (TFun c d).
Hypothesis Hrecord : forall f o g o', (forall k p, In (k, p) f -> exists q, get k g = Some q /\ P (pty p) (pty q)) ->
  (o = false -> forall k q, In (k, q) g -> contains_key k f = true) -> P (TRecord f o []) (TRecord g o' []).
Fixpoint agree_induction t u (H : agree t u) {struct H} : P t u.
Proof.
  assert (L : forall l l', Forall2 agree l l' -> Forall2 P l l') by exact
    (fix go l l' (F : Forall2 agree l l') {struct F} : Forall2 P l l' :=
       match F with Forall2_nil _ => Forall2_nil _ | Forall2_cons x y h t => Forall2_cons x y (agree_induction _ _ h) (go _ _ t) end).
  destruct H.
  - apply Hsame. - apply Hany. - apply Hany'. - apply Hsym. - apply Hsym'. - apply Hstr. - apply Hstr'.
  - exact (Happ _ _ _ _ (agree_induction _ _ H) (agree_induction _ _ H0)).
  - exact (Hne _ _ (agree_induction _ _ H)).
  - exact (Hne' _ _ (agree_induction _ _ H)).
  - exact (Htuple _ _ (L _ _ H)).
  - exact (Hprefix _ _ _ _ (L _ _ H) (agree_induction _ _ H0)).
  - exact (Hfun _ _ _ _ (agree_induction _ _ H) (agree_induction _ _ H0)).
  - apply Hrecord; [|exact H0]. intros k p Hin. destruct (H k p Hin) as (q & Hq & K). exists q. split; [exact Hq|]. exact (agree_induction _ _ K).
Qed.
End AgreeInd.
Lemma get_Forall2 {A B} (P : A -> B -> Prop) (f : list (string * A)) (g : list (string * B)) k :
  Forall2 (fun kp kp' => fst kp = fst kp' /\ P (snd kp) (snd kp')) f g ->
  match get k f, get k g with Some a, Some b => P a b | None, None => True | _, _ => False end.
Proof.
  induction 1 as [|[k1 a] [k2 b] f g [E H] F IH]; cbn in *; [exact I|]. subst. destruct (String.eqb k k2); auto.
Qed.
Theorem agree_res s t u : agree t u -> forall t' u', res s t t' -> res s u u' -> agree t' u'.
Proof.
  assert (L : forall l l', Forall2 (fun t u => forall t' u', res s t t' -> res s u u' -> agree t' u') l l' ->
    forall m m', Forall2 (res s) l m -> Forall2 (res s) l' m' -> Forall2 agree m m').
  { induction 1; intros m m' F F'; inversion F; inversion F'; subst; constructor; auto. }
  induction 1 using agree_induction; intros t' u' H1 H2; try (inversion H1; inversion H2; subst; constructor; auto; eapply L; eassumption).
  - rewrite (res_functional s t t' H1 u' H2). constructor.
  - inversion H1; subst. inversion H2; subst. inversion H3; inversion H4; subst. now apply agree_nonempty, IHagree.
  - inversion H1; subst. inversion H2; subst. inversion H3; inversion H4; subst. now apply agree_nonempty', IHagree.
  - inversion H1 as [| | | | | | | | | | | |f0 o0 f1 F| |]; subst. inversion H2 as [| | | | | | | | | | | |g0 o1 g1 G| |]; subst. constructor.
    + intros k p' Hin. destruct (Forall2_In_r _ _ _ _ F Hin) as ([k0 p] & Hin0 & E1 & E2 & E3). cbn in E1, E2, E3. subst k0.
      destruct (H k p Hin0) as (q & Hq & K).
      pose proof (get_Forall2 (fun a b => is_required a = is_required b /\ res s (pty a) (pty b)) g g1 k G) as GG. rewrite Hq in GG.
      destruct (get k g1) as [q'|]; [|contradiction]. exists q'. split; [reflexivity|]. apply K; [exact E3|apply GG].
    + intros Ho k q' Hin. destruct (Forall2_In_r _ _ _ _ G Hin) as ([k0 q] & Hin0 & E1 & _). cbn in E1. subst k0.
      specialize (H0 Ho k q Hin0). unfold contains_key in *.
      pose proof (get_Forall2 (fun a b => is_required a = is_required b /\ res s (pty a) (pty b)) f f1 k F) as GG.
      destruct (get k f); [|discriminate]. destruct (get k f1); [reflexivity|contradiction].
Qed.
