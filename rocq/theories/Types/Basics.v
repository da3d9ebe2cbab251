(** Induction on types, equality, and what unfolding preserves. *)
From Coq Require Import Ascii String List Bool Arith Lia.
From Verif.Types Require Import Model Spec.
Import ListNotations.
Open Scope string_scope.
Open Scope list_scope.

Section Induction.
Variable P : type -> Prop.
Hypothesis h_base : forall b, P (TBase b).
Hypothesis h_any : P TAny. Hypothesis h_top : P TTop. Hypothesis h_never : P TNever.
Hypothesis h_con : forall n, P (TCon n).
Hypothesis h_app : forall f x, P f -> P x -> P (TApp f x).
Hypothesis h_tuple : forall l, Forall P l -> P (TTuple l).
Hypothesis h_prefix : forall l a, Forall P l -> P a -> P (TPrefix l a).
Hypothesis h_record : forall f o r, Forall (fun kp => P (pty (snd kp))) f -> P (TRecord f o r).
Hypothesis h_fun : forall a b, P a -> P b -> P (TFun a b).
Hypothesis h_union : forall l, Forall P l -> P (TUnion l).
Hypothesis h_sym : forall s, P (TSymLit s). Hypothesis h_str : forall s, P (TStrLit s).
Hypothesis h_var : forall x k, P (TVar x k).
Hypothesis h_mu : forall x b, P b -> P (TMu x b).
Hypothesis h_forall : forall bs b, P b -> P (TForall bs b).
Hypothesis h_lam : forall x b, P b -> P (TLam x b).
Fixpoint type_induction (t : type) : P t :=
  let list_ind := fix go l : Forall P l :=
    match l with [] => Forall_nil _ | t :: l => Forall_cons _ (type_induction t) (go l) end in
  match t with
  | TBase b => h_base b | TAny => h_any | TTop => h_top | TNever => h_never
  | TCon n => h_con n
  | TApp f x => h_app f x (type_induction f) (type_induction x)
  | TTuple l => h_tuple l (list_ind l)
  | TPrefix l a => h_prefix l a (list_ind l) (type_induction a)
  | TRecord f o r => h_record f o r
      ((fix go f : Forall (fun kp => P (pty (snd kp))) f :=
          match f with
          | [] => Forall_nil _
          | (k, p) :: f =>
              Forall_cons (k, p) (match p return P (pty (snd (k, p))) with Required t => type_induction t | Optional t => type_induction t end) (go f)
          end) f)
  | TFun a b => h_fun a b (type_induction a) (type_induction b)
  | TUnion l => h_union l (list_ind l)
  | TSymLit s => h_sym s | TStrLit s => h_str s
  | TVar x k => h_var x k
  | TMu x b => h_mu x b (type_induction b)
  | TForall bs b => h_forall bs b (type_induction b)
  | TLam x b => h_lam x b (type_induction b)
  end.
End Induction.

(** ** Equality *)
Lemma base_eqb_eq a b : base_eqb a b = true <-> a = b.
Proof. destruct a, b; cbn; split; congruence. Qed.
Lemma kind_eqb_eq a : forall b, kind_eqb a b = true <-> a = b.
Proof.
  induction a as [|a1 H1 a2 H2]; intros [|b1 b2]; cbn; try (split; congruence).
  rewrite andb_true_iff, H1, H2. split; [intros [-> ->]; reflexivity|intros E; inversion E; auto].
Qed.
Lemma list_eqb_eq {A} (eqb : A -> A -> bool) l : Forall (fun a => forall b, eqb a b = true <-> a = b) l ->
  forall l', list_eqb eqb l l' = true <-> l = l'.
Proof.
  induction 1 as [|a l Ha _ IH]; intros [|b l']; cbn; try (split; congruence).
  rewrite andb_true_iff, Ha, IH. split; [intros [-> ->]; reflexivity|intros E; inversion E; auto].
Qed.
Lemma strings_eqb_eq l l' : list_eqb String.eqb l l' = true <-> l = l'.
Proof. apply list_eqb_eq. apply Forall_forall. intros a _ b. apply String.eqb_eq. Qed.

Theorem type_eqb_eq s : forall t, type_eqb s t = true <-> s = t.
Proof.
  induction s using type_induction; intros t'; destruct t'; cbn [type_eqb];
    try (split; congruence); try (split; [discriminate|intros E; discriminate E]).
  all: rewrite ?andb_true_iff, ?String.eqb_eq.
  - rewrite base_eqb_eq. split; congruence.
  - split; congruence.
  - rewrite IHs1, IHs2. split; [intros [-> ->]; reflexivity|intros E; inversion E; auto].
  - rewrite list_eqb_eq by assumption. split; congruence.
  - rewrite list_eqb_eq, IHs by assumption. split; [intros [-> ->]; reflexivity|intros E; inversion E; auto].
  - rewrite Bool.eqb_true_iff, strings_eqb_eq, list_eqb_eq.
    + split; [intros [[-> ->] ->]; reflexivity|intros E; inversion E; auto].
    + apply Forall_forall. intros [k p] Hin [k' p']. cbn.
      rewrite Forall_forall in H. specialize (H _ Hin). cbn in H.
      rewrite andb_true_iff, String.eqb_eq.
      destruct p, p'; cbn in *; try rewrite H; split; try (intros [-> E]; congruence); intros E; inversion E; auto.
  - rewrite IHs1, IHs2. split; [intros [-> ->]; reflexivity|intros E; inversion E; auto].
  - rewrite list_eqb_eq by assumption. split; congruence.
  - split; congruence.
  - split; congruence.
  - rewrite kind_eqb_eq. split; [intros [-> ->]; reflexivity|intros E; inversion E; auto].
  - rewrite IHs. split; [intros [-> ->]; reflexivity|intros E; inversion E; auto].
  - rewrite IHs, list_eqb_eq.
    + split; [intros [-> ->]; reflexivity|intros E; inversion E; auto].
    + apply Forall_forall. intros [k p] _ [k' p']. cbn. rewrite andb_true_iff, String.eqb_eq, kind_eqb_eq.
      split; [intros [-> ->]; reflexivity|intros E; inversion E; auto].
  - rewrite IHs. split; [intros [-> ->]; reflexivity|intros E; inversion E; auto].
Qed.
Lemma type_eqb_refl t : type_eqb t t = true.
Proof. apply type_eqb_eq. reflexivity. Qed.
Lemma type_eqb_neq s t : s <> t -> type_eqb s t = false.
Proof. intros N. destruct (type_eqb s t) eqn:E; [apply type_eqb_eq in E; contradiction|reflexivity]. Qed.
Lemma type_dec (s t : type) : {s = t} + {s <> t}.
Proof. destruct (type_eqb s t) eqn:E; [left; now apply type_eqb_eq|right; intros ->; rewrite type_eqb_refl in E; discriminate]. Qed.

Lemma assumes_In A s t : assumes A s t = true <-> In (s, t) A.
Proof.
  unfold assumes. rewrite existsb_exists. split.
  - intros [[a b] [H E]]. cbn in E. apply andb_true_iff in E as [E1 E2]. apply type_eqb_eq in E1, E2. subst. exact H.
  - intros H. exists (s, t). split; [exact H|]. cbn. now rewrite !type_eqb_refl.
Qed.
Lemma mem_In x l : mem x l = true <-> In x l.
Proof.
  unfold mem. rewrite existsb_exists. split; [intros [y [H E]]; apply String.eqb_eq in E; now subst|].
  intros H. exists x. split; [exact H|apply String.eqb_refl].
Qed.
Lemma get_In {A} k (m : list (string * A)) v : get k m = Some v -> In (k, v) m.
Proof.
  induction m as [|[k' v'] m IH]; cbn; [discriminate|]. destruct (String.eqb k k') eqn:E; [|auto].
  apply String.eqb_eq in E. intros [= ->]. subst. now left.
Qed.

(** ** Lists of decided things *)
Lemma forallb_mono {A} (f g : A -> bool) l : Forall (fun a => f a = true -> g a = true) l -> forallb f l = true -> forallb g l = true.
Proof. induction 1 as [|a l H _ IH]; cbn; [reflexivity|]. rewrite !andb_true_iff. intros [Ha Hl]. auto. Qed.
Lemma forallb_map {A B} (f : A -> B) (g : B -> bool) l : forallb g (map f l) = forallb (fun a => g (f a)) l.
Proof. induction l as [|a l IH]; cbn; [reflexivity|]. now rewrite IH. Qed.
Lemma forallb_In {A} (f : A -> bool) l : forallb f l = true -> forall a, In a l -> f a = true.
Proof. apply forallb_forall. Qed.
Lemma pty_map {A B} (f : A -> B) p : pty (map_presence f p) = f (pty p).
Proof. destruct p; reflexivity. Qed.
Lemma is_required_map {A B} (f : A -> B) p : is_required (map_presence f p) = is_required p.
Proof. destruct p; reflexivity. Qed.
Lemma existsb_map {A B} (f : A -> B) (g : B -> bool) l : existsb g (map f l) = existsb (fun a => g (f a)) l.
Proof. induction l as [|a l IH]; cbn; [reflexivity|]. now rewrite IH. Qed.
Lemma prefix_list_nonempty l a : nonempty l = true -> prefix_list l a = TPrefix l a.
Proof. destruct l; [discriminate|reflexivity]. Qed.
Lemma nonempty_map {A B} (f : A -> B) l : nonempty (map f l) = nonempty l.
Proof. destruct l; reflexivity. Qed.

(** ** Scopes *)
Lemma ground_weaken t : forall B B', incl B B' -> ground B t = true -> ground B' t = true.
Proof.
  induction t using type_induction; intros B B' I; cbn; auto.
  - rewrite !andb_true_iff. intros [[Hf Hx] Hs]. eauto.
  - apply forallb_mono. rewrite Forall_forall in *. eauto.
  - rewrite !andb_true_iff. intros [[Hn Hl] Ha]. repeat split; [exact Hn| |eauto].
    revert Hl. apply forallb_mono. rewrite Forall_forall in *. eauto.
  - rewrite !andb_true_iff. intros [Hl Hr]. split; [|exact Hr]. revert Hl. apply forallb_mono. rewrite Forall_forall in *. eauto.
  - rewrite !andb_true_iff. intros [Ha Hb]. eauto.
  - apply forallb_mono. rewrite Forall_forall in *. eauto.
  - rewrite !mem_In. apply I.
  - apply IHt. intros y [->|Hy]; [now left|right; auto].
Qed.
Lemma existsb_none {A} (f : A -> bool) l : (forall a, In a l -> f a = false) -> existsb f l = false.
Proof. intros H. apply not_true_iff_false. rewrite existsb_exists. intros [a [Ha Oa]]. rewrite (H a Ha) in Oa. discriminate. Qed.
Lemma existsb_none_In {A} (f : A -> bool) l : existsb f l = false -> forall a, In a l -> f a = false.
Proof. intros H a Ha. apply not_true_iff_false. intros E. apply not_true_iff_false in H. apply H, existsb_exists. eauto. Qed.
Lemma ground_occurs t : forall B y, ground B t = true -> ~ In y B -> occurs y t = false.
Proof.
  induction t using type_induction; intros B y G N; cbn [ground occurs] in *; auto; try discriminate.
  - rewrite !andb_true_iff in G. destruct G as [[Gf Gx] _]. now rewrite (IHt1 B), (IHt2 B).
  - rewrite Forall_forall in H. apply existsb_none. intros a Ha. apply (H a Ha B); [now apply (forallb_In _ _ G)|assumption].
  - rewrite !andb_true_iff in G. destruct G as [[_ Gl] Ga]. rewrite (IHt B), orb_false_r by assumption.
    rewrite Forall_forall in H. apply existsb_none. intros a Ha. apply (H a Ha B); [now apply (forallb_In _ _ Gl)|assumption].
  - rewrite andb_true_iff in G. destruct G as [G Gr]. destruct r; [|discriminate]. cbn [mem existsb]. rewrite orb_false_r.
    rewrite Forall_forall in H. apply existsb_none. intros a Ha. apply (H a Ha B); [now apply (forallb_In _ _ G)|assumption].
  - rewrite andb_true_iff in G. destruct G as [Ga Gb]. now rewrite (IHt1 B), (IHt2 B).
  - rewrite Forall_forall in H. apply existsb_none. intros a Ha. apply (H a Ha B); [now apply (forallb_In _ _ G)|assumption].
  - apply mem_In in G. apply String.eqb_neq. intros ->. contradiction.
  - destruct (String.eqb x y) eqn:E; [reflexivity|]. cbn. apply (IHt (x :: B)); [exact G|].
    intros [->|Hy]; [now rewrite String.eqb_refl in E|contradiction].
Qed.

(** ** Unfolding *)
Lemma map_id_In {A} (f : A -> A) l : (forall a, In a l -> f a = a) -> map f l = l.
Proof. induction l as [|a l IH]; intros H; cbn; [reflexivity|]. rewrite H by now left. f_equal. apply IH. intros b Hb. apply H. now right. Qed.
Lemma unfold_fresh t : forall B x r, ground B t = true -> occurs x t = false -> unfold_mu x t r = t.
Proof.
  induction t using type_induction; intros B y r' G N; cbn [ground occurs unfold_mu] in *; auto; try discriminate.
  - rewrite !andb_true_iff in G. destruct G as [[Gf Gx] _]. apply orb_false_iff in N as [N1 N2].
    now rewrite (IHt1 B), (IHt2 B).
  - f_equal. apply map_id_In. rewrite Forall_forall in H. intros a Ha. apply (H a Ha B); [now apply (forallb_In _ _ G)|].
    now apply (existsb_none_In _ _ N).
  - rewrite !andb_true_iff in G. destruct G as [[Gn Gl] Ga]. apply orb_false_iff in N as [N1 N2].
    rewrite prefix_list_nonempty by now rewrite nonempty_map. rewrite (IHt B) by assumption. f_equal.
    apply map_id_In. rewrite Forall_forall in H. intros a Ha. apply (H a Ha B); [now apply (forallb_In _ _ Gl)|].
    now apply (existsb_none_In _ _ N1).
  - rewrite andb_true_iff in G. destruct G as [G Gr]. apply orb_false_iff in N as [N1 N2]. f_equal.
    apply map_id_In. rewrite Forall_forall in H. intros [k p] Ha. cbn. f_equal.
    assert (E : unfold_mu y (pty p) r' = pty p).
    { apply (H (k, p) Ha B); [exact (forallb_In _ _ G _ Ha)|]. exact (existsb_none_In _ _ N1 _ Ha). }
    destruct p; cbn in *; now rewrite E.
  - rewrite andb_true_iff in G. destruct G as [Ga Gb]. apply orb_false_iff in N as [N1 N2].
    now rewrite (IHt1 B), (IHt2 B).
  - f_equal. apply map_id_In. rewrite Forall_forall in H. intros a Ha. apply (H a Ha B); [now apply (forallb_In _ _ G)|].
    now apply (existsb_none_In _ _ N).
  - now rewrite N.
  - destruct (String.eqb x y) eqn:E; [reflexivity|]. cbn in N. f_equal. now apply (IHt (x :: B)).
Qed.

Lemma ground_unfold x r : ground [] r = true -> forall t B B',
  (forall y, In y B -> y = x \/ In y B') -> ground B t = true -> ground B' (unfold_mu x t r) = true.
Proof.
  intros Gr. induction t using type_induction; intros B B' I; cbn [ground unfold_mu]; auto; try discriminate.
  - rewrite !andb_true_iff. intros [[Hf Hx] Hs]. rewrite (IHt1 B B' I Hf), (IHt2 B B' I Hx). repeat split. destruct t1; try discriminate; reflexivity.
  - rewrite forallb_map. apply forallb_mono. rewrite Forall_forall in *. intros a Ha. apply (H a Ha B B' I).
  - rewrite !andb_true_iff. intros [[Hn Hl] Ha]. rewrite prefix_list_nonempty by now rewrite nonempty_map.
    cbn. rewrite nonempty_map, !andb_true_iff. repeat split; [exact Hn| |exact (IHt B B' I Ha)].
    rewrite forallb_map. revert Hl. apply forallb_mono. rewrite Forall_forall in *. intros a Hin. apply (H a Hin B B' I).
  - rewrite !andb_true_iff. intros [Hl Hr]. split; [|exact Hr]. rewrite forallb_map. revert Hl. apply forallb_mono.
    rewrite Forall_forall in *. intros a Ha Ga. cbn. rewrite pty_map. exact (H a Ha B B' I Ga).
  - rewrite !andb_true_iff. intros [Ha Hb]. split; [exact (IHt1 B B' I Ha)|exact (IHt2 B B' I Hb)].
  - rewrite forallb_map. apply forallb_mono. rewrite Forall_forall in *. intros a Ha. apply (H a Ha B B' I).
  - rewrite mem_In. intros Hy. destruct (String.eqb x0 x) eqn:E.
    + eapply ground_weaken; [|exact Gr]. intros y [].
    + cbn. apply mem_In. destruct (I _ Hy) as [->|]; [now rewrite String.eqb_refl in E|assumption].
  - intros Hb. destruct (String.eqb x0 x) eqn:E; cbn [ground].
    + apply String.eqb_eq in E. subst. revert Hb. apply ground_weaken. intros y [->|Hy]; [now left|].
      destruct (I _ Hy) as [->|]; [now left|now right].
    + apply (IHt (x0 :: B)); [|exact Hb]. intros y [->|Hy]; [now right; left|].
      destruct (I _ Hy) as [->|]; [now left|now right; right].
Qed.
Lemma ground_unfold_mu x b : ground [] (TMu x b) = true -> ground [] (unfold_mu x b (TMu x b)) = true.
Proof. intros G. apply (ground_unfold x _ G b [x]); [intros y [->|[]]; now left|exact G]. Qed.

Lemma guarded_closed y t : forall B, ground B t = true -> ~ In y B -> guarded y t = true.
Proof.
  induction t using type_induction; intros B G N; cbn [ground guarded] in *; auto.
  - apply forallb_forall. rewrite Forall_forall in H. intros a Ha. apply (H a Ha B); [now apply (forallb_In _ _ G)|assumption].
  - apply mem_In in G. apply negb_true_iff, String.eqb_neq. intros ->. contradiction.
  - destruct (String.eqb x y) eqn:E; [reflexivity|]. cbn. apply (IHt (x :: B)); [exact G|].
    intros [->|Hy]; [now rewrite String.eqb_refl in E|contradiction].
Qed.
Lemma guarded_unfold x r y : ground [] r = true -> forall t, guarded y t = true -> guarded y (unfold_mu x t r) = true.
Proof.
  intros Gr. induction t using type_induction; cbn [guarded unfold_mu]; auto.
  - intros _. destruct l; reflexivity.
  - rewrite forallb_map. apply forallb_mono. exact H.
  - intros Hy. destruct (String.eqb x0 x); [|exact Hy]. apply (guarded_closed y r []); [exact Gr|intros []].
  - destruct (String.eqb x0 x); cbn [guarded]; [auto|]. rewrite !orb_true_iff. intuition.
  - intros _. destruct (String.eqb x0 x); reflexivity.
Qed.
Lemma contractive_unfold x r : ground [] r = true -> contractive r = true ->
  forall t, contractive t = true -> contractive (unfold_mu x t r) = true.
Proof.
  intros Gr Cr. induction t using type_induction; cbn [contractive unfold_mu]; auto.
  - rewrite !andb_true_iff. intuition.
  - rewrite forallb_map. apply forallb_mono. exact H.
  - rewrite andb_true_iff. intros [Hl Ha].
    assert (E : forallb contractive (map (fun e => unfold_mu x e r) l) = true).
    { rewrite forallb_map. revert Hl. apply forallb_mono. exact H. }
    destruct l; cbn [map prefix_list contractive] in *; [|rewrite E]; cbn; now rewrite IHt.
  - rewrite forallb_map. apply forallb_mono. rewrite Forall_forall in *. intros a Ha Ca. cbn. rewrite pty_map. auto.
  - rewrite !andb_true_iff. intuition.
  - rewrite forallb_map. apply forallb_mono. exact H.
  - intros _. destruct (String.eqb x0 x); [exact Cr|reflexivity].
  - intros Hb. destruct (String.eqb x0 x); [exact Hb|]. cbn [contractive] in *. rewrite andb_true_iff in *.
    destruct Hb as [Hg Hc]. split; [now apply guarded_unfold|auto].
  - intros Hb. destruct (String.eqb x0 x); [exact Hb|]. cbn. auto.
Qed.
Lemma records_unfold d x r : records d r = true -> forall t, records d t = true -> records d (unfold_mu x t r) = true.
Proof.
  intros Gr. induction t using type_induction; cbn [records unfold_mu]; auto.
  - rewrite !andb_true_iff. intuition.
  - rewrite forallb_map. apply forallb_mono. exact H.
  - rewrite andb_true_iff. intros [Hl Ha].
    assert (E : forallb (records d) (map (fun e => unfold_mu x e r) l) = true).
    { rewrite forallb_map. revert Hl. apply forallb_mono. exact H. }
    destruct l; cbn [map prefix_list records] in *; [|now rewrite E, IHt].
    cbn. now rewrite IHt, orb_true_r.
  - rewrite !andb_true_iff. intros [Hl Ho]. split; [|exact Ho]. rewrite forallb_map. revert Hl. apply forallb_mono.
    rewrite Forall_forall in *. intros a Ha. cbn. rewrite pty_map, is_required_map, !andb_true_iff. intuition.
  - rewrite !andb_true_iff. intuition.
  - rewrite forallb_map. apply forallb_mono. exact H.
  - intros _. destruct (String.eqb x0 x); [exact Gr|reflexivity].
  - intros Hb. destruct (String.eqb x0 x); [exact Hb|]. cbn in *. auto.
  - intros Hb. destruct (String.eqb x0 x); [exact Hb|]. cbn. auto.
Qed.
