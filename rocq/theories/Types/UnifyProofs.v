(** Unification of first-order types. *)
From Coq Require Import Ascii String List Bool Arith Lia.
From Verif.Types Require Import Model Spec Basics RuleProofs TermProofs UnifySpec ResProofs ApplyProofs.
Import ListNotations.
Open Scope string_scope.
Open Scope list_scope.
Open Scope nat_scope.

(** ** Instances *)
Lemma res_instance s v t u : solves v s -> res s t u -> instance v t = instance v u.
Proof.
  intros HV.
  assert (L : forall l l', Forall2 (fun a b => res s a b /\ instance v a = instance v b) l l' -> map (instance v) l = map (instance v) l').
  { induction 1 as [|? ? ? ? [_ H] _ IH]; cbn; congruence. }
  induction 1 as [x k t u Eg Hr IHres|x k Eg|t At|f x f' x' Hr1 Hr2 IHres1 IHres2|l l' H|l a l' a' H Hr IHres|f o f' H|a b a' b' Hr1 Hr2 IHres1 IHres2|l l' H] using res_induction; cbn; try congruence; try reflexivity.
  - rewrite (HV x t Eg). exact IHres.
  - now rewrite (L l l' H).
  - rewrite (L l l' H). congruence.
  - f_equal. clear L. induction H as [|[k p] [k' p'] f f' (E1 & E2 & _ & E4) F IH]; cbn in *; [reflexivity|]. f_equal; [|exact IH]. subst. f_equal.
    destruct p, p'; cbn in *; congruence.
  - now rewrite (L l l' H).
Qed.
Lemma kind_instance v t : (forall x, kind_of (v x) = Star) -> exact t = true -> kind_of (instance v t) = kind_of t.
Proof.
  intros K. induction t using type_induction; cbn [exact instance kind_of]; try reflexivity; try discriminate.
  - rewrite andb_true_iff. intros [E1 E2]. now rewrite IHt1.
  - intros E. apply kind_eqb_eq in E as ->. apply K.
Qed.
Lemma instance_occurs d v x t : first_order d t = true -> occurs x t = true -> exact t = true -> size (v x) <= size (instance v t).
Proof.
  induction t using type_induction; intros G; cbn [occurs exact instance size]; try discriminate.
  - apply fo_app in G as [G1 G2]. rewrite orb_true_iff, andb_true_iff. intros [O|O] [E1 E2]; [specialize (IHt1 G1 O E1)|specialize (IHt2 G2 O E2)]; lia.
  - cbn in G. intros O E. apply existsb_exists in O. destruct O as (t & Ht & O). rewrite Forall_forall in H. specialize (H t Ht (forallb_In _ _ G _ Ht) O (forallb_In _ _ E _ Ht)).
    pose proof (list_sum_In size (map (instance v) l) (instance v t) (in_map _ _ _ Ht)). lia.
  - apply fo_prefix in G as (_ & G & Ga). rewrite orb_true_iff, andb_true_iff. intros [O|O] [E1 E2]; [|specialize (IHt Ga O E2); lia].
    apply existsb_exists in O. destruct O as (t0 & Ht & O). rewrite Forall_forall in H. specialize (H t0 Ht (G t0 Ht) O (forallb_In _ _ E1 _ Ht)).
    pose proof (list_sum_In size (map (instance v) l) (instance v t0) (in_map _ _ _ Ht)). lia.
  - apply fo_record in G as (-> & G). rewrite orb_true_iff, andb_true_iff. intros [O|O] [E _]; [|discriminate].
    apply existsb_exists in O. destruct O as (kp & Ht & O). rewrite Forall_forall in H. specialize (H kp Ht (G kp Ht) O (forallb_In _ _ E _ Ht)).
    pose proof (list_sum_In (fun kp => size (pty (snd kp))) (map (fun kp => (fst kp, map_presence (instance v) (snd kp))) f) _ (in_map _ _ _ Ht)) as S. cbn in S.
    rewrite pty_map in S. lia.
  - cbn in G. apply andb_true_iff in G as [G1 G2]. rewrite orb_true_iff, andb_true_iff. intros [O|O] [E1 E2]; [specialize (IHt1 G1 O E1)|specialize (IHt2 G2 O E2)]; lia.
  - intros O _. apply String.eqb_eq in O as ->. lia.
Qed.
Lemma occurs_instance d v x t : first_order d t = true -> occurs x t = true -> exact t = true -> is_var t = false -> v x <> instance v t.
Proof.
  intros G O E V C.
  assert (size (v x) < size (instance v t)); [|rewrite C in H; lia].
  destruct t as [b| | | |n|f y|l|l a|f o r|a b|l|y|y|y k|y b|bs b|y b]; try discriminate; cbn [occurs exact instance size] in *.
  - apply fo_app in G as [G1 G2]. rewrite orb_true_iff, andb_true_iff in *. destruct E as [E1 E2].
    destruct O as [O|O]; [pose proof (instance_occurs d v x f G1 O E1)|pose proof (instance_occurs d v x y G2 O E2)]; lia.
  - cbn in G. apply existsb_exists in O. destruct O as (t & Ht & O). pose proof (instance_occurs d v x t (forallb_In _ _ G _ Ht) O (forallb_In _ _ E _ Ht)).
    pose proof (list_sum_In size (map (instance v) l) (instance v t) (in_map _ _ _ Ht)). lia.
  - apply fo_prefix in G as (_ & G & Ga). rewrite orb_true_iff, andb_true_iff in *. destruct E as [E1 E2]. destruct O as [O|O]; [|pose proof (instance_occurs d v x a Ga O E2); lia].
    apply existsb_exists in O. destruct O as (t & Ht & O). pose proof (instance_occurs d v x t (G t Ht) O (forallb_In _ _ E1 _ Ht)).
    pose proof (list_sum_In size (map (instance v) l) (instance v t) (in_map _ _ _ Ht)). lia.
  - apply fo_record in G as (-> & G). rewrite orb_true_iff, andb_true_iff in *. destruct E as [E _]. destruct O as [O|O]; [|discriminate].
    apply existsb_exists in O. destruct O as (kp & Ht & O). pose proof (instance_occurs d v x _ (G kp Ht) O (forallb_In _ _ E _ Ht)).
    pose proof (list_sum_In (fun kp => size (pty (snd kp))) (map (fun kp => (fst kp, map_presence (instance v) (snd kp))) f) _ (in_map _ _ _ Ht)) as S. cbn in S.
    rewrite pty_map in S. lia.
  - cbn in G. apply andb_true_iff in G as [G1 G2]. rewrite orb_true_iff, andb_true_iff in *. destruct E as [E1 E2].
    destruct O as [O|O]; [pose proof (instance_occurs d v x a G1 O E1)|pose proof (instance_occurs d v x b G2 O E2)]; lia.
Qed.
Definition subst_exact (s : subst) : Prop := forall x t, get x s = Some t -> exact t = true.
Lemma res_exact s t u : subst_exact s -> res s t u -> exact t = true -> exact u = true.
Proof.
  intros HS.
  induction 1 as [x k t u Eg Hr IHres|x k Eg|t At|f x f' x' Hr1 Hr2 IHres1 IHres2|l l' H|l a l' a' H Hr IHres|f o f' H|a b a' b' Hr1 Hr2 IHres1 IHres2|l l' H] using res_induction; intros G; auto.
  - apply IHres. exact (HS x t Eg).
  - cbn in *. rewrite andb_true_iff in *. destruct G. auto.
  - cbn in *. revert G. apply (forallb_Forall2_r _ _ _ _ _ H). intros ? ? _ [_ K]. exact K.
  - cbn in *. rewrite andb_true_iff in *. destruct G as [G1 G2]. split; auto. revert G1. apply (forallb_Forall2_r _ _ _ _ _ H). intros ? ? _ [_ K]. exact K.
  - cbn in *. rewrite andb_true_iff in *. destruct G as [G1 G2]. split; [revert G1; apply (forallb_Forall2_r _ _ _ _ _ H); intros ? ? _ (_ & _ & _ & K); exact K|].
    replace (map fst f') with (map fst f); [exact G2|]. clear -H. induction H as [|? ? ? ? (E & _)]; cbn; congruence.
  - cbn in *. rewrite andb_true_iff in *. destruct G. auto.
Qed.

(** ** Progress *)
Section Unify.
Variable d : bool.
Variable V : list string.
Definition inside (t : type) : Prop := forall y, occurs y t = true -> In y V.
Definition good (s : subst) : Prop := subst_first_order d s /\ acyclic s /\ forall x t, get x s = Some t -> inside t.
Definition unbound (s : subst) : nat := length (filter (fun x => negb (contains_key x s)) V).
Definition post (s s' : subst) : Prop := good s' /\ extends s s' /\ (s' = s \/ unbound s' < unbound s).
Definition agrees (s : subst) (t u : type) : Prop := forall t' u', res s t t' -> res s u u' -> agree t' u'.
Definition finds (t1 t2 : type) (s s' : subst) (e : option unify_error) : Prop :=
  subst_exact s -> exact t1 = true -> exact t2 = true -> forall v, (forall x, kind_of (v x) = Star) -> solves v s -> instance v t1 = instance v t2 ->
  e = None /\ subst_exact s' /\ solves v s'.
Definition result (t1 t2 : type) (s : subst) : Prop := exists N s' e,
  (forall fuel, N <= fuel -> unify fuel t1 t2 s = Some (s', e)) /\ post s s' /\ (e = None -> agrees s' t1 t2) /\ finds t1 t2 s s' e.

Lemma extends_refl s : extends s s. Proof. intros x t E. exact E. Qed.
Lemma extends_trans s1 s2 s3 : extends s1 s2 -> extends s2 s3 -> extends s1 s3.
Proof. intros H1 H2 x t E. auto. Qed.
Lemma post_refl s : good s -> post s s.
Proof. intros G. split; [exact G|]. split; [apply extends_refl|now left]. Qed.
Lemma post_trans s1 s2 s3 : post s1 s2 -> post s2 s3 -> post s1 s3.
Proof. intros (_ & E1 & D1) (G & E2 & D2). split; [exact G|]. split; [now apply (extends_trans s1 s2)|]. destruct D1 as [->|D1], D2 as [->|D2]; auto; right; lia. Qed.
Lemma good_total s t : good s -> first_order d t = true -> exists u, res s t u.
Proof. intros (G & A & _) F. exact (res_total d s G t A F). Qed.
Lemma res_inside s t u : good s -> inside t -> res s t u -> inside u.
Proof. intros (_ & _ & I) It R x Hx. destruct (res_vars s t u R x Hx) as (_ & [H|(y & t' & Hy & H)]); [now apply It|now apply (I y t')]. Qed.

(** What holds of the resolved types holds of the types. *)
Lemma res_later s s' t u w : good s' -> first_order d u = true -> extends s s' -> res s t u -> (res s' t w <-> res s' u w).
Proof.
  intros G F E R. destruct (good_total s' u G F) as (w' & Hw). pose proof (res_extends s s' t u E R w' Hw) as Ht. split; intros H.
  - rewrite (res_functional s' t w H w' Ht). exact Hw. - exact (res_extends s s' t u E R w H).
Qed.
Lemma agrees_later s s' t1 t2 u1 u2 : good s' -> first_order d u1 = true -> first_order d u2 = true -> extends s s' -> res s t1 u1 -> res s t2 u2 ->
  agrees s' u1 u2 -> agrees s' t1 t2.
Proof.
  intros G F1 F2 E R1 R2 A w1 w2 H1 H2. apply A; [apply (res_later s s' t1 u1); auto|apply (res_later s s' t2 u2); auto].
Qed.
Lemma agrees_extends s s' t1 t2 : good s -> good s' -> first_order d t1 = true -> first_order d t2 = true -> extends s s' -> agrees s t1 t2 -> agrees s' t1 t2.
Proof.
  intros G G' F1 F2 E A. destruct (good_total s t1 G F1) as (u1 & R1), (good_total s t2 G F2) as (u2 & R2). pose proof (A u1 u2 R1 R2) as AG.
  destruct G as (GS & _).
  apply (agrees_later s s' t1 t2 u1 u2); auto; try (eapply res_fo; eassumption). intros w1 w2 H1 H2. exact (agree_res s' u1 u2 AG w1 w2 H1 H2).
Qed.

(** ** Binding a variable *)
Lemma insert_good s x t : good s -> get x s = None -> In x V -> first_order d t = true -> inside t -> resolved s t -> occurs x t = false -> post s (insert x t s).
Proof.
  intros (G & A & I) Hx HV F It R O.
  assert (GI : forall y, get y (insert x t s) = if String.eqb y x then Some t else get y s) by reflexivity.
  assert (UN : forall y, occurs y t = true -> get y (insert x t s) = None).
  { intros y Hy. rewrite GI. destruct (String.eqb y x) eqn:E; [apply String.eqb_eq in E; subst; congruence|now apply R]. }
  assert (AU : forall y, get y (insert x t s) = None -> Acc (mentions (insert x t s)) y).
  { intros y Hy. constructor. intros z (t' & Ht' & _). congruence. }
  assert (AX : Acc (mentions (insert x t s)) x).
  { constructor. intros z (t' & Ht' & Hz). rewrite GI, String.eqb_refl in Ht'. injection Ht' as <-. apply AU, UN, Hz. }
  split; [split; [|split]|split].
  - intros y u Hy. rewrite GI in Hy. destruct (String.eqb y x); [congruence|now apply (G y)].
  - intros y. induction (A y) as [y _ IH]. destruct (String.eqb y x) eqn:E; [apply String.eqb_eq in E; subst; exact AX|].
    constructor. intros z (t' & Ht' & Hz). rewrite GI, E in Ht'. apply IH. exists t'. auto.
  - intros y u Hy. rewrite GI in Hy. destruct (String.eqb y x); [injection Hy as <-; exact It|now apply (I y)].
  - intros y u Hy. rewrite GI. destruct (String.eqb y x) eqn:E; [apply String.eqb_eq in E; subst; congruence|exact Hy].
  - right. unfold unbound. clear -HV Hx GI.
    assert (CI : forall y, contains_key y (insert x t s) = String.eqb y x || contains_key y s).
    { intros y. unfold contains_key. rewrite GI. destruct (String.eqb y x); reflexivity. }
    assert (CX : contains_key x s = false) by (unfold contains_key; now rewrite Hx).
    assert (LE : forall l, length (filter (fun y => negb (contains_key y (insert x t s))) l) <= length (filter (fun y => negb (contains_key y s)) l)).
    { induction l as [|y l IH]; [reflexivity|]. cbn [filter]. rewrite CI. destruct (String.eqb y x), (contains_key y s); cbn [negb orb length]; lia. }
    induction V as [|y l IH]; [destruct HV|]. cbn [filter]. rewrite CI. destruct HV as [->|HV].
    + rewrite String.eqb_refl, CX. cbn [negb orb length]. specialize (LE l). lia.
    + specialize (IH HV). destruct (String.eqb y x), (contains_key y s); cbn [negb orb length]; lia.
Qed.
Lemma bind_result x k t s (flip : bool) : good s -> resolved s (TVar x k) -> In x V -> first_order d t = true -> inside t -> resolved s t -> t <> TVar x k ->
  exists s' e, bind_var x k t s = Some (s', e) /\ post s s' /\ (e = None -> agrees s' (TVar x k) t /\ agrees s' t (TVar x k)) /\
  (subst_exact s -> exact (TVar x k) = true -> exact t = true -> forall v, (forall x, kind_of (v x) = Star) -> solves v s -> v x = instance v t ->
   e = None /\ subst_exact s' /\ solves v s').
Proof.
  intros G RX HV F It R N.
  assert (Hx : get x s = None) by (apply RX; cbn; apply String.eqb_refl).
  unfold bind_var. destruct (occurs x t) eqn:O.
  - eexists _, _. split; [reflexivity|]. split; [now apply post_refl|]. split; [discriminate|].
    intros HE EX ET v HK HS HX. exfalso. destruct (is_var t) eqn:VT.
    + destruct t; try discriminate. cbn in O, EX, ET. apply String.eqb_eq in O as ->. apply kind_eqb_eq in EX, ET. congruence.
    + exact (occurs_instance d v x t F O ET VT HX).
  - set (t' := match t with TStrLit _ => TBase String | TSymLit _ => TBase Symbol | t => t end).
    assert (T' : first_order d t' = true /\ inside t' /\ resolved s t' /\ occurs x t' = false) by (subst t'; destruct t; auto).
    destruct T' as (F' & I' & R' & O').
    destruct (kind_eqb (kind_of t') k) eqn:K.
    + eexists _, _. split; [reflexivity|]. pose proof (insert_good s x t' G Hx HV F' I' R' O') as P. split; [exact P|].
      assert (RT : forall u, resolved s u -> occurs x u = false -> resolved (insert x t' s) u).
      { intros u Hu Ou y Hy. cbn. destruct (String.eqb y x) eqn:E; [apply String.eqb_eq in E; subst; congruence|now apply Hu]. }
      assert (RX' : res (insert x t' s) (TVar x k) t').
      { apply (res_bound _ x k t'); [cbn; now rewrite String.eqb_refl|]. apply (resolved_res _ d); auto. }
      assert (RT' : res (insert x t' s) t t) by (apply (resolved_res _ d); auto).
      split.
      * intros _. split; intros a b Ha Hb.
        -- rewrite <- (res_functional _ _ _ RX' _ Ha), <- (res_functional _ _ _ RT' _ Hb). subst t'. destruct t; constructor.
        -- rewrite <- (res_functional _ _ _ RT' _ Ha), <- (res_functional _ _ _ RX' _ Hb). subst t'. destruct t; constructor.
      * intros HE EX ET v HK HS HX. split; [reflexivity|]. assert (E : t' = t) by (subst t'; destruct t; try reflexivity; discriminate). rewrite E. split.
        -- intros y u. cbn. destruct (String.eqb y x); [intros [= <-]; exact ET|apply HE].
        -- intros y u. cbn. destruct (String.eqb y x) eqn:Ey; [intros [= <-]; apply String.eqb_eq in Ey; rewrite Ey; exact HX|apply HS].
    + eexists _, _. split; [reflexivity|]. split; [now apply post_refl|]. split; [discriminate|].
      intros HE EX ET v HK HS HX. exfalso. assert (E : t' = t) by (subst t'; destruct t; try reflexivity; discriminate).
      rewrite E in K. cbn in EX. apply kind_eqb_eq in EX. rewrite EX, <- (kind_instance v t HK ET), <- HX, HK in K. discriminate.
Qed.

(** ** Running *)
Definition Res (f : nat -> option answer) (t1 t2 : type) (s : subst) : Prop := exists N s' e,
  (forall fuel, N <= fuel -> f fuel = Some (s', e)) /\ post s s' /\ (e = None -> agrees s' t1 t2) /\ finds t1 t2 s s' e.
Lemma Res_ok f t1 t2 s : good s -> (forall fuel, f fuel = ok s) -> agrees s t1 t2 -> Res f t1 t2 s.
Proof.
  intros G E A. exists 0, s, None. split; [intros fuel _; apply E|]. split; [now apply post_refl|]. split; [auto|]. intros HE _ _ v _ HS _. auto.
Qed.
Lemma Res_fail f t1 t2 s e : good s -> (forall fuel, f fuel = fail s e) ->
  (exact t1 = true -> exact t2 = true -> forall v, instance v t1 <> instance v t2) -> Res f t1 t2 s.
Proof.
  intros G E A. exists 0, s, (Some e). split; [intros fuel _; apply E|]. split; [now apply post_refl|]. split; [discriminate|].
  intros _ E1 E2 v _ _ H. now destruct (A E1 E2 v).
Qed.
Lemma fold_stuck {I} (F : I -> subst -> option answer) items s e :
  fold_left (fun acc i => andthen acc (F i)) items (Some (s, Some e)) = Some (s, Some e).
Proof. induction items as [|i items IH]; [reflexivity|]. cbn [fold_left]. exact IH. Qed.

Section Step.
Variable s : subst.
Variable m : nat.
Hypothesis G : good s.
Definition sub_ok (s' : subst) (a b : type) : Prop :=
  first_order d a = true /\ first_order d b = true /\ inside a /\ inside b /\ (s' = s -> resolved s a /\ resolved s b /\ size a + size b < m).
Hypothesis SUB : forall a b s', post s s' -> sub_ok s' a b -> result a b s'.
(** Parts of the resolved types. *)
Definition part (a b : type) : Prop :=
  first_order d a = true /\ first_order d b = true /\ inside a /\ inside b /\ resolved s a /\ resolved s b /\ size a + size b < m.
Lemma part_sub s' a b : part a b -> sub_ok s' a b.
Proof. intros (F1 & F2 & I1 & I2 & R1 & R2 & L). repeat split; auto. Qed.
Lemma part_res s' a b : post s s' -> part a b -> result a b s'.
Proof. intros P H. apply SUB; [exact P|now apply part_sub]. Qed.
Lemma part_applied s' a b : post s s' -> part a b ->
  Res (fun fuel => do v1 <- apply_subst fuel a s'; do v2 <- apply_subst fuel b s'; unify fuel v1 v2 s') a b s'.
Proof.
  intros P (F1 & F2 & I1 & I2 & R1 & R2 & L). destruct P as (G' & E' & D'). pose proof (conj G' (conj E' D') : post s s') as P.
  destruct (good_total s' a G' F1) as (a' & Ha), (good_total s' b G' F2) as (b' & Hb). destruct G' as (GS & GA & GI).
  pose proof (res_fo d s' a a' GS Ha F1) as F1'. pose proof (res_fo d s' b b' GS Hb F2) as F2'.
  destruct (SUB a' b' s' P) as (N & s2 & e & RUN & P2 & A & FI).
  { split; [exact F1'|]. split; [exact F2'|]. split; [apply (res_inside s' a); auto; apply P|]. split; [apply (res_inside s' b); auto; apply P|].
    intros ->. rewrite <- (res_functional s a a (resolved_res s d a F1 R1) a' Ha), <- (res_functional s b b (resolved_res s d b F2 R2) b' Hb). auto. }
  destruct (res_apply d s' GS a a' Ha F1) as (n1 & K1), (res_apply d s' GS b b' Hb F2) as (n2 & K2).
  exists (max N (max n1 n2)), s2, e. split; [|split; [exact P2|split]].
  - intros fuel Hf. rewrite K1, K2 by lia. cbn [bind]. apply RUN. lia.
  - intros He. destruct P2 as (G2 & E2 & _). apply (agrees_later s' s2 a b a' b'); auto.
  - intros HE X1 X2 v HK HS HI. apply FI; auto; [apply (res_exact s' a); auto|apply (res_exact s' b); auto|].
    rewrite <- (res_instance s' v a a' HS Ha), <- (res_instance s' v b b' HS Hb). exact HI.
Qed.

(** One after the other. *)
Lemma fold_result {I} (F : nat -> I -> subst -> option answer) (l r : I -> type) items : 
  (forall i, In i items -> first_order d (l i) = true /\ first_order d (r i) = true /\ forall s', post s s' -> Res (fun fuel => F fuel i s') (l i) (r i) s') ->
  forall s1, post s s1 -> exists N s2 e,
    (forall fuel, N <= fuel -> fold_left (fun acc i => andthen acc (F fuel i)) items (ok s1) = Some (s2, e)) /\ post s1 s2 /\
    (e = None -> forall i, In i items -> agrees s2 (l i) (r i)) /\
    (subst_exact s1 -> (forall i, In i items -> exact (l i) = true /\ exact (r i) = true) -> forall v, (forall x, kind_of (v x) = Star) -> solves v s1 ->
     (forall i, In i items -> instance v (l i) = instance v (r i)) -> e = None /\ subst_exact s2 /\ solves v s2).
Proof.
  induction items as [|i items IH]; intros H s1 P1.
  - exists 0, s1, None. split; [reflexivity|]. split; [apply post_refl, P1|]. split; [intros _ i []|]. auto.
  - destruct (H i (or_introl eq_refl)) as (Fl & Fr & Hi). destruct (Hi s1 P1) as (N & s2 & e & RUN & P2 & A & FI).
    destruct e as [e|].
    + exists N, s2, (Some e). split; [|split; [exact P2|split; [discriminate|]]].
      * intros fuel Hf. cbn [fold_left]. unfold ok at 1. cbn [andthen bind snd fst]. rewrite RUN by exact Hf. apply fold_stuck.
      * intros HE HX v HK HS HI. destruct (HX i (or_introl eq_refl)) as (X1 & X2). destruct (FI HE X1 X2 v HK HS (HI i (or_introl eq_refl))) as (E & _). discriminate.
    + destruct (IH (fun j Hj => H j (or_intror Hj)) s2 (post_trans _ _ _ P1 P2)) as (N' & s3 & e & RUN' & P3 & A' & FI').
      exists (max N N'), s3, e. split; [|split; [now apply (post_trans s1 s2)|split]].
      * intros fuel Hf. cbn [fold_left]. unfold ok at 1. cbn [andthen bind snd fst]. rewrite RUN by lia. apply RUN'. lia.
      * intros He j [<-|Hj]; [|now apply A']. destruct P3 as (G3 & E3 & _). apply (agrees_extends s2 s3); auto. apply P2.
      * intros HE HX v HK HS HI. destruct (HX i (or_introl eq_refl)) as (X1 & X2). destruct (FI HE X1 X2 v HK HS (HI i (or_introl eq_refl))) as (_ & HE2 & HS2).
        apply FI'; auto; intros; [apply HX|apply HI]; now right.
Qed.
Lemma both_result l1 l2 : length l1 = length l2 -> (forall a b, In (a, b) (combine l1 l2) -> part a b) ->
  exists N s2 e,
    (forall fuel, N <= fuel -> fold_left (fun acc p => andthen acc (unify fuel (fst p) (snd p))) (combine l1 l2) (ok s) = Some (s2, e)) /\ post s s2 /\
    (e = None -> forall m1 m2, Forall2 (res s2) l1 m1 -> Forall2 (res s2) l2 m2 -> Forall2 agree m1 m2) /\
    (subst_exact s -> forallb exact l1 = true -> forallb exact l2 = true -> forall v, (forall x, kind_of (v x) = Star) -> solves v s ->
     map (instance v) l1 = map (instance v) l2 -> e = None /\ subst_exact s2 /\ solves v s2).
Proof.
  intros L HP.
  destruct (fold_result (fun fuel p => unify fuel (fst p) (snd p)) fst snd (combine l1 l2)) with (s1 := s) as (N & s2 & e & RUN & P & A & FI).
  - intros [a b] Hin. specialize (HP a b Hin). cbn. destruct HP as (F1 & F2 & HP). split; [exact F1|]. split; [exact F2|].
    intros s' Ps. apply (part_res s' a b Ps). repeat split; auto; apply HP.
  - now apply post_refl.
  - exists N, s2, e. split; [exact RUN|]. split; [exact P|]. split.
    + intros He. specialize (A He). clear -L A. revert l2 L A. induction l1 as [|a l1 IH]; intros [|b l2] L A m1 m2 H1 H2; try discriminate; inversion H1; inversion H2; subst; constructor.
      * apply (A (a, b)); [now left|assumption|assumption].
      * apply (IH l2); auto. intros i Hi. apply A. now right.
    + intros HE X1 X2 v HK HS HI. apply FI; auto.
      * intros [a b] Hin. split; [apply in_combine_l in Hin; exact (forallb_In _ _ X1 _ Hin)|apply in_combine_r in Hin; exact (forallb_In _ _ X2 _ Hin)].
      * clear -HI L. revert l2 L HI. induction l1 as [|a l1 IH]; intros [|b l2] L HI; try discriminate; intros i []; cbn in HI; injection HI as H1 H2; [subst; exact H1|]. now apply (IH l2); auto.
Qed.
End Step.
End Unify.
