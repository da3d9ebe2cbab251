(** Unification of first-order types: one level, and the whole. *)
From Coq Require Import Ascii String List Bool Arith Lia.
From Verif.Types Require Import Model Spec Basics RuleProofs TermProofs UnifySpec ResProofs ApplyProofs UnifyProofs.
Import ListNotations.
Open Scope string_scope.
Open Scope list_scope.
Open Scope nat_scope.

Lemma pattern_fo d t s : first_order d t = true -> pattern_of t s = None.
Proof. destruct t as [| | | | |f x| | | | | | | | | | |]; try reflexivity. destruct f; try reflexivity. cbn. rewrite !andb_true_iff. intros [_ [=]]. Qed.
Lemma get_unique {A} (f : list (string * A)) k p : unique (map fst f) = true -> In (k, p) f -> get k f = Some p.
Proof.
  induction f as [|[k' q] f IH]; cbn; [contradiction|]. rewrite andb_true_iff. intros [N U] [[= -> ->]|Hin]; [now rewrite String.eqb_refl|].
  destruct (String.eqb k k') eqn:E; [|now apply IH]. apply String.eqb_eq in E. subst. exfalso. apply negb_true_iff in N.
  assert (mem k' (map fst f) = true); [|congruence]. apply mem_In. apply in_map_iff. now exists (k', p).
Qed.
Lemma fold_left_ext {A B} (f g : A -> B -> A) l a : (forall a b, f a b = g a b) -> fold_left f l a = fold_left g l a.
Proof. intros E. revert a. induction l as [|b l IH]; intros a; cbn; [reflexivity|]. rewrite E. apply IH. Qed.
Lemma andthen_ok x : andthen x (fun s => ok s) = x.
Proof. destruct x as [[s [e|]]|]; reflexivity. Qed.

Section Heads.
Variable d : bool.
Variable V : list string.
Variable s : subst.
Variable u1 u2 : type.
Hypothesis G : good d V s.
Hypothesis F1 : first_order d u1 = true.
Hypothesis F2 : first_order d u2 = true.
Hypothesis I1 : inside V u1.
Hypothesis I2 : inside V u2.
Hypothesis R1 : resolved s u1.
Hypothesis R2 : resolved s u2.
Hypothesis SUB : forall a b s', post d V s s' -> sub_ok d V s (size u1 + size u2) s' a b -> result d V a b s'.
Notation part := (part d V s (size u1 + size u2)).
Notation Res := (Res d V).

(** Two parts, the second after the first. *)
Lemma pair_result a1 a2 b1 b2 (C : type -> type -> type) : part a1 a2 -> part b1 b2 ->
  (forall s a b w, res s (C a b) w -> exists a' b', w = C a' b' /\ res s a a' /\ res s b b') ->
  (forall a b c e, agree a c -> agree b e -> agree (C a b) (C c e)) ->
  (forall a b, exact (C a b) = exact a && exact b) -> (forall v a b, instance v (C a b) = C (instance v a) (instance v b)) ->
  (forall a b c e, C a b = C c e -> a = c /\ b = e) ->
  Res (fun fuel => andthen (unify fuel a1 a2 s) (fun s => do v1 <- apply_subst fuel b1 s; do v2 <- apply_subst fuel b2 s; unify fuel v1 v2 s)) (C a1 b1) (C a2 b2) s.
Proof.
  intros PA PB CR CA CE CI CJ. destruct (part_res d V s (size u1 + size u2) SUB s a1 a2 (post_refl d V s G) PA) as (N & s1 & e & RUN & P1 & A & FI).
  destruct e as [e|].
  - exists N, s1, (Some e). split; [intros fuel Hf; now rewrite RUN|]. split; [exact P1|]. split; [discriminate|].
    intros HE X1 X2 v HK HS HI. rewrite CE, andb_true_iff in X1, X2. rewrite !CI in HI. apply CJ in HI. destruct (FI HE (proj1 X1) (proj1 X2) v HK HS (proj1 HI)). discriminate.
  - destruct (part_applied d V s (size u1 + size u2) SUB s1 b1 b2 P1 PB) as (N' & s2 & e & RUN' & P2 & A' & FI').
    exists (max N N'), s2, e. split; [intros fuel Hf; rewrite RUN by lia; cbn [andthen bind fst snd]; apply RUN'; lia|]. split; [now apply (post_trans d V s s1)|]. split.
    + intros He w1 w2 H1 H2. destruct (CR _ _ _ _ H1) as (a1' & b1' & -> & Ha1 & Hb1), (CR _ _ _ _ H2) as (a2' & b2' & -> & Ha2 & Hb2).
      apply CA; [|now apply A']. destruct PA as (FA1 & FA2 & _). destruct P1 as (G1 & _), P2 as (G2 & E2 & _).
      exact (agrees_extends d V s1 s2 a1 a2 G1 G2 FA1 FA2 E2 (A eq_refl) a1' a2' Ha1 Ha2).
    + intros HE X1 X2 v HK HS HI. rewrite CE, andb_true_iff in X1, X2. rewrite !CI in HI. apply CJ in HI. destruct X1, X2, HI.
      destruct (FI HE) with (v := v) as (_ & HE1 & HS1); auto.
Qed.

Lemma occurs_inside (C : list type) t : (forall x, occurs x t = true <-> exists a, In a C /\ occurs x a = true) -> inside V t -> forall a, In a C -> inside V a.
Proof. intros E I a Ha x Hx. apply I, E. eauto. Qed.
Lemma occurs_resolved (C : list type) t : (forall x, occurs x t = true <-> exists a, In a C /\ occurs x a = true) -> resolved s t -> forall a, In a C -> resolved s a.
Proof. intros E I a Ha x Hx. apply I, E. eauto. Qed.
(** A part of one with a part of the other. *)
Lemma make_part C1 C2 a b : (forall x, occurs x u1 = true <-> exists a, In a C1 /\ occurs x a = true) -> (forall x, occurs x u2 = true <-> exists a, In a C2 /\ occurs x a = true) ->
  In a C1 -> In b C2 -> first_order d a = true -> first_order d b = true -> size a < size u1 -> size b < size u2 -> part a b.
Proof.
  intros E1 E2 Ha Hb Fa Fb La Lb. split; [exact Fa|]. split; [exact Fb|]. split; [exact (occurs_inside C1 u1 E1 I1 a Ha)|]. split; [exact (occurs_inside C2 u2 E2 I2 b Hb)|].
  split; [exact (occurs_resolved C1 u1 E1 R1 a Ha)|]. split; [exact (occurs_resolved C2 u2 E2 R2 b Hb)|]. lia.
Qed.
Lemma two_occurs C a b t : (forall x, occurs x t = occurs x a || occurs x b) -> C = [a; b] -> forall x, occurs x t = true <-> exists a, In a C /\ occurs x a = true.
Proof.
  intros E -> x. rewrite E, orb_true_iff. split; [intros [H|H]; [exists a|exists b]; split; auto; [now left|right; now left]|]. intros (c & [<-|[<-|[]]] & H); auto.
Qed.
Lemma record_fields f o g o' : u1 = TRecord f o [] -> u2 = TRecord g o' [] -> forall kp q, In kp f -> get (fst kp) g = Some q -> part (pty (snd kp)) (pty q).
Proof.
  intros E1 E2 kp q Hk Hq. apply get_In in Hq.
  assert (FF1 := F1). assert (FF2 := F2). rewrite E1 in FF1. rewrite E2 in FF2. apply fo_record in FF1 as (_ & FF1). apply fo_record in FF2 as (_ & FF2).
  assert (O : forall f o x, occurs x (TRecord f o []) = true <-> exists a, In a (map (fun kp => pty (snd kp)) f) /\ occurs x a = true).
  { intros f0 o0 x. cbn. rewrite orb_false_r, existsb_exists. split.
    - intros (kp' & Hin & H). exists (pty (snd kp')). split; [apply in_map_iff; eauto|exact H].
    - intros (a & Hin & H). apply in_map_iff in Hin. destruct Hin as (kp' & <- & Hin). eauto. }
  apply (make_part (map (fun kp => pty (snd kp)) f) (map (fun kp => pty (snd kp)) g)).
  - rewrite E1. apply O. - rewrite E2. apply O.
  - apply in_map_iff. eauto. - apply in_map_iff. now exists (fst kp, q).
  - now apply FF1. - exact (FF2 (fst kp, q) Hq).
  - rewrite E1. cbn [size]. apply (list_sum_In (fun kp => size (pty (snd kp)))) in Hk. lia.
  - rewrite E2. cbn [size]. apply (list_sum_In (fun kp => size (pty (snd kp)))) in Hq. cbn in Hq. lia.
Qed.
Lemma list_parts l1 l2 a b : (forall x, existsb (occurs x) l1 = true -> occurs x u1 = true) -> (forall x, existsb (occurs x) l2 = true -> occurs x u2 = true) ->
  list_sum (map size l1) < size u1 -> list_sum (map size l2) < size u2 -> (forall t, In t l1 -> first_order d t = true) -> (forall t, In t l2 -> first_order d t = true) ->
  In a l1 -> In b l2 -> part a b.
Proof.
  intros O1 O2 S1 S2 L1 L2 Ha Hb. split; [now apply L1|]. split; [now apply L2|].
  split; [intros x Hx; apply I1, O1, existsb_exists; eauto|]. split; [intros x Hx; apply I2, O2, existsb_exists; eauto|].
  split; [intros x Hx; apply R1, O1, existsb_exists; eauto|]. split; [intros x Hx; apply R2, O2, existsb_exists; eauto|].
  apply (list_sum_In size) in Ha, Hb. lia.
Qed.

(** A match of two records. *)
Lemma record_result f o g o' : u1 = TRecord f o [] -> u2 = TRecord g o' [] -> Res (fun fuel => unify_shapes (unify fuel) fuel u1 u2 s) u1 u2 s.
Proof.
  intros E1 E2.
  pose (F := fun fuel (kp : string * presence type) s => match get (fst kp) g with None => ok s
    | Some p2 => do v1 <- apply_subst fuel (pty (snd kp)) s; do v2 <- apply_subst fuel (pty p2) s; unify fuel v1 v2 s end).
  pose (r := fun kp : string * presence type => match get (fst kp) g with Some q => pty q | None => pty (snd kp) end).
  assert (FF1 := F1). rewrite E1 in FF1. apply fo_record in FF1 as (_ & FF1).
  destruct (fold_result d V s F (fun kp => pty (snd kp)) r f) with (s1 := s) as (N & s1 & e & RUN & P & A & FI).
  - intros kp Hk. split; [now apply FF1|]. unfold r, F. destruct (get (fst kp) g) as [q|] eqn:Eq.
    + pose proof (record_fields f o g o' E1 E2 kp q Hk Eq) as HP. split; [apply HP|]. intros s' Ps. now apply (part_applied d V s (size u1 + size u2) SUB).
    + split; [now apply FF1|]. intros s' Ps. apply Res_ok; [apply Ps|reflexivity|]. intros w1 w2 H1 H2. rewrite (res_functional _ _ _ H1 _ H2). constructor.
  - now apply post_refl.
  - assert (RUN' : forall fuel, N <= fuel -> unify_shapes (unify fuel) fuel u1 u2 s =
      match e with
      | Some e => Some (s1, Some e)
      | None => if existsb (fun kp => negb (contains_key (fst kp) g)) f then fail s1 (Mismatch u1 u2)
                else if existsb (fun kp => negb (contains_key (fst kp) f)) g && negb o then fail s1 (Mismatch u1 u2) else ok s1
      end).
    { intros fuel Hf. rewrite E1, E2. cbn [unify_shapes]. rewrite <- E1, <- E2.
      rewrite (fold_left_ext _ (fun acc kp => andthen acc (F fuel kp))).
      - rewrite RUN by exact Hf. destruct e; [reflexivity|]. cbn [andthen bind fst snd nonempty negb]. rewrite !andb_true_r.
        destruct (existsb _ f); [reflexivity|]. destruct (existsb _ g && negb o); reflexivity.
      - intros acc kp. unfold F. destruct (get (fst kp) g); [reflexivity|]. now rewrite andthen_ok. }
    set (r1 := match e with Some e => (s1, Some e) | None => if existsb (fun kp => negb (contains_key (fst kp) g)) f then (s1, Some (Mismatch u1 u2))
      else if existsb (fun kp => negb (contains_key (fst kp) f)) g && negb o then (s1, Some (Mismatch u1 u2)) else (s1, None) end).
    assert (FST : fst r1 = s1) by (subst r1; destruct e; [reflexivity|]; destruct (existsb _ f); [reflexivity|]; destruct (existsb _ g && negb o); reflexivity).
    exists N, s1, (snd r1). split; [|split; [exact P|split]].
    + intros fuel Hf. rewrite RUN' by exact Hf. rewrite <- FST at 1. subst r1. destruct e; [reflexivity|]. destruct (existsb _ f); [reflexivity|]. destruct (existsb _ g && negb o); reflexivity.
    + subst r1. destruct e; [discriminate|]. destruct (existsb _ f) eqn:X1; [discriminate|]. destruct (existsb (fun kp => negb (contains_key (fst kp) f)) g && negb o) eqn:X2; [discriminate|].
      intros _ w1 w2 H1 H2. rewrite E1 in H1. rewrite E2 in H2.
      inversion H1 as [| | | | | | | | | | | |f0 o0 f1 FF| |]; subst. inversion H2 as [| | | | | | | | | | | |g0 o1 g1 GG| |]; subst. constructor.
      * intros k p' Hin. destruct (Forall2_In_r _ _ _ _ FF Hin) as ([k0 p] & Hin0 & Q1 & Q2 & Q3). cbn in Q1, Q2, Q3. subst k0.
        pose proof (existsb_none_In _ _ X1 _ Hin0) as X. cbn in X. apply negb_false_iff in X. unfold contains_key in X. destruct (get k g) as [q|] eqn:Eq; [|discriminate].
        pose proof (get_Forall2 (fun a b => is_required a = is_required b /\ res s1 (pty a) (pty b)) g g1 k GG) as GE. rewrite Eq in GE.
        destruct (get k g1) as [q'|]; [|contradiction]. exists q'. split; [reflexivity|].
        specialize (A eq_refl (k, p) Hin0). unfold r in A. cbn in A. rewrite Eq in A. apply A; [exact Q3|apply GE].
      * intros -> k q' Hin. destruct (Forall2_In_r _ _ _ _ GG Hin) as ([k0 q] & Hin0 & Q1 & _). cbn in Q1. subst k0.
        rewrite andb_true_r in X2. pose proof (existsb_none_In _ _ X2 _ Hin0) as X. cbn in X. apply negb_false_iff in X. unfold contains_key in *.
        pose proof (get_Forall2 (fun a b => is_required a = is_required b /\ res s1 (pty a) (pty b)) f f1 k FF) as GE.
        destruct (get k f); [|discriminate]. destruct (get k f1); [reflexivity|contradiction].
    + intros HE X1 X2 v HK HS HI. rewrite E1 in X1, HI. rewrite E2 in X2, HI. cbn in X1, X2, HI. rewrite andb_true_iff in X1, X2. destruct X1 as (X1 & U1), X2 as (X2 & U2).
      injection HI as HI _.
      assert (KEYS : map fst f = map fst g).
      { apply (f_equal (map fst)) in HI. rewrite !map_map in HI. exact HI. }
      assert (CON : forall k, contains_key k f = contains_key k g).
      { intros k. clear -KEYS. unfold contains_key. revert g KEYS. induction f as [|[k1 p] f' IH]; intros [|[k2 q] g] K; try discriminate; [reflexivity|]. cbn in *. injection K as -> K.
        destruct (String.eqb k k2); [reflexivity|now apply IH]. }
      assert (CF : forall (h : list (string * presence type)) kp, In kp h -> contains_key (fst kp) h = true).
      { clear. intros h [k p] Hin. unfold contains_key. induction h as [|[k' q] h IH]; [destruct Hin|]. cbn in *. destruct (String.eqb k k') eqn:E; [reflexivity|].
        destruct Hin as [[= -> ->]|Hin]; [rewrite String.eqb_refl in E; discriminate|now apply IH]. }
      assert (NF : existsb (fun kp => negb (contains_key (fst kp) g)) f = false) by (apply existsb_none; intros kp Hk; rewrite <- CON, (CF f kp Hk); reflexivity).
      assert (NG : existsb (fun kp => negb (contains_key (fst kp) f)) g = false) by (apply existsb_none; intros kp Hk; rewrite CON, (CF g kp Hk); reflexivity).
      assert (GI : forall kp, In kp f -> exists q, get (fst kp) g = Some q /\ exact (pty q) = true /\ instance v (pty (snd kp)) = instance v (pty q)).
      { intros [k p] Hk. assert (Hm : In (k, map_presence (instance v) p) (map (fun kp => (fst kp, map_presence (instance v) (snd kp))) g)).
        { rewrite <- HI. apply in_map_iff. now exists (k, p). }
        apply in_map_iff in Hm. destruct Hm as ([k' q] & [= -> Eq] & Hq). exists q. split; [now apply get_unique|]. split; [exact (forallb_In _ _ X2 _ Hq)|].
        apply (f_equal (@pty type)) in Eq. rewrite !pty_map in Eq. cbn. now symmetry. }
      destruct (FI HE) with (v := v) as (He & HE1 & HS1); auto.
      * intros kp Hk. split; [exact (forallb_In _ _ X1 _ Hk)|]. unfold r. destruct (GI kp Hk) as (q & -> & Xq & _). exact Xq.
      * intros kp Hk. unfold r. destruct (GI kp Hk) as (q & -> & _ & Iq). exact Iq.
      * split; [|auto]. subst r1. rewrite He, NF, NG. reflexivity.
Qed.

Notation goal := (Res (fun fuel => unify_shapes (unify fuel) fuel u1 u2 s) u1 u2 s).
Lemma fun_result a1 b1 a2 b2 : u1 = TFun a1 b1 -> u2 = TFun a2 b2 -> goal.
Proof.
  intros E1 E2. assert (FA1 := F1). assert (FA2 := F2). rewrite E1 in FA1. rewrite E2 in FA2. cbn in FA1, FA2. apply andb_true_iff in FA1, FA2. destruct FA1, FA2.
  assert (O : forall a b y, occurs y (TFun a b) = true <-> exists c, In c [a; b] /\ occurs y c = true).
  { intros a b. apply (two_occurs _ a b); reflexivity. }
  assert (PA : part a1 a2) by (apply (make_part [a1; b1] [a2; b2]); rewrite ?E1, ?E2; auto; try apply O; try (now left); cbn [size]; lia).
  assert (PB : part b1 b2) by (apply (make_part [a1; b1] [a2; b2]); rewrite ?E1, ?E2; auto; try apply O; try (right; now left); cbn [size]; lia).
  rewrite E1, E2. cbn [unify_shapes]. apply (pair_result a1 a2 b1 b2 TFun PA PB).
  - intros s0 a b w H3. inversion H3; subst. eauto. - intros. now apply agree_fun. - reflexivity. - reflexivity. - intros. split; congruence.
Qed.
Lemma nonempty_result (l : bool) e1 e2 : part e1 e2 -> u1 = (if l then non_empty_of e1 else list_of e1) -> u2 = (if l then list_of e2 else non_empty_of e2) ->
  (forall fuel, unify_shapes (unify fuel) fuel u1 u2 s = unify fuel e1 e2 s) -> goal.
Proof.
  intros PX E1 E2 EQ. destruct (part_res d V s (size u1 + size u2) SUB s e1 e2 (post_refl d V s G) PX) as (N & s1 & e & RUN & P1 & A & FI).
  exists N, s1, e. split; [intros fuel Hf; rewrite EQ; now apply RUN|]. split; [exact P1|]. split.
  - intros He w1 w2 H1 H2. rewrite E1 in H1. rewrite E2 in H2. destruct l.
    + inversion H1 as [| | | | | | | | |f x f' x' RF RX| | | | |]; subst. inversion H2 as [| | | | | | | | |f x f'' x'' RF2 RX2| | | | |]; subst. inversion RF; subst. inversion RF2; subst.
      apply agree_nonempty. now apply A.
    + inversion H1 as [| | | | | | | | |f x f' x' RF RX| | | | |]; subst. inversion H2 as [| | | | | | | | |f x f'' x'' RF2 RX2| | | | |]; subst. inversion RF; subst. inversion RF2; subst.
      apply agree_nonempty'. now apply A.
  - intros HE X1 X2 v HK HS HI. exfalso. rewrite E1, E2 in HI. destruct l; discriminate HI.
Qed.
Lemma app_result f1 x1 f2 x2 : u1 = TApp f1 x1 -> u2 = TApp f2 x2 -> goal.
Proof.
  intros E1 E2. assert (FA1 := F1). assert (FA2 := F2). rewrite E1 in FA1. rewrite E2 in FA2. apply fo_app in FA1 as (FA1 & FB1). apply fo_app in FA2 as (FA2 & FB2).
  assert (O : forall f x y, occurs y (TApp f x) = true <-> exists a, In a [f; x] /\ occurs y a = true).
  { intros f x. apply (two_occurs _ f x); reflexivity. }
  assert (PF : part f1 f2) by (apply (make_part [f1; x1] [f2; x2]); rewrite ?E1, ?E2; auto; try apply O; try (now left); cbn [size]; lia).
  assert (PX : part x1 x2) by (apply (make_part [f1; x1] [f2; x2]); rewrite ?E1, ?E2; auto; try apply O; try (right; now left); cbn [size]; lia).
  assert (GEN : Res (fun fuel => andthen (unify fuel f1 f2 s) (fun s => do v1 <- apply_subst fuel x1 s; do v2 <- apply_subst fuel x2 s; unify fuel v1 v2 s)) (TApp f1 x1) (TApp f2 x2) s).
  { apply (pair_result f1 f2 x1 x2 TApp PF PX).
    - intros s0 a b w H3. inversion H3; subst. eauto. - intros. now apply agree_app. - reflexivity. - reflexivity. - intros. split; congruence. }
  rewrite <- E1, <- E2 in GEN.
  assert (EQ : forall fuel, unify_shapes (unify fuel) fuel u1 u2 s = match arg_of "NonEmpty" u1, arg_of "List" u2, arg_of "List" u1, arg_of "NonEmpty" u2 with
      | Some e1, Some e2, _, _ | _, _, Some e1, Some e2 => unify fuel e1 e2 s
      | _, _, _, _ => andthen (unify fuel f1 f2 s) (fun s => do x1 <- apply_subst fuel x1 s; do x2 <- apply_subst fuel x2 s; unify fuel x1 x2 s)
      end).
  { intros fuel. rewrite E1, E2. cbn [unify_shapes]. clear. destruct (arg_of "NonEmpty" (TApp f1 x1)), (arg_of "List" (TApp f2 x2)), (arg_of "List" (TApp f1 x1)), (arg_of "NonEmpty" (TApp f2 x2)); destruct f1; reflexivity. }
  assert (NE : forall n m t a b, arg_of n t = Some a -> arg_of m t = Some b -> n = m).
  { intros n m t a b H1 H2. apply arg_of_some in H1, H2. congruence. }
  destruct (arg_of "NonEmpty" u1) as [e1|] eqn:A1; [destruct (arg_of "List" u2) as [e2|] eqn:A2|].
  - pose proof (arg_of_some _ _ _ A1) as B1. pose proof (arg_of_some _ _ _ A2) as B2. assert (e1 = x1) by congruence. assert (e2 = x2) by congruence. subst e1 e2.
    apply (nonempty_result true x1 x2 PX B1 B2). intros fuel. rewrite EQ. destruct (arg_of "List" u1), (arg_of "NonEmpty" u2); reflexivity.
  - destruct (arg_of "List" u1) as [e3|] eqn:A3; [discriminate (NE _ _ _ _ _ A1 A3)|].
    destruct GEN as (N & s1 & e & RUN & REST). exists N, s1, e. split; [|exact REST]. intros fuel Hf. rewrite EQ, ?A1, ?A2, ?A3, ?A4. exact (RUN fuel Hf).
  - destruct (arg_of "List" u1) as [e1|] eqn:A3; [destruct (arg_of "NonEmpty" u2) as [e2|] eqn:A4|].
    + pose proof (arg_of_some _ _ _ A3) as B1. pose proof (arg_of_some _ _ _ A4) as B2. assert (e1 = x1) by congruence. assert (e2 = x2) by congruence. subst e1 e2.
      apply (nonempty_result false x1 x2 PX B1 B2). intros fuel. rewrite EQ. reflexivity.
    + destruct GEN as (N & s1 & e & RUN & REST). exists N, s1, e. split; [|exact REST]. intros fuel Hf. rewrite EQ, ?A1, ?A2, ?A3, ?A4. exact (RUN fuel Hf).
    + destruct GEN as (N & s1 & e & RUN & REST). exists N, s1, e. split; [|exact REST]. intros fuel Hf. rewrite EQ, ?A1, ?A2, ?A3, ?A4. exact (RUN fuel Hf).
Qed.
Lemma mismatch_result : (forall fuel, unify_shapes (unify fuel) fuel u1 u2 s = fail s (Mismatch u1 u2)) ->
  (exact u1 = true -> exact u2 = true -> forall v, instance v u1 <> instance v u2) -> goal.
Proof. intros E H. apply (Res_fail d V _ _ _ _ (Mismatch u1 u2) G E H). Qed.
Lemma tuple_result l1 l2 : u1 = TTuple l1 -> u2 = TTuple l2 -> goal.
Proof.
  intros E1 E2. destruct (Nat.eqb (length l1) (length l2)) eqn:L.
  - assert (FA1 := F1). assert (FA2 := F2). rewrite E1 in FA1. rewrite E2 in FA2. cbn in FA1, FA2. rewrite forallb_forall in FA1, FA2.
    apply Nat.eqb_eq in L. destruct (both_result d V s (size u1 + size u2) G SUB l1 l2 L) as (N & s1 & e & RUN & P1 & A & FI).
    { intros a b Hin. apply (list_parts l1 l2); auto; try (rewrite ?E1, ?E2; cbn; auto; lia).
      - now apply in_combine_l in Hin. - now apply in_combine_r in Hin. }
    rewrite E1, E2. exists N, s1, e. split; [intros fuel Hf; cbn [unify_shapes]; rewrite L, Nat.eqb_refl; now apply RUN|]. split; [exact P1|]. split.
    + intros He w1 w2 H1 H2. inversion H1; inversion H2; subst. constructor. now apply A.
    + intros HE X1 X2 v HK HS HI. cbn in HI. injection HI as HI. now apply FI.
  - apply mismatch_result; rewrite E1, E2.
    + intros fuel. cbn [unify_shapes]. now rewrite L.
    + intros _ _ v HI. cbn in HI. injection HI as HI. apply (f_equal (@length _)) in HI. rewrite !map_length in HI. rewrite HI, Nat.eqb_refl in L. discriminate.
Qed.
Lemma prefix_result l1 a1 l2 a2 : u1 = TPrefix l1 a1 -> u2 = TPrefix l2 a2 -> goal.
Proof.
  intros E1 E2. destruct (Nat.eqb (length l1) (length l2)) eqn:L.
  - assert (FA1 := F1). assert (FA2 := F2). rewrite E1 in FA1. rewrite E2 in FA2. apply fo_prefix in FA1, FA2. destruct FA1 as (_ & FA1 & FB1), FA2 as (_ & FA2 & FB2).
    apply Nat.eqb_eq in L. destruct (both_result d V s (size u1 + size u2) G SUB l1 l2 L) as (N & s1 & e & RUN & P1 & A & FI).
    { intros a b Hin. apply (list_parts l1 l2); auto; try (rewrite ?E1, ?E2; cbn; intros; try apply orb_true_iff; auto; lia).
      - now apply in_combine_l in Hin. - now apply in_combine_r in Hin. }
    assert (PA : part a1 a2).
    { apply (list_parts [a1] [a2]); try (now left); try (rewrite ?E1, ?E2; cbn; intros; lia).
      - rewrite E1. cbn. intros x. rewrite orb_false_r. intros ->. apply orb_true_r.
      - rewrite E2. cbn. intros x. rewrite orb_false_r. intros ->. apply orb_true_r.
      - intros t [<-|[]]. exact FB1. - intros t [<-|[]]. exact FB2. }
    destruct e as [e|].
    + rewrite E1, E2. exists N, s1, (Some e). split; [intros fuel Hf; cbn [unify_shapes]; rewrite L, Nat.eqb_refl, RUN by exact Hf; reflexivity|]. split; [exact P1|]. split; [discriminate|].
      intros HE X1 X2 v HK HS HI. cbn in HI, X1, X2. rewrite andb_true_iff in X1, X2. injection HI as HI _. destruct (FI HE (proj1 X1) (proj1 X2) v HK HS HI). discriminate.
    + destruct (part_res d V s (size u1 + size u2) SUB s1 a1 a2 P1 PA) as (N' & s2 & e & RUN' & P2 & A' & FI').
      rewrite E1, E2. exists (max N N'), s2, e. split; [intros fuel Hf; cbn [unify_shapes]; rewrite L, Nat.eqb_refl, RUN by lia; cbn [andthen bind fst snd]; apply RUN'; lia|].
      split; [now apply (post_trans d V s s1)|]. split.
      * intros He w1 w2 H1 H2. inversion H1 as [| | | | | | | | | | |l a m1 b1 RL1 RA1| | |]; subst. inversion H2 as [| | | | | | | | | | |l a m2 b2 RL2 RA2| | |]; subst.
        constructor; [|now apply A']. destruct P1 as (G1 & _), P2 as (G2 & EX & _).
        assert (AT : agrees s1 (TTuple l1) (TTuple l2)) by (intros w1 w2 K1 K2; inversion K1; inversion K2; subst; constructor; now apply A).
        assert (AT2 : agree (TTuple m1) (TTuple m2)).
        { apply (agrees_extends d V s1 s2 (TTuple l1) (TTuple l2)); auto; try (cbn; now apply forallb_forall); now constructor. }
        inversion AT2; subst; [|assumption]. clear. induction m2; constructor; auto. constructor.
      * intros HE X1 X2 v HK HS HI. cbn in HI, X1, X2. rewrite andb_true_iff in X1, X2. injection HI as HI HJ. destruct (FI HE (proj1 X1) (proj1 X2) v HK HS HI) as (_ & HE1 & HS1).
        apply FI'; tauto.
  - apply mismatch_result; rewrite E1, E2.
    + intros fuel. cbn [unify_shapes]. now rewrite L.
    + intros _ _ v HI. cbn in HI. injection HI as HI _. apply (f_equal (@length _)) in HI. rewrite !map_length in HI. rewrite HI, Nat.eqb_refl in L. discriminate.
Qed.

Theorem shapes_result : u1 <> u2 -> is_any u1 = false -> is_any u2 = false -> Res (fun fuel => unify_shapes (unify fuel) fuel u1 u2 s) u1 u2 s.
Proof.
  intros N A1 A2.
  assert (BIND : forall x k, u1 = TVar x k \/ u2 = TVar x k -> In x V).
  { intros x k [E|E]; [apply I1|apply I2]; rewrite E; cbn; apply String.eqb_refl. }
  assert (LEFT : forall x k, u1 = TVar x k -> (forall fuel, unify_shapes (unify fuel) fuel u1 u2 s = bind_var x k u2 s) -> Res (fun fuel => unify_shapes (unify fuel) fuel u1 u2 s) u1 u2 s).
  { intros x k E EQ. assert (R1' : resolved s (TVar x k)) by (rewrite <- E; exact R1).
    assert (N' : u2 <> TVar x k) by congruence.
    destruct (bind_result d V x k u2 s true G R1' (BIND x k (or_introl E)) F2 I2 R2 N') as (s' & e & RUN & P & A & FI).
    exists 0, s', e. split; [intros; rewrite EQ; exact RUN|]. split; [exact P|]. rewrite E. split; [intros He; now apply A|]. intros HE X1 X2 v HK HS HI. now apply FI. }
  assert (RIGHT : forall x k, u2 = TVar x k -> (forall fuel, unify_shapes (unify fuel) fuel u1 u2 s = bind_var x k u1 s) -> Res (fun fuel => unify_shapes (unify fuel) fuel u1 u2 s) u1 u2 s).
  { intros x k E EQ. assert (R2' : resolved s (TVar x k)) by (rewrite <- E; exact R2).
    assert (N' : u1 <> TVar x k) by congruence.
    destruct (bind_result d V x k u1 s true G R2' (BIND x k (or_intror E)) F1 I1 R1 N') as (s' & e & RUN & P & A & FI).
    exists 0, s', e. split; [intros; rewrite EQ; exact RUN|]. split; [exact P|]. rewrite E. split; [intros He; now apply A|]. intros HE X1 X2 v HK HS HI. apply FI; auto. }
  assert (FAIL : (forall fuel, unify_shapes (unify fuel) fuel u1 u2 s = fail s (Mismatch u1 u2)) ->
    (exact u1 = true -> exact u2 = true -> forall v, instance v u1 <> instance v u2) -> Res (fun fuel => unify_shapes (unify fuel) fuel u1 u2 s) u1 u2 s).
  { intros E H. apply (Res_fail d V _ _ _ _ (Mismatch u1 u2) G E H). }
  assert (LIT : (forall fuel, unify_shapes (unify fuel) fuel u1 u2 s = ok s) -> (forall s w1 w2, res s u1 w1 -> res s u2 w2 -> agree w1 w2) -> Res (fun fuel => unify_shapes (unify fuel) fuel u1 u2 s) u1 u2 s).
  { intros E H. apply Res_ok; auto. intros w1 w2. apply H. }
  pose proof record_result as REC. pose proof app_result as APP. pose proof fun_result as FUN. pose proof tuple_result as TUP. pose proof prefix_result as PRE.
  destruct u1 as [b1| | | |n1|f1 x1|l1|l1 a1|f1 o1 r1|a1 e1|l1|y1|y1|y1 k1|y1 e1|bs1 e1|y1 e1] eqn:E1; try discriminate F1; try discriminate A1;
  destruct u2 as [b2| | | |n2|f2 x2|l2|l2 a2|f2 o2 r2|a2 e2|l2|y2|y2|y2 k2|y2 e2|bs2 e2|y2 e2] eqn:E2; try discriminate F2; try discriminate A2;
  try (exact (LEFT _ _ eq_refl (fun _ => eq_refl))); try (exact (RIGHT _ _ eq_refl (fun _ => eq_refl)));
  try (apply FAIL; [intros fuel; reflexivity|cbn [instance exact]; intros; congruence]);
  try (destruct b1; try (apply FAIL; [intros fuel; reflexivity|cbn [instance exact]; intros; congruence]));
  try (destruct b2; try (apply FAIL; [intros fuel; reflexivity|cbn [instance exact]; intros; congruence]));
  try (refine (RIGHT _ _ eq_refl _); intros fuel; destruct f1; reflexivity);
  try (apply FAIL; [intros fuel; destruct f1; reflexivity|cbn [instance exact]; intros; congruence]);
  try (apply FAIL; [intros fuel; destruct f2; reflexivity|cbn [instance exact]; intros; congruence]);
  try (apply LIT; [intros; reflexivity|intros s' w1 w2 H1 H2; inversion H1; inversion H2; subst; constructor]).
  1-10: (refine (RIGHT _ _ eq_refl _); intros fuel; reflexivity).
  - exact (APP _ _ _ _ eq_refl eq_refl).
  - destruct f1; try (apply FAIL; [intros fuel; reflexivity|cbn [instance exact]; intros; congruence]).
    cbn in F1, F2. destruct d; [discriminate|]. destruct (String.eqb n "Dict") eqn:ED; [discriminate|].
    apply FAIL; [intros fuel; cbn [unify_shapes]; now rewrite ED|cbn [instance exact]; intros; congruence].
  - exact (TUP _ _ eq_refl eq_refl).
  - exact (PRE _ _ _ _ eq_refl eq_refl).
  - destruct f2; try (apply FAIL; [intros fuel; reflexivity|cbn [instance exact]; intros; congruence]).
    cbn in F1, F2. destruct d; [discriminate|]. destruct (String.eqb n "Dict") eqn:ED; [discriminate|].
    apply FAIL; [intros fuel; cbn [unify_shapes]; now rewrite ED|cbn [instance exact]; intros; congruence].
  - destruct (fo_record _ _ _ _ F1) as (-> & _), (fo_record _ _ _ _ F2) as (-> & _). exact (REC _ _ _ _ eq_refl eq_refl).
  - exact (FUN _ _ _ _ eq_refl eq_refl).
Qed.
Theorem heads_result : Res (fun fuel => unify_heads (unify fuel) fuel u1 u2 s) u1 u2 s.
Proof.
  destruct (is_any u1 || is_any u2) eqn:A.
  - apply Res_ok; auto; [intros fuel; unfold unify_heads; now rewrite A|].
    intros w1 w2 H1 H2. apply orb_true_iff in A as [A|A]; [destruct u1|destruct u2]; try discriminate; [inversion H1|inversion H2]; constructor.
  - destruct (type_eqb u1 u2) eqn:E.
    + apply Res_ok; auto; [intros fuel; unfold unify_heads; now rewrite A, E|].
      apply type_eqb_eq in E. intros w1 w2 H1 H2. rewrite <- E in H2. rewrite (res_functional _ _ _ H1 _ H2). constructor.
    + assert (EQ : forall fuel, unify_heads (unify fuel) fuel u1 u2 s = unify_shapes (unify fuel) fuel u1 u2 s).
      { intros fuel. unfold unify_heads. rewrite A, E, (pattern_fo d u1 s F1), (pattern_fo d u2 s F2). destruct (structural u1), (structural u2); reflexivity. }
      apply orb_false_iff in A as (A1 & A2).
      destruct shapes_result as (N & s1 & e & RUN & REST); auto.
      { intros ->. rewrite (proj2 (type_eqb_eq _ _) eq_refl) in E. discriminate. }
      exists N, s1, e. split; [|exact REST]. intros fuel Hf. rewrite EQ. now apply RUN.
Qed.
End Heads.

(** ** The whole *)
Section Whole.
Variable d : bool.
Variable V : list string.
Theorem unify_result t1 t2 s : good d V s -> first_order d t1 = true -> first_order d t2 = true -> inside V t1 -> inside V t2 -> result d V t1 t2 s.
Proof.
  remember (unbound V s) as n eqn:En. revert t1 t2 s En. induction n as [n IHn] using lt_wf_ind.
  assert (M : forall m s t1 t2 u1 u2, n = unbound V s -> good d V s -> first_order d t1 = true -> first_order d t2 = true -> inside V t1 -> inside V t2 ->
    res s t1 u1 -> res s t2 u2 -> size u1 + size u2 = m -> result d V t1 t2 s).
  { induction m as [m IHm] using lt_wf_ind. intros s t1 t2 u1 u2 En G F1 F2 I1 I2 Q1 Q2 Em.
    pose proof G as (GS & GA & GI).
    assert (FU1 := res_fo d s t1 u1 GS Q1 F1). assert (FU2 := res_fo d s t2 u2 GS Q2 F2).
    assert (IU1 := res_inside d V s t1 u1 G I1 Q1). assert (IU2 := res_inside d V s t2 u2 G I2 Q2).
    assert (RU1 := res_resolved s t1 u1 Q1). assert (RU2 := res_resolved s t2 u2 Q2).
    destruct (heads_result d V s u1 u2) as (N & s' & e & RUN & P & A & FI); auto.
    - intros a b s' (G' & E' & D') (Fa & Fb & Ia & Ib & K). destruct D' as [->|D'].
      + destruct (K eq_refl) as (Ra & Rb & L). apply (IHm (size a + size b)) with (u1 := a) (u2 := b); auto; try lia; now apply (resolved_res s d).
      + apply (IHn (unbound V s')); auto. lia.
    - destruct (res_apply d s GS t1 u1 Q1 F1) as (n1 & K1), (res_apply d s GS t2 u2 Q2 F2) as (n2 & K2).
      exists (S (max N (max n1 n2))), s', e. split; [|split; [exact P|split]].
      + intros [|fuel] Hf; [lia|]. cbn [unify]. rewrite K1, K2 by lia. cbn [bind]. apply RUN. lia.
      + intros He. apply (agrees_later d V s s' t1 t2 u1 u2); auto; apply P.
      + intros HE X1 X2 v HK HS HI. apply (FI HE); auto.
        * exact (res_exact s t1 u1 HE Q1 X1). * exact (res_exact s t2 u2 HE Q2 X2).
        * rewrite <- (res_instance s v t1 u1), <- (res_instance s v t2 u2); auto. }
  intros t1 t2 s En G F1 F2 I1 I2. destruct (good_total d V s t1 G F1) as (u1 & Q1), (good_total d V s t2 G F2) as (u2 & Q2).
  now apply (M (size u1 + size u2) s t1 t2 u1 u2).
Qed.
End Whole.
(** Every type and substitution has finitely many variables. *)
Fixpoint vars_of (t : type) : list string :=
  match t with
  | TVar y _ => [y]
  | TApp f a => vars_of f ++ vars_of a
  | TFun a b => vars_of a ++ vars_of b
  | TTuple l => flat_map vars_of l
  | TPrefix l a => flat_map vars_of l ++ vars_of a
  | TRecord f _ rows => flat_map (fun kp => vars_of (pty (snd kp))) f ++ rows
  | TUnion l => flat_map vars_of l
  | TMu _ b | TForall _ b | TLam _ b => vars_of b
  | _ => []
  end.
Lemma occurs_vars x : forall t, occurs x t = true -> In x (vars_of t).
Proof.
  fix IH 1.
  assert (L : forall l, existsb (occurs x) l = true -> In x (flat_map vars_of l)).
  { fix L 1. intros [|t l]; [discriminate|]. cbn. rewrite orb_true_iff, in_app_iff. intros [H|H]; [left; now apply IH|right; now apply L]. }
  intros [b| | | |n|f a|l|l a|f o rows|a b|l|y|y|y k|y b|bs b|y b]; cbn; try discriminate; rewrite ?in_app_iff, ?orb_true_iff.
  - intros [H|H]; auto. - apply L. - intros [H|H]; auto.
  - intros [H|H]; [left|right; now apply mem_In]. revert f H. fix L2 1. intros [|[k p] f]; [discriminate|]. cbn. rewrite orb_true_iff, in_app_iff. intros [H|H]; [left; now apply IH|right; now apply L2].
  - intros [H|H]; auto. - apply L.
  - intros H. apply String.eqb_eq in H. auto.
  - rewrite andb_true_iff. intros [_ H]. auto.
  - destruct (mem x (map fst bs)); [discriminate|auto].
  - rewrite andb_true_iff. intros [_ H]. auto.
Qed.
Lemma enough_vars (s : subst) t1 t2 : exists V, inside V t1 /\ inside V t2 /\ forall x t, get x s = Some t -> inside V t.
Proof.
  exists (vars_of t1 ++ vars_of t2 ++ flat_map (fun p => vars_of (snd p)) s). repeat split.
  - intros x H. apply in_app_iff. left. now apply occurs_vars.
  - intros x H. apply in_app_iff. right. apply in_app_iff. left. now apply occurs_vars.
  - intros y t Hy x H. apply in_app_iff. right. apply in_app_iff. right. apply in_flat_map. exists (y, t). split; [now apply get_In|now apply occurs_vars].
Qed.
