(** Proofs about cooking. *)
From Coq Require Import String Ascii List Bool Arith NArith ZArith Permutation Sorted Lia.
From Verif.Scope Require Import Model.
From Verif.Simplify Require Import Compress.
From Verif.Cook Require Import Model Spec PatternProofs.
Import ListNotations.
Local Open Scope string_scope.
Local Open Scope list_scope.
Local Open Scope nat_scope.

Section RawInd.
  Variable P : raw -> Prop.
  Hypothesis Hvar : forall v, P (RVar v).
  Hypothesis Hlet : forall bs body t, Forall (fun b => P (b_expr b)) bs -> P body -> P (RLet bs body t).
  Hypothesis Hlam : forall i ps body, P body -> P (RLam i ps body).
  Hypothesis Hnode : forall k xs, Forall P xs -> P (RNode k xs).
  Hypothesis Hop : forall s f p body, P body -> P (ROp s f p body).
  Hypothesis Hsoup : forall b xs, Forall P xs -> P (RSoup b xs).
  Hypothesis Hea : forall a, P (RExprAna a).
  Hypothesis Hba : forall a, P (RBlockAna a).
  Fixpoint raw_ind' (r : raw) : P r :=
    match r with
    | RVar v => Hvar v
    | RLet bs body t =>
        Hlet bs body t ((fix go (bs : list (binding raw)) : Forall (fun b => P (b_expr b)) bs :=
          match bs with [] => Forall_nil _ | b :: bs => Forall_cons b (raw_ind' (b_expr b)) (go bs) end) bs) (raw_ind' body)
    | RLam i ps body => Hlam i ps body (raw_ind' body)
    | RNode k xs => Hnode k xs ((fix go (xs : list raw) : Forall P xs :=
          match xs with [] => Forall_nil _ | x :: xs => Forall_cons x (raw_ind' x) (go xs) end) xs)
    | ROp s f p body => Hop s f p body (raw_ind' body)
    | RSoup b xs => Hsoup b xs ((fix go (xs : list raw) : Forall P xs :=
          match xs with [] => Forall_nil _ | x :: xs => Forall_cons x (raw_ind' x) (go xs) end) xs)
    | RExprAna a => Hea a
    | RBlockAna a => Hba a
    end.
End RawInd.

(** ** The gaps *)
Lemma filler_spec : forall l r, filler l r =
  if missing l r then
    match section_anaphor l r with
    | Implicit s sd => if (s =? 0)%N then None else Some (FillAna (Implicit s sd))
    | _ => None
    end
  else if juxtaposed l r then Some FillCat else Some NoFill.
Proof.
  intros l r. unfold filler, missing, juxtaposed, section_anaphor.
  assert (L : snd (bind_sides l) = if match l with Some x => wants_right x | None => true end then OpLike else ValueLike).
  { destruct l as [x|]; [|reflexivity]. destruct x as [| | | |s f p b| | |]; try reflexivity. destruct f; reflexivity. }
  assert (R : fst (bind_sides r) = if match r with Some x => wants_left x | None => true end then OpLike else ValueLike).
  { destruct r as [x|]; [|reflexivity]. destruct x as [| | | |s f p b| | |]; try reflexivity. destruct f; reflexivity. }
  rewrite L, R. change (raw_smid r) with (location r). change (raw_smid l) with (location l).
  destruct l as [x|], r as [y|]; cbn [andb negb]; try destruct (wants_right x); try destruct (wants_left y); cbn [andb negb]; try reflexivity.
  - destruct (N.eqb_spec (location (Some y)) 0) as [E|E]; cbn [negb].
    + destruct (N.eqb_spec (location (Some x)) 0) as [F|F]; cbn [negb]; reflexivity.
    + apply N.eqb_neq in E. rewrite E. reflexivity.
  - destruct (N.eqb_spec (location None) 0) as [E|E]; [|destruct E; reflexivity]; cbn [negb].
    destruct (N.eqb_spec (location (Some x)) 0) as [F|F]; cbn [negb]; reflexivity.
  - destruct (N.eqb_spec (location (Some y)) 0) as [E|E]; cbn [negb]; [reflexivity|]. apply N.eqb_neq in E. rewrite E. reflexivity.
Qed.
(** Whether a section has a location. *)
Definition ok_section (a : anaphor) : Prop := match a with Implicit s _ => s <> 0%N | _ => True end.
Lemma section_implicit : forall l r, exists s sd, section_anaphor l r = Implicit s sd.
Proof. intros. unfold section_anaphor. destruct (negb _); eauto. Qed.
Lemma filler_some : forall l r, (missing l r = true -> ok_section (section_anaphor l r)) ->
  filler l r = Some (if missing l r then FillAna (section_anaphor l r) else if juxtaposed l r then FillCat else NoFill).
Proof.
  intros l r H. rewrite filler_spec. destruct (missing l r); [|destruct (juxtaposed l r); reflexivity].
  specialize (H eq_refl). destruct (section_implicit l r) as (s & sd & E). rewrite E in *. cbn in H.
  apply N.eqb_neq in H. rewrite H. reflexivity.
Qed.
Lemma filler_located : forall l r g, filler l r = Some g -> missing l r = true -> ok_section (section_anaphor l r).
Proof.
  intros l r g. rewrite filler_spec. intros E M. rewrite M in E. destruct (section_implicit l r) as (s & sd & Es). rewrite Es in *.
  cbn. destruct (N.eqb_spec s 0); [discriminate|auto].
Qed.

Lemma gaps_some : forall xs l, Forall ok_section (sections l xs) -> exists gs, gaps_from l xs = Some gs.
Proof.
  induction xs as [|x xs IH]; intros l F; cbn [gaps_from sections] in *.
  - rewrite filler_some; [cbn; eauto|]. intros M. rewrite M in F. inversion F; auto.
  - apply Forall_app in F. destruct F as (F1 & F2). rewrite filler_some; [|intros M; rewrite M in F1; inversion F1; auto].
    destruct (IH _ F2) as (gs & ->). eauto.
Qed.
Lemma gaps_located : forall xs l gs, gaps_from l xs = Some gs -> Forall ok_section (sections l xs).
Proof.
  induction xs as [|x xs IH]; intros l gs E; cbn [gaps_from sections] in *.
  - destruct (filler l None) as [g|] eqn:F; [|discriminate]. destruct (missing l None) eqn:M; constructor; auto.
    eapply filler_located; eauto.
  - destruct (filler l (Some x)) as [g|] eqn:F; [|discriminate]. destruct (gaps_from (Some x) xs) as [gs'|] eqn:G; [|discriminate].
    apply Forall_app. split; [|eapply IH; eauto]. destruct (missing l (Some x)) eqn:M; constructor; auto. eapply filler_located; eauto.
Qed.

(** ** Recording anaphora *)
Definition named (nm : anaphor -> string) (m : pending) : Prop := forall a x, In (a, x) m -> x = nm a.
Definition grown (nm : anaphor -> string) (m : pending) (l : list anaphor) (m' : pending) : Prop :=
  NoDup (map fst m') /\ named nm m' /\ (forall a, In a (map fst m') <-> In a (map fst m) \/ In a l).
Definition good (nm : anaphor -> string) (m : pending) : Prop := NoDup (map fst m) /\ named nm m.

Lemma record_ok : forall prefix a m, good (fun a => (prefix ++ show_anaphor a)%string) m ->
  exists m', record prefix a m = ((prefix ++ show_anaphor a)%string, m') /\ grown (fun a => (prefix ++ show_anaphor a)%string) m [a] m'.
Proof.
  intros prefix a m (ND & NM). unfold record. destruct (get m a) as [x|] eqn:G.
  - apply get_in in G; auto. rewrite (NM _ _ G). eexists. split; [reflexivity|]. split; [auto|]. split; [auto|].
    intros b. cbn. apply (in_map fst) in G. cbn in G. intuition congruence.
  - apply get_none in G. eexists. split; [reflexivity|]. split; [|split].
    + rewrite map_app. cbn [map fst]. eapply Permutation_NoDup; [apply Permutation_cons_append|]. constructor; auto.
    + intros b x Hb. apply in_app_iff in Hb. destruct Hb as [Hb|[E|[]]]; auto. congruence.
    + intros b. rewrite map_app, in_app_iff. cbn. tauto.
Qed.

Lemma grown_good : forall nm m l m', grown nm m l m' -> good nm m'.
Proof. intros nm m l m' (A & B & _). split; auto. Qed.
Lemma grown_refl : forall nm m, good nm m -> grown nm m [] m.
Proof. intros nm m (A & B). split; auto. split; auto. intros a. cbn. tauto. Qed.
Lemma grown_trans : forall nm m l m' l' m'', grown nm m l m' -> grown nm m' l' m'' -> grown nm m (l ++ l') m''.
Proof.
  intros nm m l m' l' m'' (A & B & C) (A' & B' & C'). split; auto. split; auto. intros a. rewrite C', C, in_app_iff. tauto.
Qed.
Lemma grown_equiv : forall nm m l l' m', (forall a, In a l <-> In a l') -> grown nm m l m' -> grown nm m l' m'.
Proof. intros nm m l l' m' E (A & B & C). split; auto. split; auto. intros a. rewrite C, E. tauto. Qed.

(** Cooking inside the scope of anaphora, and cooking the explicit expression. *)
Definition rel {A} (m : pending) (l : list anaphor) (o1 o2 : outcome (A * state)) : Prop :=
  match o1, o2 with
  | Done (a1, s1), Done (a2, s2) =>
      a1 = a2 /\ in_scope s1 = true /\ s2 = mkSt false [] (pb s1) /\ grown expr_name m l (pe s1)
  | Error, Error => True
  | Panic, Panic => True
  | _, _ => False
  end.
Lemma rel_equiv : forall A m l l' (o1 o2 : outcome (A * state)), (forall a, In a l <-> In a l') -> rel m l o1 o2 -> rel m l' o1 o2.
Proof.
  intros A m l l' o1 o2 E. unfold rel. destruct o1 as [[a1 s1]| |], o2 as [[a2 s2]| |]; auto.
  intros (H1 & H2 & H3 & H4). repeat split; auto; try apply (grown_equiv _ _ _ _ _ E H4).
Qed.
Lemma rel_done : forall A m p (a : A), good expr_name m -> rel m [] (Done (a, mkSt true m p)) (Done (a, mkSt false [] p)).
Proof. intros. cbn. split; auto. split; auto. split; auto. apply grown_refl. auto. Qed.
Lemma rel_bind : forall A B m l l' (o1 o2 : outcome (A * state)) (k1 k2 : A * state -> outcome (B * state)),
  rel m l o1 o2 ->
  (forall a m' p, good expr_name m' -> rel m' l' (k1 (a, mkSt true m' p)) (k2 (a, mkSt false [] p))) ->
  rel m (l ++ l') (obind o1 k1) (obind o2 k2).
Proof.
  intros A B m l l' o1 o2 k1 k2 H K. unfold rel in H. destruct o1 as [[a1 s1]| |], o2 as [[a2 s2]| |]; try contradiction; cbn [obind]; try exact I.
  destruct H as (-> & H2 & -> & G). destruct s1 as [i m1 p1]. cbn in *. subst i.
  specialize (K a2 m1 p1 (grown_good _ _ _ _ G)). unfold rel in *. destruct (k1 _) as [[b1 t1]| |], (k2 _) as [[b2 t2]| |]; try contradiction; auto.
  destruct K as (-> & K2 & -> & G'). repeat split; auto; try apply (grown_trans _ _ _ _ _ _ G G').
Qed.
(** A pure step after cooking. *)
Lemma rel_bind_pure : forall A B m l (o1 o2 : outcome (A * state)) (k1 k2 : A * state -> outcome (B * state)),
  rel m l o1 o2 ->
  (forall a m' p, good expr_name m' -> rel m' [] (k1 (a, mkSt true m' p)) (k2 (a, mkSt false [] p))) ->
  rel m l (obind o1 k1) (obind o2 k2).
Proof. intros. rewrite <- (app_nil_r l). apply rel_bind; auto. Qed.

Lemma map_st_app : forall A B (f : A -> state -> outcome (B * state)) xs ys st,
  map_st f (xs ++ ys) st =
  obind (map_st f xs st) (fun '(a, st) => obind (map_st f ys st) (fun '(b, st) => Done (a ++ b, st))).
Proof.
  induction xs as [|x xs IH]; intros ys st; cbn [map_st app obind].
  - destruct (map_st f ys st) as [[b s]| |]; reflexivity.
  - destruct (f x st) as [[y s]| |]; cbn [obind]; auto. rewrite IH. destruct (map_st f xs s) as [[a s']| |]; cbn [obind]; auto.
    destruct (map_st f ys s') as [[b s'']| |]; reflexivity.
Qed.

Lemma wants_explicit : forall nm x, wants_left (explicit nm x) = wants_left x /\ wants_right (explicit nm x) = wants_right x.
Proof. intros nm []; auto. Qed.
Lemma location_explicit : forall nm x, location (option_map (explicit nm) x) = location x.
Proof. intros nm [[]|]; auto. Qed.
Lemma between_explicit : forall nm l r,
  between nm (option_map (explicit nm) l) (option_map (explicit nm) r) = between nm l r.
Proof.
  intros nm l r. unfold between, section_anaphor. rewrite !location_explicit.
  assert (M : missing (option_map (explicit nm) l) (option_map (explicit nm) r) = missing l r).
  { unfold missing. destruct l as [x|], r as [y|]; cbn [option_map]; rewrite ?(proj1 (wants_explicit nm y)), ?(proj2 (wants_explicit nm x)); reflexivity. }
  assert (J : juxtaposed (option_map (explicit nm) l) (option_map (explicit nm) r) = juxtaposed l r).
  { unfold juxtaposed. destruct l as [x|], r as [y|]; cbn [option_map]; rewrite ?(proj1 (wants_explicit nm y)), ?(proj2 (wants_explicit nm x)); reflexivity. }
  rewrite M, J. reflexivity.
Qed.

Section Cooking.
  Variable shunt : list expr -> outcome expr.
  Notation cook := (cook shunt).

  Lemma map_st_rel : forall A (f g : A -> state -> outcome (expr * state)) (an : A -> list anaphor) xs,
    Forall (fun x => forall m p, good expr_name m -> rel m (an x) (f x (mkSt true m p)) (g x (mkSt false [] p))) xs ->
    forall m p, good expr_name m -> rel m (flat_map an xs) (map_st f xs (mkSt true m p)) (map_st g xs (mkSt false [] p)).
  Proof.
    intros A f g an xs F. induction F as [|x xs H F IH]; intros m p G; cbn [map_st flat_map]; [apply rel_done, G|].
    apply rel_bind; [auto|]. intros y m' p' G'. apply rel_bind_pure; [auto|]. intros ys m'' p'' G''. apply rel_done, G''.
  Qed.

  (** Cooking a gap, and cooking what stands for it. *)
  Lemma fill_rel : forall l r m p g, good expr_name m -> filler l r = Some g ->
    rel m (if missing l r then [section_anaphor l r] else []) (Done (cook_fill g (mkSt true m p))) (map_st cook (between expr_name l r) (mkSt false [] p)).
  Proof.
    intros l r m p g G E. unfold between. rewrite filler_some in E by (eapply filler_located; eauto). injection E as <-.
    destruct (missing l r).
    - cbn [cook_fill]. unfold cook_expr_anaphor. cbn [pe]. destruct (record_ok "_e" (section_anaphor l r) m G) as (m' & E & Gr).
      rewrite E. cbn [map_st cook obind app in_scope pb]. cbn. repeat split; auto; try apply Gr.
    - destruct (juxtaposed l r); [|apply rel_done, G]. cbn [cook_fill]. apply rel_done, G.
  Qed.

  Lemma items_rel : forall xs, Forall (fun x => forall m p, good expr_name m ->
      rel m (anaphora_in x) (cook x (mkSt true m p)) (cook (explicit expr_name x) (mkSt false [] p))) xs ->
    forall l gs m p, gaps_from l xs = Some gs -> good expr_name m ->
    rel m (sections l xs ++ flat_map anaphora_in xs) (cook_items cook gs xs (mkSt true m p))
      (map_st cook (spread expr_name (option_map (explicit expr_name) l) (map (explicit expr_name) xs)) (mkSt false [] p)).
  Proof.
    intros xs F. induction F as [|x xs H F IH]; intros l gs m p E G; cbn [gaps_from] in E; cbn [sections flat_map map spread].
    - destruct (filler l None) as [g|] eqn:Ef; [|discriminate]. injection E as <-. cbn [cook_items].
      pose proof (between_explicit expr_name l None) as B. change (option_map (explicit expr_name) None) with (@None raw) in B.
      rewrite B, app_nil_r. apply fill_rel; auto.
    - destruct (filler l (Some x)) as [g|] eqn:Ef; [|discriminate]. destruct (gaps_from (Some x) xs) as [gs'|] eqn:Eg; [|discriminate].
      injection E as <-. cbn [cook_items].
      change (Some (explicit expr_name x)) with (option_map (explicit expr_name) (Some x)).
      rewrite between_explicit, map_st_app.
      replace (let '(es, st) := cook_fill g (mkSt true m p) in
        obind (cook x st) (fun '(y, st0) => obind (cook_items cook gs' xs st0) (fun '(ys, st1) => Done (es ++ y :: ys, st1))))
      with (obind (Done (cook_fill g (mkSt true m p))) (fun '(es, st) =>
        obind (cook x st) (fun '(y, st0) => obind (cook_items cook gs' xs st0) (fun '(ys, st1) => Done (es ++ y :: ys, st1)))))
      by (cbn [obind]; destruct (cook_fill g (mkSt true m p)); reflexivity).
      apply rel_equiv with (l := (if missing l (Some x) then [section_anaphor l (Some x)] else []) ++
        (anaphora_in x ++ (sections (Some x) xs ++ flat_map anaphora_in xs))); [|apply rel_bind].
      + intros a. rewrite !in_app_iff. tauto.
      + apply fill_rel; auto.
      + intros es m' p' G'. cbn [map_st].
        assert (R : rel m' (anaphora_in x ++ (sections (Some x) xs ++ flat_map anaphora_in xs))
          (obind (cook x (mkSt true m' p')) (fun '(y, st0) => obind (cook_items cook gs' xs st0) (fun '(ys, st1) => Done (y :: ys, st1))))
          (obind (cook (explicit expr_name x) (mkSt false [] p')) (fun '(y, st) =>
             obind (map_st cook (spread expr_name (option_map (explicit expr_name) (Some x)) (map (explicit expr_name) xs)) st) (fun '(ys, st) => Done (y :: ys, st))))).
        { apply rel_bind; [apply H, G'|]. intros y m2 p2 G2. apply rel_bind_pure; [apply IH; auto|]. intros ys m3 p3 G3. apply rel_done, G3. }
        change (option_map (explicit expr_name) (Some x)) with (Some (explicit expr_name x)) in *.
        destruct (cook x (mkSt true m' p')) as [[y1 s1]| |]; cbn [obind] in *;
          destruct (cook (explicit expr_name x) (mkSt false [] p')) as [[y2 s2]| |]; cbn [obind] in *; try exact R.
        all: try (destruct (cook_items cook gs' xs s1) as [[ys1 t1]| |]; cbn [obind] in * );
          try (destruct (map_st cook _ s2) as [[ys2 t2]| |]; cbn [obind] in * ); try exact R.
        cbn in *. destruct R as (R1 & R2). injection R1 as <- <-. split; auto.
  Qed.

  (** The explicit soup has no gaps. *)
  Lemma between_filler : forall nm l r,
    match between nm l r with
    | [] => filler l r = Some NoFill
    | v :: vs => vs = [] /\ filler l (Some v) = Some NoFill /\ filler (Some v) r = Some NoFill
    end.
  Proof.
    intros nm l r. unfold between. destruct (missing l r) eqn:M.
    - unfold missing in M. split; [reflexivity|]. rewrite !filler_spec. unfold missing, juxtaposed.
      apply andb_prop in M. destruct M as (M1 & M2).
      destruct l as [x|], r as [y|]; cbn [wants_left wants_right andb negb]; rewrite ?M1, ?M2; auto.
    - destruct (juxtaposed l r) eqn:J.
      + unfold juxtaposed in J. destruct l as [x|]; [|discriminate]. destruct r as [y|]; [|discriminate].
        apply andb_prop in J. destruct J as (J1 & J2). apply negb_true_iff in J1, J2.
        split; [reflexivity|]. rewrite !filler_spec. unfold missing, juxtaposed. cbn [wants_left wants_right takes_left takes_right]. rewrite J1, J2. auto.
      + rewrite filler_spec, M, J. reflexivity.
  Qed.
  Lemma spread_gaps : forall nm ys l, exists n, gaps_from l (spread nm l ys) = Some (repeat NoFill (S n)) /\ n = List.length (spread nm l ys).
  Proof.
    induction ys as [|y ys IH]; intros l; cbn [spread].
    - assert (B := between_filler nm l None). destruct (between nm l None) as [|v vs]; cbn [gaps_from].
      + rewrite B. exists 0. auto.
      + destruct B as (-> & B1 & B2). cbn [gaps_from]. rewrite B1, B2. exists 1. auto.
    - assert (B := between_filler nm l (Some y)). destruct (IH (Some y)) as (n & E & L).
      destruct (between nm l (Some y)) as [|v vs]; cbn [app gaps_from].
      + rewrite B, E. exists (S n). cbn. auto.
      + destruct B as (-> & B1 & B2). cbn [app gaps_from]. rewrite B1, B2, E. exists (S (S n)). cbn. auto.
  Qed.
  Lemma items_no_gaps : forall xs st, cook_items cook (repeat NoFill (S (List.length xs))) xs st = map_st cook xs st.
  Proof.
    induction xs as [|x xs IH]; intros st; [reflexivity|]. cbn [List.length repeat cook_items cook_fill map_st app].
    change (NoFill :: repeat NoFill (List.length xs)) with (repeat NoFill (S (List.length xs))).
    destruct (cook x st) as [[y s]| |]; cbn [obind]; auto. rewrite IH. reflexivity.
  Qed.
  Lemma no_anaphor_item : forall nm r, match explicit nm r with RExprAna _ => true | _ => false end = false.
  Proof. intros nm []; reflexivity. Qed.
  Lemma spread_naked : forall nm xs l,
    existsb (fun x => match x with RExprAna _ => true | _ => false end) (spread nm l (map (explicit nm) xs)) = false.
  Proof.
    assert (B : forall nm l r, existsb (fun x => match x with RExprAna _ => true | _ => false end) (between nm l r) = false).
    { intros nm l r. unfold between. destruct (missing l r), (juxtaposed l r); reflexivity. }
    induction xs as [|x xs IH]; intros l; cbn [map spread]; [apply B|].
    rewrite existsb_app, B. cbn [existsb orb]. rewrite no_anaphor_item. cbn. apply IH.
  Qed.
  Lemma repeat_naked : forall n, existsb (fun g => match g with FillAna _ => true | _ => false end) (repeat NoFill n) = false.
  Proof. induction n; cbn; auto. Qed.

  Definition explicit_items (xs : list raw) : list raw :=
    match map (explicit expr_name) xs with [] => [] | ys => spread expr_name None ys end.
  (** Cooking an explicit soup is cooking its items. *)
  Lemma cook_explicit_soup : forall b xs p,
    cook (RSoup b (explicit_items xs)) (mkSt false [] p) =
    obind (map_st cook (explicit_items xs) (mkSt false [] p)) (fun '(atoms, st) =>
    obind (assemble shunt b atoms) (fun cooked => Done (cooked, mkSt false (pe st) (pb st)))).
  Proof.
    intros b xs p. cbn [Model.cook]. destruct xs as [|x xs].
    { cbn. destruct (assemble shunt b []); reflexivity. }
    unfold explicit_items. cbn [map]. set (ys := explicit expr_name x :: map (explicit expr_name) xs).
    destruct (spread_gaps expr_name ys None) as (n & E & L).
    assert (Egs : gaps (spread expr_name None ys) = Some (repeat NoFill (S n))).
    { unfold gaps. destruct (spread expr_name None ys) eqn:Es; [|exact E].
      exfalso. unfold ys in Es. cbn [spread] in Es. destruct (between expr_name None (Some (explicit expr_name x))); discriminate. }
    rewrite Egs. cbn [in_scope negb andb pe pb]. unfold naked. rewrite (spread_naked expr_name (x :: xs) None : existsb _ (spread expr_name None ys) = false).
    rewrite repeat_naked. cbn [orb andb]. rewrite L, items_no_gaps. reflexivity.
  Qed.

  Lemma located_fold : forall A (f : A -> Prop) xs, fold_right (fun x acc => f x /\ acc) True xs <-> Forall f xs.
  Proof. induction xs as [|x xs IH]; cbn; [split; auto|]. rewrite IH. split; [intros []; constructor; auto|inversion 1; auto]. Qed.

  Lemma soup_gaps : forall xs, located_gaps xs -> exists gs, gaps xs = Some gs.
  Proof. intros [|x xs] H; [cbn; eauto|]. apply (gaps_some (x :: xs) None). exact H. Qed.
  Lemma soup_items_rel : forall xs gs, Forall (fun x => forall m p, good expr_name m ->
      rel m (anaphora_in x) (cook x (mkSt true m p)) (cook (explicit expr_name x) (mkSt false [] p))) xs ->
    gaps xs = Some gs -> forall m p, good expr_name m ->
    rel m (soup_sections xs ++ flat_map anaphora_in xs) (cook_items cook gs xs (mkSt true m p)) (map_st cook (explicit_items xs) (mkSt false [] p)).
  Proof.
    intros [|x xs] gs F E m p G.
    - cbn in E. injection E as <-. cbn. apply rel_done, G.
    - apply (items_rel (x :: xs) F None gs m p E G).
  Qed.

  Lemma cook_rel : forall r, located r -> forall m p, good expr_name m ->
    rel m (anaphora_in r) (cook r (mkSt true m p)) (cook (explicit expr_name r) (mkSt false [] p)).
  Proof.
    induction r as [v|bs body t IHbs IHb|i ps body IHb|k xs IHxs|s f q body IHb|b xs IHxs|a|a] using raw_ind'; intros Lc m p G.
    - apply rel_done, G.
    - cbn [located] in Lc. destruct Lc as (Lbs & Lb). apply located_fold in Lbs. cbn [Model.cook explicit anaphora_in pb].
      assert (F : rel m (flat_map (fun b => anaphora_in (b_expr b)) bs)
        (map_st (fun b st => obind (cook (b_expr b) st) (fun '(e, st) => Done (mkBinding (b_name b) e (b_demand b), st))) bs (mkSt true m p))
        (map_st (fun b st => obind (cook (b_expr b) st) (fun '(e, st) => Done (mkBinding (b_name b) e (b_demand b), st)))
           (map (map_b (explicit expr_name)) bs) (mkSt false [] p))).
      { clear Lb IHb body. revert m p G. induction bs as [|b bs IH]; intros m p G; cbn [map map_st flat_map]; [apply rel_done, G|].
        inversion IHbs as [|? ? H1 H2]; inversion Lbs as [|? ? L1 L2]; subst. cbn [map_b b_name b_expr b_demand].
        apply rel_bind.
        - apply rel_bind_pure; [apply H1; auto|]. intros e m' p' G'. apply rel_done, G'.
        - intros y m' p' G'. apply rel_bind_pure; [apply IH; auto|]. intros ys m'' p'' G''. apply rel_done, G''. }
      apply rel_bind; [exact F|]. intros bs' m' p' G'. apply rel_bind_pure; [apply IHb; auto|]. intros body' m'' p'' G''.
      cbn [pb in_scope pe]. destruct (nonempty p'' && negb (nonempty p)); [|apply rel_done, G''].
      destruct (process_block p'' bs' body' t); cbn [obind]; try exact I. apply rel_done, G''.
    - cbn [Model.cook explicit anaphora_in]. apply rel_bind_pure; [apply IHb; auto|]. intros e m' p' G'. apply rel_done, G'.
    - cbn [located] in Lc. apply located_fold in Lc. cbn [Model.cook explicit anaphora_in].
      assert (F : rel m (flat_map anaphora_in xs) (map_st cook xs (mkSt true m p)) (map_st cook (map (explicit expr_name) xs) (mkSt false [] p))).
      { revert m p G. induction xs as [|x xs IH]; intros m p G; cbn [map map_st flat_map]; [apply rel_done, G|].
        inversion IHxs as [|? ? H1 H2]; inversion Lc as [|? ? L1 L2]; subst.
        apply rel_bind; [apply H1; auto|]. intros y m' p' G'. apply rel_bind_pure; [apply IH; auto|]. intros ys m'' p'' G''. apply rel_done, G''. }
      apply rel_bind_pure; [exact F|]. intros es m' p' G'. apply rel_done, G'.
    - cbn [Model.cook explicit anaphora_in]. apply rel_bind_pure; [apply IHb; auto|]. intros e m' p' G'. apply rel_done, G'.
    - cbn [located] in Lc. destruct Lc as (Lg & Lx). apply located_fold in Lx.
      destruct (soup_gaps xs Lg) as (gs & Eg).
      change (explicit expr_name (RSoup b xs)) with (RSoup b (explicit_items xs)). rewrite cook_explicit_soup.
      cbn [Model.cook anaphora_in]. rewrite Eg. cbn [in_scope negb andb orb pe pb].
      apply rel_bind_pure.
      + apply soup_items_rel; auto. rewrite Forall_forall in *. intros x Hx. apply IHxs; auto.
      + intros atoms m' p' G'. destruct (assemble shunt b atoms); cbn [obind]; try exact I. apply rel_done, G'.
    - cbn [Model.cook explicit anaphora_in]. unfold cook_expr_anaphor. cbn [pe].
      destruct (record_ok "_e" a m G) as (m' & E & Gr). rewrite E. cbn. repeat split; auto; apply Gr.
    - cbn [Model.cook explicit anaphora_in]. unfold cook_block_anaphor. cbn [pb in_scope pe].
      destruct (record "_b" a p) as [name p']. cbn. split; [auto|]. split; [auto|]. split; [auto|]. apply grown_refl, G.
  Qed.

  (** ** Whole soups *)
  Lemma map_st_each : forall A B (f : A -> state -> outcome (B * state)) xs st ys st', map_st f xs st = Done (ys, st') ->
    Forall (fun x => exists st1 r, f x st1 = Done r) xs.
  Proof.
    induction xs as [|x xs IH]; intros st ys st' E; [constructor|]. cbn [map_st] in E.
    destruct (f x st) as [[y s]| |] eqn:Ex; try discriminate E. cbn [obind] in E.
    destruct (map_st f xs s) as [[zs s']| |] eqn:Es; try discriminate E. constructor; eauto.
  Qed.
  Lemma items_each : forall xs gs st ys st', List.length xs < List.length gs -> cook_items cook gs xs st = Done (ys, st') ->
    Forall (fun x => exists st1 r, cook x st1 = Done r) xs.
  Proof.
    induction xs as [|x xs IH]; intros gs st ys st' L E; [constructor|]. destruct gs as [|g gs]; [cbn in L; lia|]. cbn [cook_items] in E.
    destruct (cook_fill g st) as [es s0]. destruct (cook x s0) as [[y s]| |] eqn:Ex; try discriminate E. cbn [obind] in E.
    destruct (cook_items cook gs xs s) as [[zs s']| |] eqn:Es; try discriminate E. constructor; eauto. eapply IH; [|exact Es]. cbn in L. lia.
  Qed.
  Lemma gaps_length : forall xs gs, gaps xs = Some gs -> List.length xs < List.length gs.
  Proof.
    assert (H : forall xs l gs, gaps_from l xs = Some gs -> List.length gs = S (List.length xs)).
    { induction xs as [|x xs IH]; intros l gs E; cbn [gaps_from] in E.
      - destruct (filler l None); [|discriminate]. injection E as <-. reflexivity.
      - destruct (filler l (Some x)); [|discriminate]. destruct (gaps_from (Some x) xs) eqn:G; [|discriminate]. injection E as <-. cbn. rewrite (IH _ _ G). reflexivity. }
    intros [|x xs] gs E; [injection E as <-; cbn; lia|]. cbn [gaps] in E. apply H in E. lia.
  Qed.
  Lemma cook_located : forall r st x, cook r st = Done x -> located r.
  Proof.
    induction r as [v|bs body t IHbs IHb|i ps body IHb|k xs IHxs|s f q body IHb|b xs IHxs|a|a] using raw_ind'; intros st x E; try exact I; cbn [Model.cook] in E.
    - destruct (map_st _ bs st) as [[bs' s]| |] eqn:Ebs; try discriminate E. cbn [obind] in E.
      destruct (cook body s) as [[body' s']| |] eqn:Eb; try discriminate E. cbn [located]. split; [|eauto].
      apply located_fold. apply map_st_each in Ebs. rewrite Forall_forall in *. intros b Hb. destruct (Ebs b Hb) as (s1 & r & Er).
      destruct (cook (b_expr b) s1) as [[e s2]| |] eqn:Ec; try discriminate Er. eapply IHbs; eauto.
    - destruct (cook body st) as [[e s]| |] eqn:Eb; try discriminate E. cbn. eauto.
    - destruct (map_st cook xs st) as [[es s]| |] eqn:Exs; try discriminate E. cbn [located]. apply located_fold.
      apply map_st_each in Exs. rewrite Forall_forall in *. intros y Hy. destruct (Exs y Hy) as (s1 & r & Er). eapply IHxs; eauto.
    - destruct (cook body st) as [[e s']| |] eqn:Eb; try discriminate E. cbn. eauto.
    - destruct (gaps xs) as [gs|] eqn:Eg; [|discriminate E]. destruct (cook_items cook gs xs _) as [[es s]| |] eqn:Exs; try discriminate E.
      cbn [located]. split.
      + destruct xs as [|y xs]; [constructor|]. apply (gaps_located (y :: xs) None gs Eg).
      + apply located_fold. apply items_each in Exs; [|apply gaps_length, Eg]. rewrite Forall_forall in *. intros y Hy.
        destruct (Exs y Hy) as (s1 & r & Er). eapply IHxs; eauto.
  Qed.

  Lemma naked_own : forall xs gs, gaps xs = Some gs -> (naked gs xs = true <-> own_anaphora xs).
  Proof.
    assert (H : forall xs l gs, gaps_from l xs = Some gs ->
      (existsb (fun g => match g with FillAna _ => true | _ => false end) gs = true <-> sections l xs <> [])).
    { induction xs as [|x xs IH]; intros l gs E; assert (Lc := gaps_located _ _ _ E); cbn [gaps_from sections] in *.
      - destruct (filler l None) as [g|] eqn:F; [|discriminate]. injection E as <-.
        rewrite filler_some in F by (intros M; rewrite M in Lc; inversion Lc; auto). injection F as <-.
        destruct (missing l None); cbn; [split; auto; discriminate|]. destruct (juxtaposed l None); cbn; split; congruence.
      - destruct (filler l (Some x)) as [g|] eqn:F; [|discriminate]. destruct (gaps_from (Some x) xs) as [gs'|] eqn:G; [|discriminate]. injection E as <-.
        apply Forall_app in Lc. destruct Lc as (Lc & _).
        rewrite filler_some in F by (intros M; rewrite M in Lc; inversion Lc; auto). injection F as <-. cbn [existsb].
        specialize (IH _ _ G). destruct (missing l (Some x)); cbn [app existsb orb]; [split; auto; discriminate|].
        destruct (juxtaposed l (Some x)); cbn [orb]; exact IH. }
    intros xs gs E. unfold naked, own_anaphora. rewrite orb_true_iff.
    assert (H1 : existsb (fun x => match x with RExprAna _ => true | _ => false end) xs = true <-> exists a, In (RExprAna a) xs).
    { rewrite existsb_exists. split; [intros ([] & Hx & Ex); try discriminate; eauto|intros (a & Ha); eauto]. }
    rewrite H1. destruct xs as [|x xs]; [cbn in E; injection E as <-; cbn; intuition congruence|].
    cbn [gaps] in E. rewrite (H _ _ _ E). reflexivity.
  Qed.
End Cooking.
