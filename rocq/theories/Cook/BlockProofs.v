(** Proofs about block anaphora, and about what is left over after cooking. *)
From Coq Require Import String Ascii List Bool Arith NArith ZArith Permutation Sorted Lia.
From Verif.Scope Require Import Model Spec Proofs.
From Verif.Simplify Require Import Compress.
From Verif.Cook Require Import Model Spec PatternProofs CookProofs.
Import ListNotations.
Local Open Scope string_scope.
Local Open Scope list_scope.
Local Open Scope nat_scope.

(** ** The outcome for any way of listing the parameters *)
Lemma parameters_perm : forall nm l m m', parameters nm l m -> parameters nm l m' -> Permutation m m'.
Proof.
  intros nm l m m' (N & H) (N' & H'). apply NoDup_Permutation.
  - apply (NoDup_map_inv fst). auto.
  - apply (NoDup_map_inv fst). auto.
  - intros [a x]. rewrite H, H'. tauto.
Qed.
Lemma grown_parameters : forall nm l m, grown nm [] l m -> parameters nm l m.
Proof.
  intros nm l m (A & B & C). split; auto. intros a x. split.
  - intros H. split; [|apply B, H]. apply (in_map fst) in H. apply C in H. destruct H as [[]|H]; auto.
  - intros (H & ->). assert (K : In a (map fst m)) by (apply C; auto). apply in_map_iff in K. destruct K as ([b y] & E & K). cbn in E. subst b.
    rewrite <- (B _ _ K). auto.
Qed.
Lemma parameters_keys : forall nm l m, parameters nm l m -> forall a, In a (map fst m) <-> In a l.
Proof.
  intros nm l m (N & H) a. split.
  - intros K. apply in_map_iff in K. destruct K as ([b y] & E & K). cbn in E. subst b. apply H in K. tauto.
  - intros K. apply (in_map fst m (a, nm a)). apply H. auto.
Qed.

Section Soup.
  Variable shunt : list expr -> outcome expr.
  Notation cook := (cook shunt).

  Lemma cook_soup_rel : forall b xs p, located (RSoup b xs) -> own_anaphora xs ->
    match cook (explicit expr_name (RSoup b xs)) (mkSt false [] p) with
    | Done (body, st) => st = mkSt false [] (pb st) /\ exists m, parameters expr_name (anaphora_in (RSoup b xs)) m /\
        cook (RSoup b xs) (mkSt false [] p) = obind (to_binding_pattern m) (fun ps => Done (lam ps body, st))
    | Error => cook (RSoup b xs) (mkSt false [] p) = Error
    | Panic => cook (RSoup b xs) (mkSt false [] p) = Panic
    end.
  Proof.
    intros b xs p Lc Ow. destruct Lc as (Lg & Lx). destruct (soup_gaps xs Lg) as (gs & Eg).
    assert (Nk : naked gs xs = true) by (apply (naked_own xs gs Eg); auto).
    change (explicit expr_name (RSoup b xs)) with (RSoup b (explicit_items xs)). rewrite cook_explicit_soup.
    cbn [Model.cook anaphora_in]. rewrite Eg. cbn [in_scope negb andb orb pe pb]. rewrite Nk.
    assert (R := soup_items_rel shunt xs gs). apply located_fold in Lx.
    specialize (R (proj2 (Forall_forall _ _) (fun x Hx => cook_rel shunt x (proj1 (Forall_forall _ _) Lx x Hx))) Eg [] p).
    specialize (R (conj (NoDup_nil _) (fun a x (H : In (a, x) []) => match H with end))).
    unfold rel in R. destruct (cook_items cook gs xs _) as [[es s1]| |], (map_st cook (explicit_items xs) _) as [[es2 s2]| |]; try contradiction; cbn [obind]; auto.
    destruct R as (-> & Hs & -> & G). cbn [pe pb]. destruct (assemble shunt b es2); cbn [obind]; auto. cbn [pb]. split; auto.
    exists (pe s1). split; [apply grown_parameters, G|]. reflexivity.
  Qed.
End Soup.

(** ** Block anaphora *)
Definition relb {A} (m : pending) (l : list anaphor) (o1 o2 : outcome (A * state)) : Prop :=
  match o1, o2 with
  | Done (a1, s1), Done (a2, s2) =>
      a1 = a2 /\ s2 = mkSt (in_scope s1) (pe s1) [] /\ grown block_name m l (pb s1)
  | Error, Error => True
  | Panic, Panic => True
  | _, _ => False
  end.
Lemma relb_done : forall A m s q (a : A), good block_name m -> relb m [] (Done (a, mkSt s q m)) (Done (a, mkSt s q [])).
Proof. intros. cbn. split; auto. split; auto. apply grown_refl. auto. Qed.
Lemma relb_bind : forall A B m l l' (o1 o2 : outcome (A * state)) (k1 k2 : A * state -> outcome (B * state)),
  relb m l o1 o2 ->
  (forall a s q m', good block_name m' -> grown block_name m l m' -> relb m' l' (k1 (a, mkSt s q m')) (k2 (a, mkSt s q []))) ->
  relb m (l ++ l') (obind o1 k1) (obind o2 k2).
Proof.
  intros A B m l l' o1 o2 k1 k2 H K. unfold relb in H. destruct o1 as [[a1 s1]| |], o2 as [[a2 s2]| |]; try contradiction; cbn [obind]; try exact I.
  destruct H as (-> & -> & G). destruct s1 as [i q1 m1]. cbn in *.
  specialize (K a2 i q1 m1 (grown_good _ _ _ _ G) G). unfold relb in *. destruct (k1 _) as [[b1 t1]| |], (k2 _) as [[b2 t2]| |]; try contradiction; auto.
  destruct K as (-> & -> & G'). repeat split; auto; try apply (grown_trans _ _ _ _ _ _ G G').
Qed.
Lemma relb_bind_pure : forall A B m l (o1 o2 : outcome (A * state)) (k1 k2 : A * state -> outcome (B * state)),
  relb m l o1 o2 ->
  (forall a s q m', good block_name m' -> grown block_name m l m' -> relb m' [] (k1 (a, mkSt s q m')) (k2 (a, mkSt s q []))) ->
  relb m l (obind o1 k1) (obind o2 k2).
Proof. intros. rewrite <- (app_nil_r l). apply relb_bind; auto. Qed.

Lemma filler_explicit_block : forall nm l r,
  filler (option_map (explicit_block nm) l) (option_map (explicit_block nm) r) = filler l r.
Proof.
  intros nm l r. unfold filler.
  assert (B : forall x, bind_sides (option_map (explicit_block nm) x) = bind_sides x) by (intros [[]|]; reflexivity).
  assert (S : forall x, raw_smid (option_map (explicit_block nm) x) = raw_smid x) by (intros [[]|]; reflexivity).
  rewrite !B, !S. reflexivity.
Qed.
Lemma gaps_explicit_block : forall nm xs, gaps (map (explicit_block nm) xs) = gaps xs.
Proof.
  intros nm.
  assert (H : forall xs l, gaps_from (option_map (explicit_block nm) l) (map (explicit_block nm) xs) = gaps_from l xs).
  { induction xs as [|x xs IH]; intros l; cbn [map gaps_from].
    - pose proof (filler_explicit_block nm l None) as F. change (option_map (explicit_block nm) None) with (@None raw) in F. rewrite F. reflexivity.
    - change (Some (explicit_block nm x)) with (option_map (explicit_block nm) (Some x)). rewrite filler_explicit_block, IH. reflexivity. }
  intros [|x xs]; [reflexivity|]. apply (H (x :: xs) None).
Qed.
Lemma naked_explicit_block : forall nm gs xs, naked gs (map (explicit_block nm) xs) = naked gs xs.
Proof.
  intros nm gs xs. unfold naked. f_equal. induction xs as [|x xs IH]; cbn; auto. rewrite IH. f_equal. destruct x; reflexivity.
Qed.
Lemma flat_map_nil : forall A B (f : A -> list B) xs, flat_map f xs = [] <-> Forall (fun x => f x = []) xs.
Proof.
  induction xs as [|x xs IH]; cbn; [split; auto|]. split.
  - intros E. apply app_eq_nil in E. destruct E as (E1 & E2). constructor; auto. apply IH; auto.
  - inversion 1 as [|? ? E1 E2]; subst. rewrite E1. apply IH. auto.
Qed.
Lemma no_block_inner : forall r, block_anaphora_in r = [] -> no_inner_block r.
Proof.
  induction r as [v|bs body t IHbs IHb|i ps body IHb|k xs IHxs|s f q body IHb|b xs IHxs|a|a] using raw_ind'; intros E; try exact I; auto.
  - cbn [block_anaphora_in no_inner_block] in *. apply located_fold. apply flat_map_nil in E. rewrite Forall_forall in *. auto.
  - cbn [block_anaphora_in no_inner_block] in *. apply located_fold. apply flat_map_nil in E. rewrite Forall_forall in *. auto.
Qed.
Lemma grown_nil_nonempty : forall nm m m', grown nm m [] m' -> nonempty m' = nonempty m.
Proof.
  intros nm m m' (_ & _ & C). destruct m as [|[a x] m], m' as [|[b y] m']; auto; exfalso.
  - specialize (C b). cbn in C. tauto.
  - specialize (C a). cbn in C. tauto.
Qed.

Section Block.
  Variable shunt : list expr -> outcome expr.
  Notation cook := (cook shunt).

  Lemma fill_relb : forall g s q m, good block_name m -> relb m [] (Done (cook_fill g (mkSt s q m))) (Done (cook_fill g (mkSt s q []))).
  Proof.
    intros [| |a] s q m G; cbn [cook_fill]; try apply relb_done, G. unfold cook_expr_anaphor. cbn [pe in_scope pb].
    destruct (record "_e" a q) as [x q']. apply relb_done, G.
  Qed.

  (** Lists of things cooked in turn. *)
  Lemma list_relb : forall A (f : A -> state -> outcome (expr * state)) (g : A -> A) (an : A -> list anaphor) xs,
    Forall (fun x => forall s q m, good block_name m -> relb m (an x) (f x (mkSt s q m)) (f (g x) (mkSt s q []))) xs ->
    forall s q m, good block_name m -> relb m (flat_map an xs) (map_st f xs (mkSt s q m)) (map_st f (map g xs) (mkSt s q [])).
  Proof.
    intros A f g an xs F. induction F as [|x xs H F IH]; intros s q m G; cbn [map map_st flat_map]; [apply relb_done, G|].
    apply relb_bind; [auto|]. intros y s' q' m' G' _. apply relb_bind_pure; [auto|]. intros ys s'' q'' m'' G'' _. apply relb_done, G''.
  Qed.
  Lemma bindings_relb : forall bs,
    Forall (fun b => forall s q m, good block_name m ->
      relb m (block_anaphora_in (b_expr b)) (cook (b_expr b) (mkSt s q m)) (cook (explicit_block block_name (b_expr b)) (mkSt s q []))) bs ->
    forall s q m, good block_name m ->
    relb m (flat_map (fun b => block_anaphora_in (b_expr b)) bs)
      (map_st (fun b st => obind (cook (b_expr b) st) (fun '(e, st) => Done (mkBinding (b_name b) e (b_demand b), st))) bs (mkSt s q m))
      (map_st (fun b st => obind (cook (b_expr b) st) (fun '(e, st) => Done (mkBinding (b_name b) e (b_demand b), st)))
         (map (map_b (explicit_block block_name)) bs) (mkSt s q [])).
  Proof.
    intros bs F. induction F as [|b bs H F IH]; intros s q m G; cbn [map map_st flat_map]; [apply relb_done, G|].
    cbn [map_b b_name b_expr b_demand]. apply relb_bind.
    - apply relb_bind_pure; [auto|]. intros e s' q' m' G' _. apply relb_done, G'.
    - intros y s' q' m' G' _. apply relb_bind_pure; [auto|]. intros ys s'' q'' m'' G'' _. apply relb_done, G''.
  Qed.
  Lemma items_relb : forall xs, Forall (fun x => forall s q m, good block_name m ->
      relb m (block_anaphora_in x) (cook x (mkSt s q m)) (cook (explicit_block block_name x) (mkSt s q []))) xs ->
    forall gs s q m, good block_name m ->
    List.length xs < List.length gs ->
    relb m (flat_map block_anaphora_in xs) (cook_items cook gs xs (mkSt s q m)) (cook_items cook gs (map (explicit_block block_name) xs) (mkSt s q [])).
  Proof.
    intros xs F. induction F as [|x xs H F IH]; intros gs s q m G L; destruct gs as [|g gs]; try (cbn in L; lia); cbn [map cook_items flat_map].
    - apply fill_relb, G.
    - set (k := fun (x : raw) (zs : list raw) '(es, st) => obind (cook x st) (fun '(y, st) => obind (cook_items cook gs zs st) (fun '(ys, st) => Done (es ++ y :: ys, st)))).
      change (relb m (block_anaphora_in x ++ flat_map block_anaphora_in xs)
        (k x xs (cook_fill g (mkSt s q m))) (k (explicit_block block_name x) (map (explicit_block block_name) xs) (cook_fill g (mkSt s q [])))).
      change (k x xs (cook_fill g (mkSt s q m))) with (obind (Done (cook_fill g (mkSt s q m))) (k x xs)).
      change (k (explicit_block block_name x) (map (explicit_block block_name) xs) (cook_fill g (mkSt s q [])))
        with (obind (Done (cook_fill g (mkSt s q []))) (k (explicit_block block_name x) (map (explicit_block block_name) xs))).
      change (block_anaphora_in x ++ flat_map block_anaphora_in xs) with ([] ++ (block_anaphora_in x ++ flat_map block_anaphora_in xs)).
      apply relb_bind; [apply fill_relb, G|]. intros es s' q' m' G' _. unfold k.
      apply relb_bind; [auto|]. intros y s2 q2 m2 G2 _. apply relb_bind_pure; [apply IH; auto; cbn in L; lia|]. intros ys s3 q3 m3 G3 _. apply relb_done, G3.
  Qed.

  Lemma cook_relb : forall r, no_inner_block r -> forall s q m, good block_name m ->
    relb m (block_anaphora_in r) (cook r (mkSt s q m)) (cook (explicit_block block_name r) (mkSt s q [])).
  Proof.
    induction r as [v|bs body t IHbs IHb|i ps body IHb|k xs IHxs|u f pr body IHb|b xs IHxs|a|a] using raw_ind'; intros NI s q m G.
    - apply relb_done, G.
    - cbn [no_inner_block block_anaphora_in] in NI. apply app_eq_nil in NI. destruct NI as (N1 & N2).
      cbn [Model.cook explicit_block block_anaphora_in pb]. rewrite N2, app_nil_r.
      assert (N1' := N1). apply flat_map_nil in N1'.
      apply relb_bind_pure.
      + apply bindings_relb; auto. rewrite Forall_forall in *. intros b Hb. apply IHbs; auto. apply no_block_inner. auto.
      + intros bs' s' q' m' G' Gr'. rewrite N1 in Gr'. apply relb_bind_pure; [rewrite <- N2; apply IHb; auto; apply no_block_inner, N2|].
        intros body' s'' q'' m'' G'' Gr''. cbn [pb nonempty]. rewrite (grown_nil_nonempty _ _ _ Gr''), (grown_nil_nonempty _ _ _ Gr').
        rewrite andb_negb_r. cbn. split; auto. split; auto. apply grown_refl, G''.
    - cbn [Model.cook explicit_block block_anaphora_in]. apply relb_bind_pure; [apply IHb; auto|]. intros e s' q' m' G' _. apply relb_done, G'.
    - cbn [Model.cook explicit_block block_anaphora_in]. cbn [no_inner_block] in NI. apply located_fold in NI.
      apply relb_bind_pure; [|intros e s' q' m' G' _; apply relb_done, G'].
      apply list_relb; auto. rewrite Forall_forall in *. intros x Hx. apply IHxs; auto.
    - cbn [Model.cook explicit_block block_anaphora_in]. apply relb_bind_pure; [apply IHb; auto|]. intros e s' q' m' G' _. apply relb_done, G'.
    - cbn [no_inner_block] in NI. apply located_fold in NI. cbn [Model.cook explicit_block block_anaphora_in].
      rewrite gaps_explicit_block. destruct (gaps xs) as [gs|] eqn:Eg; [|exact I]. rewrite naked_explicit_block. cbn [in_scope pe pb].
      apply relb_bind_pure.
      + apply items_relb; auto; [|apply gaps_length, Eg]. rewrite Forall_forall in *. intros x Hx. apply IHxs; auto.
      + intros es s' q' m' G' _. destruct (assemble shunt b es); cbn [obind]; try exact I. cbn [pe pb].
        destruct (negb s && naked gs xs); [|apply relb_done, G']. destruct (to_binding_pattern q'); cbn [obind]; try exact I. apply relb_done, G'.
    - cbn [Model.cook explicit_block block_anaphora_in]. unfold cook_expr_anaphor. cbn [pe in_scope pb]. destruct (record "_e" a q) as [x q']. apply relb_done, G.
    - cbn [Model.cook explicit_block block_anaphora_in]. unfold cook_block_anaphor. cbn [pb in_scope pe].
      destruct (record_ok "_b" a m G) as (m' & E & Gr). rewrite E. cbn. split; auto.
  Qed.

  (** A block with block anaphora of its own. *)
  Lemma cook_block_ok : forall bs body t s q, Forall (fun b => no_inner_block (b_expr b)) bs -> no_inner_block body ->
    block_anaphora_in (RLet bs body t) <> [] ->
    match cook (explicit_block block_name (RLet bs body t)) (mkSt s q []) with
    | Done (e, st) => exists bs' body' m, e = ELet bs' body' t /\ pb st = [] /\ parameters block_name (block_anaphora_in (RLet bs body t)) m /\
        cook (RLet bs body t) (mkSt s q []) = obind (process_block m bs' body' t) (fun e => Done (e, st))
    | Error => cook (RLet bs body t) (mkSt s q []) = Error
    | Panic => cook (RLet bs body t) (mkSt s q []) = Panic
    end.
  Proof.
    intros bs body t s q N1 N2 NE. cbn [Model.cook explicit_block pb nonempty].
    assert (G0 : good block_name []) by (split; [constructor|intros a x []]).
    assert (R : relb [] (block_anaphora_in (RLet bs body t))
      (obind (map_st (fun b st => obind (cook (b_expr b) st) (fun '(e, st) => Done (mkBinding (b_name b) e (b_demand b), st))) bs (mkSt s q []))
        (fun '(bs, st) => obind (cook body st) (fun '(body, st) => Done ((bs, body), st))))
      (obind (map_st (fun b st => obind (cook (b_expr b) st) (fun '(e, st) => Done (mkBinding (b_name b) e (b_demand b), st))) (map (map_b (explicit_block block_name)) bs) (mkSt s q []))
        (fun '(bs, st) => obind (cook (explicit_block block_name body) st) (fun '(body, st) => Done ((bs, body), st))))).
    { apply relb_bind.
      - apply bindings_relb; auto. rewrite Forall_forall in *. intros b Hb. apply cook_relb. auto.
      - intros bs' s' q' m' G' _. apply relb_bind_pure; [apply cook_relb; auto|]. intros body' s2 q2 m2 G2 _. apply relb_done, G2. }
    destruct (map_st _ bs (mkSt s q [])) as [[bs1 s1]| |]; destruct (map_st _ (map (map_b (explicit_block block_name)) bs) (mkSt s q [])) as [[bs2 s2]| |]; cbn [obind] in *;
      try destruct (cook body s1) as [[body1 t1]| |]; try destruct (cook (explicit_block block_name body) s2) as [[body2 t2]| |]; cbn [obind relb] in *; try contradiction; auto.
    destruct R as (E & Et & Gr). injection E as -> ->. subst t2. cbn [pb nonempty andb].
    exists bs2, body2, (pb t1). split; auto. split; auto. split; [apply grown_parameters, Gr|].
    assert (NEt : nonempty (pb t1) = true).
    { destruct Gr as (_ & _ & C). destruct (pb t1) as [|x l]; auto. exfalso. destruct (block_anaphora_in (RLet bs body t)) as [|a l]; [congruence|].
      specialize (C a). cbn in C. tauto. }
    rewrite NEt. cbn [negb andb]. reflexivity.
  Qed.

  (** ** Nothing is left over *)
  Lemma cook_exprs_bound : forall r, in_soups r -> forall p e st, cook r (mkSt false [] p) = Done (e, st) ->
    in_scope st = false /\ pe st = [].
  Proof.
    induction r as [v|bs body t IHbs IHb|i ps body IHb|k xs IHxs|u f pr body IHb|b xs IHxs|a|a] using raw_ind'; intros IS p e st E; cbn [Model.cook] in E.
    - injection E as <- <-. auto.
    - cbn [in_soups] in IS. destruct IS as (I1 & I2). apply located_fold in I1.
      assert (F : forall bs' s', map_st (fun b st => obind (cook (b_expr b) st) (fun '(e, st) => Done (mkBinding (b_name b) e (b_demand b), st))) bs (mkSt false [] p) = Done (bs', s') ->
        s' = mkSt false [] (pb s')).
      { clear E. revert p. induction bs as [|b bs IH]; intros p bs' s' E; cbn [map_st] in E; [injection E as <- <-; auto|].
        inversion IHbs as [|? ? H1 H2]; inversion I1 as [|? ? J1 J2]; subst.
        destruct (cook (b_expr b) (mkSt false [] p)) as [[y s1]| |] eqn:Ey; try discriminate E. cbn [obind] in E.
        destruct (H1 J1 _ _ _ Ey) as (A & B). destruct s1 as [i1 q1 p1]. cbn in A, B. subst.
        destruct (map_st _ bs (mkSt false [] p1)) as [[ys s2]| |] eqn:Es; try discriminate E. cbn [obind] in E. injection E as <- <-. eapply IH; eauto. }
      destruct (map_st _ bs _) as [[bs' s']| |] eqn:Ebs; try discriminate E. cbn [obind] in E. specialize (F _ _ eq_refl). rewrite F in E.
      destruct (cook body _) as [[body' s2]| |] eqn:Eb; try discriminate E. cbn [obind] in E. destruct (IHb I2 _ _ _ Eb) as (A & B).
      destruct (nonempty (pb s2) && _); [|injection E as <- <-; auto]. destruct (process_block _ _ _ _); try discriminate E. injection E as <- <-. auto.
    - destruct (cook body _) as [[e' s]| |] eqn:Eb; try discriminate E. injection E as <- <-. eapply IHb; eauto.
    - cbn [in_soups] in IS. apply located_fold in IS.
      assert (F : forall es s', map_st cook xs (mkSt false [] p) = Done (es, s') -> in_scope s' = false /\ pe s' = []).
      { clear E. revert p. induction xs as [|x xs IH]; intros p es s' E; cbn [map_st] in E; [injection E as <- <-; auto|].
        inversion IHxs as [|? ? H1 H2]; inversion IS as [|? ? J1 J2]; subst.
        destruct (cook x (mkSt false [] p)) as [[y s1]| |] eqn:Ey; try discriminate E. cbn [obind] in E.
        destruct (H1 J1 _ _ _ Ey) as (A & B). destruct s1 as [i1 q1 p1]. cbn in A, B. subst.
        destruct (map_st cook xs (mkSt false [] p1)) as [[ys s2]| |] eqn:Es; try discriminate E. cbn [obind] in E. injection E as <- <-. eapply IH; eauto. }
      destruct (map_st cook xs _) as [[es s]| |] eqn:Exs; try discriminate E. injection E as <- <-. eapply F; eauto.
    - destruct (cook body _) as [[e' s]| |] eqn:Eb; try discriminate E. injection E as <- <-. eapply IHb; eauto.
    - destruct (gaps xs) as [gs|] eqn:Eg; [|discriminate E]. cbn [in_scope negb andb orb pe pb] in E.
      destruct (naked gs xs) eqn:Nk.
      + destruct (cook_items cook gs xs _) as [[es s]| |]; try discriminate E. cbn [obind] in E. destruct (assemble shunt b es); try discriminate E. cbn [obind] in E.
        destruct (to_binding_pattern (pe s)); try discriminate E. injection E as <- <-. auto.
      + cbn [in_soups] in IS.
        apply orb_false_elim in Nk. destruct Nk as (Nx & Ng).
        assert (F : forall es s', cook_items cook gs xs (mkSt false [] p) = Done (es, s') -> pe s' = []).
        { assert (Fl : forall g p, match g with FillAna _ => true | _ => false end = false -> exists es, cook_fill g (mkSt false [] p) = (es, mkSt false [] p)).
          { intros [| |a] p' H; try discriminate; cbn; eauto. }
          clear E Eg. revert p gs Ng. induction xs as [|x xs IH]; intros p gs Ng es s' E; destruct gs as [|g gs]; cbn [cook_items] in E;
            try (injection E as <- <-; reflexivity).
          - cbn [existsb] in Ng. apply orb_false_elim in Ng. destruct Ng as (N1 & N2). destruct (Fl g p N1) as (es' & Ef). rewrite Ef in E. injection E as <- <-. reflexivity.
          - cbn [existsb] in Ng, Nx. apply orb_false_elim in Ng, Nx. destruct Ng as (N1 & N2), Nx as (X1 & X2). destruct (Fl g p N1) as (es' & Ef). rewrite Ef in E.
            inversion IHxs as [|? ? H1 H2]; subst. cbn [fold_right] in IS. destruct IS as (J1 & J2).
            destruct (cook x (mkSt false [] p)) as [[y s1]| |] eqn:Ey; try discriminate E. cbn [obind] in E.
            assert (J1' : in_soups x) by (destruct x; auto; discriminate X1).
            destruct (H1 J1' _ _ _ Ey) as (A & B). destruct s1 as [i1 q1 p1]. cbn in A, B. subst.
            destruct (cook_items cook gs xs (mkSt false [] p1)) as [[ys s2]| |] eqn:Es; try discriminate E. cbn [obind] in E. injection E as <- <-. eapply IH; eauto. }
        destruct (cook_items cook gs xs _) as [[es s]| |] eqn:Exs; try discriminate E. cbn [obind] in E. destruct (assemble shunt b es); try discriminate E. cbn [obind] in E.
        injection E as <- <-. cbn. split; auto. eapply F; eauto.
    - destruct IS.
    - unfold cook_block_anaphor in E. cbn [pb in_scope pe] in E. destruct (record "_b" a p) as [x q]. injection E as <- <-. auto.
  Qed.

  Lemma cook_blocks_bound : forall r, in_blocks r -> forall s q e st, cook r (mkSt s q []) = Done (e, st) -> pb st = [].
  Proof.
    induction r as [v|bs body t IHbs IHb|i ps body IHb|k xs IHxs|u f pr body IHb|b xs IHxs|a|a] using raw_ind'; intros IS s q e st E; cbn [Model.cook] in E.
    - injection E as <- <-. auto.
    - destruct (map_st _ bs _) as [[bs' s']| |] eqn:Ebs; try discriminate E. cbn [obind] in E.
      destruct (cook body _) as [[body' s2]| |] eqn:Eb; try discriminate E. cbn [obind pb nonempty negb] in E. rewrite andb_true_r in E.
      destruct (pb s2) as [|y l] eqn:Ep; cbn [nonempty] in E; [injection E as <- <-; auto|].
      destruct (process_block _ _ _ _); try discriminate E. injection E as <- <-. auto.
    - destruct (cook body _) as [[e' s']| |] eqn:Eb; try discriminate E. injection E as <- <-. eapply IHb; eauto.
    - cbn [in_blocks] in IS. apply located_fold in IS.
      assert (F : forall es s', map_st cook xs (mkSt s q []) = Done (es, s') -> pb s' = []).
      { clear E. revert s q. induction xs as [|x xs IH]; intros s q es s' E; cbn [map_st] in E; [injection E as <- <-; auto|].
        inversion IHxs as [|? ? H1 H2]; inversion IS as [|? ? J1 J2]; subst.
        destruct (cook x (mkSt s q [])) as [[y s1]| |] eqn:Ey; try discriminate E. cbn [obind] in E.
        assert (A := H1 J1 _ _ _ _ Ey). destruct s1 as [i1 q1 p1]. cbn in A. subst.
        destruct (map_st cook xs (mkSt i1 q1 [])) as [[ys s2]| |] eqn:Es; try discriminate E. cbn [obind] in E. injection E as <- <-. eapply IH; eauto. }
      destruct (map_st cook xs _) as [[es s']| |] eqn:Exs; try discriminate E. injection E as <- <-. eapply F; eauto.
    - destruct (cook body _) as [[e' s']| |] eqn:Eb; try discriminate E. injection E as <- <-. eapply IHb; eauto.
    - cbn [in_blocks] in IS. apply located_fold in IS. destruct (gaps xs) as [gs|] eqn:Eg; [|discriminate E]. cbn [in_scope pe pb] in E.
      assert (F : forall gs s q es s', cook_items cook gs xs (mkSt s q []) = Done (es, s') -> pb s' = []).
      { assert (Fl : forall g s q, exists es s' q', cook_fill g (mkSt s q []) = (es, mkSt s' q' [])).
        { intros [| |a] s' q'; cbn; eauto. unfold cook_expr_anaphor. cbn. destruct (record "_e" a q'). eauto. }
        clear E Eg gs s q. induction xs as [|x xs IH]; intros gs s q es s' E; destruct gs as [|g gs]; cbn [cook_items] in E; try (injection E as <- <-; reflexivity).
        - destruct (Fl g s q) as (es' & s2 & q2 & Ef). rewrite Ef in E. injection E as <- <-. reflexivity.
        - destruct (Fl g s q) as (es' & s2 & q2 & Ef). rewrite Ef in E.
          inversion IHxs as [|? ? H1 H2]; inversion IS as [|? ? J1 J2]; subst.
          destruct (cook x (mkSt s2 q2 [])) as [[y s1]| |] eqn:Ey; try discriminate E. cbn [obind] in E.
          assert (A := H1 J1 _ _ _ _ Ey). destruct s1 as [i1 q1 p1]. cbn in A. subst.
          destruct (cook_items cook gs xs (mkSt i1 q1 [])) as [[ys s3]| |] eqn:Es; try discriminate E. cbn [obind] in E. injection E as <- <-. eapply IH; eauto. }
      destruct (cook_items cook gs xs _) as [[es s']| |] eqn:Exs; try discriminate E. apply F in Exs. cbn [obind] in E. destruct (assemble shunt b es); try discriminate E. cbn [obind] in E.
      destruct (negb s && naked gs xs); [destruct (to_binding_pattern (pe s')); try discriminate E|]; injection E as <- <-; auto.
    - unfold cook_expr_anaphor in E. cbn [pb in_scope pe] in E. destruct (record "_e" a q) as [x q']. injection E as <- <-. auto.
    - destruct IS.
  Qed.
End Block.
