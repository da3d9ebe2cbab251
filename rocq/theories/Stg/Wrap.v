(** The wrapper of an intrinsic. *)
From Coq Require Import List Bool Arith NArith Lia.
From Verif.Bytecode Require Import Model Spec EncProofs.
From Verif.Machine Require Import Model Spec Name Curry.
From Verif.Stg Require Import Model Spec Rules Proofs Data WrapSpec.
Import ListNotations.
Open Scope nat_scope.

Section Wrap.
Context {native : Type}.
Notation syn := (syn native).
Notation form := (form native).
Notation value := (Spec.value (native := native)).
Notation env := (Spec.env (native := native)).
Variable prim : N -> list native -> prim_result (native := native).
Variable merge : N.
Variable globals : list form.
Notation evals := (evals prim merge globals).
Notation strips := (strips prim merge globals).
Notation variable := (Spec.variable globals).
Notation variables := (Spec.variables globals).
Notation same := (same prim merge globals).
Notation builds := (builds prim merge globals).
Notation handed := (handed prim merge globals).
Notation all_handed := (all_handed prim merge globals).
Notation returns := (returns prim merge globals).

Definition frame_size (s : Spec.scope (native := native)) : nat := match s with Vals vs => length vs | Rec fs => length fs end.
Definition size (e : env) : nat := list_sum (map frame_size e).
Lemma size_cons s e : size (s :: e) = frame_size s + size e.
Proof. reflexivity. Qed.
Lemma lookup_past (pre e : env) i : Machine.Spec.lookup (pre ++ e) (size pre + i) = Machine.Spec.lookup e i.
Proof.
  induction pre as [|s pre IH]; [reflexivity |].
  rewrite size_cons. cbn [List.app Machine.Spec.lookup]. rewrite <- IH.
  destruct s as [vs | fs]; cbn [frame_size].
  - replace (length vs + size pre + i <? length vs) with false by (symmetry; apply Nat.ltb_ge; lia).
    replace (length vs + size pre + i - length vs) with (size pre + i) by lia. reflexivity.
  - replace (length fs + size pre + i <? length fs) with false by (symmetry; apply Nat.ltb_ge; lia).
    replace (length fs + size pre + i - length fs) with (size pre + i) by lia. reflexivity.
Qed.
Lemma size_app a b : size (a ++ b) = size a + size b.
Proof. unfold size. rewrite map_app, list_sum_app. reflexivity. Qed.

(** What happens to one argument. *)
Lemma evaluating_is k s then_ e p w : same (VClo s 0 e) p -> handed (k, true) p w ->
  exists pre, same (VClo (evaluating k s then_) 0 e) (VClo then_ 0 (Vals [w] :: pre ++ e)) /\
    S (size pre) = N.to_nat (layers k).
Proof.
  intros Hs Hh. inversion Hh as [ | p' w' Hp | k' tag p' r w' Ht Hb Hr | p' w' Hp Hn]; subst.
  - exists []. split; [| reflexivity]. apply same_force. eapply strips_of; eassumption.
  - exists [Vals [r]]. split; [| destruct k; try discriminate Ht; reflexivity].
    pose proof (builds_of prim merge globals _ _ _ _ Hs Hb) as Hb'.
    destruct k; try discriminate Ht; injection Ht as <-; cbn [evaluating];
      (eapply same_trans; [eapply same_case; [exact Hb' | reflexivity] |]);
      (apply same_force; eapply strips_atom; [reflexivity | exact Hr]).
  - exists [Vals [w]]. split; [| reflexivity]. cbn [evaluating].
    eapply same_trans; [eapply same_fallback; [eapply strips_of; [exact Hs | exact Hp] |] |].
    + eapply selects_none; [exact Hp |]. intros tag [<- | []]. exact Hn.
    + apply same_force. eapply strips_atom; [reflexivity | eapply strips_self; exact Hp].
Qed.
Lemma case_needs scr bs fb e v : evals (VClo (SCase scr bs fb) 0 e) v ->
  (exists tag fs b, builds (VClo scr 0 e) tag fs /\ branch_for tag bs = Some b /\ evals (VClo b 0 (bind fs e)) v) \/
  (exists w f, fb = Some f /\ strips (VClo scr 0 e) w /\ selects w bs = None /\ evals (VClo f 0 (Vals [w] :: e)) v).
Proof.
  intros H. inversion H; subst; try lia.
  - left. eexists _, _, _. split; [eexists _, _; split; eassumption | split; eassumption].
  - right. eexists _, _. repeat split; eassumption.
Qed.
Lemma force_needs scr then_ e v : evals (VClo (force scr then_) 0 e) v -> exists w, strips (VClo scr 0 e) w.
Proof.
  intros H. destruct (case_needs _ _ _ _ _ H) as [(tag & fs & b & Hb & Hn & _) | (w & f & _ & Hw & _)]; [discriminate Hn | eauto].
Qed.
Lemma same_builds p q tag fs : same p q -> builds p tag fs -> builds q tag fs.
Proof. intros H. apply builds_of, same_sym, H. Qed.
Lemma branch_one tag tag' (b c : syn) : branch_for tag [(tag', b)] = Some c -> tag = tag' /\ c = b.
Proof. intros H. apply branch_for_in in H. cbn in H. destruct H as [[= <- <-] | []]. auto. Qed.
Lemma evaluating_needs k s then_ e p v : same (VClo s 0 e) p -> evals (VClo (evaluating k s then_) 0 e) v ->
  well_boxed prim merge globals p -> exists w, handed (k, true) p w.
Proof.
  intros Hs H Hw.
  assert (Hunbox : forall tag fb, box_tag k = Some tag -> evals (VClo (SCase s [(tag, force (local 0) then_)] fb) 0 e) v ->
    (exists w, handed (k, true) p w) \/ (exists w f, fb = Some f /\ strips p w /\ selects w [(tag, force (local 0) then_)] = None)).
  { intros tag fb Ht H1. destruct (case_needs _ _ _ _ _ H1) as [(tag' & fs & b & Hb & Hn & He) | (w & f & Hf & Hst & Hsel & _)].
    - left. apply branch_one in Hn as [-> ->]. apply (same_builds _ _ _ _ Hs) in Hb.
      destruct (Hw k tag fs Ht Hb) as [r ->]. cbn [bind] in He.
      destruct (force_needs _ _ _ _ He) as [w Hst]. exists w. eapply ha_boxed; [exact Ht | exact Hb |].
      eapply strips_of; [| exact Hst]. apply same_sym, same_atom. reflexivity.
    - right. exists w, f. split; [exact Hf |]. split; [| exact Hsel]. eapply strips_of; [apply same_sym; exact Hs | exact Hst]. }
  destruct k; cbn [evaluating] in H.
  - destruct (Hunbox _ _ eq_refl H) as [Hh | (w & f & _ & Hst & Hsel)]; [exact Hh |].
    exists w. apply ha_bare; [exact Hst |]. intros (args & e1 & Hst').
    rewrite (strips_unique prim merge globals _ _ _ Hst Hst') in Hsel. discriminate Hsel.
  - destruct (Hunbox _ _ eq_refl H) as [Hh | (w & f & Hf & _)]; [exact Hh | discriminate Hf].
  - destruct (Hunbox _ _ eq_refl H) as [Hh | (w & f & Hf & _)]; [exact Hh | discriminate Hf].
  - destruct (Hunbox _ _ eq_refl H) as [Hh | (w & f & Hf & _)]; [exact Hh | discriminate Hf].
  - destruct (force_needs _ _ _ _ H) as [w Hst]. exists w. apply ha_plain.
    eapply strips_of; [apply same_sym; exact Hs | exact Hst].
Qed.

(** All of them. *)
Fixpoint total (tys : list (ty * bool)) : nat :=
  match tys with
  | [] => 0
  | (k, true) :: tys => N.to_nat (layers k) + total tys
  | (_, false) :: tys => total tys
  end.
Lemma depth_is tys : forall o, N.to_nat (last (o :: offsets_from o tys) 0%N) = N.to_nat o + total tys.
Proof.
  induction tys as [|[k []] tys IH]; intros o; cbn [offsets_from total].
  - cbn. lia.
  - change (last (o :: (o + layers k)%N :: offsets_from (o + layers k) tys) 0%N) with (last ((o + layers k)%N :: offsets_from (o + layers k) tys) 0%N).
    rewrite IH. lia.
  - apply IH.
Qed.

Lemma nest_is all body : forall tys i o ps qs done e, all = done ++ ps -> N.to_nat i = length done ->
  N.to_nat o = size e -> all_handed tys ps qs ->
  exists pre, same (VClo (nest i o tys body) 0 (e ++ [Vals all])) (VClo body 0 (pre ++ e ++ [Vals all])) /\
    size pre = total tys /\
    forall d, N.to_nat d = size e + total tys ->
      variables (pre ++ e ++ [Vals all]) (arg_refs i d (offsets_from o tys) tys) = Some qs.
Proof.
  induction tys as [|[k strict] tys IH]; intros i o ps qs done e Hall Hi Ho Hh.
  - inversion Hh; subst. exists []. split; [apply same_refl | split; [reflexivity | intros; reflexivity]].
  - inversion Hh as [| ? ? p ps' q qs' Hp Hps]; subst.
    assert (Harg : forall pre r, N.to_nat r = size pre + length done ->
      variable (pre ++ [Vals (done ++ p :: ps')]) (RL r) = Some p).
    { intros pre r Hr. cbn [Spec.variable]. rewrite Hr, lookup_past. cbn [Machine.Spec.lookup].
      replace (length done <? length (done ++ p :: ps')) with true by (symmetry; apply Nat.ltb_lt; rewrite app_length; cbn; lia).
      rewrite nth_error_app2 by lia. rewrite Nat.sub_diag. reflexivity. }
    destruct strict.
    + cbn [nest].
      destruct (evaluating_is k (local (o + i)) (nest (i + 1) (o + layers k) tys body) (e ++ [Vals (done ++ p :: ps')]) p q)
        as (mid & Hsame & Hsize); [| exact Hp |].
      { apply same_atom. apply Harg. lia. }
      destruct (IH (i + 1)%N (o + layers k)%N ps' qs' (done ++ [p]) (Vals [q] :: mid ++ e)) as (pre & Hs & Hsz & Hv).
      { rewrite <- app_assoc. reflexivity. }
      { rewrite app_length. cbn. lia. }
      { rewrite size_cons, size_app. cbn [frame_size length]. lia. }
      { exact Hps. }
      exists (pre ++ Vals [q] :: mid). split; [| split].
      * eapply same_trans; [exact Hsame |].
        replace (mid ++ e ++ [Vals (done ++ p :: ps')]) with ((mid ++ e) ++ [Vals (done ++ p :: ps')]) by (symmetry; apply app_assoc).
        change (Vals [q] :: (mid ++ e) ++ [Vals (done ++ p :: ps')]) with ((Vals [q] :: mid ++ e) ++ [Vals (done ++ p :: ps')]).
        eapply same_trans; [exact Hs |].
        replace (pre ++ (Vals [q] :: mid ++ e) ++ [Vals (done ++ p :: ps')])
          with ((pre ++ Vals [q] :: mid) ++ e ++ [Vals (done ++ p :: ps')]); [apply same_refl |].
        rewrite <- !app_assoc. cbn. rewrite <- !app_assoc. reflexivity.
      * rewrite size_app, size_cons. cbn [total frame_size length]. lia.
      * intros d Hd. cbn [offsets_from arg_refs variables].
        assert (Heq : (pre ++ Vals [q] :: mid) ++ e ++ [Vals (done ++ p :: ps')] = pre ++ (Vals [q] :: mid ++ e) ++ [Vals (done ++ p :: ps')]).
        { rewrite <- !app_assoc. cbn. rewrite <- !app_assoc. reflexivity. }
        rewrite Heq. cbn [total] in Hd.
        assert (Hone : variable (pre ++ (Vals [q] :: mid ++ e) ++ [Vals (done ++ p :: ps')]) (lref (d - (o + layers k))) = Some q).
        { cbn [lref Spec.variable]. replace (N.to_nat (d - (o + layers k))) with (size pre + 0) by lia.
          rewrite lookup_past. reflexivity. }
        rewrite Hone. rewrite (Hv d); [reflexivity |].
        rewrite size_cons, size_app. cbn [frame_size length]. lia.
    + inversion Hp; subst. cbn [nest].
      destruct (IH (i + 1)%N o ps' qs' (done ++ [q]) e) as (pre & Hs & Hsz & Hv).
      { rewrite <- app_assoc. reflexivity. }
      { rewrite app_length. cbn. lia. }
      { exact Ho. }
      { exact Hps. }
      exists pre. split; [exact Hs |]. split; [exact Hsz |].
      intros d Hd. cbn [offsets_from arg_refs variables].
      assert (Hone : variable (pre ++ e ++ [Vals (done ++ q :: ps')]) (lref (d + i)) = Some q).
      { rewrite app_assoc. apply Harg. rewrite size_app. cbn [total] in Hd. lia. }
      rewrite Hone, (Hv d Hd). reflexivity.
Qed.
Lemma nest_needs all body : forall tys i o ps done e v, all = done ++ ps -> N.to_nat i = length done ->
  N.to_nat o = size e -> length ps = length tys -> Forall (well_boxed prim merge globals) ps ->
  evals (VClo (nest i o tys body) 0 (e ++ [Vals all])) v -> exists qs, all_handed tys ps qs.
Proof.
  induction tys as [|[k strict] tys IH]; intros i o ps done e v Hall Hi Ho Hlen Hw Hv.
  - destruct ps; [| discriminate]. exists []. constructor.
  - destruct ps as [|p ps]; [discriminate |]. inversion Hw as [| ? ? Hwp Hwps]; subst. injection Hlen as Hlen.
    destruct strict; cbn [nest] in Hv.
    + assert (Hsame : same (VClo (local (o + i)) 0 (e ++ [Vals (done ++ p :: ps)])) p).
      { apply same_atom. cbn [Spec.variable]. replace (N.to_nat (o + i)) with (size e + length done) by lia. rewrite lookup_past. cbn [Machine.Spec.lookup].
        replace (length done <? length (done ++ p :: ps)) with true by (symmetry; apply Nat.ltb_lt; rewrite app_length; cbn; lia).
        rewrite nth_error_app2 by lia. rewrite Nat.sub_diag. reflexivity. }
      destruct (evaluating_needs _ _ _ _ _ _ Hsame Hv Hwp) as [w Hw'].
      destruct (evaluating_is k _ (nest (i + 1) (o + layers k) tys body) _ _ _ Hsame Hw') as (mid & Hs & Hsize).
      apply Hs in Hv.
      replace (Vals [w] :: mid ++ e ++ [Vals (done ++ p :: ps)]) with ((Vals [w] :: mid ++ e) ++ [Vals (done ++ p :: ps)]) in Hv
        by (cbn; rewrite <- app_assoc; reflexivity).
      apply (IH _ _ ps (done ++ [p])) in Hv as [qs Hqs]; [| | | | exact Hlen | exact Hwps].
      * exists (w :: qs). constructor; assumption.
      * rewrite <- app_assoc. reflexivity.
      * rewrite app_length. cbn. lia.
      * rewrite size_cons, size_app. cbn [frame_size length]. lia.
    + apply (IH _ _ ps (done ++ [p])) in Hv as [qs Hqs]; [| | | | exact Hlen | exact Hwps].
      * exists (p :: qs). constructor; [constructor | exact Hqs].
      * rewrite <- app_assoc. reflexivity.
      * rewrite app_length. cbn. lia.
      * exact Ho.
Qed.

Lemma bif_returns e i refs qs v : variables e refs = Some qs -> (evals (VClo (app_bif i refs) 0 e) v <-> returns i qs v).
Proof.
  intros H. split.
  - intros Hv. inversion Hv; subst; try lia. rewrite H in *.
    match goal with H1 : Some _ = Some _ |- _ => injection H1 as <- end. eexists. split; eassumption.
  - intros (ns & Hn & Hd). eapply ev_primitive; eassumption.
Qed.

Section Calls.
Variables (i : N) (tys : list (ty * bool)) (ret : ty).
Hypothesis Hg : nth_error globals (N.to_nat i) = Some (wrap i tys ret).
Hypothesis Hne : tys <> [].
Lemma wrap_lambda : wrap (native := native) i tys ret = lambda (N.of_nat (length tys))
  (nest 0 0 tys (boxing ret (app_bif i (arg_refs 0 (depth tys) (offsets_from 0 tys) tys)))).
Proof. destruct tys; [congruence | reflexivity]. Qed.
Lemma call_enters e refs ps : variables e refs = Some ps -> length ps = length tys ->
  same (VClo (call i refs) 0 e) (VClo (nest 0 0 tys (boxing ret (app_bif i (arg_refs 0 (depth tys) (offsets_from 0 tys) tys)))) 0 [Vals ps]).
Proof.
  intros Hv Hl. pose proof (variables_length _ _ _ _ Hv) as Hlen.
  eapply same_call; [rewrite <- wrap_lambda; exact Hg | rewrite Nat2N.id; lia | | exact Hv].
  rewrite <- Hlen, Hl. destruct tys; [congruence | cbn; lia].
Qed.
Lemma all_handed_length tys' ps qs : all_handed tys' ps qs -> length ps = length tys'.
Proof. induction 1; cbn; congruence. Qed.
Lemma call_runs e refs ps qs : variables e refs = Some ps -> all_handed tys ps qs ->
  exists e' refs', same (VClo (call i refs) 0 e) (VClo (boxing ret (app_bif i refs')) 0 e') /\ variables e' refs' = Some qs.
Proof.
  intros Hv Hh. pose proof (all_handed_length _ _ _ Hh) as Hl.
  destruct (nest_is ps (boxing ret (app_bif i (arg_refs 0 (depth tys) (offsets_from 0 tys) tys))) tys 0 0 ps qs [] []
    eq_refl eq_refl eq_refl Hh) as (pre & Hs & Hsz & Hd).
  eexists _, _. split; [eapply same_trans; [apply call_enters; eassumption | exact Hs] |].
  apply Hd. unfold depth. rewrite depth_is. reflexivity.
Qed.
Lemma call_needs e refs ps v : variables e refs = Some ps -> length ps = length tys -> Forall (well_boxed prim merge globals) ps ->
  evals (VClo (call i refs) 0 e) v -> exists qs, all_handed tys ps qs.
Proof.
  intros Hv Hl Hw He. apply (call_enters e refs ps Hv Hl) in He.
  eapply (nest_needs ps _ tys 0 0 ps [] [] v); try reflexivity; [exact Hl | exact Hw | exact He].
Qed.
End Calls.
Lemma handed_unique t p q q' : handed t p q -> handed t p q' -> q = q'.
Proof.
  intros H1 H2. inversion H1; subst; inversion H2; subst; try reflexivity; try discriminate;
    try (eapply strips_unique; eassumption).
  - assert (tag0 = tag) by congruence. subst.
    match goal with A : builds _ tag [?a], B : builds _ tag [?b] |- _ => destruct (builds_unique prim merge globals _ _ _ _ _ A B) as [_ [= ->]] end.
    eapply strips_unique; eassumption.
  - exfalso. match goal with A : builds _ _ _, B : ~ _, C : box_tag _ = _ |- _ => apply B; destruct A as (a & e1 & Hs & _); injection C as <-; eexists _, _; exact Hs end.
  - exfalso. match goal with A : builds _ _ _, B : ~ _, C : box_tag _ = _ |- _ => apply B; destruct A as (a & e1 & Hs & _); injection C as <-; eexists _, _; exact Hs end.
Qed.
Lemma all_handed_unique tys ps qs : all_handed tys ps qs -> forall qs', all_handed tys ps qs' -> qs = qs'.
Proof.
  induction 1 as [| ty tys p ps q qs Hp _ IH]; intros qs' H; inversion H; subst; [reflexivity |].
  f_equal; [eapply handed_unique; eassumption | auto].
Qed.
End Wrap.
