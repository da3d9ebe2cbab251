(** Proofs about strongly connected components. *)
From Coq Require Import List Bool Arith Lia.
From Verif.Simplify Require Import Compress.
From Verif.Letrec Require Import Tarjan TarjanSpec.
Import ListNotations.
Local Arguments Nat.eqb : simpl never.
Local Arguments Nat.leb : simpl never.
Local Arguments Nat.ltb : simpl never.
Local Arguments Nat.min : simpl never.

Lemma upd_same {A} (f : nat -> A) v a : upd f v a v = a.
Proof. unfold upd. rewrite Nat.eqb_refl. reflexivity. Qed.
Lemma upd_other {A} (f : nat -> A) v a x : x <> v -> upd f v a x = f x.
Proof. unfold upd. destruct (Nat.eqb_spec x v); congruence. Qed.
Lemma pop_to_app v s b : ~ In v s -> pop_to v (s ++ v :: b) = Some (s ++ [v], b).
Proof.
  induction s as [|w s IH]; intros H; cbn.
  - rewrite Nat.eqb_refl. reflexivity.
  - destruct (Nat.eqb_spec w v) as [E|E]; [exfalso; apply H; left; auto|].
    rewrite IH by (intros K; apply H; right; auto). reflexivity.
Qed.
Lemma filter_le {A} (p q : A -> bool) l : (forall x, In x l -> q x = true -> p x = true) ->
  List.length (filter q l) <= List.length (filter p l).
Proof.
  induction l as [|x l IH]; intros H; cbn; auto. assert (IH' := IH (fun y Hy => H y (or_intror Hy))).
  pose proof (H x (or_introl eq_refl)). destruct (q x), (p x); cbn; try lia.
Qed.
Lemma filter_lt {A} (p q : A -> bool) l v : (forall x, In x l -> q x = true -> p x = true) -> In v l -> p v = true -> q v = false ->
  List.length (filter q l) < List.length (filter p l).
Proof.
  induction l as [|x l IH]; intros H Hv P Q; [destruct Hv|]. cbn.
  pose proof (H x (or_introl eq_refl)). assert (IH' := fun h => IH (fun y Hy => H y (or_intror Hy)) h P Q).
  pose proof (filter_le p q l (fun y Hy => H y (or_intror Hy))).
  destruct Hv as [->|Hv]; [rewrite P, Q; cbn; lia|]. specialize (IH' Hv). destruct (q x), (p x); cbn; try lia.
Qed.

Lemma NoDup_app_intro {A} (l m : list A) : NoDup l -> NoDup m -> (forall x, In x l -> ~ In x m) -> NoDup (l ++ m).
Proof.
  induction l as [|x l IH]; cbn; intros H1 H2 D; auto. inversion H1; subst. constructor.
  - intros K. apply in_app_or in K. destruct K as [K|K]; [contradiction|]. apply (D x); auto.
  - apply IH; auto.
Qed.
Lemma NoDup_app_left {A} (l m : list A) : NoDup (l ++ m) -> NoDup l.
Proof.
  induction l as [|x l IH]; intros H; [constructor|]. inversion H; subst. constructor; auto.
  intros K. apply H2, in_or_app; auto.
Qed.

Section Graph.
  Variable deps : list (list nat).
  Hypothesis R : in_range deps.
  Notation n := (List.length deps).
  Notation E := (edge deps).
  Notation reach := (reaches deps).

  Lemma reach_one x y : E x y -> reach x y.
  Proof. intros H. eapply reach_step; [exact H|constructor]. Qed.
  Lemma reach_trans x y z : reach x y -> reach y z -> reach x z.
  Proof. induction 1; auto. intros. eapply reach_step; eauto. Qed.

  Definition visited (st : tstate) (x : nat) : Prop := index st x <> None.
  Definition ix (st : tstate) (x : nat) : nat := match index st x with Some i => i | None => 0 end.
  Definition finished (st : tstate) (x : nat) : Prop := In x (concat (sccs st)).
  Record Inv (gray : list nat) (st : tstate) : Prop := {
    i_nodup : NoDup (stack st);
    i_on : forall x, on_stack st x = true <-> In x (stack st);
    i_stack : forall x, In x (stack st) -> visited st x;
    i_sorted : forall a x b, stack st = a ++ x :: b -> forall y, In y b -> ix st y < ix st x;
    i_counter : forall x i, index st x = Some i -> i < counter st;
    i_range : forall x, visited st x -> x < n;
    i_gray : forall g, In g gray -> In g (stack st);
    i_gray_reach : forall g x, In g gray -> In x (stack st) -> ix st g <= ix st x -> reach g x;
    i_black : forall x, In x (stack st) -> exists g, In g gray /\ ix st g <= ix st x /\ reach x g;
    i_succ : forall x y, visited st x -> ~ In x gray -> E x y -> visited st y;
    i_done : forall x, visited st x -> ~ In x (stack st) <-> finished st x;
    i_finished : forall x, finished st x -> visited st x;
    i_distinct : NoDup (concat (sccs st));
    i_order : forall l c l', sccs st = l ++ c :: l' -> forall x y, In x c -> E x y -> In y c \/ In y (concat l);
    i_scc : forall c, In c (sccs st) -> c <> [] /\ forall x y, In x c -> (In y c <-> mutual deps x y) }.

  Lemma order_stack gray st a x b y : Inv gray st -> stack st = a ++ x :: b -> In y (stack st) -> ix st y < ix st x -> In y b.
  Proof.
    intros I Es Hy L. rewrite Es in Hy. apply in_app_or in Hy. destruct Hy as [Hy|[->|Hy]]; auto; [|lia].
    apply in_split in Hy. destruct Hy as (a1 & a2 & ->). rewrite <- app_assoc in Es. cbn in Es.
    pose proof (i_sorted _ _ I _ _ _ Es x ltac:(apply in_or_app; right; left; auto)). lia.
  Qed.
  (** Finished vertices only reach finished vertices. *)
  Lemma finished_closed gray st x y : Inv gray st -> finished st x -> E x y -> finished st y.
  Proof.
    intros I H Exy. unfold finished in *. apply in_concat in H. destruct H as (c & Hc & Hx). apply in_split in Hc. destruct Hc as (l & l' & Es).
    destruct (i_order _ _ I _ _ _ Es x y Hx Exy) as [K|K]; rewrite Es, concat_app; apply in_or_app; [right|left; auto].
    cbn. apply in_or_app. auto.
  Qed.
  Lemma finished_reach gray st x y : Inv gray st -> finished st x -> reach x y -> finished st y.
  Proof. intros I H P. induction P; auto. apply IHP. eapply finished_closed; eauto. Qed.

  (** What a step keeps. *)
  Record ext (st st' : tstate) : Prop := {
    x_index : forall x i, index st x = Some i -> index st' x = Some i;
    x_low : forall x, visited st x -> lowlink st' x = lowlink st x;
    x_sccs : exists l, sccs st' = sccs st ++ l;
    x_counter : counter st <= counter st';
    x_new : forall x, index st x = None -> visited st' x -> counter st <= ix st' x }.
  Lemma x_ix st st' x : ext st st' -> visited st x -> ix st' x = ix st x.
  Proof. intros X V. unfold ix, visited in *. destruct (index st x) as [i|] eqn:E1; [|congruence]. rewrite (x_index _ _ X _ _ E1). reflexivity. Qed.
  Lemma x_visited st st' x : ext st st' -> visited st x -> visited st' x.
  Proof. intros X V. unfold visited in *. destruct (index st x) as [i|] eqn:E1; [|congruence]. rewrite (x_index _ _ X _ _ E1). discriminate. Qed.

  Record Post (gray : list nat) (v : nat) (st st' : tstate) : Prop := {
    p_inv : Inv gray st';
    p_ext : ext st st';
    p_visited : visited st' v;
    p_low : lowlink st' v <= ix st' v;
    p_stack : exists s, stack st' = s ++ stack st /\ (forall x, In x s -> counter st <= ix st' x) /\
      (forall x y, In x s -> In y (stack st) -> E x y -> lowlink st' v <= ix st y) /\
      (lowlink st' v = ix st' v -> s = []) /\
      (lowlink st' v < ix st' v -> exists y, In y (stack st) /\ ix st y = lowlink st' v /\ reach v y) }.

  (** While the successors of [v] are processed. *)
  Record Loop (gray : list nat) (v : nat) (st0 st : tstate) (ws : list nat) : Prop := {
    l_inv : Inv (v :: gray) st;
    l_fresh : index st0 v = None;
    l_ext : forall x i, index st0 x = Some i -> index st x = Some i;
    l_lows : forall x, visited st0 x -> lowlink st x = lowlink st0 x;
    l_sccs : exists l, sccs st = sccs st0 ++ l;
    l_counter : counter st0 < counter st;
    l_new : forall x, index st0 x = None -> visited st x -> counter st0 <= ix st x;
    l_index : index st v = Some (counter st0);
    l_low : lowlink st v <= counter st0;
    l_stack : exists s, stack st = s ++ v :: stack st0 /\
      (forall x y, In x s -> In y (stack st0) -> E x y -> lowlink st v <= ix st0 y) /\
      (lowlink st v < counter st0 -> exists y, In y (stack st0) /\ ix st0 y = lowlink st v /\ reach v y);
    l_done : forall w, In w ws -> visited st w /\ (In w (stack st0) -> lowlink st v <= ix st0 w) }.

  Lemma lower_inv gray v i st : Inv gray st -> Inv gray (lower v i st).
  Proof. intros [? ? ? ? ? ? ? ? ? ? ? ? ? ? ?]. split; auto. Qed.

  Lemma visit_loop gray v st : Inv gray st -> v < n -> index st v = None -> (forall g, In g gray -> reach g v) ->
    Loop gray v st (visit v st) [].
  Proof.
    intros I Lv Nv Gv.
    assert (Vx : forall x, x <> v -> index (visit v st) x = index st x) by (intros x Hx; cbn; apply upd_other, Hx).
    assert (Vv : index (visit v st) v = Some (counter st)) by (cbn; apply upd_same).
    assert (Ns : ~ In v (stack st)) by (intros H; apply (i_stack _ _ I v H); auto).
    assert (Ix : forall x, In x (stack st) -> ix (visit v st) x = ix st x).
    { intros x Hx. unfold ix. rewrite Vx; auto. intros ->. contradiction. }
    assert (Ixv : ix (visit v st) v = counter st) by (unfold ix; rewrite Vv; auto).
    assert (Lt : forall x, In x (stack st) -> ix st x < counter st).
    { intros x Hx. pose proof (i_stack _ _ I x Hx) as V. unfold visited, ix in *. destruct (index st x) as [i|] eqn:E1; [|congruence]. eapply i_counter; eauto. }
    split.
    - split.
      + constructor; [auto|apply (i_nodup _ _ I)].
      + intros x. cbn [on_stack stack visit]. destruct (Nat.eq_dec x v) as [->|Hx]; [rewrite upd_same; cbn; tauto|].
        rewrite upd_other by auto. rewrite (i_on _ _ I). cbn. intuition congruence.
      + intros x [<-|Hx]; unfold visited; [rewrite Vv; discriminate|]. rewrite Vx; [apply (i_stack _ _ I x Hx)|]. intros ->. contradiction.
      + intros a x b Es y Hy. cbn [stack visit] in Es. destruct a as [|z a]; cbn in Es; injection Es as <- Es.
        * subst b. rewrite Ixv, Ix by auto. auto.
        * assert (In x (stack st)) by (rewrite Es; apply in_or_app; right; left; auto).
          assert (In y (stack st)) by (rewrite Es; apply in_or_app; right; right; auto). rewrite !Ix by auto. eapply (i_sorted _ _ I); eauto.
      + intros x i Hx. cbn [counter visit]. destruct (Nat.eq_dec x v) as [->|Hv]; [rewrite Vv in Hx; injection Hx as <-; lia|].
        rewrite Vx in Hx by auto. pose proof (i_counter _ _ I _ _ Hx). lia.
      + intros x Hx. destruct (Nat.eq_dec x v) as [->|Hv]; auto. unfold visited in Hx. rewrite Vx in Hx by auto. apply (i_range _ _ I), Hx.
      + intros g [<-|Hg]; cbn; auto. right. apply (i_gray _ _ I), Hg.
      + intros g x Hg Hx L. destruct Hx as [<-|Hx].
        * destruct Hg as [<-|Hg]; [constructor|auto].
        * destruct Hg as [<-|Hg]; [rewrite Ixv, Ix in L by auto; pose proof (Lt x Hx); lia|].
          rewrite !Ix in L by (auto; apply (i_gray _ _ I); auto). apply (i_gray_reach _ _ I); auto.
      + intros x [<-|Hx]; [exists v; repeat split; cbn; auto; constructor|].
        destruct (i_black _ _ I x Hx) as (g & Hg & L & P). exists g. split; [right; auto|]. split; auto. rewrite !Ix by (auto; apply (i_gray _ _ I); auto). auto.
      + intros x y Hx Ng Exy. assert (x <> v) by (intros ->; apply Ng; left; auto).
        unfold visited in *. rewrite Vx in Hx by auto. destruct (Nat.eq_dec y v) as [->|Hv]; [rewrite Vv; discriminate|].
        rewrite Vx by auto. eapply (i_succ _ _ I); eauto. intros Hg. apply Ng. right; auto.
      + intros x Hx. cbn [stack visit]. unfold finished. cbn [sccs visit]. destruct (Nat.eq_dec x v) as [->|Hv].
        * split; [intros H; exfalso; apply H; left; auto|]. intros H. exfalso. apply (i_finished _ _ I v H). auto.
        * unfold visited in Hx. rewrite Vx in Hx by auto. rewrite <- (i_done _ _ I x Hx). cbn. intuition congruence.
      + intros x Hx. unfold finished in Hx. cbn [sccs visit] in Hx. pose proof (i_finished _ _ I x Hx) as K.
        destruct (Nat.eq_dec x v) as [->|Hv]; [congruence|]. unfold visited. rewrite Vx; auto.
      + apply (i_distinct _ _ I).
      + apply (i_order _ _ I).
      + apply (i_scc _ _ I).
    - exact Nv.
    - intros x i Hx. rewrite Vx; auto. intros ->. congruence.
    - intros x Hx. cbn. apply upd_other. intros ->. contradiction.
    - exists []. rewrite app_nil_r. reflexivity.
    - cbn. lia.
    - intros x Hx Vis. destruct (Nat.eq_dec x v) as [->|Hv]; [rewrite Ixv; lia|]. unfold visited in Vis. rewrite Vx in Vis by auto. congruence.
    - exact Vv.
    - cbn. rewrite upd_same. lia.
    - exists []. split; [reflexivity|]. split; [intros x y []|]. cbn. rewrite upd_same. lia.
    - intros w [].
  Qed.

  Lemma gray_lt gray v st0 st s x : Loop gray v st0 st x -> stack st = s ++ v :: stack st0 ->
    ix st v = counter st0 /\ (forall y, In y (stack st0) -> ix st0 y < counter st0 /\ ix st y = ix st0 y) /\ forall y, In y s -> counter st0 < ix st y.
  Proof.
    intros L Es. assert (Iv : ix st v = counter st0) by (unfold ix; rewrite (l_index _ _ _ _ _ L); auto).
    split; auto. split.
    - intros y Hy. pose proof (i_sorted _ _ (l_inv _ _ _ _ _ L) _ _ _ Es y Hy) as Lt.
      assert (Ey : ix st y = ix st0 y).
      { destruct (index st0 y) as [i|] eqn:Ei.
        - unfold ix. rewrite Ei, (l_ext _ _ _ _ _ L _ _ Ei). auto.
        - exfalso. assert (V : visited st y) by (apply (i_stack _ _ (l_inv _ _ _ _ _ L)); rewrite Es; apply in_or_app; right; right; auto).
          pose proof (l_new _ _ _ _ _ L y Ei V). lia. }
      split; auto. lia.
    - intros y Hy. apply in_split in Hy. destruct Hy as (a & b & ->). rewrite <- app_assoc in Es. cbn in Es.
      pose proof (i_sorted _ _ (l_inv _ _ _ _ _ L) _ _ _ Es v ltac:(apply in_or_app; right; left; auto)). lia.
  Qed.

  Lemma step_seen gray v st0 st ws w i : Loop gray v st0 st ws -> E v w -> index st w = Some i ->
    Loop gray v st0 (if on_stack st w then lower v i st else st) (ws ++ [w]).
  Proof.
    intros L Evw Hi. destruct (l_stack _ _ _ _ _ L) as (s & Es & S1 & S2).
    destruct (gray_lt _ _ _ _ _ _ L Es) as (Iv & I0 & Is). pose proof (l_inv _ _ _ _ _ L) as I.
    assert (Iw : ix st w = i) by (unfold ix; rewrite Hi; auto).
    destruct (on_stack st w) eqn:Eo.
    - apply (i_on _ _ I) in Eo.
      split; cbn [index counter sccs stack lower lowlink]; try rewrite upd_same.
      + apply lower_inv, I.
      + apply (l_fresh _ _ _ _ _ L).
      + apply (l_ext _ _ _ _ _ L).
      + intros x Hx. rewrite upd_other; [apply (l_lows _ _ _ _ _ L), Hx|]. intros ->. apply Hx, (l_fresh _ _ _ _ _ L).
      + apply (l_sccs _ _ _ _ _ L).
      + apply (l_counter _ _ _ _ _ L).
      + apply (l_new _ _ _ _ _ L).
      + apply (l_index _ _ _ _ _ L).
      + pose proof (l_low _ _ _ _ _ L). lia.
      + exists s. split; auto. split.
        * intros x y Hx Hy Exy. pose proof (S1 x y Hx Hy Exy). lia.
        * intros Lt. destruct (Nat.le_gt_cases (lowlink st v) i) as [Le|Gt].
          -- rewrite Nat.min_l in * by auto. apply S2; auto.
          -- rewrite Nat.min_r in * by lia. exists w. assert (Hw : In w (stack st0)) by (eapply order_stack; eauto; lia).
             destruct (I0 w Hw) as [_ K]. split; auto. split; [lia|]. apply reach_one, Evw.
      + intros u Hu. apply in_app_or in Hu. destruct Hu as [Hu|[<-|[]]].
        * destruct (l_done _ _ _ _ _ L u Hu) as [V K]. split; auto. intros Hs. specialize (K Hs). lia.
        * split; [unfold visited; cbn; congruence|]. intros Hs. destruct (I0 w Hs) as [_ K]. lia.
    - destruct L. split; auto. intros u Hu. apply in_app_or in Hu. destruct Hu as [Hu|[<-|[]]]; auto.
      split; [unfold visited; congruence|]. intros Hs. exfalso.
      assert (on_stack st w = true) by (apply (i_on _ _ I); rewrite Es; apply in_or_app; right; right; auto). congruence.
  Qed.

  Lemma step_call gray v st0 st ws w st1 : Loop gray v st0 st ws -> E v w -> index st w = None -> Post (v :: gray) w st st1 ->
    Loop gray v st0 (lower v (lowlink st1 w) st1) (ws ++ [w]).
  Proof.
    intros L Evw Hi P. destruct (l_stack _ _ _ _ _ L) as (s & Es & S1 & S2).
    destruct (gray_lt _ _ _ _ _ _ L Es) as (Iv & I0 & Is). pose proof (l_inv _ _ _ _ _ L) as I.
    destruct (p_stack _ _ _ _ P) as (s1 & Es1 & T0 & T1 & T2 & T3). pose proof (p_ext _ _ _ _ P) as X.
    assert (Vv : visited st v) by (unfold visited; rewrite (l_index _ _ _ _ _ L); discriminate).
    assert (Lv : lowlink st1 v = lowlink st v) by (apply (x_low _ _ X), Vv).
    assert (Iy : forall y, In y (stack st0) -> ix st y = ix st0 y) by (intros y Hy; apply I0, Hy).
    assert (Sy : forall y, In y (stack st0) -> In y (stack st)) by (intros y Hy; rewrite Es; apply in_or_app; right; right; auto).
    pose proof (l_counter _ _ _ _ _ L) as C1.
    assert (Vm : forall x, visited st0 x -> visited st x).
    { intros x Hx. unfold visited in *. destruct (index st0 x) as [j|] eqn:Ej; [|congruence]. rewrite (l_ext _ _ _ _ _ L _ _ Ej). discriminate. }
    split; cbn [index counter sccs stack lower lowlink]; try rewrite upd_same; try rewrite Lv.
    - apply lower_inv, (p_inv _ _ _ _ P).
    - apply (l_fresh _ _ _ _ _ L).
    - intros x j Hx. apply (x_index _ _ X), (l_ext _ _ _ _ _ L), Hx.
    - intros x Hx. rewrite upd_other; [|intros ->; apply Hx, (l_fresh _ _ _ _ _ L)].
      rewrite (x_low _ _ X) by auto. apply (l_lows _ _ _ _ _ L), Hx.
    - destruct (l_sccs _ _ _ _ _ L) as [l1 E1], (x_sccs _ _ X) as [l2 E2]. exists (l1 ++ l2). rewrite E2, E1, app_assoc. auto.
    - pose proof (x_counter _ _ X). lia.
    - intros x Hx V. change (ix (lower v (lowlink st1 w) st1) x) with (ix st1 x). change (visited st1 x) in V.
      destruct (index st x) as [j|] eqn:Ej.
      + rewrite (x_ix _ _ x X) by (unfold visited; congruence). apply (l_new _ _ _ _ _ L); auto. unfold visited; congruence.
      + pose proof (x_new _ _ X x Ej V). lia.
    - apply (x_index _ _ X), (l_index _ _ _ _ _ L).
    - pose proof (l_low _ _ _ _ _ L). lia.
    - exists (s1 ++ s). split; [rewrite Es1, Es, app_assoc; auto|]. split.
      + intros x y Hx Hy Exy. apply in_app_or in Hx. destruct Hx as [Hx|Hx].
        * pose proof (T1 x y Hx (Sy y Hy) Exy). rewrite (Iy y Hy) in *. lia.
        * pose proof (S1 x y Hx Hy Exy). lia.
      + intros Lt. destruct (Nat.le_gt_cases (lowlink st v) (lowlink st1 w)) as [Le|Gt].
        * rewrite Nat.min_l in * by auto. apply S2; auto.
        * rewrite Nat.min_r in * by lia.
          assert (Lw : lowlink st1 w < ix st1 w) by (pose proof (x_new _ _ X w Hi (p_visited _ _ _ _ P)); lia).
          destruct (T3 Lw) as (y & Hy & Ey & Py). assert (Hy0 : In y (stack st0)) by (eapply order_stack; eauto; lia).
          exists y. split; auto. split; [rewrite <- (Iy y Hy0); auto|]. eapply reach_trans; [apply reach_one, Evw|exact Py].
    - intros u Hu. change (visited (lower v (lowlink st1 w) st1) u) with (visited st1 u). apply in_app_or in Hu. destruct Hu as [Hu|[<-|[]]].
      + destruct (l_done _ _ _ _ _ L u Hu) as [V K]. split; [apply (x_visited _ _ _ X V)|]. intros Hs. specialize (K Hs). lia.
      + split; [apply (p_visited _ _ _ _ P)|]. intros Hs. exfalso. apply (i_stack _ _ I w (Sy w Hs)). auto.
  Qed.

  Lemma finish gray v st0 st ws : Inv gray st0 -> nth_error deps v = Some ws -> Loop gray v st0 st ws ->
    exists st', emit v st = Done st' /\ Post gray v st0 st'.
  Proof.
    intros J Hw L. destruct (l_stack _ _ _ _ _ L) as (s & Es & S1 & S2).
    destruct (gray_lt _ _ _ _ _ _ L Es) as (Iv & I0 & Is). pose proof (l_inv _ _ _ _ _ L) as I.
    assert (Nd := i_nodup _ _ I). rewrite Es in Nd.
    assert (Ns : ~ In v s) by (intros H; apply NoDup_remove_2 in Nd; apply Nd, in_or_app; auto).
    assert (Nv0 : ~ In v (stack st0)) by (intros H; apply NoDup_remove_2 in Nd; apply Nd, in_or_app; auto).
    assert (Ns0 : forall x, In x s -> ~ In x (stack st0)) by (intros x Hx H; pose proof (Is x Hx); pose proof (I0 x H); lia).
    assert (Sub : forall y, In y (stack st0) -> In y (stack st)) by (intros y Hy; rewrite Es; apply in_or_app; right; right; auto).
    assert (Gs : forall g, In g gray -> In g (stack st0)) by apply (i_gray _ _ J).
    assert (Succ : forall x y, visited st x -> ~ In x gray -> E x y -> visited st y).
    { intros x y V Ng Exy. destruct (Nat.eq_dec x v) as [->|Hx].
      - destruct Exy as (ws' & Ew & Hy). assert (ws' = ws) by congruence. subst. apply (l_done _ _ _ _ _ L y Hy).
      - eapply (i_succ _ _ I); eauto. intros [K|K]; congruence. }
    assert (Vv : visited st v) by (unfold visited; rewrite (l_index _ _ _ _ _ L); discriminate).
    assert (Edge0 : forall x y, In x (s ++ [v]) -> In y (stack st0) -> E x y -> lowlink st v <= ix st0 y).
    { intros x y Hx Hy Exy. apply in_app_or in Hx. destruct Hx as [Hx|[<-|[]]]; [eapply S1; eauto|].
      destruct Exy as (ws' & Ew & Hy'). assert (ws' = ws) by congruence. subst. apply (l_done _ _ _ _ _ L y Hy'), Hy. }
    assert (Stk : forall x, In x (stack st) <-> In x (s ++ [v]) \/ In x (stack st0)).
    { intros x. rewrite Es. rewrite !in_app_iff. cbn. tauto. }
    assert (Ext : forall st', index st' = index st -> lowlink st' = lowlink st -> counter st' = counter st -> (exists l, sccs st' = sccs st ++ l) -> ext st0 st').
    { intros st' E1 E2 E3 [l E4]. split; unfold visited, ix; rewrite ?E1, ?E2, ?E3.
      - apply (l_ext _ _ _ _ _ L).
      - apply (l_lows _ _ _ _ _ L).
      - destruct (l_sccs _ _ _ _ _ L) as [l1 E5]. exists (l1 ++ l). rewrite E4, E5, app_assoc. auto.
      - pose proof (l_counter _ _ _ _ _ L). lia.
      - apply (l_new _ _ _ _ _ L). }
    unfold emit. rewrite (l_index _ _ _ _ _ L). destruct (Nat.eqb_spec (lowlink st v) (counter st0)) as [El|El].
    - (* a component is complete *)
      rewrite Es, (pop_to_app v s (stack st0) Ns).
      set (st' := mkT _ _ _ _ _ _).
      eexists. split; [reflexivity|].
      assert (Vis : forall x, In x (s ++ [v]) -> In x (stack st)) by (intros x Hx; apply Stk; auto).
      assert (Ng : forall x, In x (s ++ [v]) -> ~ In x gray).
      { intros x Hx Hg. apply Gs in Hg. apply in_app_or in Hx. destruct Hx as [Hx|[<-|[]]]; [eapply Ns0; eauto|auto]. }
      assert (Closed : forall x y, In x (s ++ [v]) -> E x y -> In y (s ++ [v]) \/ finished st y).
      { intros x y Hx Exy. pose proof (Succ x y (i_stack _ _ I x (Vis x Hx)) (Ng x Hx) Exy) as Vy.
        destruct (in_dec Nat.eq_dec y (stack st)) as [Hy|Hy]; [|right; apply (i_done _ _ I y Vy), Hy].
        apply Stk in Hy. destruct Hy as [Hy|Hy]; auto. exfalso. pose proof (Edge0 x y Hx Hy Exy). pose proof (I0 y Hy). lia. }
      assert (Reach : forall x y, reach x y -> In x (s ++ [v]) -> In y (s ++ [v]) \/ finished st y).
      { intros x y P. induction P as [x|x y z Exy P IH]; auto. intros Hx. destruct (Closed x y Hx Exy) as [Hy|Hy]; auto.
        right. eapply finished_reach; eauto. }
      assert (Nf : forall x, In x (stack st) -> ~ finished st x).
      { intros x Hx Hf. apply (i_done _ _ I x (i_stack _ _ I x Hx)) in Hf. contradiction. }
      assert (Rv : forall x, In x (s ++ [v]) -> mutual deps v x).
      { intros x Hx. split.
        - apply (i_gray_reach _ _ I v x); [left; auto|apply Vis, Hx|]. apply in_app_or in Hx. destruct Hx as [Hx|[<-|[]]]; auto. rewrite Iv. pose proof (Is x Hx). lia.
        - destruct (i_black _ _ I x (Vis x Hx)) as (g & [<-|Hg] & Lg & P); auto. exfalso.
          destruct (Reach x g P Hx) as [K|K]; [eapply Ng; eauto|]. apply (Nf g); auto. }
      split.
      + split; cbn [stack on_stack index sccs counter st'].
        * apply NoDup_remove_1 in Nd. rewrite app_nil_end in Nd at 1. clear -Nd. rewrite app_nil_r in Nd. induction s as [|a s IH]; auto. inversion Nd; auto.
        * intros x. rewrite andb_true_iff, negb_true_iff, (i_on _ _ I), Stk.
          assert (Ex : existsb (Nat.eqb x) (s ++ [v]) = false <-> ~ In x (s ++ [v])).
          { rewrite <- not_true_iff_false, existsb_exists. split; intros H K; apply H.
            - exists x. rewrite Nat.eqb_refl. auto.
            - destruct K as (z & Hz & Ez). apply Nat.eqb_eq in Ez. subst. auto. }
          rewrite Ex. split; [tauto|]. intros Hx. split; auto. intros K. apply in_app_or in K. destruct K as [K|[<-|[]]]; auto. eapply Ns0; eauto.
        * intros x Hx. apply (i_stack _ _ I), Sub, Hx.
        * intros a x b Ea y Hy. apply (i_sorted _ _ I (s ++ v :: a) x b); auto. rewrite Es, Ea, <- app_assoc. auto.
        * apply (i_counter _ _ I).
        * apply (i_range _ _ I).
        * auto.
        * intros g x Hg Hx. apply (i_gray_reach _ _ I); [right; auto|auto].
        * intros x Hx. destruct (i_black _ _ J x Hx) as (g & Hg & Lg & P). exists g. split; auto. split; auto.
          change (ix st g <= ix st x). destruct (I0 x Hx) as [_ ->], (I0 g (Gs g Hg)) as [_ ->]. auto.
        * exact Succ.
        * intros x Hx. unfold finished, st'. cbn [sccs]. rewrite concat_app. cbn [concat]. rewrite app_nil_r.
          rewrite in_app_iff. fold (finished st x). change (visited st x) in Hx. rewrite <- (i_done _ _ I x Hx), Stk.
          assert (In x (s ++ [v]) -> ~ In x (stack st0)).
          { intros K. apply in_app_or in K. destruct K as [K|[<-|[]]]; auto. }
          destruct (in_dec Nat.eq_dec x (s ++ [v])); tauto.
        * intros x Hx. unfold finished, st' in Hx. cbn [sccs] in Hx. rewrite concat_app in Hx. cbn [concat] in Hx. rewrite app_nil_r in Hx.
          apply in_app_or in Hx. destruct Hx as [Hx|Hx]; [apply (i_finished _ _ I x Hx)|apply (i_stack _ _ I x (Vis x Hx))].
        * rewrite concat_app. cbn [concat]. rewrite app_nil_r. apply NoDup_app_intro; [apply (i_distinct _ _ I)| |].
          -- change (s ++ v :: stack st0) with (s ++ ([v] ++ stack st0)) in Nd. rewrite app_assoc in Nd. apply NoDup_app_left in Nd. exact Nd.
          -- intros x Hx K. apply (Nf x (Vis x K)), Hx.
        * intros l c l' El' x y Hx Exy. destruct l' as [|c' l' _] using rev_ind.
          -- apply app_inj_tail in El'. destruct El' as [<- <-]. destruct (Closed x y Hx Exy) as [K|K]; auto.
          -- rewrite app_comm_cons, app_assoc in El'. apply app_inj_tail in El'. destruct El' as [El' _]. eapply (i_order _ _ I); eauto.
        * intros c Hc. apply in_app_or in Hc. destruct Hc as [Hc|[<-|[]]]; [apply (i_scc _ _ I c Hc)|].
          split; [destruct s; discriminate|]. intros x y Hx. destruct (Rv x Hx) as [R1 R2]. split.
          -- intros Hy. destruct (Rv y Hy) as [R3 R4]. split; eapply reach_trans; eauto.
          -- intros [P Q]. destruct (Reach x y P Hx) as [K|K]; auto. exfalso. apply (Nf x (Vis x Hx)). eapply finished_reach; eauto.
      + apply Ext; auto. exists [s ++ [v]]. auto.
      + exact Vv.
      + change (lowlink st v <= ix st v). lia.
      + exists []. split; auto. split; [intros x []|]. split; [intros x y []|]. split; auto.
        change (lowlink st v < ix st v -> exists y, In y (stack st0) /\ ix st0 y = lowlink st v /\ reach v y). lia.
    - (* it is not *)
      assert (Lt : lowlink st v < counter st0) by (pose proof (l_low _ _ _ _ _ L); lia).
      destruct (S2 Lt) as (y & Hy & Ey & Py).
      eexists. split; [reflexivity|]. split.
      + destruct I as [A1 A2 A3 A4 A5 A6 A7 A8 A9 A10 A11 A12 A13 A14 A15]. split; auto.
        * intros g x Hg. apply A8. right; auto.
        * intros x Hx. destruct (A9 x Hx) as (g & [<-|Hg] & Lg & P); [|exists g; auto].
          destruct (i_black _ _ J y Hy) as (g & Hg & Lg' & P'). exists g. split; auto. split.
          -- destruct (I0 g (Gs g Hg)) as [_ ->]. lia.
          -- eapply reach_trans; [exact P|]. eapply reach_trans; eauto.
      + apply Ext; auto. exists []. rewrite app_nil_r. auto.
      + exact Vv.
      + lia.
      + exists (s ++ [v]). split; [rewrite Es, <- app_assoc; auto|]. split.
        * intros x Hx. apply in_app_or in Hx. destruct Hx as [Hx|[<-|[]]]; [pose proof (Is x Hx)|]; lia.
        * split; [exact Edge0|]. split; [lia|]. intros _. exists y. auto.
  Qed.

  Definition unvisited (st : tstate) : nat :=
    List.length (filter (fun x => match index st x with None => true | Some _ => false end) (seq 0 n)).
  Lemma unvisited_le st st' : (forall x, visited st x -> visited st' x) -> unvisited st' <= unvisited st.
  Proof.
    intros H. apply filter_le. intros x _ K. specialize (H x). unfold visited in H. destruct (index st x) eqn:E1; auto. destruct (index st' x) eqn:E2; [discriminate|]. exfalso. apply H; congruence.
  Qed.
  Lemma unvisited_visit v st : v < n -> index st v = None -> unvisited (visit v st) < unvisited st.
  Proof.
    intros Lv Nv. apply filter_lt with (v := v); [|apply in_seq; lia|rewrite Nv; auto|cbn; rewrite upd_same; auto].
    intros x _. cbn. unfold upd. destruct (x =? v); [discriminate|auto].
  Qed.

  Lemma strongconnect_ok fuel : forall v st gray, Inv gray st -> v < n -> index st v = None -> (forall g, In g gray -> reach g v) -> unvisited st <= fuel ->
    exists st', strongconnect fuel deps v st = Done st' /\ Post gray v st st'.
  Proof.
    induction fuel as [|fuel IH]; intros v st gray I Lv Nv G F.
    { pose proof (unvisited_visit v st Lv Nv). lia. }
    cbn [strongconnect]. destruct (nth_error deps v) as [ws|] eqn:Ew; [|apply nth_error_None in Ew; lia].
    pose proof (unvisited_visit v st Lv Nv) as F'.
    assert (Go : forall todo seen st1, ws = seen ++ todo -> Loop gray v st st1 seen -> unvisited st1 <= fuel ->
      exists st2, (fix go (ws : list nat) (st : tstate) : outcome tstate :=
                    match ws with
                    | [] => Done st
                    | w :: ws =>
                        if w <? List.length deps then
                          match index st w with
                          | None => obind (strongconnect fuel deps w st) (fun st => go ws (lower v (lowlink st w) st))
                          | Some i => go ws (if on_stack st w then lower v i st else st)
                          end
                        else Panic
                    end) todo st1 = Done st2 /\ Loop gray v st st2 ws).
    { induction todo as [|w todo IHt]; intros seen st1 Es L F1.
      - rewrite app_nil_r in Es. subst. eauto.
      - assert (Evw : E v w) by (exists ws; split; auto; rewrite Es; apply in_or_app; right; left; auto).
        assert (Hw : w <? n = true) by (apply Nat.ltb_lt, (R v), Evw). rewrite Hw.
        assert (Es' : ws = (seen ++ [w]) ++ todo) by (rewrite <- app_assoc; auto).
        destruct (index st1 w) as [i|] eqn:Ei.
        + apply (IHt (seen ++ [w])); auto; [apply step_seen; auto|]. destruct (on_stack st1 w); auto.
        + assert (Gw : forall g, In g (v :: gray) -> reach g w).
          { intros g [<-|Hg]; [apply reach_one, Evw|]. eapply reach_trans; [apply G, Hg|apply reach_one, Evw]. }
          destruct (IH w st1 (v :: gray) (l_inv _ _ _ _ _ L) (proj1 (Nat.ltb_lt _ _) Hw) Ei Gw F1) as (st2 & -> & P). cbn [obind].
          apply (IHt (seen ++ [w])); auto; [eapply step_call; eauto|].
          pose proof (unvisited_le st1 st2 (fun x => x_visited _ _ x (p_ext _ _ _ _ P))) as Le. change (unvisited (lower v (lowlink st2 w) st2)) with (unvisited st2). lia. }
    destruct (Go ws [] (visit v st) eq_refl (visit_loop gray v st I Lv Nv G) ltac:(lia)) as (st2 & -> & L). cbn [obind].
    eapply finish; eauto.
  Qed.

  Lemma start_inv : Inv [] start.
  Proof.
    assert (Nv : forall x, ~ visited start x) by (intros x H; apply H; reflexivity).
    split; unfold finished; cbn [start stack on_stack index sccs counter concat].
    - constructor.
    - intros x. split; [discriminate|intros []].
    - intros x [].
    - intros a x b H. destruct a; discriminate.
    - discriminate.
    - intros x H. destruct (Nv x H).
    - intros g [].
    - intros g x [].
    - intros x [].
    - intros x y H. destruct (Nv x H).
    - intros x H. destruct (Nv x H).
    - intros x [].
    - constructor.
    - intros l c l' H. destruct l; discriminate.
    - intros c [].
  Qed.
  Lemma unvisited_n st : unvisited st <= n.
  Proof. unfold unvisited. rewrite <- (seq_length n 0) at 2. induction (seq 0 n) as [|x l IH]; cbn; auto. destruct (index st x); cbn; lia. Qed.
  Lemma connect_all_ok vs : forall st, (forall v, In v vs -> v < n) -> Inv [] st ->
    exists st', connect_all deps vs st = Done st' /\ Inv [] st' /\ (forall x, visited st x -> visited st' x) /\ forall v, In v vs -> visited st' v.
  Proof.
    induction vs as [|v vs IH]; intros st B I; cbn [connect_all].
    - exists st. split; auto. split; auto. split; auto. intros v [].
    - destruct (index st v) as [i|] eqn:Ei.
      + destruct (IH st (fun x Hx => B x (or_intror Hx)) I) as (st' & -> & I' & M & V). exists st'. split; auto. split; auto. split; auto.
        intros x [<-|Hx]; auto. apply M. unfold visited. congruence.
      + destruct (strongconnect_ok (S n) v st [] I (B v (or_introl eq_refl)) Ei (fun g H => match H with end) ltac:(pose proof (unvisited_n st); lia)) as (st1 & -> & P).
        cbn [obind]. destruct (IH st1 (fun x Hx => B x (or_intror Hx)) (p_inv _ _ _ _ P)) as (st' & -> & I' & M & V). exists st'. split; auto. split; auto.
        split; [intros x Hx; apply M, (x_visited _ _ _ (p_ext _ _ _ _ P)), Hx|]. intros x [<-|Hx]; auto. apply M, (p_visited _ _ _ _ P).
  Qed.

  Theorem tarjan_scc_ok : exists cs, tarjan_scc deps = Done cs /\
    NoDup (concat cs) /\ (forall v, In v (concat cs) <-> v < n) /\
    (forall c, In c cs -> c <> [] /\ forall x y, In x c -> (In y c <-> mutual deps x y)) /\
    (forall l c l', cs = l ++ c :: l' -> forall x y, In x c -> E x y -> In y c \/ In y (concat l)).
  Proof.
    destruct (connect_all_ok (seq 0 n) start ltac:(intros v H; apply in_seq in H; lia) start_inv) as (st & Ec & I & _ & V).
    exists (sccs st). unfold tarjan_scc. rewrite Ec. cbn [obind]. split; auto. split; [apply (i_distinct _ _ I)|]. split.
    - intros v. split; [intros H; apply (i_range _ _ I), (i_finished _ _ I), H|]. intros Lv.
      assert (Vv : visited st v) by (apply V, in_seq; lia). apply (i_done _ _ I v Vv). intros K. destruct (i_black _ _ I v K) as (g & [] & _).
    - split; [apply (i_scc _ _ I)|apply (i_order _ _ I)].
  Qed.
End Graph.
