(** Environments, loops and the search of the analysis. *)
From Coq Require Import String List Bool Arith Lia Relations.
From Verif.Basics Require Import Model.
From Verif.Scope Require Import Model.
From Verif.Demand Require Import Model Spec.
Import ListNotations.
Open Scope nat_scope.

(** * Environments *)
Notation known := proper_entry.
Definition good (m : env) : Prop := Forall (fun e => known (snd e)) m.

Lemma key_eqb_spec a b : key_eqb a b = true <-> a = b.
Proof.
  destruct a as [a1 a2], b as [b1 b2]. unfold key_eqb. cbn. rewrite andb_true_iff, !Nat.eqb_eq.
  split; [intros [-> ->]; reflexivity | intros [= -> ->]; auto].
Qed.
Lemma plus_absent_known d : known d -> known (plus demand_absent d).
Proof. destruct d as [c s w r]. intros ([E | E] & [F | F] & G & H); cbn in *; subst; repeat split; auto. Qed.
Lemma plus_known d e : known d -> known e -> known (plus d e).
Proof.
  destruct d as [c s w r], e as [c' s' w' r'].
  intros ([E | E] & [F | F] & G & H) ([E' | E'] & [F' | F'] & G' & H'); cbn in *; subst; repeat split; auto.
Qed.
Lemma scale_known d e : known d -> known e -> known (scale d e).
Proof.
  destruct d as [c s w r], e as [c' s' w' r'].
  intros ([E | E] & [F | F] & G & H) ([E' | E'] & [F' | F'] & G' & H'); cbn in *; subst; repeat split; auto.
Qed.
Lemma get_good m k d : good m -> get m k = Some d -> known d.
Proof.
  induction m as [|[k' d'] m IH]; cbn; intros H E; [discriminate |]. inversion H; subst.
  destruct (key_eqb k' k); [injection E as <-; assumption | auto].
Qed.
Lemma add_good m k d : good m -> known d -> good (add m k d).
Proof.
  intros H Hd. induction H as [|[k' d'] m Hx H IH]; cbn.
  - constructor; [apply plus_absent_known; exact Hd | constructor].
  - destruct (key_eqb k' k); constructor; auto. apply plus_known; assumption.
Qed.
Lemma add_some m k d k' : get (add m k d) k' <> None <-> k = k' \/ get m k' <> None.
Proof.
  induction m as [|[q e] m IH]; cbn.
  - destruct (key_eqb k k') eqn:E; [apply key_eqb_spec in E; split; [auto | discriminate] |].
    split; [congruence | intros [H | H]; [apply key_eqb_spec in H; congruence | congruence]].
  - destruct (key_eqb q k) eqn:E; cbn; destruct (key_eqb q k') eqn:F.
    + split; [intros _; right; discriminate | discriminate].
    + split; [auto |]. intros [H | H]; [| exact H]. apply key_eqb_spec in E. subst. rewrite (proj2 (key_eqb_spec _ _) eq_refl) in F. discriminate.
    + split; [intros _; right; discriminate | discriminate].
    + exact IH.
Qed.
Lemma merge_good b : forall a, good a -> good b -> good (merge a b).
Proof.
  induction b as [|[k d] b IH]; cbn; intros a Ha Hb; [exact Ha |]. inversion Hb; subst. apply IH; [apply add_good |]; assumption.
Qed.
Lemma merge_some b k : forall a, get (merge a b) k <> None <-> get a k <> None \/ get b k <> None.
Proof.
  induction b as [|[q d] b IH]; cbn; intros a; [split; [auto | intros [H | H]; congruence] |].
  unfold merge in IH. rewrite IH, add_some. destruct (key_eqb q k) eqn:E.
  - apply key_eqb_spec in E. subst. split; intros _; [right; discriminate | left; left; reflexivity].
  - assert (q <> k) by (intros ->; rewrite (proj2 (key_eqb_spec _ _) eq_refl) in E; discriminate). tauto.
Qed.
Lemma unshift_good m : good m -> good (unshift m).
Proof.
  intros H. induction H as [|[[[|s] b] d] m Hx H IH]; cbn; [constructor | exact IH | constructor; assumption].
Qed.
Lemma get_unshift m s b : get (unshift m) (s, b) = get m (S s, b).
Proof.
  induction m as [|[[[|s'] b'] d] m IH]; cbn; [reflexivity | |].
  - exact IH.
  - unfold key_eqb in *. cbn in *. destruct ((s' =? s) && (b' =? b)); [reflexivity | exact IH].
Qed.
Lemma scaled_good m d : good m -> known d -> good (scaled m d).
Proof. intros H Hd. induction H; cbn; constructor; auto. apply scale_known; assumption. Qed.
Lemma scaled_some m d k : get (scaled m d) k <> None <-> get m k <> None.
Proof.
  induction m as [|[q e] m IH]; cbn; [tauto |]. destruct (key_eqb q k); [split; discriminate | exact IH].
Qed.
Lemma gather_good rs : forall m, good m -> Forall (fun r => good (a_env r)) rs -> good (gather m rs).
Proof.
  induction rs as [|r rs IH]; cbn; intros m Hm H; [exact Hm |]. inversion H; subst. apply IH; [apply merge_good |]; assumption.
Qed.
Lemma gather_some rs k : forall m, get (gather m rs) k <> None <-> get m k <> None \/ exists r, In r rs /\ get (a_env r) k <> None.
Proof.
  induction rs as [|r rs IH]; cbn; intros m; [split; [auto | intros [H | (r & [] & _)]; exact H] |].
  unfold gather in IH. rewrite IH, merge_some. split.
  - intros [[H | H] | (r' & H1 & H2)]; eauto.
  - intros [H | (r' & [-> | H1] & H2)]; eauto.
Qed.

(** * Lists *)
Lemma replace_length {A} (l : list A) n x : List.length (replace l n x) = List.length l.
Proof. revert n. induction l as [|y l IH]; intros [|n]; cbn; auto. Qed.
Lemma nth_replace {A} (l : list A) n x i d : nth i (replace l n x) d = if (i =? n) && (n <? List.length l) then x else nth i l d.
Proof.
  revert n i. induction l as [|y l IH]; intros n i.
  - cbn. replace (n <? 0) with false by (symmetry; apply Nat.ltb_ge; lia). rewrite andb_false_r. destruct i; reflexivity.
  - destruct n as [|n], i as [|i]; cbn; try reflexivity. rewrite IH. reflexivity.
Qed.
Lemma list_eqb_spec {A} (eqb : A -> A -> bool) : (forall a b, eqb a b = true <-> a = b) -> forall l m, list_eqb eqb l m = true <-> l = m.
Proof.
  intros H. induction l as [|x l IH]; intros [|y m]; cbn; try (split; [reflexivity | reflexivity] || (split; discriminate)).
  rewrite andb_true_iff, H, IH. split; [intros [-> ->]; reflexivity | intros [= -> ->]; auto].
Qed.
Lemma demand_eqb_spec a b : demand_eqb a b = true <-> a = b.
Proof.
  destruct a as [[] [] [] []], b as [[] [] [] []]; cbn; split; intros H; try reflexivity; discriminate.
Qed.
Lemma all_some_map {A B} (f : A -> option B) l : (forall x, In x l -> f x <> None) -> all_some (map f l) <> None.
Proof.
  induction l as [|x l IH]; cbn; intros H; [discriminate |]. destruct (f x) eqn:E; [| exfalso; apply (H x); auto].
  specialize (IH (fun y Hy => H y (or_intror Hy))). destruct (all_some (map f l)); [discriminate | congruence].
Qed.
Lemma all_some_forall2 {A B} (f : A -> option B) l rs : all_some (map f l) = Some rs -> Forall2 (fun x r => f x = Some r) l rs.
Proof.
  revert rs. induction l as [|x l IH]; cbn; intros rs E; [injection E as <-; constructor |].
  destruct (f x) eqn:Ex; [| discriminate]. destruct (all_some (map f l)) eqn:El; [| discriminate]. injection E as <-. constructor; auto.
Qed.
Lemma Forall2_nth {A B} (R : A -> B -> Prop) l m : Forall2 R l m -> forall i x, nth_error l i = Some x -> exists y, nth_error m i = Some y /\ R x y.
Proof. induction 1; intros [|i] z E; cbn in *; try discriminate; [injection E as <-; eauto | eauto]. Qed.
Lemma Forall2_nth' {A B} (R : A -> B -> Prop) l m : Forall2 R l m -> forall i y, nth_error m i = Some y -> exists x, nth_error l i = Some x /\ R x y.
Proof. induction 1; intros [|i] z E; cbn in *; try discriminate; [injection E as <-; eauto | eauto]. Qed.
Lemma nth_some {A} (l : list A) i d x : nth_error l i = Some x -> nth i l d = x.
Proof. revert i. induction l; intros [|i]; cbn; try discriminate; [congruence | auto]. Qed.

(** * Loops *)
Section Settle.
Context {A : Type} (same : A -> A -> bool) (pass : A -> A) (inv : A -> Prop) (rank : A -> nat) (top : nat).
Hypothesis same_spec : forall a b, same a b = true <-> a = b.
Hypothesis keeps : forall x, inv x -> inv (pass x).
Hypothesis bounded : forall x, inv x -> rank x <= top.
Hypothesis rises : forall x, inv x -> pass x <> x -> rank x < rank (pass x).
Lemma settle_some fuel : forall x, inv x -> top - rank x < fuel -> exists y, settle same pass fuel x = Some y /\ inv y /\ pass y = y /\ rank x <= rank y.
Proof.
  induction fuel as [|fuel IH]; intros x Hx Hf; [lia |]. cbn. destruct (same (pass x) x) eqn:E.
  - apply same_spec in E. exists (pass x). rewrite E. rewrite E. auto.
  - assert (pass x <> x) by (intros F; apply same_spec in F; congruence).
    pose proof (rises x Hx H) as Hr. pose proof (bounded _ (keeps x Hx)) as Hb.
    destruct (IH (pass x) (keeps x Hx)) as (y & H1 & H2 & H3 & H4); [lia |]. exists y. repeat split; auto. lia.
Qed.
End Settle.

(** A pass made of steps, none of which goes down. *)
Section Pass.
Context {A B : Type} (le : A -> A -> Prop) (inv : A -> Prop) (step : A -> B -> A).
Hypothesis le_refl : forall a, le a a.
Hypothesis le_trans : forall a b c, le a b -> le b c -> le a c.
Hypothesis le_antisym : forall a b, le a b -> le b a -> a = b.
Variable all : list B.
Hypothesis up : forall a b, In b all -> inv a -> inv (step a b) /\ le a (step a b).
Lemma pass_up xs : forall a, incl xs all -> inv a -> inv (fold_left step xs a) /\ le a (fold_left step xs a).
Proof.
  induction xs as [|b xs IH]; cbn; intros a Hi Ha; [auto |].
  destruct (up a b) as (H1 & H2); [apply Hi; left; reflexivity | exact Ha |].
  destruct (IH (step a b)) as (H3 & H4); [intros x Hx; apply Hi; right; exact Hx | exact H1 |]. eauto.
Qed.
Lemma pass_fixed xs : forall a, incl xs all -> inv a -> fold_left step xs a = a -> forall b, In b xs -> step a b = a.
Proof.
  induction xs as [|c xs IH]; cbn; intros a Hi Ha E b Hb; [destruct Hb |].
  destruct (up a c) as (H1 & H2); [apply Hi; left; reflexivity | exact Ha |].
  assert (Hi' : incl xs all) by (intros x Hx; apply Hi; right; exact Hx).
  destruct (pass_up xs (step a c) Hi' H1) as (H3 & H4). rewrite E in H4.
  pose proof (le_antisym _ _ H4 H2) as E2. destruct Hb as [-> | Hb]; [exact E2 |].
  rewrite E2 in E. exact (IH a Hi' Ha E b Hb).
Qed.
End Pass.

(** * Taint *)
Definition below (l m : list bool) : Prop := List.length l = List.length m /\ forall i, nth i l false = true -> nth i m false = true.
Fixpoint trues (l : list bool) : nat := match l with [] => 0 | b :: l => (if b then 1 else 0) + trues l end.
Lemma trues_bound l : trues l <= List.length l.
Proof. induction l as [|[] l IH]; cbn; lia. Qed.
Lemma below_cons a l b m : below (a :: l) (b :: m) -> (a = true -> b = true) /\ below l m.
Proof. intros (H1 & H2). repeat split; [apply (H2 0) | cbn in H1; lia | intros i; apply (H2 (S i))]. Qed.
Lemma below_trues l : forall m, below l m -> trues l <= trues m /\ (l <> m -> trues l < trues m).
Proof.
  induction l as [|a l IH]; intros [|b m] H; try (destruct H as (H & _); discriminate H).
  - split; [lia | congruence].
  - apply below_cons in H. destruct H as (H1 & H2). destruct (IH m H2) as (H3 & H4).
    destruct a, b; cbn; try (specialize (H1 eq_refl); discriminate); split; try lia; intros Hn.
    all: try (assert (l <> m) by congruence; specialize (H4 H); lia). 
Qed.
Lemma below_refl l : below l l. Proof. split; auto. Qed.
Lemma below_trans a b c : below a b -> below b c -> below a c.
Proof. intros (H1 & H2) (H3 & H4). split; [congruence | auto]. Qed.
Lemma below_antisym l m : below l m -> below m l -> l = m.
Proof.
  intros (H1 & H2) (_ & H3). apply (nth_ext _ _ false false H1). intros n _.
  specialize (H2 n). specialize (H3 n). destruct (nth n l false), (nth n m false); auto; try (symmetry; auto).
Qed.
Lemma below_replace l j : below l (replace l j true).
Proof. split; [rewrite replace_length; reflexivity |]. intros i H. rewrite nth_replace. destruct (_ && _); auto. Qed.
Lemma below_replaces js : forall l, below l (fold_left (fun t j => replace t j true) js l).
Proof. induction js as [|j js IH]; cbn; intros l; [apply below_refl | eapply below_trans; [apply below_replace | apply IH]]. Qed.
Lemma replaces_in js j : forall l, In j js -> j < List.length l -> nth j (fold_left (fun t j => replace t j true) js l) false = true.
Proof.
  induction js as [|k js IH]; cbn; intros l Hj Hl; [destruct Hj |]. destruct Hj as [-> | Hj].
  - apply (below_replaces js (replace l j true)). rewrite nth_replace, Nat.eqb_refl. apply Nat.ltb_lt in Hl. rewrite Hl. reflexivity.
  - apply IH; [exact Hj | rewrite replace_length; exact Hl].
Qed.
Lemma below_taint_from deps l i : below l (taint_from deps l i).
Proof. unfold taint_from. destruct (nth i l false); [apply below_replaces | apply below_refl]. Qed.

Lemma bool_eqb_spec a b : Bool.eqb a b = true <-> a = b.
Proof. apply Bool.eqb_true_iff. Qed.
Lemma taint_settles deps recs : List.length recs = List.length deps ->
  exists t, settle (list_eqb Bool.eqb) (taint deps) (S (List.length deps)) recs = Some t /\ List.length t = List.length deps /\
    (forall i, nth i recs false = true -> nth i t false = true) /\
    forall i j, i < List.length deps -> nth i t false = true -> In j (nth i deps []) -> j < List.length deps -> nth j t false = true.
Proof.
  intros Hl. set (n := List.length deps) in *. set (inv := fun t => below recs t).
  assert (U : forall a b, In b (seq 0 n) -> inv a -> inv (taint_from deps a b) /\ below a (taint_from deps a b)).
  { intros a b _ Ha. split; [eapply below_trans; [exact Ha |] |]; apply below_taint_from. }
  assert (P : forall a, inv a -> inv (taint deps a) /\ below a (taint deps a)).
  { intros a Ha. apply (pass_up below inv (taint_from deps) below_refl below_trans (seq 0 n) U (seq 0 n) a (incl_refl _) Ha). }
  destruct (settle_some (list_eqb Bool.eqb) (taint deps) inv trues n (list_eqb_spec _ bool_eqb_spec)) with (fuel := S n) (x := recs) as (t & H1 & H2 & H3 & _).
  - intros x Hx. apply P; exact Hx.
  - intros x (Hx & _). pose proof (trues_bound x). lia.
  - intros x Hx Hn. apply below_trues; [apply P; exact Hx | congruence].
  - apply below_refl.
  - lia.
  - exists t. split; [exact H1 |]. pose proof H2 as (Ht & Hb). split; [lia |]. split; [exact Hb |].
    intros i j Hi Ht' Hj Hjn. pose proof (pass_fixed below inv (taint_from deps) below_refl below_trans below_antisym (seq 0 n) U (seq 0 n) t (incl_refl _) H2 H3 i) as F.
    assert (In i (seq 0 n)) by (apply in_seq; lia). specialize (F H). rewrite <- F. unfold taint_from. rewrite Ht'. apply replaces_in; [exact Hj | lia].
Qed.

(** * Propagation *)
Definition crank (c : card) : nat := match c with CUnknown => 0 | CAbsent => 0 | CAtMostOnce => 1 | CMulti => 2 end.
Definition srank (s : strict) : nat := match s with SUnknown => 0 | SLazy => 1 | SStrict => 2 end.
Definition plain_demand (d : Basics.Model.demand) : Prop := d_card d <> CUnknown /\ d_whnf d = false /\ d_rec d = false.
Definition dle (a b : Basics.Model.demand) : Prop :=
  plain_demand a /\ plain_demand b /\ crank (d_card a) <= crank (d_card b) /\ srank (d_strict a) <= srank (d_strict b).
Lemma dle_refl a : plain_demand a -> dle a a.
Proof. intros H. repeat split; try apply H; lia. Qed.
Lemma dle_trans a b c : dle a b -> dle b c -> dle a c.
Proof. intros (H1 & H2 & H3 & H4) (H5 & H6 & H7 & H8). split; [exact H1 | split; [exact H6 | lia]]. Qed.
Lemma dle_antisym a b : dle a b -> dle b a -> a = b.
Proof.
  destruct a as [c s w r], b as [c' s' w' r']. intros ((A1 & A2 & A3) & (B1 & B2 & B3) & H3 & H4) (_ & _ & H5 & H6). cbn in *. subst.
  assert (c = c') by (destruct c, c'; cbn in *; congruence || lia). assert (s = s') by (destruct s, s'; cbn in *; congruence || lia). congruence.
Qed.
Lemma plus_up a b : plain_demand a -> plain_demand b -> dle a (plus a b).
Proof.
  destruct a as [c s w r], b as [c' s' w' r']. intros (A1 & A2 & A3) (B1 & B2 & B3). cbn in *. subst.
  destruct c, c'; try congruence; destruct s, s'; (split; [repeat split; discriminate | split; [repeat split; discriminate | cbn; lia]]).
Qed.
Lemma plus_mono a a' b b' : dle a a' -> dle b b' -> dle (plus a b) (plus a' b').
Proof.
  intros (Ha & Ha' & H1 & H2) (Hb & Hb' & H3 & H4).
  split; [apply (plus_up a b Ha Hb) |]. split; [apply (plus_up a' b' Ha' Hb') |].
  destruct a as [c s w r], a' as [c' s' w' r'], b as [e t x y], b' as [e' t' x' y'].
  destruct Ha as (Ha & _), Ha' as (Ha' & _), Hb as (Hb & _), Hb' as (Hb' & _). cbn in *. split.
  - clear H2 H4. destruct c, c'; try congruence; destruct e, e'; try congruence; cbn in *; lia.
  - clear H1 H3. destruct s, s'; cbn in H2; try lia; destruct t, t'; cbn in *; lia.
Qed.
Lemma scale_plain a b : known a -> plain_demand b -> plain_demand (scale a b).
Proof.
  destruct a as [c s w r], b as [c' s' w' r']. intros ([E | E] & [F | F] & G & H) (B1 & B2 & B3); cbn in *; subst;
    (split; [cbn; destruct c'; congruence | split; reflexivity]).
Qed.
Lemma scale_mono a b b' : known a -> dle b b' -> dle (scale a b) (scale a b').
Proof.
  intros Ha (Hb & Hb' & H1 & H2). split; [apply scale_plain; assumption |]. split; [apply scale_plain; assumption |].
  destruct a as [c s w r], b as [e t x y], b' as [e' t' x' y'].
  destruct Ha as ([E | E] & [F | F] & G & H), Hb as (Hb & _), Hb' as (Hb' & _); cbn in *; subst; split; destruct e, e'; try congruence; cbn in *; try lia;
    destruct t, t'; cbn in *; lia.
Qed.
Lemma known_plain d : known d -> plain_demand d.
Proof. intros ([E | E] & _ & H1 & H2); repeat split; auto; rewrite E; discriminate. Qed.
Lemma absent_plain : plain_demand demand_absent.
Proof. repeat split. discriminate. Qed.

Section Propagate.
Variable body : env.
Variable envs : list env.
Hypothesis body_good : good body.
Hypothesis envs_good : Forall good envs.
Notation n := (List.length envs).
Lemma body_plain i : plain_demand (get_or_absent body (0, i)).
Proof. unfold get_or_absent. destruct (get body (0, i)) eqn:E; [apply known_plain; eapply get_good; eassumption | apply absent_plain]. Qed.
Lemma env_known j i d : get (nth j envs []) (0, i) = Some d -> known d.
Proof.
  destruct (Nat.lt_ge_cases j n) as [Hj | Hj]; [| rewrite nth_overflow by exact Hj; discriminate].
  intros E. eapply get_good; [| exact E]. rewrite Forall_forall in envs_good. apply envs_good, nth_In. exact Hj.
Qed.

Definition dles (a b : list Basics.Model.demand) : Prop := List.length a = List.length b /\ (forall i, dle (nth i a demand_absent) (nth i b demand_absent)).
Lemma dles_plain a i : dles a a -> plain_demand (nth i a demand_absent).
Proof. intros (_ & H). apply H. Qed.
Definition contribution (ds : list Basics.Model.demand) (i : nat) (d : Basics.Model.demand) (j : nat) : Basics.Model.demand :=
  match get (nth j envs []) (0, i) with Some dji => plus d (scale dji (nth j ds demand_absent)) | None => d end.
Lemma contribution_mono a b i j d e : dles a b -> dle d e -> dle (contribution a i d j) (contribution b i e j).
Proof.
  intros (_ & H) Hd. unfold contribution. destruct (get (nth j envs []) (0, i)) as [x|] eqn:E; [| exact Hd].
  apply plus_mono; [exact Hd | apply scale_mono; [eapply env_known; exact E | apply H]].
Qed.
Lemma contribution_up a i j d : dles a a -> plain_demand d -> dle d (contribution a i d j).
Proof.
  intros H Hd. unfold contribution. destruct (get (nth j envs []) (0, i)) as [x|] eqn:E; [| apply dle_refl; exact Hd].
  apply plus_up; [exact Hd | apply scale_plain; [eapply env_known; exact E | apply dles_plain; exact H]].
Qed.
Lemma contributions_mono a b i js : dles a b -> forall d e, dle d e -> dle (fold_left (contribution a i) js d) (fold_left (contribution b i) js e).
Proof. intros H. induction js as [|j js IH]; cbn; intros d e Hd; [exact Hd |]. apply IH, contribution_mono; assumption. Qed.
Lemma contributions_up a i js : dles a a -> forall d, plain_demand d -> dle d (fold_left (contribution a i) js d).
Proof.
  intros H. induction js as [|j js IH]; cbn; intros d Hd; [apply dle_refl; exact Hd |].
  pose proof (contribution_up a i j d H Hd) as H1. eapply dle_trans; [exact H1 |]. apply IH. apply H1.
Qed.
Lemma demand_on_mono a b i : dles a b -> dle (demand_on body envs a i) (demand_on body envs b i).
Proof. intros H. apply (contributions_mono a b i _ H). apply dle_refl, body_plain. Qed.
Lemma demand_on_body a i : dles a a -> dle (get_or_absent body (0, i)) (demand_on body envs a i).
Proof. intros H. apply (contributions_up a i _ H), body_plain. Qed.
Lemma demand_on_from a i j d : dles a a -> j < n -> get (nth j envs []) (0, i) = Some d ->
  dle (scale d (nth j a demand_absent)) (demand_on body envs a i).
Proof.
  intros H Hj E. unfold demand_on. fold (contribution a i). set (d0 := get_or_absent body (0, i)).
  assert (P0 : plain_demand d0) by apply body_plain.
  assert (G : forall js e, In j js -> plain_demand e -> dle (scale d (nth j a demand_absent)) (fold_left (contribution a i) js e)).
  { induction js as [|k js IH]; cbn; intros e Hk He; [destruct Hk |]. destruct Hk as [-> | Hk].
    - eapply dle_trans; [| apply contributions_up; [exact H |]].
      + unfold contribution. rewrite E. 
        assert (K : plain_demand (scale d (nth j a demand_absent))) by (apply scale_plain; [eapply env_known; exact E | apply dles_plain; exact H]).
        pose proof (plus_up _ _ K He) as Hp.
        replace (plus e (scale d (nth j a demand_absent))) with (plus (scale d (nth j a demand_absent)) e); [exact Hp |].
        destruct K as (K1 & K2 & K3), He as (He1 & He2 & He3). destruct (scale d (nth j a demand_absent)) as [c s w r], e as [c' s' w' r']. cbn in *. subst.
        destruct c, c'; try congruence; destruct s, s'; reflexivity.
      + apply contribution_up; assumption.
    - apply IH; [exact Hk |]. apply (contribution_up a i k e H He). }
  apply G; [apply in_seq; lia | exact P0].
Qed.

(** Whatever is true of the demands from the body and of contributions of demands of which it is true. *)
Definition rising (ds : list Basics.Model.demand) : Prop :=
  List.length ds = n /\ dles ds ds /\ forall i, i < n -> dle (nth i ds demand_absent) (demand_on body envs ds i).
Lemma dles_refl_rising ds : rising ds -> dles ds ds. Proof. intros H. apply H. Qed.
Lemma step_rises ds i : i < n -> rising ds -> rising (replace ds i (demand_on body envs ds i)) /\ dles ds (replace ds i (demand_on body envs ds i)).
Proof.
  intros Hi (Hl & Hr & H). set (ds' := replace ds i (demand_on body envs ds i)).
  assert (N : forall k, nth k ds' demand_absent = if k =? i then demand_on body envs ds i else nth k ds demand_absent).
  { intros k. unfold ds'. rewrite nth_replace. replace (i <? List.length ds) with true by (symmetry; apply Nat.ltb_lt; lia). rewrite andb_true_r. reflexivity. }
  assert (L : dles ds ds').
  { split; [unfold ds'; rewrite replace_length; reflexivity |]. intros k. rewrite N. destruct (k =? i) eqn:E; [apply Nat.eqb_eq in E; subst; apply H; exact Hi | apply Hr]. }
  split; [| exact L]. split; [unfold ds'; rewrite replace_length; exact Hl |]. split.
  - split; [reflexivity |]. intros k. apply dle_refl. apply (proj2 L k).
  - intros k Hk. eapply dle_trans; [| apply demand_on_mono; exact L]. rewrite N. destruct (k =? i) eqn:E.
    + apply Nat.eqb_eq in E. subst. apply dle_refl. apply (H i Hi).
    + apply H. exact Hk.
Qed.
Fixpoint total (ds : list Basics.Model.demand) : nat :=
  match ds with [] => 0 | d :: ds => crank (d_card d) + srank (d_strict d) + total ds end.
Lemma total_bound ds : total ds <= 4 * List.length ds.
Proof.
  induction ds as [|d ds IH]; [cbn; lia |]. cbn [total List.length].
  assert (crank (d_card d) + srank (d_strict d) <= 4) by (destruct (d_card d), (d_strict d); cbn; lia). lia.
Qed.
Lemma dles_total a : forall b, dles a b -> total a <= total b /\ (a <> b -> total a < total b).
Proof.
  induction a as [|x a IH]; intros [|y b] (H1 & H2); try discriminate; [split; [lia | congruence] |].
  assert (Hd : dle x y) by apply (H2 0). assert (Hs : dles a b) by (split; [cbn in H1; lia | intros i; apply (H2 (S i))]).
  destruct (IH b Hs) as (H3 & H4). cbn [total]. pose proof Hd as (P1 & P2 & H5 & H6). split; [lia |]. intros Hn.
  destruct (Nat.eq_dec (crank (d_card x) + srank (d_strict x)) (crank (d_card y) + srank (d_strict y))) as [E | E]; [| lia].
  assert (x = y) by (apply dle_antisym; [exact Hd | split; [exact P2 | split; [exact P1 | lia]]]).
  assert (a <> b) by congruence. specialize (H4 H0). lia.
Qed.
Lemma dles_trans a b c : dles a b -> dles b c -> dles a c.
Proof. intros (H1 & H2) (H3 & H4). split; [congruence |]. intros i. eapply dle_trans; [apply H2 | apply H4]. Qed.
Lemma dles_antisym a b : dles a b -> dles b a -> a = b.
Proof. intros (H1 & H2) (_ & H4). apply (nth_ext _ _ demand_absent demand_absent H1). intros k _. apply dle_antisym; [apply H2 | apply H4]. Qed.

(** A property of demands of definitions that propagation keeps. *)
Variable Q : nat -> Prop.
Hypothesis Q_body : forall i, i < n -> get body (0, i) <> None -> Q i.
Hypothesis Q_step : forall j i, j < n -> i < n -> Q j -> get (nth j envs []) (0, i) <> None -> Q i.
Definition witnessed (ds : list Basics.Model.demand) : Prop := forall i, i < n -> d_card (nth i ds demand_absent) <> CAbsent -> Q i.
Lemma plus_not_absent a b : d_card (plus a b) <> CAbsent -> d_card a <> CAbsent \/ d_card b <> CAbsent.
Proof. destruct a as [[] ? ? ?], b as [[] ? ? ?]; cbn; intros H; (left; discriminate) || (right; discriminate) || (exfalso; apply H; reflexivity). Qed.
Lemma demand_on_witnessed ds i : List.length ds = n -> i < n -> witnessed ds -> d_card (demand_on body envs ds i) <> CAbsent -> Q i.
Proof.
  intros Hl Hi W. unfold demand_on. fold (contribution ds i).
  assert (G : forall js d, (d_card d <> CAbsent -> Q i) -> d_card (fold_left (contribution ds i) js d) <> CAbsent -> Q i).
  { induction js as [|j js IH]; cbn; intros d Hd Hn; [auto |]. refine (IH _ _ Hn). clear IH Hn. unfold contribution.
    destruct (get (nth j envs []) (0, i)) as [x|] eqn:E; [| exact Hd]. intros Hp. apply plus_not_absent in Hp. destruct Hp as [Hp | Hp]; [auto |].
    assert (Hj : j < n) by (destruct (Nat.lt_ge_cases j n) as [Hj | Hj]; [exact Hj | rewrite nth_overflow in E by exact Hj; discriminate]).
    apply (Q_step j i Hj Hi); [| congruence]. apply W; [exact Hj |].
    intros F. apply Hp. unfold scale. rewrite F. cbn. destruct (d_card x); reflexivity. }
  apply G. unfold get_or_absent. destruct (get body (0, i)) eqn:E; [intros _; apply Q_body; [exact Hi | congruence] | cbn; congruence].
Qed.

Theorem propagation_settles : exists ds,
  settle (list_eqb demand_eqb) (propagate body envs) (S (4 * n)) (map (fun i => get_or_absent body (0, i)) (seq 0 n)) = Some ds /\
  List.length ds = n /\ (forall i, plain_demand (nth i ds demand_absent)) /\ witnessed ds /\
  (forall i, i < n -> get body (0, i) <> None -> d_card (nth i ds demand_absent) <> CAbsent) /\
  (forall j i, j < n -> i < n -> d_card (nth j ds demand_absent) <> CAbsent -> get (nth j envs []) (0, i) <> None -> d_card (nth i ds demand_absent) <> CAbsent) /\
  (forall i, i < n -> dle (demand_on body envs ds i) (nth i ds demand_absent)).
Proof.
  set (step := fun ds i => replace ds i (demand_on body envs ds i)).
  set (inv := fun ds => rising ds /\ witnessed ds).
  assert (U : forall a b, In b (seq 0 n) -> inv a -> inv (step a b) /\ dles a (step a b)).
  { intros a b Hb (H1 & H2). apply in_seq in Hb. destruct (step_rises a b) as (H3 & H4); [lia | exact H1 |].
    split; [split; [exact H3 |] | exact H4]. intros k Hk. unfold step. rewrite nth_replace. destruct ((k =? b) && _) eqn:E; [| apply H2; exact Hk].
    apply andb_true_iff in E. destruct E as (E & _). apply Nat.eqb_eq in E. subst. apply demand_on_witnessed; [apply H1 | exact Hk | exact H2]. }
  assert (P : forall xs a, incl xs (seq 0 n) -> inv a -> inv (fold_left step xs a) /\ dles a (fold_left step xs a)).
  { induction xs as [|b xs IH]; cbn; intros a Hi Ha; [split; [exact Ha | apply Ha] |].
    destruct (U a b) as (H1 & H2); [apply Hi; left; reflexivity | exact Ha |].
    destruct (IH (step a b)) as (H3 & H4); [intros x Hx; apply Hi; right; exact Hx | exact H1 |]. split; [exact H3 | eapply dles_trans; eassumption]. }
  assert (F : forall xs a, incl xs (seq 0 n) -> inv a -> fold_left step xs a = a -> forall b, In b xs -> step a b = a).
  { induction xs as [|c xs IH]; cbn; intros a Hi Ha E b Hb; [destruct Hb |].
    destruct (U a c) as (H1 & H2); [apply Hi; left; reflexivity | exact Ha |].
    assert (Hi' : incl xs (seq 0 n)) by (intros x Hx; apply Hi; right; exact Hx).
    destruct (P xs (step a c) Hi' H1) as (H3 & H4). rewrite E in H4.
    pose proof (dles_antisym _ _ H4 H2) as E2. destruct Hb as [-> | Hb]; [exact E2 |].
    rewrite E2 in E. exact (IH a Hi' Ha E b Hb). }
  set (ds0 := map (fun i => get_or_absent body (0, i)) (seq 0 n)).
  assert (L0 : List.length ds0 = n) by (unfold ds0; rewrite map_length, seq_length; reflexivity).
  assert (N0 : forall i, i < n -> nth i ds0 demand_absent = get_or_absent body (0, i)).
  { intros i Hi. unfold ds0. rewrite nth_indep with (d' := get_or_absent body (0, n)) by (rewrite map_length, seq_length; exact Hi).
    rewrite (map_nth (fun i => get_or_absent body (0, i))). rewrite seq_nth by exact Hi. reflexivity. }
  assert (R0 : dles ds0 ds0).
  { split; [reflexivity |]. intros i. apply dle_refl. destruct (Nat.lt_ge_cases i n) as [Hi | Hi]; [rewrite N0 by exact Hi; apply body_plain |].
    rewrite nth_overflow by lia. apply absent_plain. }
  assert (I0 : inv ds0).
  { split; [split; [exact L0 | split; [exact R0 |]] |].
    - intros i Hi. rewrite N0 by exact Hi. apply demand_on_body. exact R0.
    - intros i Hi. rewrite N0 by exact Hi. unfold get_or_absent. destruct (get body (0, i)) eqn:E; [intros _; apply Q_body; [exact Hi | congruence] | cbn; congruence]. }
  destruct (settle_some (list_eqb demand_eqb) (propagate body envs) inv total (4 * n) (list_eqb_spec _ demand_eqb_spec)) with (fuel := S (4 * n)) (x := ds0) as (ds & H1 & H2 & H3 & _).
  - intros x Hx. apply (P (seq 0 n) x (incl_refl _) Hx).
  - intros x ((Hx & _) & _). pose proof (total_bound x). lia.
  - intros x Hx Hn. apply dles_total; [| congruence]. apply (P (seq 0 n) x (incl_refl _) Hx).
  - exact I0.
  - lia.
  - exists ds. split; [exact H1 |]. pose proof H2 as ((Hl & Hr & Hrise) & Hw). split; [exact Hl |]. split; [intros i; apply dles_plain; exact Hr |].
    split; [exact Hw |].
    assert (K : forall i, i < n -> dle (demand_on body envs ds i) (nth i ds demand_absent)).
    { intros i Hi. assert (In i (seq 0 n)) by (apply in_seq; lia). pose proof (F (seq 0 n) ds (incl_refl _) H2 H3 i H) as E.
      assert (E' : nth i (step ds i) demand_absent = nth i ds demand_absent) by (rewrite E; reflexivity).
      unfold step in E'. rewrite nth_replace, Nat.eqb_refl in E'. replace (i <? List.length ds) with true in E' by (symmetry; apply Nat.ltb_lt; lia).
      cbn in E'. rewrite E'. apply dle_refl. apply (Hr : _) . }
    assert (NA : forall d e, dle d e -> d_card d <> CAbsent -> d_card e <> CAbsent).
    { intros d e ((D1 & _) & _ & D2 & _) D3 D4. rewrite D4 in D2. destruct (d_card d); cbn in D2; congruence || lia. }
    split; [| split; [| exact K]].
    + intros i Hi Hb. eapply NA; [eapply dle_trans; [apply demand_on_body; exact Hr | apply K; exact Hi] |].
      unfold get_or_absent. destruct (get body (0, i)) eqn:E; [| congruence]. pose proof (get_good _ _ _ body_good E) as ([X | X] & _); rewrite X; discriminate.
    + intros j i Hj Hi Hd Hg. destruct (get (nth j envs []) (0, i)) as [x|] eqn:E; [| congruence].
      eapply NA; [eapply dle_trans; [apply (demand_on_from ds i j x Hr Hj E) | apply K; exact Hi] |].
      pose proof (env_known _ _ _ E) as ([X | X] & _); unfold scale; rewrite X; cbn; destruct (d_card (nth j ds demand_absent)); congruence.
Qed.
End Propagate.

(** * The search *)
Section Search.
Variable deps : list (list nat).
Notation n := (List.length deps).
Notation edge := (fun i j => In j (nth i deps [])).
Hypothesis inside : forall i j, edge i j -> j < n.
Variable start : nat.
Notation marked v j := (nth j v false = true).

Lemma scan_none row : forall v q, scan start row v q = None -> In start row.
Proof.
  induction row as [|j row IH]; cbn; intros v q E; [discriminate |]. destruct (j =? start) eqn:Ej; [apply Nat.eqb_eq in Ej; auto |].
  destruct (nth j v false); right; eauto.
Qed.
Lemma trues_replace v j : j < List.length v -> nth j v false = false -> trues (replace v j true) = S (trues v).
Proof. revert j. induction v as [|b v IH]; intros [|j] Hj E; cbn in *; try lia; [subst; reflexivity |]. rewrite (IH j) by (auto; lia). lia. Qed.
Lemma scan_some row : forall v q v' q', (forall j, In j row -> j < List.length v) -> scan start row v q = Some (v', q') ->
  ~ In start row /\ List.length v' = List.length v /\ (forall j, marked v' j <-> marked v j \/ In j row) /\
  exists new, q' = q ++ new /\ (forall j, In j new -> In j row) /\ (forall j, In j row -> marked v j \/ In j new) /\
    List.length new + trues v = trues v'.
Proof.
  induction row as [|j row IH]; cbn; intros v q v' q' Hr E.
  - injection E as <- <-. split; [auto |]. split; [reflexivity |]. split; [tauto |]. exists []. rewrite app_nil_r. repeat split; auto; tauto.
  - destruct (j =? start) eqn:Ej; [discriminate |]. apply Nat.eqb_neq in Ej. destruct (nth j v false) eqn:Ev.
    + destruct (IH v q v' q' (fun k Hk => Hr k (or_intror Hk)) E) as (H1 & H2 & H3 & new & -> & H4 & H5 & H6).
      split; [intros [F | F]; auto |]. split; [exact H2 |]. split.
      { intros k. rewrite H3. split; [tauto | intros [F | [<- | F]]; auto]. }
      exists new. repeat split; auto. intros k [<- | F]; auto.
    + assert (Hj : j < List.length v) by (apply Hr; auto).
      destruct (IH (replace v j true) (q ++ [j]) v' q') as (H1 & H2 & H3 & new & -> & H4 & H5 & H6).
      { intros k Hk. rewrite replace_length. auto. }
      { exact E. }
      assert (M : forall k, marked (replace v j true) k <-> marked v k \/ k = j).
      { intros k. rewrite nth_replace. replace (j <? List.length v) with true by (symmetry; apply Nat.ltb_lt; exact Hj). rewrite andb_true_r.
        destruct (k =? j) eqn:Ek; [apply Nat.eqb_eq in Ek; tauto | apply Nat.eqb_neq in Ek; tauto]. }
      split; [intros [F | F]; auto |]. split; [rewrite H2; apply replace_length |]. split.
      { intros k. rewrite H3, M. split; [intros [[F | F] | F]; auto | intros [F | [F | F]]; auto]. }
      exists (j :: new). rewrite <- app_assoc. split; [reflexivity |]. split; [intros k [<- | F]; auto |]. split.
      * intros k [<- | F]; [right; left; reflexivity |]. destruct (H5 k F) as [G | G]; [apply M in G; destruct G as [G | ->]; [left; exact G | right; left; reflexivity] | right; right; exact G].
      * rewrite <- H6, trues_replace by auto. cbn. lia.
Qed.

Definition sound_state (v : list bool) (q : list nat) : Prop :=
  List.length v = n /\ (forall k, In k q -> marked v k) /\
  (forall k, marked v k -> In k q \/ (~ edge k start /\ forall j, edge k j -> marked v j)) /\
  (forall k, marked v k -> clos_trans nat edge start k) /\
  ~ edge start start /\ (forall j, edge start j -> marked v j).
Lemma search_spec fuel : forall v q, sound_state v q -> List.length q + (n - trues v) <= fuel ->
  exists b, search fuel deps start v q = Some b /\ (b = true <-> clos_trans nat edge start start).
Proof.
  induction fuel as [|fuel IH]; intros v q (Hl & H1 & H2 & H3 & H4 & H5) Hf.
  all: destruct q as [|k q].
  1, 3: exists false; cbn; split; [reflexivity |]; split; [discriminate |]; intros P; exfalso.
  1, 2: assert (C : forall j, clos_trans nat edge start j -> marked v j)
      by (intros j Pj; apply clos_trans_tn1 in Pj; induction Pj as [j E | j l E _ IHP]; [auto | destruct (H2 j IHP) as [[] | (_ & Hc)]; auto]);
    apply clos_trans_tn1 in P; inversion P; subst;
    [auto | match goal with E : clos_trans_n1 _ _ _ ?j |- _ => apply clos_tn1_trans in E; destruct (H2 j (C j E)) as [[] | (Hn & _)]; auto end].
  - cbn in Hf. lia.
  - cbn. destruct (scan start (nth k deps []) v q) as [[v' q']|] eqn:E.
    + apply scan_some in E; [| intros j Hj; rewrite Hl; eapply inside; exact Hj].
      destruct E as (G1 & G2 & G3 & new & -> & G4 & G5 & G6).
      assert (Hk : marked v k) by (apply H1; left; reflexivity).
      apply IH.
      * split; [lia |]. split; [| split; [| split; [| split; [exact H4 |]]]].
        -- intros j Hj. apply in_app_or in Hj. apply G3. destruct Hj as [Hj | Hj]; [left; apply H1; right; exact Hj | right; auto].
        -- intros j Hj. apply G3 in Hj.
           assert (D : marked v j \/ In j new) by (destruct Hj as [Hj | Hj]; [auto | apply G5; exact Hj]).
           destruct D as [D | D]; [| left; apply in_or_app; auto].
           destruct (H2 j D) as [[<- | Hq] | (Hn & Hc)]; [right | left; apply in_or_app; auto | right].
           ++ split; [exact G1 | intros l Hl'; apply G3; auto].
           ++ split; [exact Hn | intros l Hl'; apply G3; left; auto].
        -- intros j Hj. apply G3 in Hj. destruct Hj as [Hj | Hj]; [auto |]. eapply t_trans; [apply H3; exact Hk | apply t_step; exact Hj].
        -- intros j Hj. apply G3. left. auto.
      * rewrite app_length. cbn in Hf. pose proof (trues_bound v'). lia.
    + apply scan_none in E. exists true. split; [reflexivity |]. split; [intros _ | reflexivity].
      eapply t_trans; [apply H3, H1; left; reflexivity | apply t_step; exact E].
Qed.
Lemma trues_repeat m : trues (repeat false m) = 0.
Proof. induction m; cbn; auto. Qed.
Lemma marked_repeat m j : nth j (repeat false m) false = false.
Proof. revert j. induction m as [|m IH]; intros [|j]; cbn; auto. Qed.
Lemma recursive_spec : exists b, recursive deps start = Some b /\ (b = true <-> clos_trans nat edge start start).
Proof.
  unfold recursive. destruct (scan start (nth start deps []) (repeat false n) []) as [[v q]|] eqn:E.
  - apply scan_some in E; [| intros j Hj; rewrite repeat_length; eapply inside; exact Hj].
    destruct E as (G1 & G2 & G3 & new & -> & G4 & G5 & G6). rewrite repeat_length in G2. rewrite trues_repeat in G6.
    apply search_spec.
    + split; [exact G2 |]. split; [intros k Hk; apply G3; right; apply G4; exact Hk |]. split.
      { intros k Hk. apply G3 in Hk. rewrite marked_repeat in Hk. destruct Hk as [Hk | Hk]; [discriminate |].
        destruct (G5 k Hk) as [F | F]; [rewrite marked_repeat in F; discriminate | left; exact F]. }
      split.
      { intros k Hk. apply G3 in Hk. rewrite marked_repeat in Hk. destruct Hk as [Hk | Hk]; [discriminate | apply t_step; exact Hk]. }
      split; [exact G1 |]. intros j Hj. apply G3. right. exact Hj.
    + cbn. pose proof (trues_bound v). lia.
  - apply scan_none in E. exists true. split; [reflexivity |]. split; [intros _; apply t_step; exact E | reflexivity].
Qed.
End Search.
