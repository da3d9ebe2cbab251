(** What the analysis computes, in terms of the specification. *)
From Coq Require Import String List Bool Arith Lia Relations.
From Verif.Basics Require Import Model.
From Verif.Scope Require Import Model.
From Verif.Demand Require Import Model Spec Facts.
Import ListNotations.
Open Scope nat_scope.

Lemma expr_nested (P : expr -> Prop) :
  (forall v, P (EVar v)) ->
  (forall bs body t, Forall (fun b => P (b_expr b)) bs -> P body -> P (ELet bs body t)) ->
  (forall i ps body, P body -> P (ELam i ps body)) ->
  (forall k xs, Forall P xs -> P (ENode k xs)) -> forall e, P e.
Proof.
  intros H1 H2 H3 H4. fix IH 1. intros [v|bs body t|i ps body|k xs].
  - apply H1.
  - apply H2; [| apply IH]. induction bs as [|b bs IHb]; constructor; [apply IH | exact IHb].
  - apply H3, IH.
  - apply H4. induction xs as [|x xs IHx]; constructor; [apply IH | exact IHx].
Qed.

(** * Annotations do not matter to what is used *)
Definition erase_b (b : binding expr) : binding expr := mkBinding (b_name b) (erase (b_expr b)) default_demand.
Scheme uses_mut := Minimality for uses Sort Prop with needed_mut := Minimality for needed Sort Prop.
Lemma map_nth_error' {A B} (f : A -> B) l l' i x : map f l' = map f l -> nth_error l i = Some x -> exists y, nth_error l' i = Some y /\ f y = f x.
Proof.
  intros E H. pose proof (map_nth_error f i l H) as F. rewrite <- E in F. rewrite nth_error_map in F.
  destruct (nth_error l' i) as [y|]; [| discriminate]. injection F as F. eauto.
Qed.
Lemma simple_erase e e' : erase e' = erase e -> simple e -> simple e'.
Proof. destruct e, e'; cbn; try discriminate; try tauto. intros [= -> _]. auto. Qed.
Lemma ignores_erase f f' i : erase f' = erase f -> ignores f i -> ignores f' i.
Proof.
  destruct f as [| |? ? body|], f' as [| |? ? body'|]; cbn; try discriminate; try tauto. intros [= _ -> E] (H1 & H2 & H3). split; [exact H1 |]. split; [eapply simple_erase; eassumption |].
  intros n ->. cbn in E. apply (H3 n). destruct body; cbn in E; try discriminate. congruence.
Qed.
Lemma uses_erase e s b : uses e s b -> forall e', erase e' = erase e -> uses e' s b.
Proof.
  apply (uses_mut (fun e s b => forall e', erase e' = erase e -> uses e' s b)
    (fun bs body i => forall bs' body', map erase_b bs' = map erase_b bs -> erase body' = erase body -> needed bs' body' i)).
  - clear. intros s b n e' E. destruct e'; cbn in E; try discriminate. injection E as ->. constructor.
  - intros bs body t s0 b0 _ IH [|bs' body' t'| |] E; cbn in E; try discriminate. injection E as E1 E2 _. apply us_body, IH. exact E2.
  - intros bs body t i d s0 b0 _ IHn Hd _ IH [|bs' body' t'| |] E; cbn in E; try discriminate. injection E as E1 E2 _.
    destruct (map_nth_error' erase_b bs bs' i d E1 Hd) as (d' & H1 & H2). unfold erase_b in H2. injection H2 as _ H2.
    eapply us_definition; [apply IHn; [exact E1 | exact E2] | exact H1 | apply IH; exact H2].
  - intros i ps body s0 b0 _ IH [| |i' ps' body'|] E; cbn in E; try discriminate. injection E as _ _ E. apply us_function, IH. exact E.
  - intros f xs s0 b0 _ IH [| | |k' [|f' xs']] E; cbn in E; try discriminate. injection E as -> E _. apply us_called, IH. exact E.
  - intros f xs i x s0 b0 Hx Hi _ IH [| | |k' [|f' xs']] E; cbn in E; try discriminate. injection E as -> E E2.
    destruct (map_nth_error' erase xs xs' i x E2 Hx) as (x' & H1 & H2).
    eapply us_argument; [exact H1 | | apply IH; exact H2]. intros Hi'. apply Hi. eapply ignores_erase; [symmetry; exact E | exact Hi'].
  - intros k xs x s0 b0 Hk Hk' Hx _ IH [| | |k' xs'] E; cbn in E; try discriminate. injection E as -> E.
    apply In_nth_error in Hx. destruct Hx as (i & Hx). destruct (map_nth_error' erase xs xs' i x E Hx) as (x' & H1 & H2).
    eapply us_part; [exact Hk | exact Hk' | eapply nth_error_In; exact H1 | apply IH; exact H2].
  - intros bs body i Hi _ IH bs' body' E1 E2. apply nd_body; [| apply IH; exact E2]. apply (f_equal (@List.length _)) in E1. rewrite !map_length in E1. lia.
  - intros bs body j d i _ IHn Hd Hi _ IH bs' body' E1 E2. destruct (map_nth_error' erase_b bs bs' j d E1 Hd) as (d' & H1 & H2). unfold erase_b in H2. injection H2 as _ H2.
    eapply nd_definition; [apply IHn; [exact E1 | exact E2] | exact H1 | | apply IH; exact H2]. apply (f_equal (@List.length _)) in E1. rewrite !map_length in E1. lia.
Qed.
Lemma uses_same e e' s b : erase e = erase e' -> (uses e s b <-> uses e' s b).
Proof. intros E. split; intros H; eapply uses_erase; eauto. Qed.

Lemma forall2_length {A B} (R : A -> B -> Prop) l m : Forall2 R l m -> List.length l = List.length m.
Proof. induction 1; cbn; auto. Qed.

(** * The demands of a let *)
Section Let.
Variables (body' : expr) (body : env) (envs : list env).
Hypothesis body_good : good body.
Hypothesis envs_good : Forall good envs.
Notation n := (List.length envs).
Notation deps := (dependencies n envs).
Definition link (i j : nat) : Prop := i < n /\ j < n /\ get (nth i envs []) (0, j) <> None.
Inductive reached : nat -> Prop :=
| re_body i : i < n -> get body (0, i) <> None -> reached i
| re_step j i : reached j -> link j i -> reached i.
Lemma deps_length : List.length deps = n. Proof. apply map_length. Qed.
Lemma deps_link i j : In j (nth i deps []) <-> link i j.
Proof.
  unfold dependencies, link. destruct (Nat.lt_ge_cases i n) as [Hi | Hi].
  - rewrite nth_indep with (d' := (fun m => filter (fun j => match get m (0, j) with Some _ => true | None => false end) (seq 0 n)) []) by (rewrite map_length; exact Hi).
    rewrite (map_nth (fun m => filter (fun j => match get m (0, j) with Some _ => true | None => false end) (seq 0 n))).
    rewrite filter_In, in_seq. destruct (get (nth i envs []) (0, j)); (split; [intros (H1 & H2) | intros (H1 & H2 & H3)]); repeat split; try lia; try congruence.
  - rewrite nth_overflow by (rewrite map_length; exact Hi). cbn. split; [tauto | intros (H & _); lia].
Qed.
Lemma clos_link i j : clos_trans nat (fun i j => In j (nth i deps [])) i j <-> clos_trans nat link i j.
Proof.
  split; intros H; induction H as [x y H | x y z _ H1 _ H2]; try (eapply t_trans; eassumption); apply t_step; apply deps_link; exact H.
Qed.
Lemma nth_combine3 {A B C} (l : list A) (m : list B) (o : list C) a b c i :
  List.length l = n -> List.length m = n -> List.length o = n -> i < n ->
  nth i (combine (combine l m) o) ((a, b), c) = ((nth i l a, nth i m b), nth i o c).
Proof. intros H1 H2 H3 H. rewrite combine_nth by (rewrite combine_length; lia). rewrite combine_nth by lia. reflexivity. Qed.

Lemma let_demands_spec : exists ds, let_demands body' body envs = Some ds /\ List.length ds = n /\
  forall i, i < n -> let d := nth i ds demand_absent in
    d_card d <> CUnknown /\ (d_card d <> CAbsent <-> reached i) /\ (d_rec d = true <-> clos_trans nat link i i) /\
    (d_card d = CAtMostOnce -> is_block body' = false /\ forall j, clos_trans nat link j j -> i <> j /\ ~ clos_trans nat link j i).
Proof.
  unfold let_demands.
  assert (R : forall i, exists b, recursive deps i = Some b /\ (b = true <-> clos_trans nat link i i)).
  { intros i. destruct (recursive_spec deps) with (start := i) as (b & H1 & H2).
    - intros k j H. apply deps_link in H. rewrite deps_length. apply H.
    - exists b. split; [exact H1 |]. rewrite H2. apply clos_link. }
  destruct (all_some (map (recursive deps) (seq 0 n))) as [recs|] eqn:E1.
  2: { exfalso. eapply all_some_map; [| exact E1]. intros i _. destruct (R i) as (b & H & _). rewrite H. discriminate. }
  apply all_some_forall2 in E1.
  assert (Lr : List.length recs = n) by (apply forall2_length in E1; rewrite seq_length in E1; lia).
  assert (Rr : forall i, i < n -> (nth i recs false = true <-> clos_trans nat link i i)).
  { intros i Hi. destruct (Forall2_nth _ _ _ E1 i i) as (b & H1 & H2).
    - rewrite nth_error_nth' with (d := 0) by (rewrite seq_length; exact Hi). rewrite seq_nth by exact Hi. reflexivity.
    - destruct (R i) as (b' & H3 & H4). rewrite (nth_some _ _ false _ H1). rewrite H2 in H3. injection H3 as <-. exact H4. }
  destruct (taint_settles deps recs) as (t & H1 & H2 & H3 & H4); [rewrite deps_length; exact Lr |]. rewrite deps_length in H1, H2, H4. rewrite H1.
  destruct (propagation_settles body envs body_good envs_good reached) as (ds & G1 & G2 & G3 & G4 & G5 & G6 & _).
  { apply re_body. }
  { intros j i Hj Hi Hr Hg. eapply re_step; [exact Hr | repeat split; assumption]. }
  rewrite G1.
  set (ds1 := map (fun x => mark (fst (fst x)) (snd (fst x)) (snd x)) (combine (combine t recs) ds)).
  assert (L1 : List.length ds1 = n) by (unfold ds1; rewrite map_length, !combine_length; lia).
  assert (N1 : forall i, i < n -> nth i ds1 demand_absent = mark (nth i t false) (nth i recs false) (nth i ds demand_absent)).
  { intros i Hi. pose proof (map_nth (fun x => mark (fst (fst x)) (snd (fst x)) (snd x)) (combine (combine t recs) ds) ((false, false), demand_absent) i) as E.
    rewrite nth_combine3 in E by assumption. exact E. }
  assert (K : forall i, i < n -> d_card (nth i ds demand_absent) <> CAbsent <-> reached i).
  { intros i Hi. split; [apply G4; exact Hi |]. intros Hr. clear Hi. induction Hr as [i Hi Hb | j i Hr IH (Hj & Hi & Hg)]; [exact (G5 i Hi Hb) | exact (G6 j i Hj Hi IH Hg)]. }
  assert (M : forall i, i < n -> let d := nth i ds1 demand_absent in
    d_card d <> CUnknown /\ (d_card d <> CAbsent <-> reached i) /\ (d_rec d = true <-> clos_trans nat link i i) /\
    (d_card d = CAtMostOnce -> forall j, clos_trans nat link j j -> i <> j /\ ~ clos_trans nat link j i)).
  { intros i Hi. cbv zeta. rewrite N1 by exact Hi. rewrite <- K, <- Rr by exact Hi. destruct (G3 i) as (P1 & P2 & P3).
    unfold mark. cbn. split; [destruct (_ && _); [discriminate | exact P1] |]. split.
    { destruct (nth i ds demand_absent) as [c s w r]. cbn. destruct (nth i t false), c; cbn; split; congruence. }
    split; [destruct (nth i recs false); [tauto | rewrite P3; tauto] |].
    intros Hc j Hj. destruct (nth i t false) eqn:Et.
    - exfalso. cbn in Hc. destruct (d_card (nth i ds demand_absent)); cbn in Hc; congruence.
    - assert (T : forall k, clos_trans nat link j k -> nth k t false = true).
      { assert (Hjn : j < n) by (apply clos_trans_t1n in Hj; inversion Hj as [? (X & _) | ? ? (X & _)]; exact X).
        intros k P. apply clos_trans_tn1 in P. induction P as [k (_ & Hk & Hg) | k l (Hk & Hl & Hg) _ IHP].
        - eapply H4; [exact Hjn | apply H3, Rr; assumption | apply deps_link; repeat split; eassumption | exact Hk].
        - eapply H4; [exact Hk | exact IHP | apply deps_link; repeat split; eassumption | exact Hl]. }
      split; [intros ->; rewrite (T j Hj) in Et; discriminate | intros P; rewrite (T i P) in Et; discriminate]. }
  destruct (is_block body') eqn:Eb.
  - exists (map rendered ds1). split; [reflexivity |]. split; [rewrite map_length; exact L1 |]. intros i Hi. cbv zeta.
    change demand_absent with (rendered demand_absent). rewrite (map_nth rendered). specialize (M i Hi). cbv zeta in M.
    destruct (nth i ds1 demand_absent) as [c s w r]. destruct M as (M1 & M2 & M3 & M4). destruct c; cbn in *.
    all: split; [first [exact M1 | discriminate] | split; [| split; [exact M3 | discriminate]]].
    all: first [exact M2 | split; [intros _; apply M2; discriminate | intros _; discriminate]].
  - exists ds1. split; [reflexivity |]. split; [exact L1 |]. intros i Hi. destruct (M i Hi) as (M1 & M2 & M3 & M4). split; [exact M1 | split; [exact M2 | split; [exact M3 |]]]. intros Hc. split; [reflexivity | exact (M4 Hc)].
Qed.
End Let.

(** * Calls *)
Lemma untouched_simple e : untouched e = true <-> simple e.
Proof. destruct e as [v|bs body t|i ps body|k xs]; cbn; try tauto; try (split; [discriminate | tauto]). destruct k; cbn; split; try tauto; try discriminate. Qed.
Lemma not_untouched k xs : untouched (ENode k xs) = false <-> composite k.
Proof. destruct k; cbn; split; try tauto; try discriminate. Qed.
Section Call.
Variable intrinsics : table.
Hypothesis proper : Forall (fun e => Forall proper_entry (snd e)) intrinsics.
Definition admissible (d : Basics.Model.demand) : Prop := d_card d = CAbsent \/ known d.
Lemma lazy_multi_known : known lazy_multi.
Proof. repeat split; auto. Qed.
Lemma strict_once_known : known strict_once.
Proof. repeat split; auto. Qed.
Lemma known_not_absent d : known d -> d_card d <> CAbsent.
Proof. intros ([E | E] & _); rewrite E; discriminate. Qed.
Lemma leaf_good e : good (leaf_env e).
Proof. destruct e as [[n|s b n]| | |]; try constructor; [apply strict_once_known | constructor]. Qed.
Lemma absent_or_good m k : good m -> admissible (get_or_absent m k).
Proof. intros H. unfold get_or_absent. destruct (get m k) eqn:E; [right; eapply get_good; eassumption | left; reflexivity]. Qed.
Lemma get_or_absent_some m k : good m -> (d_card (get_or_absent m k) <> CAbsent <-> get m k <> None).
Proof.
  intros H. unfold get_or_absent. destruct (get m k) eqn:E; [| cbn; tauto].
  split; [discriminate | intros _; apply known_not_absent; eapply get_good; eassumption].
Qed.
Lemma signature_length n m : List.length (signature n m) = n.
Proof. unfold signature. rewrite map_length, seq_length. reflexivity. Qed.
Lemma signature_nth n m i d : i < n -> nth i (signature n m) d = get_or_absent m (0, i).
Proof.
  intros Hi. unfold signature. rewrite nth_indep with (d' := get_or_absent m (0, 0)) by (rewrite map_length, seq_length; exact Hi).
  rewrite (map_nth (fun i => get_or_absent m (0, i))), seq_nth by exact Hi. reflexivity.
Qed.
Definition demands_of (f : expr) : list Basics.Model.demand := match signature_of intrinsics f with Some ds => ds | None => [] end.
Lemma demands_of_admissible f : Forall admissible (demands_of f).
Proof.
  unfold demands_of. destruct f as [v|bs body t|i ps body|k xs]; cbn; try constructor.
  - destruct (untouched body); [| constructor]. apply Forall_forall. intros d Hd. unfold signature in Hd. apply in_map_iff in Hd.
    destruct Hd as (j & <- & _). apply absent_or_good, leaf_good.
  - destruct k; cbn; try constructor. unfold find_sig. destruct (find _ intrinsics) as [e|] eqn:E; [| constructor].
    apply find_some in E. destruct E as (E & _). rewrite Forall_forall in proper. specialize (proper _ E).
    apply Forall_forall. intros d Hd. right. rewrite Forall_forall in proper. auto.
Qed.
Lemma leaf_some body i : simple body -> (get (leaf_env body) (0, i) <> None <-> exists n, body = EVar (Bound 0 i n)).
Proof.
  intros _. destruct body as [[n|s b n]| | |]; cbn; try (split; [congruence | intros (m & H); discriminate]).
  unfold key_eqb. cbn. destruct (s =? 0) eqn:E1, (b =? i) eqn:E2; cbn; split; try congruence.
  - intros _. apply Nat.eqb_eq in E1, E2. subst. eauto.
  - intros (m & [= -> -> _]). rewrite Nat.eqb_refl in E2. discriminate.
  - intros (m & [= -> -> _]). discriminate.
  - intros (m & [= -> -> _]). discriminate.
Qed.
Lemma demands_of_ignores f i : d_card (nth i (demands_of f) lazy_multi) <> CAbsent <-> ~ ignores f i.
Proof.
  pose proof (demands_of_admissible f) as A. unfold demands_of in *. destruct f as [v|bs body t|inl ps body|k xs]; cbn in *.
  - split; [tauto | intros _; destruct i; discriminate].
  - split; [tauto | intros _; destruct i; discriminate].
  - destruct (untouched body) eqn:E.
    + assert (Hs : simple body) by (apply untouched_simple; exact E). destruct (Nat.lt_ge_cases i (List.length ps)) as [Hi | Hi].
      * rewrite signature_nth by exact Hi. rewrite get_or_absent_some by apply leaf_good. rewrite leaf_some by exact Hs. split.
        -- intros (n & ->) (_ & _ & H). exact (H n eq_refl).
        -- intros H. destruct body as [[n|s b n]| | |]; try (exfalso; apply H; split; [exact Hi | split; [exact Hs | discriminate]]).
           destruct (Nat.eq_dec s 0) as [-> | Hs0], (Nat.eq_dec b i) as [-> | Hb0]; [eauto | | |].
           all: exfalso; apply H; split; [exact Hi | split; [exact Hs |]]; intros m [= ]; contradiction.
      * rewrite nth_overflow by (rewrite signature_length; exact Hi). split; [intros _ (H & _); lia | discriminate].
    + split; [intros _ (_ & H & _); apply untouched_simple in H; congruence | intros _; destruct i; discriminate].
  - split; [tauto |]. intros _. destruct k; cbn in *; try (destruct i; discriminate). destruct (find_sig intrinsics name) as [ds|] eqn:E; [| destruct i; discriminate].
    unfold find_sig in E. destruct (find _ intrinsics) as [e|] eqn:F; [| discriminate]. injection E as <-. apply find_some in F. destruct F as (F & _).
    rewrite Forall_forall in proper. specialize (proper _ F). destruct (Nat.lt_ge_cases i (List.length (snd e))) as [Hi | Hi].
    + rewrite Forall_forall in proper. apply known_not_absent, proper, nth_In. exact Hi.
    + rewrite nth_overflow by exact Hi. discriminate.
Qed.
Lemma is_absent_spec c : is_absent c = true <-> c = CAbsent.
Proof. destruct c; cbn; split; congruence. Qed.
Lemma with_arguments_spec rs : forall m ds, good m -> Forall admissible ds -> Forall (fun r => good (a_env r)) rs ->
  good (with_arguments m ds rs) /\
  forall k, get (with_arguments m ds rs) k <> None <->
    get m k <> None \/ exists i r, nth_error rs i = Some r /\ d_card (nth i ds lazy_multi) <> CAbsent /\ get (a_env r) k <> None.
Proof.
  induction rs as [|r rs IH]; cbn [with_arguments]; intros m ds Hm Hd Hr.
  - split; [exact Hm |]. intros k. split; [auto |]. intros [H | ([|i] & r & H & _)]; [exact H | discriminate | discriminate].
  - inversion Hr as [|? ? Hr1 Hr2]; subst.
    assert (Hh : admissible (hd lazy_multi ds)) by (destruct Hd; [right; apply lazy_multi_known | assumption]).
    assert (Ht : Forall admissible (tl ds)) by (destruct Hd; [constructor | assumption]).
    assert (N : forall i, nth (S i) ds lazy_multi = nth i (tl ds) lazy_multi) by (intros i; destruct ds; [destruct i; reflexivity | reflexivity]).
    assert (N0 : nth 0 ds lazy_multi = hd lazy_multi ds) by (destruct ds; reflexivity).
    destruct (is_absent (d_card (hd lazy_multi ds))) eqn:E.
    + apply is_absent_spec in E. destruct (IH m (tl ds) Hm Ht Hr2) as (H1 & H2). split; [exact H1 |]. intros k. rewrite H2. split.
      * intros [H | (i & r' & H3 & H4 & H5)]; [auto | right; exists (S i), r'; rewrite N; auto].
      * intros [H | ([|i] & r' & H3 & H4 & H5)]; [auto | rewrite N0 in H4; contradiction | right; exists i, r'; rewrite <- N; auto].
    + assert (E' : d_card (hd lazy_multi ds) <> CAbsent) by (intros F; apply is_absent_spec in F; congruence).
      destruct Hh as [Hh | Hh]; [contradiction |].
      destruct (IH (merge m (scaled (a_env r) (hd lazy_multi ds))) (tl ds)) as (H1 & H2); [apply merge_good; [exact Hm | apply scaled_good; assumption] | exact Ht | exact Hr2 |].
      split; [exact H1 |]. intros k. rewrite H2, merge_some, scaled_some. split.
      * intros [[H | H] | (i & r' & H3 & H4 & H5)]; [auto | right; exists 0, r; rewrite N0; auto | right; exists (S i), r'; rewrite N; auto].
      * intros [H | ([|i] & r' & H3 & H4 & H5)]; [auto | injection H3 as ->; auto | right; exists i, r'; rewrite <- N; auto].
Qed.
End Call.

(** * Demands outside a let *)
Lemma outward_spec ds : forall body envs, good body -> Forall good envs -> List.length ds = List.length envs ->
  good (outward body ds envs) /\
  forall s b, get (outward body ds envs) (s, b) <> None <->
    get body (S s, b) <> None \/ exists i d, nth_error ds i = Some d /\ counts d = true /\ get (nth i envs []) (S s, b) <> None.
Proof.
  intros body envs Hb He Hl. unfold outward.
  assert (G : forall m envs, good m -> Forall good envs -> List.length ds = List.length envs ->
    let o := fold_left (fun m x => if counts (fst x) then merge m (unshift (snd x)) else m) (combine ds envs) m in
    good o /\ forall s b, get o (s, b) <> None <-> get m (s, b) <> None \/ exists i d, nth_error ds i = Some d /\ counts d = true /\ get (nth i envs []) (S s, b) <> None).
  { clear. induction ds as [|d ds IH]; intros m envs Hm He Hl; cbn [combine fold_left fst snd]; cbv zeta.
    - split; [exact Hm |]. intros s b. split; [auto |]. intros [H | ([|i] & d & H & _)]; [exact H | discriminate | discriminate].
    - destruct envs as [|e envs]; [discriminate |]. inversion He as [|? ? He1 He2]; subst. cbn [combine fold_left fst snd].
      set (m' := if counts d then merge m (unshift e) else m).
      assert (Hm' : good m') by (unfold m'; destruct (counts d); [apply merge_good; [exact Hm | apply unshift_good; exact He1] | exact Hm]).
      destruct (IH m' envs Hm' He2) as (H1 & H2); [cbn in Hl; lia |]. cbv zeta in H1, H2. split; [exact H1 |]. intros s b. rewrite H2. unfold m'. split.
      + intros [H | (i & d' & H3 & H4 & H5)]; [| right; exists (S i), d'; auto].
        destruct (counts d) eqn:E; [| auto]. apply merge_some in H. destruct H as [H | H]; [auto |]. rewrite get_unshift in H. right. exists 0, d. auto.
      + intros [H | ([|i] & d' & H3 & H4 & H5)]; [left; destruct (counts d); [apply merge_some; auto | exact H] | | right; exists i, d'; auto].
        injection H3 as ->. rewrite H4. left. apply merge_some. right. rewrite get_unshift. exact H5. }
  destruct (G (unshift body) envs (unshift_good _ Hb) He Hl) as (H1 & H2). split; [exact H1 |]. intros s b. rewrite H2, get_unshift. reflexivity.
Qed.
