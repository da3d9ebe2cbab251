(** Proofs about dead code elimination: meaning and shape of the result. *)
From Coq Require Import List Bool Arith String Lia.
From Verif.Scope Require Import Model Spec Proofs.
From Verif.Simplify Require Import Compress CompressSpec CompressProofs Prune PruneSpec PruneProofs PruneProofs2 PruneProofs3.
Import ListNotations.
Local Arguments Nat.eqb : simpl never.
Local Arguments Nat.leb : simpl never.
Local Arguments Nat.ltb : simpl never.

Lemma nsf_at root : no_self_fallback root = true -> forall p sc e, at_ root p = Some (sc, e) -> no_self_fallback e = true.
Proof.
  intros W p. induction p as [|i p IH]; intros sc e A; cbn in A; [injection A as <- <-; auto|].
  destruct (at_ root p) as [[sc0 e0]|] eqn:E; [|discriminate]. specialize (IH _ _ eq_refl).
  destruct e0 as [v|bs body t|il ps body|k xs]; cbn in A, IH.
  - discriminate.
  - apply andb_prop in IH. destruct IH as [I1 I2]. destruct (nth_error bs i) as [b|] eqn:Eb.
    + injection A as <- <-. rewrite forallb_forall in I1. apply I1. eapply nth_error_In; eauto.
    + destruct (i =? List.length bs); [|discriminate]. injection A as <- <-. auto.
  - destruct (i =? 0); [|discriminate]. injection A as <- <-. auto.
  - apply andb_prop in IH. destruct IH as [_ I2]. destruct (nth_error xs i) as [x|] eqn:Ex; [|discriminate].
    cbn in A. injection A as <- <-. rewrite forallb_forall in I2. apply I2. eapply nth_error_In; eauto.
Qed.

Definition use_at (st : state) (t : path) : use :=
  if is_unseen (seen_at st t) then Unused
  else match accessed_members st t with Some ms => Members ms | None => Whole end.
Definition uses_of (st : state) (p : path) (n : nat) : list use := map (fun i => use_at st (i :: p)) (seq 0 n).

Section Meaning.
  Variables (I : interp) (rho : string -> D I) (root : expr) (st : state).
  Hypothesis U : only_uses_matter I.
  Hypothesis W : well_formed root = true.
  Hypothesis NS : no_self_fallback root = true.
  Hypothesis S : settled root st.

  Lemma agree_eq u (v w : D I) : v = w -> agree I u v w.
  Proof. intros ->. destruct u; cbn; auto. Qed.
  Lemma agree_nth us : forall vs ws, agree_all I us vs ws -> forall b u, nth_error us b = Some u ->
    exists v w, nth_error vs b = Some v /\ nth_error ws b = Some w /\ agree I u v w.
  Proof.
    induction us as [|u us IH]; intros [|v vs] [|w ws] H b x E; cbn in H; try tauto; [destruct b; discriminate|].
    destruct H as [H1 H2]. destruct b as [|b]; cbn in *; [injection E as <-; eauto|]. eapply IH; eauto.
  Qed.
  Lemma agree_lengths us : forall vs ws, agree_all I us vs ws -> List.length vs = List.length us /\ List.length ws = List.length us.
  Proof.
    induction us as [|u us IH]; intros [|v vs] [|w ws] H; cbn in H; try tauto; auto. destruct H as [_ H]. cbn. destruct (IH _ _ H). lia.
  Qed.
  Lemma uses_nth p n b : b < n -> nth_error (uses_of st p n) b = Some (use_at st (b :: p)).
  Proof.
    intros L. unfold uses_of. rewrite nth_error_map, (nth_error_nth' _ 0) by (rewrite seq_length; lia). rewrite seq_nth by lia. reflexivity.
  Qed.

  Definition env_rel (sc : scopes) (env env' : list (list (D I))) : Prop := forall s,
    match nth_error sc s with
    | Some (Some (lp, n)) => exists vs ws, nth_error env s = Some vs /\ nth_error env' s = Some ws /\ agree_all I (uses_of st lp n) vs ws
    | _ => nth_error env s = nth_error env' s
    end.
  Lemma env_rel_let sc env env' p n vs ws : env_rel sc env env' -> agree_all I (uses_of st p n) vs ws ->
    env_rel (Some (p, n) :: sc) (vs :: env) (ws :: env').
  Proof. intros E A [|s]; cbn; eauto. apply E. Qed.
  Lemma env_rel_lam sc env env' vs : env_rel sc env env' -> env_rel (None :: sc) (vs :: env) (vs :: env').
  Proof. intros E [|s]; cbn; eauto. apply E. Qed.
  Lemma env_agree sc env env' s b t : env_rel sc env env' -> resolve sc s b = Some t ->
    agree I (use_at st t) (lookup I env s b) (lookup I env' s b).
  Proof.
    intros E R. unfold resolve in R. specialize (E s). destruct (nth_error sc s) as [[[lp n]|]|]; try discriminate.
    destruct (Nat.ltb_spec b n) as [L|L]; [|discriminate]. injection R as <-.
    destruct E as (vs & ws & E1 & E2 & A). destruct (agree_nth _ _ _ A b _ (uses_nth lp n b L)) as (v & w & Ev & Ew & Ag).
    unfold lookup. rewrite E1, E2, (nth_error_nth _ _ _ Ev), (nth_error_nth _ _ _ Ew). exact Ag.
  Qed.
  Lemma env_unresolved sc env env' s b : env_rel sc env env' -> resolve sc s b = None -> lookup I env s b = lookup I env' s b.
  Proof.
    intros E R. unfold resolve in R. specialize (E s). unfold lookup. destruct (nth_error sc s) as [[[lp n]|]|]; try (rewrite E; reflexivity).
    destruct (Nat.ltb_spec b n) as [L|L]; [discriminate|]. destruct E as (vs & ws & -> & -> & A).
    destruct (agree_lengths _ _ _ A) as [L1 L2]. unfold uses_of in L1, L2. rewrite map_length, seq_length in L1, L2.
    rewrite !nth_overflow by lia. reflexivity.
  Qed.
  Lemma whole_use t : seen_at st t <> Unseen -> disqualified st t = true \/ default root t = false -> use_at st t = Whole.
  Proof.
    intros N H. unfold use_at, accessed_members. destruct (seen_at st t); try congruence; cbn;
      destruct (candidates st t) eqn:C; auto; destruct (inv_cand _ _ (proj1 S) t C) as [C1 C2]; destruct H; congruence.
  Qed.

  Lemma var_den q sc s b n env env' : at_ root q = Some (sc, EVar (Bound s b n)) -> live root st q -> in_lookup root q = false ->
    env_rel sc env env' -> lookup I env s b = lookup I env' s b.
  Proof.
    intros A L IL E. destruct (resolve sc s b) as [t|] eqn:R; [|eapply env_unresolved; eauto].
    pose proof (env_agree _ _ _ _ _ _ E R) as Ag.
    pose proof (live_ev root st q _ _ W S L A ltac:(discriminate) ltac:(discriminate)) as K. unfold ev_ok, event in K.
    rewrite A, IL, R in K. cbn in K. destruct K as [K1 K2]. rewrite (whole_use t K1 (or_introl K2)) in Ag. exact Ag.
  Qed.
  Lemma lookup_den q sc m s b n fb env env' vs : at_ root q = Some (sc, ENode (KLookup m) (EVar (Bound s b n) :: fb)) -> live root st q ->
    env_rel sc env env' -> i_node I (KLookup m) (lookup I env s b :: vs) = i_node I (KLookup m) (lookup I env' s b :: vs).
  Proof.
    intros A L E. destruct (resolve sc s b) as [t|] eqn:R; [|erewrite env_unresolved; eauto].
    pose proof (env_agree _ _ _ _ _ _ E R) as Ag.
    pose proof (live_ev root st q _ _ W S L A ltac:(discriminate) ltac:(discriminate)) as K. unfold ev_ok in K.
    rewrite (lookup_event _ _ _ _ _ _ _ _ A), R in K. cbn in K. destruct K as [K1 K2].
    destruct K2 as [K2|K2]; [|rewrite (whole_use t K1 K2) in Ag; cbn in Ag; rewrite Ag; reflexivity].
    unfold use_at, accessed_members, members in *. destruct (seen_at st t); try congruence; cbn in Ag;
      destruct (candidates st t); cbn in Ag; try (rewrite Ag; reflexivity);
      destruct (accessed st t) as [ms|]; cbn in Ag; try (rewrite Ag; reflexivity); apply Ag, K2.
  Qed.

  Definition same (e : expr) : Prop := forall p sc env env', at_ root p = Some (sc, e) -> live root st p -> in_lookup root p = false ->
    env_rel sc env env' ->
    den I rho env e = den I rho env' (blank st None p e) /\
    (is_default_let e = true -> forall ms m fb, In m ms ->
       i_node I (KLookup m) (den I rho env e :: fb) = i_node I (KLookup m) (den I rho env' (blank st (Some ms) p e) :: fb)) /\
    (forall ks xs ms, e = ENode (KBlock ks) xs -> List.length ks = List.length xs ->
       entries_in ms ks (map (den I rho env) xs) = map (fun ky => (fst ky, den I rho env' (snd ky))) (blank_entries st ms p 0 ks xs)).

  Lemma agree_bindings (am : path -> option (list string)) p sc env env' bs body t : (am = accessed_members st \/ am = fun _ => None) ->
    Forall (fun b => same (b_expr b)) bs -> at_ root p = Some (sc, ELet bs body t) -> live root st p ->
    env_rel (Some (p, List.length bs) :: sc) env env' ->
    agree_all I (uses_of st p (List.length bs)) (map (fun b => den I rho env (b_expr b)) bs)
      (map (fun b => den I rho env' (b_expr b)) (blank_bindings st am p 0 bs)).
  Proof.
    intros Ham F A L E. unfold uses_of.
    assert (G : forall l i, (forall j b, nth_error l j = Some b ->
       agree I (use_at st (i + j :: p)) (den I rho env (b_expr b)) (den I rho env' (b_expr (blank_binding st am (i + j :: p) b)))) ->
      agree_all I (map (fun i => use_at st (i :: p)) (seq i (List.length l))) (map (fun b => den I rho env (b_expr b)) l)
        (map (fun b => den I rho env' (b_expr b)) (blank_bindings st am p i l))).
    { induction l as [|b l IH]; intros i H; cbn; auto. split.
      - specialize (H 0 b eq_refl). rewrite Nat.add_0_r in H. exact H.
      - apply IH. intros j x Ex. specialize (H (Datatypes.S j) x Ex). replace (Datatypes.S i + j) with (i + Datatypes.S j) by lia. exact H. }
    apply G. intros j b Eb. cbn [Nat.add]. unfold blank_binding.
    pose proof (nth_error_In _ _ Eb) as Hb. rewrite Forall_forall in F.
    destruct (is_unseen (seen_at st (j :: p))) eqn:Un; [unfold use_at; rewrite Un; exact Logic.I|]. cbn [b_expr].
    assert (Ab : at_ root (j :: p) = Some (Some (p, List.length bs) :: sc, b_expr b)) by (rewrite (at_let_child _ _ _ _ _ _ _ A), Eb; reflexivity).
    destruct (F b Hb (j :: p) _ env env' Ab) as (K1 & K2 & _); auto.
    { apply live_down; auto. intros _ _ _ _ _ _ Q. rewrite Q in Un. discriminate. }
    { cbn. rewrite A. reflexivity. }
    destruct Ham as [->| ->]; [|apply agree_eq, K1]. unfold use_at. rewrite Un.
    destruct (accessed_members st (j :: p)) as [ms|] eqn:Am; [|exact K1].
    assert (D : is_default_let (b_expr b) = true).
    { unfold accessed_members in Am. destruct (candidates st (j :: p)) eqn:C; [|discriminate].
      destruct (inv_cand _ _ (proj1 S) _ C) as [_ D]. unfold default in D. rewrite Ab in D. exact D. }
    intros m fb Hm. apply K2; auto.
  Qed.

  Lemma nodes_den (m : nat -> option (list string)) p sc k xs env env' : (forall i, m i = None) -> Forall same xs ->
    at_ root p = Some (sc, ENode k xs) -> live root st p -> env_rel sc env env' ->
    forall l i, (forall j x, nth_error l j = Some x -> nth_error xs (i + j) = Some x /\ in_lookup root (i + j :: p) = false) ->
    map (den I rho env) l = map (den I rho env') (blank_nodes st m p i l).
  Proof.
    intros Hm F A L E. rewrite Forall_forall in F. induction l as [|x l IH]; intros i H; cbn; auto. f_equal.
    - destruct (H 0 x eq_refl) as [Ex IL]. rewrite Nat.add_0_r in *. rewrite Hm.
      eapply (proj1 (F x (nth_error_In _ _ Ex) (i :: p) sc env env' _ _ IL E)).
      Unshelve.
      + cbn. rewrite A. cbn. rewrite Ex. reflexivity.
      + apply live_down; auto. intros sc' bs' body' t' A' Lt. rewrite A in A'. discriminate.
    - apply IH. intros j y Ey. destruct (H (Datatypes.S j) y Ey) as [K1 K2]. replace (Datatypes.S i + j) with (i + Datatypes.S j) by lia. auto.
  Qed.

  Lemma entries_den ms p sc env env' ks xs : Forall same xs -> at_ root p = Some (sc, ENode (KBlock ks) xs) -> live root st p -> env_rel sc env env' ->
    forall l ks' i, (forall j x, nth_error l j = Some x -> nth_error xs (i + j) = Some x) -> List.length ks' = List.length l ->
    entries_in ms ks' (map (den I rho env) l) = map (fun ky => (fst ky, den I rho env' (snd ky))) (blank_entries st ms p i ks' l).
  Proof.
    intros F A L E. rewrite Forall_forall in F. induction l as [|x l IH]; intros [|k ks'] i H Ln; try discriminate Ln; [reflexivity|].
    cbn in Ln. injection Ln as Ln. unfold entries_in in *. cbn.
    assert (T : forall j y, nth_error l j = Some y -> nth_error xs (Datatypes.S i + j) = Some y).
    { intros j y Ey. specialize (H (Datatypes.S j) y Ey). replace (Datatypes.S i + j) with (i + Datatypes.S j) by lia. auto. }
    specialize (IH ks' (Datatypes.S i) T Ln). destruct (existsb (String.eqb k) ms); [|exact IH]. cbn. rewrite IH. f_equal. f_equal.
    specialize (H 0 x eq_refl). rewrite Nat.add_0_r in H.
    eapply (proj1 (F x (nth_error_In _ _ H) (i :: p) sc env env' _ _ _ E)).
    Unshelve.
    - cbn. rewrite A. cbn. rewrite H. reflexivity.
    - apply live_down; auto. intros sc' bs' body' t' A' Lt. rewrite A in A'. discriminate.
    - cbn. rewrite A. reflexivity.
  Qed.

  Lemma blank_same e : same e.
  Proof.
    induction e as [v|bs body t IHbs IHb|il ps body IHb|k xs IHxs] using expr_ind'; intros p sc env env' A L IL E.
    - split; [|split; discriminate]. destruct v as [n|s b n]; cbn; auto. eapply var_den; eauto.
    - pose proof (at_let_body _ _ _ _ _ _ A) as Ab.
      assert (Lb : live root st (List.length bs :: p)).
      { apply live_down; auto. intros sc' bs' body' t' A' Lt. rewrite A in A'. injection A'. intros; subst. lia. }
      assert (ILb : in_lookup root (List.length bs :: p) = false) by (cbn; rewrite A; reflexivity).
      assert (Lu : List.length (uses_of st p (List.length bs)) = List.length (map (@b_name expr) bs)).
      { unfold uses_of. rewrite !map_length, seq_length. reflexivity. }
      split; [|split].
      + rewrite blank_eq. cbn [den]. rewrite blank_bindings_names. apply (let_uses I U t _ (uses_of st p (List.length bs))); auto.
        * intros vs ws Ag. eapply agree_bindings; eauto using env_rel_let.
        * intros vs ws Ag. eapply (IHb _ _ _ _ Ab Lb ILb). apply env_rel_let; auto.
      + intros D ms m fb Hm. destruct t; try discriminate D. rewrite blank_eq. cbn [den]. rewrite blank_bindings_names.
        rewrite !(lookup_let I U). apply (let_uses I U _ _ (uses_of st p (List.length bs))); auto.
        * intros vs ws Ag. eapply agree_bindings; eauto using env_rel_let.
        * intros vs ws Ag. pose proof (env_rel_let sc env env' p (List.length bs) vs ws E Ag) as E'.
          pose proof (IHb _ _ _ _ Ab Lb ILb E') as (B0 & _ & B1). unfold blank_block.
          destruct body as [v|? ? ?|? ? ?|k xs]; try (rewrite B0; reflexivity). destruct k; try (rewrite B0; reflexivity).
          cbn [den]. pose proof (wf_at _ W _ _ _ Ab) as Wb. cbn in Wb. apply andb_prop in Wb. destruct Wb as [Wb _]. apply Nat.eqb_eq in Wb.
          rewrite (lookup_block I U m ms) by (rewrite ?map_length; auto).
          rewrite (B1 keys xs ms eq_refl) by auto. rewrite !map_map. reflexivity.
      + discriminate.
    - split; [|split; discriminate]. rewrite blank_eq. cbn [den]. apply i_lam_ext. intros vs. eapply IHb.
      + cbn. rewrite A. reflexivity.
      + apply live_down; auto. intros sc' bs' body' t' A' Lt. rewrite A in A'. discriminate.
      + cbn. rewrite A. reflexivity.
      + apply env_rel_lam, E.
    - split; [|split; [discriminate|]].
      2:{ intros ks xs' ms Q Ln. injection Q as -> ->. eapply entries_den; eauto. }
      rewrite blank_eq. cbn [den].
      assert (M : forall i, match k, i with KMeta, 0 => None | _, _ => @None (list string) end = None) by (intros i; destruct k; auto; destruct i; auto).
      assert (N : (forall j, in_lookup root (j :: p) = false) ->
        i_node I k (map (den I rho env) xs) = i_node I k (map (den I rho env') (blank_nodes st (fun i => match k, i with KMeta, 0 => None | _, _ => None end) p 0 xs))).
      { intros H. f_equal. eapply nodes_den; eauto. }
      destruct k; try (apply N; intros j; cbn; rewrite A; reflexivity).
      destruct xs as [|[[n|s b n]|? ? ?|? ? ?|? ?] fb]; try (apply N; intros j; cbn; rewrite A; reflexivity).
      clear N. cbn [blank_nodes map]. rewrite (blank_eq st None (0 :: p)). cbn [den].
      rewrite (lookup_den p sc key s b n fb env env' _ A L E). do 2 f_equal.
      pose proof (wf_at _ W _ _ _ A) as Wx. cbn in Wx. apply andb_prop in Wx. destruct Wx as [Wx _].
      pose proof (nsf_at _ NS _ _ _ A) as Nx. cbn in Nx. apply andb_prop in Nx. destruct Nx as [Nx _].
      eapply (nodes_den (fun _ => None) p sc (KLookup key) (EVar (Bound s b n) :: fb)); eauto.
      intros j x Ex. split; [exact Ex|]. cbn [in_lookup]. rewrite A. destruct fb as [|f [|? ?]]; [destruct j; discriminate| |discriminate Wx].
      destruct j as [|j]; [|destruct j; discriminate]. cbn [Nat.add]. cbn.
      destruct f as [[n'|s' b' n']|? ? ?|? ? ?|? ?]; auto. apply negb_true_iff in Nx.
      rewrite (Nat.eqb_sym s' s), (Nat.eqb_sym b' b). exact Nx.
  Qed.
End Meaning.

(** * Shape *)
Definition wanted (root : expr) (p : path) : Prop := exists r, below r p /\ needed root r.
Definition unreached (root : expr) (p : path) : Prop := ~ reached root p.
Lemma reached_at root p : reached root p -> at_ root p <> None.
Proof.
  induction 1 as [|p i R IH N A|q t R IH (sc & s & b & n & A & Rs)]; auto; [discriminate|].
  unfold resolve in Rs. destruct (nth_error sc s) as [[[lp m]|]|] eqn:E; try discriminate.
  destruct (Nat.ltb_spec b m) as [L|L]; [|discriminate]. injection Rs as <-.
  destruct (at_scopes root q sc _ A s lp m E) as (B & sc' & bs & body & t & A' & Ln). 
  rewrite (at_let_child _ _ _ _ _ _ _ A'). destruct (nth_error bs b) eqn:Eb; [discriminate|]. apply nth_error_None in Eb. lia.
Qed.
Lemma reached_live root st : well_formed root = true -> settled root st -> forall p, reached root p -> live root st p.
Proof.
  intros W S p. induction 1 as [|p i R IH N A|q t R IH (sc & s & b & n & A & Rs)].
  - intros i q sc bs body t (l & E) _ _. destruct l; discriminate.
  - apply live_down; auto. intros sc bs body t A' L. specialize (N _ _ _ _ A'). lia.
  - pose proof (live_ref root st q sc s b n t W S IH A Rs) as M.
    unfold resolve in Rs. destruct (nth_error sc s) as [[[lp m]|]|] eqn:E; try discriminate.
    destruct (Nat.ltb_spec b m) as [L|L]; [|discriminate]. injection Rs as <-.
    destruct (at_scopes root q sc _ A s lp m E) as (B & sc' & bs & body & t & A' & Ln).
    apply live_down; [|auto]. intros j q' sc1 bs1 body1 t1 B1. apply IH. eapply below_trans; [exact B|exact B1].
Qed.
Lemma eliminated_unreached root st i p sc bs body t : well_formed root = true -> settled root st -> at_ root p = Some (sc, ELet bs body t) ->
  i < List.length bs -> is_unseen (seen_at st (i :: p)) = true -> unreached root (i :: p).
Proof.
  intros W S A L U R. pose proof (reached_live root st W S _ R i p sc bs body t (below_refl _) A L) as K.
  destruct (seen_at st (i :: p)); (congruence || discriminate).
Qed.
Lemma marked_wanted root st q : Inv root st -> is_unseen (seen_at st q) = false -> wanted root q.
Proof.
  intros I H. destruct (seen_at st q) eqn:E; [discriminate| | |].
  - exists q. split; [apply below_refl|]. apply (inv_needed _ _ I). left; auto.
  - apply (inv_soft _ _ I q E).
  - exists q. split; [apply below_refl|]. apply (inv_needed _ _ I). right; auto.
Qed.
Lemma entries_keys st ms p xs : forall i ks, List.length ks = List.length xs ->
  map fst (blank_entries st ms p i ks xs) = sel (map (fun k => existsb (String.eqb k) ms) ks) ks.
Proof.
  induction xs as [|x xs IH]; intros i [|k ks] L; try discriminate L; auto. cbn in *. injection L as L.
  destruct (existsb (String.eqb k) ms); cbn; [f_equal|]; auto.
Qed.
Lemma entries_values st ms p xs : forall i ks j i' x', nth_error (sel (map (fun k => existsb (String.eqb k) ms) ks) (seq i (List.length ks))) j = Some i' ->
  nth_error (map snd (blank_entries st ms p i ks xs)) j = Some x' -> exists x, i <= i' /\ nth_error xs (i' - i) = Some x /\ x' = blank st None (i' :: p) x.
Proof.
  induction xs as [|x xs IH]; intros i [|k ks] j i' x' H1 H2; cbn in *; try (destruct j; discriminate).
  assert (T : forall j, nth_error (sel (map (fun k => existsb (String.eqb k) ms) ks) (seq (S i) (List.length ks))) j = Some i' ->
    nth_error (map snd (blank_entries st ms p (S i) ks xs)) j = Some x' -> exists x0, i <= i' /\ nth_error (x :: xs) (i' - i) = Some x0 /\ x' = blank st None (i' :: p) x0).
  { intros j' K1 K2. destruct (IH _ _ _ _ _ K1 K2) as (x0 & Le & E & ->). exists x0. split; [lia|]. split; auto.
    replace (i' - i) with (S (i' - S i)) by lia. exact E. }
  destruct (existsb (String.eqb k) ms); [|eapply T; eauto]. destruct j as [|j]; [|eapply T; eauto].
  cbn in *. injection H1 as <-. injection H2 as <-. exists x. rewrite Nat.sub_diag. auto.
Qed.
Lemma blank_trimmed root st : well_formed root = true -> settled root st -> forall e, well_formed e = true -> forall mem p sc,
  at_ root p = Some (sc, e) -> trimmed (wanted root) (unreached root) p e (blank st mem p e).
Proof.
  intros Wr S e. pose proof (proj1 S) as I. induction e as [v|bs body t IHbs IHb|il ps body IHb|k xs IHxs] using expr_ind'; intros Wf mem p sc A; rewrite blank_eq.
  - constructor.
  - cbn in Wf. apply andb_prop in Wf. destruct Wf as [W1 W2]. rewrite forallb_forall in W1. rewrite Forall_forall in IHbs.
    assert (Q : forall am i b b', nth_error bs i = Some b -> nth_error (blank_bindings st am p 0 bs) i = Some b' ->
       b_name b' = b_name b /\ promises_nothing (b_demand b') /\
       ((unreached root (i :: p) /\ b_expr b' = ENode KErrEliminated []) \/ (wanted root (i :: p) /\ trimmed (wanted root) (unreached root) (i :: p) (b_expr b) (b_expr b')))).
    { intros am i b b' Eb Eb'. rewrite blank_bindings_nth, Eb in Eb'. cbn in Eb'. injection Eb' as <-. unfold blank_binding.
      destruct (is_unseen (seen_at st (i :: p))) eqn:U; cbn [b_name b_expr b_demand]; (split; [reflexivity|split]).
      - repeat split; auto.
      - left. split; auto. eapply eliminated_unreached; eauto. apply nth_error_Some. congruence.
      - unfold demand_from_use_count. destruct (_ =? 0); repeat split; auto.
      - right. split; [eapply marked_wanted; eauto|]. pose proof (nth_error_In _ _ Eb). eapply IHbs; auto.
        rewrite (at_let_child _ _ _ _ _ _ _ A), Eb. reflexivity. }
    pose proof (at_let_body _ _ _ _ _ _ A) as Ab.
    assert (Whole : trimmed (wanted root) (unreached root) p (ELet bs body t) (ELet (blank_bindings st (accessed_members st) p 0 bs) (blank st None (List.length bs :: p) body) t)).
    { constructor; [apply blank_bindings_length|apply Q|]. eapply IHb; eauto. }
    destruct mem as [ms|]; auto. destruct t; auto. constructor; [apply blank_bindings_length|apply Q|].
    pose proof (IHb W2 None _ _ Ab) as B0. unfold blank_block.
    destruct body as [|? ? ?|? ? ?|k xs]; auto. destruct k; auto. rewrite blank_eq in B0.
    cbn in W2. apply andb_prop in W2. destruct W2 as [Wl _]. apply Nat.eqb_eq in Wl. symmetry in Wl.
    pose proof (entries_keys st ms (List.length bs :: p) xs 0 keys Wl) as EK. rewrite EK.
    apply trim_block; [apply map_length|rewrite <- EK, !map_length; reflexivity|].
    intros j i x x' K1 K2 K3. destruct (entries_values _ _ _ _ _ _ _ _ _ K1 K3) as (x0 & _ & E & ->).
    rewrite Nat.sub_0_r in E. rewrite K2 in E. injection E as <-.
    inversion B0 as [| | |? ? ? ? _ N|? ? ? mask ? ? ? N]; subst.
    + apply (N i x); auto. rewrite blank_nodes_nth, K2. reflexivity.
    + match goal with Q : sel mask keys = keys |- _ => repeat match goal with X : context[sel mask keys] |- _ => lazymatch X with Q => fail | _ => rewrite Q in X end end end.
      assert (M : forall i n m, List.length m = n -> sel m (seq i n) = seq i n \/ List.length (sel m (seq i n)) < n).
      { intros i0 n. revert i0. induction n as [|n IH]; intros i0 [|[] m] Lm; try discriminate Lm; auto; cbn in *; injection Lm as Lm;
          destruct (IH (Datatypes.S i0) m Lm) as [->|Lt]; auto; right; rewrite ?seq_length; lia. }
      assert (Ls : List.length (sel mask (seq 0 (List.length keys))) = List.length keys).
      { assert (G : forall T1 T2 (m : list bool) (l : list T1) (l' : list T2), List.length l = List.length l' -> List.length (sel m l) = List.length (sel m l')).
        { intros T1 T2 m. induction m as [|[] m IH]; intros [|a l] [|b l'] Lm; cbn in *; try discriminate Lm; auto. }
        rewrite (G _ _ mask _ keys) by apply seq_length. congruence. }
      apply (N i i x); auto.
      * destruct (M 0 (List.length keys) mask ltac:(assumption)) as [->|Lt]; [|lia].
        assert (Li : i < List.length xs) by (apply nth_error_Some; congruence).
        rewrite (nth_error_nth' _ 0) by (rewrite seq_length; lia). rewrite seq_nth by lia. reflexivity.
      * rewrite blank_nodes_nth, K2. reflexivity.
  - constructor. cbn in Wf. eapply IHb; eauto. cbn. rewrite A. reflexivity.
  - cbn in Wf. apply andb_prop in Wf. destruct Wf as [_ W2]. rewrite forallb_forall in W2. rewrite Forall_forall in IHxs.
    apply trim_node.
    + assert (G : forall m i l, List.length (blank_nodes st m p i l) = List.length l) by
        (intros m i l; revert i; induction l as [|x l IH]; intros i; cbn; auto). apply G.
    + intros i x x' Ex Ex'. rewrite blank_nodes_nth, Ex in Ex'. cbn in Ex'. injection Ex' as <-. pose proof (nth_error_In _ _ Ex). eapply IHxs; auto. cbn. rewrite A. cbn. rewrite Ex. reflexivity.
Qed.
