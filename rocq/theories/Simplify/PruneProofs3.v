(** Proofs about dead code elimination: no panic, and what is left. *)
From Coq Require Import List Bool Arith String Lia.
From Verif.Scope Require Import Model Spec Proofs.
From Verif.Simplify Require Import Compress CompressSpec CompressProofs Prune PruneSpec PruneProofs PruneProofs2.
Import ListNotations.
Local Arguments Nat.eqb : simpl never.
Local Arguments Nat.leb : simpl never.
Local Arguments Nat.ltb : simpl never.

(** * No panic *)
Definition in_scope (sc : scopes) (names : list (list string)) : Prop :=
  forall s b ns, nth_error names s = Some ns -> b < List.length ns ->
  nth_error sc s = Some None \/ exists p n, nth_error sc s = Some (Some (p, n)) /\ b < n.
Lemma in_scope_let sc names p bs : in_scope sc names -> in_scope (Some (p, List.length bs) :: sc) (map (@b_name expr) bs :: names).
Proof.
  intros H [|s] b ns E L; [|apply (H s b ns E L)]. cbn in E. injection E as <-. right. exists p, (List.length bs). split; auto.
  rewrite map_length in L. exact L.
Qed.
Lemma in_scope_lam sc names ps : in_scope sc names -> in_scope (None :: sc) (ps :: names).
Proof. intros H [|s] b ns E L; [left; reflexivity|apply (H s b ns E L)]. Qed.
Lemma at_binding_some sc names s b n act st : in_scope sc names -> verify_in names (EVar (Bound s b n)) = true -> at_binding sc s b act st <> None.
Proof.
  intros H V. unfold at_binding. destruct (reachable st); [|discriminate]. cbn in V.
  destruct (nth_error names s) as [ns|] eqn:E; [|discriminate]. destruct (nth_error ns b) as [x|] eqn:E2; [|discriminate].
  assert (L : b < List.length ns) by (apply nth_error_Some; congruence).
  destruct (H s b ns E L) as [->|(p & m & -> & Lm)]; [discriminate|]. destruct (Nat.ltb_spec b m); [discriminate|lia].
Qed.
Lemma run_some fs : Forall (fun f : state -> option state => forall st, f st <> None) fs -> forall st, run fs st <> None.
Proof.
  induction 1 as [|f fs H F IH]; intros st; cbn; [discriminate|]. specialize (H st). destruct (f st) as [st'|]; auto.
Qed.
Lemma inner_traverse sc p e : (forall st, inner sc p e st <> None) -> forall st, traverse sc p e st <> None.
Proof.
  intros H st. rewrite traverse_eq. destruct (seen_at st p); try discriminate;
    match goal with |- context[inner sc p e ?y] => specialize (H y); destruct (inner sc p e y); [discriminate|auto] end.
Qed.
Definition safe (e : expr) : Prop := forall names, verify_in names e = true -> forall sc p, in_scope sc names -> forall st, traverse sc p e st <> None.
Lemma steps_some xs : Forall safe xs -> forall names, forallb (verify_in names) xs = true -> forall sc p, in_scope sc names ->
  forall i, Forall (fun f : state -> option state => forall st, f st <> None) (steps sc p i xs).
Proof.
  induction 1 as [|x xs Hx F IH]; intros names V sc p S i; cbn [steps]; constructor; cbn in V; apply andb_prop in V; destruct V as [V1 V2].
  - eapply Hx; eauto.
  - eapply IH; eauto.
Qed.
Lemma bind_steps_some bs : Forall (fun b => safe (b_expr b)) bs -> forall names, forallb (fun b => verify_in names (b_expr b)) bs = true ->
  forall sc p, in_scope sc names -> forall i, Forall (fun f : state -> option state => forall st, f st <> None) (bind_steps sc p i bs).
Proof.
  induction 1 as [|x xs Hx F IH]; intros names V sc p S i; cbn [bind_steps]; constructor; cbn in V; apply andb_prop in V; destruct V as [V1 V2].
  - intros st. eapply Hx; eauto.
  - eapply IH; eauto.
Qed.
Lemma traverse_some e : safe e.
Proof.
  induction e as [v|bs body t IHbs IHb|il ps body IHb|k xs IHxs] using expr_ind'; intros names V sc p S; apply inner_traverse; intros st.
  - destruct v as [n|s b n]; cbn [inner]; [discriminate|]; eapply at_binding_some; eauto.
  - cbn [inner]. cbn [verify_in] in V. apply andb_prop in V. destruct V as [V1 V2]. pose proof (in_scope_let sc names p bs S) as S'.
    apply run_some, Forall_app. split; [eapply bind_steps_some; eauto|]. constructor; [|constructor]. eapply IHb; eauto.
  - cbn [inner]. cbn in V. apply run_some. constructor; [|constructor]. eapply IHb; eauto using in_scope_lam.
  - cbn [verify_in] in V. pose proof (steps_some xs IHxs names V sc p S 0) as R. pose proof (run_some _ R) as R'.
    destruct k; cbn [inner]; try apply R'.
    destruct xs as [|[[n|s b n]|? ? ?|? ? ?|? ?] fb]; try apply R'.
    cbn [forallb] in V. apply andb_prop in V. destruct V as [V1 V2].
    pose proof (fun st => at_binding_some sc names s b n (fun t st =>
       let st := increment_use t st in let st := if candidates st t then record_access t key st else st in mark_as Seen t st) st S V1) as E.
    pose proof (E st) as E1. unfold encounter_lookup. destruct (at_binding sc s b _ st) as [st'|]; [|auto].
    destruct fb as [|f fb]; [discriminate|]. destruct (self_fallback s b (f :: fb)); [apply E|].
    apply run_some. constructor; [|constructor]. inversion IHxs as [|? ? _ F]; subst. inversion F as [|? ? Hf _]; subst.
    cbn in V2. apply andb_prop in V2. destruct V2 as [Vf _]. eapply Hf; eauto.
Qed.
Lemma passes_no_panic e : verify e = true -> forall n st, passes n e st <> Panic.
Proof.
  intros V n. induction n as [|n IH]; intros st; cbn; [discriminate|]. unfold pass.
  pose proof (traverse_some e [] V [] [] ltac:(intros [|s] b ns E; discriminate) (reset_count st)) as K.
  destruct (traverse [] [] e (reset_count st)) as [st'|]; [|congruence]. destruct (marked_count st' =? 0); [discriminate|apply IH].
Qed.
Lemma passes_done e : well_formed e = true -> verify e = true ->
  exists st, passes (S (size e)) e (mark_body [] e initial) = Done st /\ settled e st.
Proof.
  intros W V. destruct (start_inv e W) as [I R].
  pose proof (passes_no_panic e V (S (size e)) (mark_body [] e initial)) as K1.
  assert (K2 : passes (S (size e)) e (mark_body [] e initial) <> Error).
  { apply (passes_enough e W); auto. unfold unseen_count. rewrite <- (paths_length e []).
    apply Nat.lt_succ_r. induction (paths [] e) as [|x l IH]; cbn; [lia|]. destruct (is_unseen _); cbn; lia. }
  destruct (passes _ e _) as [st| |] eqn:E; try congruence. exists st. split; auto. eapply passes_settled; eauto.
Qed.

(** * Positions that survive *)
Definition live (root : expr) (st : state) (p : path) : Prop := forall i q sc bs body t, below p (i :: q) ->
  at_ root q = Some (sc, ELet bs body t) -> i < List.length bs -> seen_at st (i :: q) <> Unseen.
Lemma live_up root st i p : live root st (i :: p) -> live root st p.
Proof. intros H j q sc bs body t B. eapply H. eapply below_trans; [apply below_cons|exact B]. Qed.
Lemma live_down root st i p : live root st p ->
  (forall sc bs body t, at_ root p = Some (sc, ELet bs body t) -> i < List.length bs -> seen_at st (i :: p) <> Unseen) -> live root st (i :: p).
Proof.
  intros H K j q sc bs body t B A L. destruct (below_cons_inv _ _ _ B) as [E|B'].
  - injection E as -> ->. eapply K; eauto.
  - eapply H; eauto.
Qed.
Lemma covered_down st i p : covered st p -> covered st (i :: p).
Proof. intros (r & B & H). exists r. split; auto. eapply below_trans; [apply below_cons|exact B]. Qed.
Lemma wf_at root : well_formed root = true -> forall p sc e, at_ root p = Some (sc, e) -> well_formed e = true.
Proof.
  intros W p. induction p as [|i p IH]; intros sc e A; cbn in A; [injection A as <- <-; auto|].
  destruct (at_ root p) as [[sc0 e0]|] eqn:E; [|discriminate]. specialize (IH _ _ eq_refl).
  destruct e0 as [v|bs body t|il ps body|k xs]; cbn in A, IH.
  - discriminate.
  - apply andb_prop in IH. destruct IH as [I1 I2]. destruct (nth_error bs i) as [b|] eqn:Eb.
    + injection A as <- <-. rewrite forallb_forall in I1. apply I1. eapply nth_error_In; eauto.
    + destruct (i =? List.length bs); [|discriminate]. injection A as <- <-. auto.
  - destruct (i =? 0); [|discriminate]. injection A as <- <-. auto.
  - apply andb_prop in IH. destruct IH as [_ I2]. destruct (nth_error xs i) as [x|] eqn:Ex; [|discriminate].
    cbn in A. injection A as <- <-. rewrite forallb_forall in I2. apply I2. eapply nth_error_In; eauto.
Qed.
Lemma live_covered root st : well_formed root = true -> Inv root st -> forall p, at_ root p <> None -> live root st p -> covered st p \/ chain root p.
Proof.
  intros W I p. induction p as [|i p IH]; intros A L; [right; constructor|].
  pose proof (at_below root (i :: p) p (below_cons _ _) A) as A0.
  destruct (IH A0 (live_up _ _ _ _ L)) as [C|C]; [left; apply covered_down, C|].
  destruct (at_ root p) as [[sc e]|] eqn:E; [|congruence]. pose proof (inv_end _ _ I p sc e C E) as K.
  assert (H1 : hard (seen_at st p) -> covered st (i :: p)).
  { intros H. apply covered_down. exists p. split; [apply below_refl|auto]. }
  destruct e as [v|bs body t|il ps body|k xs]; try (left; apply H1, K).
  - destruct (Nat.lt_ge_cases i (List.length bs)) as [Li|Li].
    + apply (inv_above _ _ I (i :: p)); [|apply below_refl]. eapply L; eauto. apply below_refl.
    + rewrite (at_let_child _ _ _ _ _ _ _ E) in A. rewrite (proj2 (nth_error_None bs i) Li) in A.
      destruct (Nat.eqb_spec i (List.length bs)) as [Ei|Ei]; [|congruence]. subst i. right. eapply chain_let; eauto.
  - destruct k; try (left; apply H1, K). destruct xs as [|x [|y xs]]; try (left; apply H1, K).
    destruct i as [|[|i]].
    + right. eapply chain_meta; eauto.
    + left. exists (1 :: p). split; [apply below_refl|auto].
    + exfalso. pose proof (wf_at _ W _ _ _ E) as Wx. cbn in Wx. destruct xs; [|discriminate Wx].
      cbn in A. rewrite E in A. cbn in A. destruct i; cbn in A; congruence.
Qed.
(** Every use at a surviving position has been taken into account. *)
Lemma live_ev root st q sc e : well_formed root = true -> settled root st -> live root st q -> at_ root q = Some (sc, e) ->
  (forall bs body t, e <> ELet bs body t) -> (forall xs, e <> ENode KMeta xs) -> ev_ok root st q.
Proof.
  intros W [I D] L A N1 N2. destruct (live_covered root st W I q ltac:(congruence) L) as [(r & B & H)|C].
  - apply (D r H), B.
  - assert (H : hard (seen_at st q)).
    { pose proof (inv_end _ _ I q sc e C A) as K. destruct e as [v|bs body t|il ps body|k xs]; auto; [destruct (N1 bs body t); auto|].
      destruct k; auto. destruct (N2 xs); auto. }
    apply (D q H), below_refl.
Qed.
Lemma live_ref root st q sc s b n t : well_formed root = true -> settled root st -> live root st q ->
  at_ root q = Some (sc, EVar (Bound s b n)) -> resolve sc s b = Some t -> seen_at st t <> Unseen.
Proof.
  intros W S L A R. destruct (in_lookup root q) eqn:IL.
  - destruct q as [|i p]; [discriminate|]. cbn in IL.
    destruct (at_ root p) as [[sc0 e0]|] eqn:E; [|discriminate]. destruct e0 as [|? ? ?|? ? ?|k xs]; try discriminate.
    destruct k; try discriminate. destruct xs as [|[[n1|s1 b1 n1]|? ? ?|? ? ?|? ?] fb]; try discriminate.
    pose proof (live_ev root st p _ _ W S (live_up _ _ _ _ L) E ltac:(discriminate) ltac:(discriminate)) as K.
    unfold ev_ok in K. rewrite (lookup_event _ _ _ _ _ _ _ _ E) in K.
    assert (Q : sc = sc0 /\ s1 = s /\ b1 = b).
    { cbn [at_] in A. rewrite E in A. cbn [child] in A. apply orb_prop in IL. destruct IL as [Z|Z].
      - apply Nat.eqb_eq in Z. subst i. cbn in A. injection A. intros; subst. auto.
      - apply andb_prop in Z. destruct Z as [Z1 Z2]. apply Nat.eqb_eq in Z1. subst i.
        destruct fb as [|f fb]; [discriminate Z2|]. cbn in A. injection A as Ea Eb. subst f. cbn in Z2. apply andb_prop in Z2.
        destruct Z2 as [Z2 Z3]. apply Nat.eqb_eq in Z2, Z3. subst. auto. }
    destruct Q as (-> & -> & ->). rewrite R in K. cbn in K. apply K.
  - pose proof (live_ev root st q _ _ W S L A ltac:(discriminate) ltac:(discriminate)) as K.
    unfold ev_ok, event in K. rewrite A, IL, R in K. cbn in K. apply K.
Qed.

(** * Eliminating, spelled out *)
Definition blank_binding (st : state) (m : path -> option (list string)) (q : path) (b : binding expr) : binding expr :=
  if is_unseen (seen_at st q) then mkBinding (b_name b) (ENode KErrEliminated []) default_demand
  else mkBinding (b_name b) (blank st (m q) q (b_expr b)) (demand_from_use_count (uses st q)).
Fixpoint blank_bindings (st : state) (m : path -> option (list string)) (p : path) (i : nat) (bs : list (binding expr)) : list (binding expr) :=
  match bs with [] => [] | b :: bs => blank_binding st m (i :: p) b :: blank_bindings st m p (S i) bs end.
Fixpoint blank_nodes (st : state) (m : nat -> option (list string)) (p : path) (i : nat) (xs : list expr) : list expr :=
  match xs with [] => [] | x :: xs => blank st (m i) (i :: p) x :: blank_nodes st m p (S i) xs end.
Fixpoint blank_entries (st : state) (ms : list string) (p : path) (i : nat) (ks : list string) (xs : list expr) : list (string * expr) :=
  match ks, xs with
  | k :: ks, x :: xs =>
      if existsb (String.eqb k) ms then (k, blank st None (i :: p) x) :: blank_entries st ms p (S i) ks xs else blank_entries st ms p (S i) ks xs
  | _, _ => []
  end.
Definition blank_block (st : state) (ms : list string) (p : path) (body : expr) : expr :=
  match body with
  | ENode (KBlock ks) xs => ENode (KBlock (map fst (blank_entries st ms p 0 ks xs))) (map snd (blank_entries st ms p 0 ks xs))
  | _ => blank st None p body
  end.
Lemma blank_eq st members p e : blank st members p e =
  match e with
  | EVar _ => e
  | ELet bs body t =>
      match members, t with
      | Some ms, DefaultBlockLet => ELet (blank_bindings st (fun _ => None) p 0 bs) (blank_block st ms (List.length bs :: p) body) t
      | _, _ => ELet (blank_bindings st (accessed_members st) p 0 bs) (blank st None (List.length bs :: p) body) t
      end
  | ELam inlined ps body => ELam inlined ps (blank st None (0 :: p) body)
  | ENode k xs => ENode k (blank_nodes st (fun i => match k, i with KMeta, 0 => members | _, _ => None end) p 0 xs)
  end.
Proof.
  destruct e as [v|bs body t|il ps body|k xs]; auto.
  - assert (G : forall m i l, (fix go (i : nat) (l : list (binding expr)) :=
        match l with
        | [] => []
        | b :: l =>
            (if is_unseen (seen_at st (i :: p)) then mkBinding (b_name b) (ENode KErrEliminated []) default_demand
             else mkBinding (b_name b) (blank st (m (i :: p)) (i :: p) (b_expr b)) (demand_from_use_count (uses st (i :: p))))
            :: go (S i) l
        end) i l = blank_bindings st m p i l).
    { intros m i l. revert i. induction l as [|b l IH]; intros i; cbn [blank_bindings]; auto. rewrite <- IH. reflexivity. }
    cbn [blank]. rewrite !G. destruct members as [ms|]; auto. destruct t; auto. f_equal; [apply (G (fun _ => None))|].
    destruct body as [|? ? ?|? ? ?|k xs]; try reflexivity. destruct k; try reflexivity. cbn [blank_block].
    assert (E : forall q i ks l, (fix go (i : nat) (ks : list string) (l : list expr) {struct l} :=
                   match ks, l with
                   | k :: ks, x :: l =>
                       if existsb (String.eqb k) ms then (k, blank st None (i :: q) x) :: go (S i) ks l else go (S i) ks l
                   | _, _ => []
                   end) i ks l = blank_entries st ms q i ks l).
    { intros q i ks l. revert i ks. induction l as [|b l IH]; intros i [|k ks]; cbn [blank_entries]; auto. rewrite !IH. reflexivity. }
    rewrite E. reflexivity.
  - cbn [blank]. f_equal.
    assert (G : forall i, (fix go (i : nat) (l : list expr) :=
        match l with
        | [] => []
        | x :: l => blank st (match k, i with KMeta, 0 => members | _, _ => None end) (i :: p) x :: go (S i) l
        end) i xs = blank_nodes st (fun i => match k, i with KMeta, 0 => members | _, _ => None end) p i xs).
    { induction xs as [|b l IH]; intros i; cbn [blank_nodes]; auto. rewrite <- IH. reflexivity. }
    apply G.
Qed.
Lemma blank_bindings_nth st m p bs : forall i j, nth_error (blank_bindings st m p i bs) j = option_map (blank_binding st m (i + j :: p)) (nth_error bs j).
Proof.
  induction bs as [|b bs IH]; intros i [|j]; cbn; auto.
  - rewrite Nat.add_0_r. reflexivity.
  - rewrite IH. replace (S i + j) with (i + S j) by lia. reflexivity.
Qed.
Lemma blank_bindings_names st m p bs : forall i, map (@b_name expr) (blank_bindings st m p i bs) = map (@b_name expr) bs.
Proof. induction bs as [|b bs IH]; intros i; cbn; auto. rewrite IH. unfold blank_binding. destruct (is_unseen _); reflexivity. Qed.
Lemma blank_bindings_length st m p bs i : List.length (blank_bindings st m p i bs) = List.length bs.
Proof. rewrite <- (map_length (@b_name expr)), blank_bindings_names, map_length. reflexivity. Qed.
Lemma blank_nodes_nth st m p xs : forall i j, nth_error (blank_nodes st m p i xs) j = option_map (blank st (m (i + j)) (i + j :: p)) (nth_error xs j).
Proof.
  induction xs as [|b bs IH]; intros i [|j]; cbn; auto.
  - rewrite Nat.add_0_r. reflexivity.
  - rewrite IH. replace (S i + j) with (i + S j) by lia. reflexivity.
Qed.
Lemma blank_entries_in st ms p xs : forall i ks k y, In (k, y) (blank_entries st ms p i ks xs) ->
  exists j x, nth_error xs j = Some x /\ y = blank st None (i + j :: p) x.
Proof.
  induction xs as [|x xs IH]; intros i [|k0 ks] k y H; cbn in H; try tauto.
  assert (T : In (k, y) (blank_entries st ms p (S i) ks xs) -> exists j x', nth_error (x :: xs) j = Some x' /\ y = blank st None (i + j :: p) x').
  { intros H'. destruct (IH _ _ _ _ H') as (j & x' & E & ->). exists (S j), x'. split; auto. replace (S i + j) with (i + S j) by lia. auto. }
  destruct (existsb (String.eqb k0) ms); auto. destruct H as [E|H]; auto. injection E as <- <-. exists 0, x. rewrite Nat.add_0_r. auto.
Qed.
Lemma blank_eliminated st m p e : is_eliminated (blank st m p e) = is_eliminated e.
Proof. rewrite blank_eq. destruct e as [v|bs body t|il ps body|k xs]; auto. destruct m as [ms|]; auto. destruct t; auto. Qed.

(** * What survives refers to what survives *)
Definition mask_rel (st : state) (sc : scopes) (m0 m : list (list bool)) : Prop := forall s b,
  (exists k, nth_error m0 s = Some k /\ nth_error k b = Some true) ->
  (forall t, resolve sc s b = Some t -> seen_at st t <> Unseen) -> exists k, nth_error m s = Some k /\ nth_error k b = Some true.
Lemma mask_rel_let st sc m0 m p bs am : mask_rel st sc m0 m ->
  mask_rel st (Some (p, List.length bs) :: sc) (kept bs :: m0) (kept (blank_bindings st am p 0 bs) :: m).
Proof.
  intros H [|s] b (k & E & Eb) T; [|apply (H s b); eauto]. cbn in E. injection E as <-. exists (kept (blank_bindings st am p 0 bs)).
  split; auto. unfold kept in *. rewrite nth_error_map in *. rewrite blank_bindings_nth. cbn [Nat.add].
  destruct (nth_error bs b) as [x|] eqn:Ex; [|discriminate]. cbn in *. unfold blank_binding.
  assert (L : b < List.length bs) by (apply nth_error_Some; congruence).
  assert (U : seen_at st (b :: p) <> Unseen).
  { apply T. unfold resolve. cbn. destruct (Nat.ltb_spec b (List.length bs)); [auto|lia]. }
  destruct (seen_at st (b :: p)); try congruence; cbn; rewrite blank_eliminated; exact Eb.
Qed.
Lemma mask_rel_lam st sc m0 m ps : mask_rel st sc m0 m -> mask_rel st (None :: sc) (ps :: m0) (ps :: m).
Proof. intros H [|s] b (k & E & Eb) T; [cbn in *; eauto|]. apply (H s b); eauto. Qed.

Section Survive.
  Variables (root : expr) (st : state).
  Hypothesis W : well_formed root = true.
  Hypothesis S : settled root st.

  Definition refs_ok (e : expr) : Prop := forall p sc m0 m mem, at_ root p = Some (sc, e) -> live root st p -> refs_live m0 e -> mask_rel st sc m0 m ->
    refs_live m (blank st mem p e).
  Lemma refs_bindings am p sc bs body t m0 m : Forall (fun b => refs_ok (b_expr b)) bs -> at_ root p = Some (sc, ELet bs body t) -> live root st p ->
    Forall (fun b => is_eliminated (b_expr b) = false -> refs_live (kept bs :: m0) (b_expr b)) bs -> mask_rel st sc m0 m ->
    Forall (fun b => is_eliminated (b_expr b) = false -> refs_live (kept (blank_bindings st am p 0 bs) :: m) (b_expr b)) (blank_bindings st am p 0 bs).
  Proof.
    intros IH A L R M. apply Forall_forall. intros b' Hb'. apply In_nth_error in Hb'. destruct Hb' as (j & Ej).
    rewrite blank_bindings_nth in Ej. cbn [Nat.add] in Ej. destruct (nth_error bs j) as [b|] eqn:Eb; [|discriminate]. cbn in Ej. injection Ej as <-.
    unfold blank_binding. destruct (is_unseen (seen_at st (j :: p))) eqn:U; cbn [b_expr]; [discriminate|].
    rewrite blank_eliminated. intros El. rewrite Forall_forall in IH, R. pose proof (nth_error_In _ _ Eb) as Hb.
    eapply (IH b Hb).
    - rewrite (at_let_child _ _ _ _ _ _ _ A), Eb. reflexivity.
    - apply live_down; auto. intros _ _ _ _ _ _ Q. rewrite Q in U. discriminate.
    - apply (R b Hb El).
    - apply mask_rel_let, M.
  Qed.
  Lemma refs_blank e : refs_ok e.
  Proof.
    induction e as [v|bs body t IHbs IHb|il ps body IHb|k xs IHxs] using expr_ind'; intros p sc m0 m mem A L R M; rewrite blank_eq.
    - destruct v as [n|s b n]; cbn in *; auto. apply M; auto. intros u Hu. eapply live_ref; eauto.
    - cbn [refs_live] in R. destruct R as [R1 R2].
      assert (Rb : Forall (fun b => is_eliminated (b_expr b) = false -> refs_live (kept bs :: m0) (b_expr b)) bs).
      { apply (all_forall (fun b => is_eliminated (b_expr b) = false -> refs_live (kept bs :: m0) (b_expr b)) bs). exact R1. }
      pose proof (fun am => refs_bindings am p sc bs body t m0 m IHbs A L Rb M) as Q.
      pose proof (fun am => mask_rel_let st sc m0 m p bs am M) as M'.
      assert (Lb : live root st (List.length bs :: p)).
      { apply live_down; auto. intros sc' bs' body' t' A' Lt. rewrite A in A'. injection A'. intros; subst. lia. }
      pose proof (at_let_body _ _ _ _ _ _ A) as Ab.
      assert (Whole : refs_live m (ELet (blank_bindings st (accessed_members st) p 0 bs) (blank st None (List.length bs :: p) body) t)).
      { cbn [refs_live]. split.
        - exact (proj2 (all_forall (fun b => is_eliminated (b_expr b) = false -> refs_live (kept (blank_bindings st (accessed_members st) p 0 bs) :: m) (b_expr b)) _) (Q _)).
        - eapply IHb; eauto. }
      destruct mem as [ms|]; [|exact Whole]. destruct t; try exact Whole. cbn [refs_live]. split.
      + exact (proj2 (all_forall (fun b => is_eliminated (b_expr b) = false -> refs_live (kept (blank_bindings st (fun _ => None) p 0 bs) :: m) (b_expr b)) _) (Q _)).
      + specialize (M' (fun _ => None)). set (mm := kept (blank_bindings st (fun _ => None) p 0 bs) :: m) in *.
        pose proof (IHb _ _ _ mm None Ab Lb R2 M') as B0.
        unfold blank_block. destruct body as [|? ? ?|? ? ?|k xs]; auto. destruct k; auto.
        cbn [refs_live]. apply all_forall. rewrite blank_eq in B0. cbn [refs_live] in B0.
        apply (all_forall (refs_live mm)) in B0. rewrite Forall_forall in B0. apply Forall_forall. intros y Hy.
        apply in_map_iff in Hy. destruct Hy as ((k & y') & Ey & Hy). cbn in Ey. subst y'.
        destruct (blank_entries_in _ _ _ _ _ _ _ _ Hy) as (j & x & Ex & ->). cbn [Nat.add]. apply B0.
        eapply nth_error_In. rewrite blank_nodes_nth, Ex. reflexivity.
    - cbn in *. eapply IHb; eauto.
      + cbn. rewrite A. reflexivity.
      + apply live_down; auto. intros sc' bs' body' t' A' Lt. rewrite A in A'. discriminate.
      + apply mask_rel_lam, M.
    - cbn [refs_live] in *. apply (all_forall (refs_live m0)) in R. apply (all_forall (refs_live m)).
      rewrite Forall_forall in R, IHxs. apply Forall_forall. intros y Hy. apply In_nth_error in Hy. destruct Hy as (j & Ej).
      rewrite blank_nodes_nth in Ej. cbn [Nat.add] in Ej. destruct (nth_error xs j) as [x|] eqn:Ex; [|discriminate]. cbn in Ej. injection Ej as <-.
      pose proof (nth_error_In _ _ Ex) as Hx. eapply (IHxs x Hx); eauto.
      + cbn. rewrite A. cbn. rewrite Ex. reflexivity.
      + apply live_down; auto. intros sc' bs' body' t' A' Lt. rewrite A in A'. discriminate.
  Qed.
End Survive.

(** * Verification *)
Lemma blank_verify st e : forall mem p names, verify_in names e = true -> verify_in names (blank st mem p e) = true.
Proof.
  induction e as [v|bs body t IHbs IHb|il ps body IHb|k xs IHxs] using expr_ind'; intros mem p names V; rewrite blank_eq; auto.
  - cbn [verify_in] in V. apply andb_prop in V. destruct V as [V1 V2]. rewrite forallb_forall in V1. rewrite Forall_forall in IHbs.
    assert (Q : forall am, forallb (fun b => verify_in (map (@b_name expr) bs :: names) (b_expr b)) (blank_bindings st am p 0 bs) = true).
    { intros am. apply forallb_forall. intros b' Hb'. apply In_nth_error in Hb'. destruct Hb' as (j & Ej).
      rewrite blank_bindings_nth in Ej. destruct (nth_error bs j) as [b|] eqn:Eb; [|discriminate]. cbn in Ej. injection Ej as <-.
      unfold blank_binding. destruct (is_unseen _); cbn [b_expr]; auto. pose proof (nth_error_In _ _ Eb). apply IHbs; auto. }
    assert (Whole : verify_in names (ELet (blank_bindings st (accessed_members st) p 0 bs) (blank st None (List.length bs :: p) body) t) = true).
    { cbn [verify_in]. rewrite blank_bindings_names, Q, IHb; auto. }
    destruct mem as [ms|]; auto. destruct t; auto. cbn [verify_in]. rewrite blank_bindings_names, Q. cbn [andb].
    pose proof (IHb None (List.length bs :: p) _ V2) as B0. unfold blank_block. destruct body as [|? ? ?|? ? ?|k xs]; auto. destruct k; auto.
    rewrite blank_eq in B0. cbn [verify_in] in *. rewrite forallb_forall in *. intros y Hy.
    apply in_map_iff in Hy. destruct Hy as ((k & y') & Ey & Hy). cbn in Ey. subst y'.
    destruct (blank_entries_in _ _ _ _ _ _ _ _ Hy) as (j & x & Ex & ->). cbn [Nat.add]. apply B0.
    eapply nth_error_In. rewrite blank_nodes_nth, Ex. reflexivity.
  - cbn in *. apply IHb, V.
  - cbn [verify_in] in *. rewrite forallb_forall in *. rewrite Forall_forall in IHxs. intros y Hy. apply In_nth_error in Hy. destruct Hy as (j & Ej).
    rewrite blank_nodes_nth in Ej. cbn [Nat.add] in Ej. destruct (nth_error xs j) as [x|] eqn:Ex; [|discriminate]. cbn in Ej. injection Ej as <-.
    pose proof (nth_error_In _ _ Ex) as Hx. apply IHxs; auto.
Qed.
