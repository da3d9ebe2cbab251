From Coq Require Import List Arith NArith Bool Lia Permutation Sorted.
From Verif.Basics Require Import Model Spec.
Import ListNotations.

(** ** Demands *)

Lemma lub_sound a b n e : allows a n e \/ allows b n e -> allows (lub a b) n e.
Proof.
  unfold allows, lub; cbn. destruct (d_card a), (d_card b), (d_strict a), (d_strict b);
    cbn; intuition (subst; auto; lia).
Qed.
Lemma plus_sound a b n m e f :
  allows a n e -> allows b m f -> allows (plus a b) (n + m) (e || f).
Proof.
  unfold allows, plus; cbn. destruct (d_card a), (d_card b), (d_strict a), (d_strict b);
    cbn; intuition (subst; rewrite ?orb_true_r; auto; lia).
Qed.
Lemma sum_zero ns : Forall (fun n => n = 0) ns -> list_sum ns = 0.
Proof. induction 1; cbn; [reflexivity|]. subst. exact IHForall. Qed.
(** [outer] holds of the number of evaluations of a context each of which obeys
    [a]: the total is a sum of as many terms. *)
Lemma scale_sound a outer (ns : list nat) e f :
  Forall (uses_ok (d_card a)) ns -> uses_ok (d_card outer) (length ns) ->
  eval_ok (d_strict a) e -> eval_ok (d_strict outer) f ->
  allows (scale a outer) (list_sum ns) (e && f).
Proof.
  intros H1 H2 H3 H4. unfold allows, scale; cbn. split.
  - destruct (d_card a), (d_card outer); cbn in *; auto;
      try (destruct ns; [reflexivity|discriminate]);
      try (now apply sum_zero).
    destruct ns as [|x [|y ns]]; cbn in *; try lia.
    apply Forall_inv in H1. cbn in H1. lia.
  - destruct (d_strict a), (d_strict outer); cbn in *; subst; auto.
Qed.
Lemma skip_update_sound d n e :
  allows d n e -> skip_update d = true -> d_whnf d = true \/ n <= 1.
Proof.
  unfold allows, skip_update. destruct (d_whnf d), (d_card d); cbn; intuition (try discriminate; lia).
Qed.
Lemma lub_comm a b : lub a b = lub b a.
Proof.
  unfold lub. f_equal; [destruct (d_card a), (d_card b)|destruct (d_strict a), (d_strict b)|
    apply andb_comm|apply orb_comm]; reflexivity.
Qed.
Lemma lub_assoc a b c : lub a (lub b c) = lub (lub a b) c.
Proof.
  unfold lub; cbn. f_equal;
    [destruct (d_card a), (d_card b), (d_card c)|destruct (d_strict a), (d_strict b), (d_strict c)|
     apply andb_assoc|apply orb_assoc]; reflexivity.
Qed.
Lemma lub_perm d ds ds' : Permutation ds ds' -> fold_left lub ds d = fold_left lub ds' d.
Proof.
  intros H. revert d. induction H; intros d; cbn; auto.
  - f_equal. rewrite <- !lub_assoc. f_equal. apply lub_comm.
  - now rewrite IHPermutation1.
Qed.
Lemma card_join_absent c : card_join CAbsent c = c /\ card_join c CAbsent = c.
Proof. destruct c; split; reflexivity. Qed.
Lemma lub_claims a b :
  (d_card (lub a b) = CAtMostOnce -> forall c, In c [d_card a; d_card b] -> c = CAtMostOnce \/ c = CAbsent)
  /\ (d_strict (lub a b) = SStrict -> d_strict a = SStrict /\ d_strict b = SStrict).
Proof.
  unfold lub; cbn. split.
  - destruct (d_card a), (d_card b); cbn; try discriminate; intros _ c; intuition (subst; auto).
  - destruct (d_strict a), (d_strict b); cbn; try discriminate; auto.
Qed.
Lemma lub_idem a : d_card a <> CUnknown -> d_strict a <> SUnknown -> lub a a = a.
Proof.
  destruct a as [c s w r]; unfold lub; cbn. intros.
  destruct c, s, w, r; cbn; congruence.
Qed.

(** ** Environments *)
Scheme bracket_ind' := Minimality for bracket Sort Prop
  with body_ind' := Minimality for body Sort Prop.
Combined Scheme bracket_body_ind from bracket_ind', body_ind'.
Section Env.
  Context {K V : Type} (K_eq : forall a b : K, {a = b} + {a <> b}).
  Notation frame_get := (frame_get (V := V) K_eq).
  Notation env_get := (env_get (V := V) K_eq).
  Notation eop_run := (eop_run (K := K) (V := V)).

  Lemma env_get_spec e k v :
    env_get e k = Some v <->
    exists inner f outer, e = inner ++ f :: outer
      /\ Forall (fun g => frame_get g k = None) inner /\ frame_get f k = Some v.
  Proof.
    induction e as [|f e IH]; cbn.
    - split; [discriminate|]. intros (i & f & o & E & _). destruct i; discriminate.
    - destruct (frame_get f k) as [w|] eqn:Ef.
      + split.
        * intros [=<-]. exists [], f, e. repeat split; auto.
        * intros (i & g & o & E & Hi & Hg). destruct i as [|h i].
          -- injection E as <- <-. congruence.
          -- injection E as <- _. inversion Hi. congruence.
      + rewrite IH. split.
        * intros (i & g & o & -> & Hi & Hg). exists (f :: i), g, o. repeat split; auto.
        * intros (i & g & o & E & Hi & Hg). destruct i as [|h i].
          -- injection E as <- <-. congruence.
          -- injection E as <- ->. inversion Hi. exists i, g, o. auto.
  Qed.
  Lemma env_get_none e k : env_get e k = None <-> Forall (fun f => frame_get f k = None) e.
  Proof.
    induction e as [|f e IH]; cbn; [split; auto|].
    destruct (frame_get f k) eqn:E.
    - split; [discriminate|]. intros H; inversion H; congruence.
    - rewrite IH. split; [auto|]. intros H; now inversion H.
  Qed.


  Lemma bracket_run :
    (forall ops, bracket ops -> forall e, fold_left eop_run ops (Some e) = Some e) /\
    (forall ops, body ops -> forall f e, exists f', fold_left eop_run ops (Some (f :: e)) = Some (f' :: e)).
  Proof.
    apply bracket_body_ind.
    - auto.
    - intros f ops rest _ IH1 _ IH2 e. cbn [fold_left]. rewrite fold_left_app.
      destruct (IH1 f e) as [f' E].
      change (fold_left eop_run (EPop :: rest) (fold_left eop_run ops (Some (f :: e))) = Some e).
      rewrite E. apply IH2.
    - intros f e. exists f. reflexivity.
    - intros k v ops _ IH f e. cbn. apply IH.
    - intros g ops rest _ IH1 _ IH2 f e. cbn [fold_left]. rewrite fold_left_app.
      destruct (IH1 g (f :: e)) as [f' E].
      change (exists f', fold_left eop_run (EPop :: rest)
                (fold_left eop_run ops (Some (g :: f :: e))) = Some (f' :: e)).
      rewrite E. apply IH2.
  Qed.

  Lemma env_insert_get e k v e' k' :
    env_insert e k v = Some e' ->
    env_get e' k' = if K_eq k' k then Some v else env_get e k'.
  Proof.
    destruct e as [|f e]; cbn; [discriminate|]. intros [=<-]. cbn.
    destruct (K_eq k' k); reflexivity.
  Qed.

  Variable defaulter : K -> V.
  Lemma encounter_get d k k' :
    denv_get K_eq (denv_encounter K_eq defaulter d k) k'
    = match denv_get K_eq d k' with
      | Some v => Some v
      | None => if K_eq k' k then Some (defaulter k) else None
      end.
  Proof.
    unfold denv_encounter. destruct (denv_get K_eq d k) eqn:E.
    - destruct (denv_get K_eq d k') eqn:E'; auto. destruct (K_eq k' k); congruence.
    - unfold denv_get in *. cbn.
      destruct (env_get (de_env d) k') eqn:E1; auto.
      destruct (K_eq k' k) as [->|].
      + destruct (env_get (de_env d) k); try discriminate. now rewrite E.
      + destruct (frame_get (de_globals d) k'); reflexivity.
  Qed.
End Env.

(** ** Symbols *)
Section Symbols.
  Context {S : Type} (S_eq : forall a b : S, {a = b} + {a <> b}).
  Notation frame_get := (frame_get (V := N) S_eq).

  Definition pool_ok (p : pool (S:=S)) : Prop :=
    NoDup (to_str p) /\
    (N.of_nat (length (to_str p)) <= 4294967296)%N /\
    forall s id, frame_get (to_id p) s = Some id <->
                 nth_error (to_str p) (N.to_nat id) = Some s.

  Lemma pool_new_ok : pool_ok pool_new.
  Proof.
    split; [constructor|]. split; [cbn; lia|]. intros s id. cbn.
    split; [discriminate|]. destruct (N.to_nat id); discriminate.
  Qed.

  Lemma intern_ok p s p' id :
    pool_ok p -> intern S_eq p s = (p', id) ->
    (N.of_nat (length (to_str p')) <= 4294967296)%N ->
    pool_ok p' /\ resolve p' id = Some s
    /\ (exists suffix, to_str p' = to_str p ++ suffix).
  Proof.
    intros (Hd & Hl & Hm) E Hlen. unfold intern in E.
    destruct (frame_get (to_id p) s) as [i|] eqn:Ef.
    - injection E as <- <-. repeat split; auto.
      + apply Hm.
      + apply Hm.
      + unfold resolve. now apply Hm.
      + exists []. now rewrite app_nil_r.
    - injection E as <- <-. cbn [to_str to_id] in *.
      rewrite app_length in Hlen. cbn [length] in Hlen.
      rewrite N.mod_small by lia.
      assert (Hnot : ~ In s (to_str p)).
      { intros Hin. apply In_nth_error in Hin. destruct Hin as [n Hn].
        rewrite <- (Nat2N.id n) in Hn. apply Hm in Hn. congruence. }
      split; [split; [|split]|split].
      + clear - Hd Hnot. apply (Permutation_NoDup (l := s :: to_str p)).
        * apply Permutation_cons_append.
        * now constructor.
      + cbn. rewrite app_length; cbn; lia.
      + intros s' id'. cbn. destruct (S_eq s' s) as [->|Hne].
        * split.
          -- intros [=<-]. rewrite Nat2N.id, nth_error_app2, Nat.sub_diag by lia. reflexivity.
          -- intros Hn. f_equal. destruct (Nat.lt_ge_cases (N.to_nat id') (length (to_str p))).
             ++ rewrite nth_error_app1 in Hn by auto. apply nth_error_In in Hn. contradiction.
             ++ rewrite nth_error_app2 in Hn by auto.
                destruct (N.to_nat id' - length (to_str p)) eqn:D; cbn in Hn; [lia|].
                destruct n; discriminate.
        * rewrite Hm. split.
          -- intros Hn. rewrite nth_error_app1; auto. apply nth_error_Some. congruence.
          -- intros Hn. destruct (Nat.lt_ge_cases (N.to_nat id') (length (to_str p))).
             ++ now rewrite nth_error_app1 in Hn.
             ++ rewrite nth_error_app2 in Hn by auto.
                destruct (N.to_nat id' - length (to_str p)) as [|[|?]]; cbn in Hn; congruence.
      + unfold resolve. cbn. rewrite Nat2N.id, nth_error_app2, Nat.sub_diag by lia. reflexivity.
      + now exists [s].
  Qed.
End Symbols.

Section Symbols2.
  Context {S : Type} (S_eq : forall a b : S, {a = b} + {a <> b}).
  Notation frame_get := (frame_get (V := N) S_eq).

  Lemma intern_grows p s p' id :
    intern S_eq p s = (p', id) -> length (to_str p) <= length (to_str p').
  Proof.
    unfold intern. destruct (frame_get (to_id p) s); intros [=<- <-]; cbn; [lia|].
    rewrite app_length; cbn; lia.
  Qed.
  Lemma intern_all_grows ss : forall p p' ids,
    intern_all S_eq p ss = (p', ids) -> length (to_str p) <= length (to_str p').
  Proof.
    induction ss as [|s ss IH]; cbn; intros p p' ids; [intros [=<- <-]; lia|].
    destruct (intern S_eq p s) as [p1 i] eqn:E1, (intern_all S_eq p1 ss) as [p2 is] eqn:E2.
    intros [=<- <-]. apply intern_grows in E1. apply IH in E2. lia.
  Qed.
  Lemma intern_all_ok ss : forall p p' ids,
    pool_ok S_eq p -> intern_all S_eq p ss = (p', ids) ->
    (N.of_nat (length (to_str p')) <= 4294967296)%N ->
    pool_ok S_eq p' /\ Forall2 (fun s id => resolve p' id = Some s) ss ids
    /\ exists suffix, to_str p' = to_str p ++ suffix.
  Proof.
    induction ss as [|s ss IH]; cbn; intros p p' ids Hok.
    - intros [=<- <-] H. repeat split; try apply Hok; auto. exists []. now rewrite app_nil_r.
    - destruct (intern S_eq p s) as [p1 i] eqn:E1, (intern_all S_eq p1 ss) as [p2 is] eqn:E2.
      intros [=<- <-] H.
      pose proof (intern_all_grows _ _ _ _ E2).
      destruct (intern_ok S_eq p s p1 i Hok E1) as (Hok1 & R1 & x1 & X1); [lia|].
      destruct (IH p1 p2 is Hok1 E2 H) as (Hok2 & R2 & x2 & X2).
      split; [auto|]. split.
      + constructor; auto. unfold resolve in *. rewrite X2, nth_error_app1; auto.
        apply nth_error_Some. congruence.
      + exists (x1 ++ x2). now rewrite X2, X1, app_assoc.
  Qed.

  (** Interned pools do not exceed the number of distinct strings seen. *)
  Lemma intern_all_len ss : forall p p' ids,
    intern_all S_eq p ss = (p', ids) -> length (to_str p') <= length (to_str p) + length ss.
  Proof.
    induction ss as [|s ss IH]; cbn; intros p p' ids; [intros [=<- <-]; lia|].
    destruct (intern S_eq p s) as [p1 i] eqn:E1, (intern_all S_eq p1 ss) as [p2 is] eqn:E2.
    intros [=<- <-]. apply IH in E2. unfold intern in E1.
    destruct (frame_get (to_id p) s); injection E1 as <- _; [lia|].
    cbn [to_str] in E2. rewrite app_length in E2. cbn in E2. lia.
  Qed.

  Lemma intern_history ss p ids :
    intern_all S_eq pool_new ss = (p, ids) ->
    (N.of_nat (length ss) <= 4294967296)%N ->
    Forall2 (fun s id => resolve p id = Some s) ss ids /\ forall i j s t a b, nth_error ss i = Some s -> nth_error ss j = Some t ->
      nth_error ids i = Some a -> nth_error ids j = Some b -> (a = b <-> s = t).
  Proof.
    intros E Hl. pose proof (intern_all_len _ _ _ _ E) as L. cbn in L.
    destruct (intern_all_ok ss _ _ _ (pool_new_ok S_eq) E) as ((Hd & Hl' & Hm) & F & _); [lia|].
    split; [exact F|].
    assert (G : forall i s a, nth_error ss i = Some s -> nth_error ids i = Some a -> resolve p a = Some s).
    { clear - F. induction F; intros [|i] s a; cbn; try discriminate.
      - intros [=<-] [=<-]. auto.
      - eauto. }
    intros i j s t a b Hi Hj Ha Hb. pose proof (G _ _ _ Hi Ha) as G1. pose proof (G _ _ _ Hj Hb) as G2.
    split; intros.
    - congruence.
    - subst t. unfold resolve in *. apply Hm in G1. apply Hm in G2. congruence.
  Qed.
End Symbols2.

(** ** Sorted serialisation *)
Section Sorted.
  Context {K V : Type} (cmp : K -> K -> comparison).
  Context (L : lawful cmp).
  Definition ltk (x y : K * V) : Prop := cmp (fst x) (fst y) = Lt.
  Notation ins := (bt_insert (V := V) cmp).

  Lemma ltk_trans : forall x y z, ltk x y -> ltk y z -> ltk x z.
  Proof. intros x y z. apply (cmp_trans _ L). Qed.

  Lemma ins_in k v m :
    StronglySorted ltk m -> ~ In k (map fst m) ->
    Permutation (ins k v m) ((k, v) :: m) /\ StronglySorted ltk (ins k v m).
  Proof.
    induction m as [|[k' v'] m IH]; cbn; intros Hs Hn.
    - split; [auto|]. constructor; constructor.
    - inversion Hs as [|? ? Hs' Hf]; subst.
      destruct (cmp k k') eqn:E.
      + apply (cmp_eq _ L) in E. subst. intuition.
      + split; [auto|]. constructor; [constructor; auto|].
        constructor; [exact E|]. eapply Forall_impl; [|exact Hf].
        intros z Hz. eapply ltk_trans; [|exact Hz]. exact E.
      + destruct IH as [P S]; [auto|intuition|]. split.
        * rewrite P. apply perm_swap.
        * constructor; auto. apply (Permutation_Forall (Permutation_sym P)).
          constructor; auto. unfold ltk; cbn. rewrite (cmp_sym _ L), E. reflexivity.
  Qed.

  Lemma ser_aux entries : forall m,
    StronglySorted ltk m -> NoDup (map fst m ++ map fst entries) ->
    let r := fold_left (fun m kv => ins (fst kv) (snd kv) m) entries m in
    Permutation r (m ++ entries) /\ StronglySorted ltk r.
  Proof.
    induction entries as [|[k v] es IH]; cbn; intros m Hs Hn.
    - rewrite app_nil_r. auto.
    - assert (Hk : ~ In k (map fst m)).
      { intros Hin. apply NoDup_remove_2 in Hn. apply Hn. apply in_or_app; auto. }
      destruct (ins_in k v m Hs Hk) as [P S].
      destruct (IH (ins k v m) S) as [P' S'].
      + apply (Permutation_NoDup (l := map fst m ++ k :: map fst es)); auto.
        rewrite (Permutation_map fst P). cbn. symmetry. apply Permutation_middle.
      + split; auto. rewrite P', P. cbn. apply Permutation_middle.
  Qed.

  Lemma ser_sorted (entries : list (K * V)) :
    NoDup (map fst entries) ->
    Permutation (serialize_entries cmp entries) entries
    /\ StronglySorted ltk (serialize_entries cmp entries).
  Proof. intros H. apply (ser_aux entries [] (SSorted_nil _) H). Qed.

  Lemma sorted_unique : forall l l' : list (K * V),
    StronglySorted ltk l -> StronglySorted ltk l' -> Permutation l l' -> l = l'.
  Proof.
    induction l as [|x l IH]; intros l' S S' P.
    - apply Permutation_nil in P. now subst.
    - destruct l' as [|y l']; [apply Permutation_sym, Permutation_nil in P; discriminate|].
      inversion S as [|? ? Sl Fl]; subst. inversion S' as [|? ? Sl' Fl']; subst.
      assert (x = y).
      { assert (Hx : In x (y :: l')) by (eapply Permutation_in; [exact P|left; auto]).
        assert (Hy : In y (x :: l)) by (eapply Permutation_in; [apply Permutation_sym; exact P|left; auto]).
        destruct Hx as [->|Hx]; auto. destruct Hy as [->|Hy]; auto.
        rewrite Forall_forall in Fl, Fl'. specialize (Fl _ Hy). specialize (Fl' _ Hx).
        unfold ltk in *. rewrite (cmp_sym _ L), Fl in Fl'. discriminate. }
      subst y. f_equal. apply IH; auto. eapply Permutation_cons_inv. exact P.
  Qed.

  Lemma ser_deterministic (e e' : list (K * V)) :
    NoDup (map fst e) -> Permutation e e' ->
    serialize_entries cmp e = serialize_entries cmp e'.
  Proof.
    intros Hn P. destruct (ser_sorted e Hn) as [P1 S1].
    destruct (ser_sorted e') as [P2 S2].
    { eapply Permutation_NoDup; [apply Permutation_map; exact P|auto]. }
    apply sorted_unique; auto. now rewrite P1, P, P2.
  Qed.

  Context (K_eq : forall a b : K, {a = b} + {a <> b}).
  Lemma frame_get_in (m : list (K * V)) k v :
    NoDup (map fst m) -> (frame_get K_eq m k = Some v <-> In (k, v) m).
  Proof.
    induction m as [|[k' v'] m IH]; cbn; intros Hn; [split; [discriminate|tauto]|].
    inversion Hn as [|? ? Hni Hn']; subst. destruct (K_eq k k') as [->|Hne].
    - split; [intros [=->]; auto|]. intros [[=->]|Hin]; auto.
      exfalso. apply Hni. change k' with (fst (k', v)). now apply in_map.
    - rewrite (IH Hn'). split; [auto|]. intros [[=<- <-]|]; [congruence|auto].
  Qed.
  Lemma ser_round_trip (e : list (K * V)) k :
    NoDup (map fst e) -> frame_get K_eq (serialize_entries cmp e) k = frame_get K_eq e k.
  Proof.
    intros Hn. destruct (ser_sorted e Hn) as [P _].
    assert (Hn' : NoDup (map fst (serialize_entries cmp e))).
    { eapply Permutation_NoDup; [|exact Hn]. apply Permutation_map. now symmetry. }
    destruct (frame_get K_eq e k) as [v|] eqn:E.
    - apply frame_get_in; auto. apply frame_get_in in E; auto.
      eapply Permutation_in; [symmetry; exact P|auto].
    - destruct (frame_get K_eq (serialize_entries cmp e) k) as [v|] eqn:E'; auto.
      apply frame_get_in in E'; auto. eapply Permutation_in in E'; [|exact P].
      apply frame_get_in in E'; auto. congruence.
  Qed.
End Sorted.

Lemma fold_lub_sound ds : forall d0 n e,
  (exists d, In d (d0 :: ds) /\ allows d n e) -> allows (fold_left lub ds d0) n e.
Proof.
  induction ds as [|d ds IH]; intros d0 n e (x & Hx & H); cbn.
  - destruct Hx as [<-|[]]. exact H.
  - apply IH. destruct Hx as [<-|[<-|Hx]].
    + exists (lub d0 d). split; [left; auto|]. apply lub_sound; auto.
    + exists (lub d0 d). split; [left; auto|]. apply lub_sound; auto.
    + exists x. split; [right; auto|auto].
Qed.

Lemma intern_stable {S : Type} (S_eq : forall a b : S, {a = b} + {a <> b}) ss ts p ids p' ids' :
  intern_all S_eq pool_new ss = (p, ids) -> intern_all S_eq p ts = (p', ids') ->
  (N.of_nat (length ss + length ts) <= 4294967296)%N ->
  forall id s, resolve p id = Some s -> resolve p' id = Some s.
Proof.
  intros E1 E2 Hl id s R.
  pose proof (intern_all_len S_eq _ _ _ _ E1) as L1. pose proof (intern_all_len S_eq _ _ _ _ E2) as L2.
  cbn in L1.
  destruct (intern_all_ok S_eq ss _ _ _ (pool_new_ok S_eq) E1) as (Hok & _); [lia|].
  destruct (intern_all_ok S_eq ts _ _ _ Hok E2) as (_ & _ & x & X); [lia|].
  unfold resolve in *. rewrite X, nth_error_app1; auto. apply nth_error_Some. congruence.
Qed.
