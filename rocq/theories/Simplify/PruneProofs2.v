(** Proofs about dead code elimination: the marking loop and the result. *)
From Coq Require Import List Bool Arith String Lia.
From Verif.Scope Require Import Model Spec Proofs.
From Verif.Simplify Require Import Compress CompressSpec CompressProofs Prune PruneSpec PruneProofs.
Import ListNotations.
Local Arguments Nat.eqb : simpl never.
Local Arguments Nat.leb : simpl never.
Local Arguments Nat.ltb : simpl never.

(** * Before the first pass *)
Lemma at_meta_child root p sc e m i : at_ root p = Some (sc, ENode KMeta [e; m]) ->
  at_ root (i :: p) = match i with 0 => Some (sc, e) | 1 => Some (sc, m) | _ => None end.
Proof. intros A. cbn. rewrite A. destruct i as [|[|[|i]]]; reflexivity. Qed.
Lemma at_let_child root p sc bs body t i : at_ root p = Some (sc, ELet bs body t) ->
  at_ root (i :: p) = match nth_error bs i with
    | Some b => Some (Some (p, List.length bs) :: sc, b_expr b)
    | None => if i =? List.length bs then Some (Some (p, List.length bs) :: sc, body) else None end.
Proof. intros A. cbn. rewrite A. reflexivity. Qed.
Lemma at_let_body root p sc bs body t : at_ root p = Some (sc, ELet bs body t) ->
  at_ root (List.length bs :: p) = Some (Some (p, List.length bs) :: sc, body).
Proof.
  intros A. rewrite (at_let_child _ _ _ _ _ _ _ A). rewrite (proj2 (nth_error_None bs (List.length bs))) by lia.
  rewrite Nat.eqb_refl. reflexivity.
Qed.
Lemma chain_up root i p : chain root (i :: p) -> chain root p.
Proof. inversion 1; auto. Qed.
Lemma chain_above root q p : below q p -> chain root q -> chain root p.
Proof. intros (l & ->). induction l as [|i l IH]; cbn; auto. intros H. apply IH. eapply chain_up; eauto. Qed.

Definition end_ok (st : state) (p : path) (e : expr) : Prop :=
  match e with
  | ELet _ _ _ => True
  | ENode KMeta (_ :: _ :: _) => hard (seen_at st (1 :: p))
  | _ => hard (seen_at st p)
  end.
Definition unmarked_same (st st' : state) : Prop :=
  candidates st' = candidates st /\ disqualified st' = disqualified st /\ accessed st' = accessed st /\ reachable st' = reachable st.
Lemma mark_same s p st : unmarked_same st (mark_as s p st).
Proof. unfold mark_as, unmarked_same. destruct (seen_at st p); auto. Qed.
Lemma mark_seen_other s p st q : q <> p -> seen_at (mark_as s p st) q = seen_at st q.
Proof. intros N. unfold mark_as. destruct (seen_at st p); auto. cbn. apply set_other, N. Qed.
Lemma mark_seen_hard p st q : hard (seen_at st q) -> hard (seen_at (mark_as Seen p st) q).
Proof.
  intros H. destruct (list_eq_dec Nat.eq_dec q p) as [->|N]; [|rewrite mark_seen_other; auto].
  unfold mark_as. destruct (seen_at st p) eqn:E; cbn; rewrite ?E; auto. rewrite set_same. left; auto.
Qed.
Definition only_hard (st : state) : Prop := forall q, seen_at st q = Unseen \/ seen_at st q = Seen.
Lemma mark_only_hard p st : only_hard st -> only_hard (mark_as Seen p st).
Proof.
  intros H q. destruct (list_eq_dec Nat.eq_dec q p) as [->|N]; [|rewrite mark_seen_other; auto].
  unfold mark_as. destruct (H p) as [E|E]; rewrite E; cbn; rewrite ?set_same, ?E; auto.
Qed.
Lemma mark_now_seen p st : only_hard st -> seen_at (mark_as Seen p st) p = Seen.
Proof. intros H. unfold mark_as. destruct (H p) as [E|E]; rewrite E; cbn; rewrite ?set_same; auto. Qed.

Lemma mark_body_spec root e : well_formed e = true -> forall p sc st, chain root p -> at_ root p = Some (sc, e) -> only_hard st ->
  (forall r, seen_at st r <> Unseen -> needed root r /\ forall q, below r q -> q = r \/ chain root q) ->
  let st' := mark_body p e st in
  only_hard st' /\ unmarked_same st st' /\ (forall q, hard (seen_at st q) -> hard (seen_at st' q)) /\
  (forall r, seen_at st' r <> Unseen -> needed root r /\ forall q, below r q -> q = r \/ chain root q) /\
  (forall q sc' e', chain root q -> below q p -> at_ root q = Some (sc', e') -> end_ok st' q e').
Proof.
  assert (Base : forall e p sc st, chain root p -> at_ root p = Some (sc, e) -> only_hard st ->
     (forall bs body t, e <> ELet bs body t) -> (forall e1 m xs, e <> ENode KMeta (e1 :: m :: xs)) ->
     (forall r, seen_at st r <> Unseen -> needed root r /\ forall q, below r q -> q = r \/ chain root q) ->
     let st' := mark_as Seen p st in
     only_hard st' /\ unmarked_same st st' /\ (forall q, hard (seen_at st q) -> hard (seen_at st' q)) /\
     (forall r, seen_at st' r <> Unseen -> needed root r /\ forall q, below r q -> q = r \/ chain root q) /\
     (forall q sc' e', chain root q -> below q p -> at_ root q = Some (sc', e') -> end_ok st' q e')).
  { clear e. intros e p sc st C A OH N1 N2 H. cbv zeta. split; [apply mark_only_hard, OH|]. split; [apply mark_same|].
    split; [intros q; apply mark_seen_hard|]. split.
    - intros r Hr. destruct (list_eq_dec Nat.eq_dec r p) as [->|N].
      + split; [|intros q B; right; eapply chain_above; eauto]. eapply needed_result; [exact C|exact A|exact N1|intros e1 m; apply N2].
      + rewrite mark_seen_other in Hr by auto. auto.
    - intros q sc' e' Cq B Aq. destruct (below_child _ _ B) as [->|(i & Bi)].
      + rewrite A in Aq. injection Aq as <- <-.
        assert (K : hard (seen_at (mark_as Seen p st) p)) by (left; apply mark_now_seen, OH).
        destruct e as [v|bs body t|il ps body|k xs]; cbn; auto. destruct k; auto. destruct xs as [|x [|y xs]]; auto.
        destruct (N2 x y xs eq_refl).
      + exfalso. pose proof (chain_above _ _ _ Bi Cq) as Ci. inversion Ci; subst.
        * match goal with X : at_ root p = Some _ |- _ => rewrite A in X; injection X as _ X; eapply N1; exact X end.
        * match goal with X : at_ root p = Some _ |- _ => rewrite A in X; injection X as _ X; eapply N2; exact X end. }
  induction e as [v|bs body t IHbs IHb|il ps body IHb|k xs IHxs] using expr_ind'; intros W p sc st C A OH H.
  - apply (Base _ _ _ _ C A OH); auto; discriminate.
  - cbn [mark_body]. cbn in W. apply andb_prop in W. destruct W as [_ W2].
    pose proof (at_let_body _ _ _ _ _ _ A) as Ab. pose proof (chain_let _ _ _ _ _ _ C A) as Cb.
    destruct (IHb W2 _ _ st Cb Ab OH H) as (K1 & K2 & K3 & K4 & K5). split; auto. split; auto. split; auto. split; auto.
    intros q sc' e' Cq B Aq. destruct (below_child _ _ B) as [->|(i & Bi)].
    + rewrite A in Aq. injection Aq as <- <-. exact Logic.I.
    + pose proof (chain_above _ _ _ Bi Cq) as Ci.
      assert (i = List.length bs) as ->.
      { inversion Ci; subst; match goal with X : at_ root p = Some _ |- _ => rewrite A in X; injection X as <- end; auto; try congruence. }
      eapply K5; eauto.
  - apply (Base _ _ _ _ C A OH); auto; discriminate.
  - assert (G : (k = KMeta -> List.length xs <> 2) -> mark_body p (ENode k xs) st = mark_as Seen p st ->
       let st' := mark_body p (ENode k xs) st in
  only_hard st' /\ unmarked_same st st' /\ (forall q, hard (seen_at st q) -> hard (seen_at st' q)) /\
  (forall r, seen_at st' r <> Unseen -> needed root r /\ forall q, below r q -> q = r \/ chain root q) /\
  (forall q sc' e', chain root q -> below q p -> at_ root q = Some (sc', e') -> end_ok st' q e')).
    { intros Nk E. cbv zeta. rewrite E. apply (Base _ _ _ _ C A OH); auto; try discriminate.
      intros e1 m xs' Q. injection Q as -> ->. cbn in W. apply andb_prop in W. destruct W as [W _]. apply Nat.eqb_eq in W.
      apply Nk; auto. }
    destruct k; try (apply G; [discriminate|reflexivity]).
    cbn in W. apply andb_prop in W. destruct W as [W W2]. apply Nat.eqb_eq in W.
    destruct xs as [|e [|m [|? ?]]]; try discriminate W. clear G W. cbn in W2. apply andb_prop in W2. destruct W2 as [We W2].
    cbn [mark_body]. inversion IHxs as [|? ? IHe _]; subst.
    pose proof (at_meta_child _ _ _ _ _ 0 A) as A0. pose proof (chain_meta _ _ _ _ _ _ C A) as C0.
    set (st1 := mark_as Seen (1 :: p) st).
    destruct (IHe We _ _ st1 C0 A0) as (K1 & K2 & K3 & K4 & K5).
    { apply mark_only_hard, OH. }
    { intros r Hr. destruct (list_eq_dec Nat.eq_dec r (1 :: p)) as [->|N].
      - split; [eapply needed_result_meta; eauto|]. intros q B. destruct (below_cons_inv _ _ _ B) as [<-|B']; auto.
        right. eapply chain_above; eauto.
      - unfold st1 in Hr. rewrite mark_seen_other in Hr by auto. auto. }
    split; auto. split.
    { destruct (mark_same Seen (1 :: p) st) as (? & ? & ? & ?), K2 as (? & ? & ? & ?). unfold st1, unmarked_same in *.
      repeat split; congruence. }
    split; [intros q Hq; apply K3, mark_seen_hard, Hq|]. split; auto.
    intros q sc' e' Cq B Aq. destruct (below_child _ _ B) as [->|(i & Bi)].
    + rewrite A in Aq. injection Aq as <- <-. cbn. apply K3. left. apply mark_now_seen, OH.
    + pose proof (chain_above _ _ _ Bi Cq) as Ci.
      assert (i = 0) as ->.
      { inversion Ci; subst; auto. match goal with X : at_ root p = Some _ |- _ => rewrite A in X; discriminate end. }
      eapply K5; eauto.
Qed.

Lemma start_inv e : well_formed e = true -> Inv e (mark_body [] e initial) /\ reachable (mark_body [] e initial) = false.
Proof.
  intros W. destruct (mark_body_spec e e W [] [] initial) as (K1 & (E1 & E2 & E3 & E4) & K3 & K4 & K5).
  - constructor.
  - reflexivity.
  - intros q. auto.
  - intros r H. cbn in H. congruence.
  - split; [|rewrite E4; reflexivity]. split.
    + intros r Hr q B. destruct (K4 r Hr) as [_ H]. destruct (H q B) as [->|C]; auto. left. exists r. split; [apply below_refl|].
      left. destruct (K1 r); congruence.
    + intros r Hr. destruct (K1 r); congruence.
    + rewrite E1. discriminate.
    + intros p sc x C A. apply (K5 p sc x C); auto. exists p. rewrite app_nil_r. reflexivity.
    + intros r Hr. apply K4. destruct Hr; congruence.
    + intros r Hr. destruct (K1 r); congruence.
Qed.

(** * The loop *)
Lemma reset_ext root st : ext root (reset_count st) (reset_count st) /\ (Inv root st -> Inv root (reset_count st)).
Proof. split; [apply ext_refl|]. intros [I1 I2 I3 I4 I5 I6]. split; auto. Qed.
Lemma regd_nil root st : regd root [] st.
Proof. intros [|s] lp n i E; discriminate. Qed.
Lemma pass_post e st st' : well_formed e = true -> Inv e st -> reachable st = false -> pass e st = Some st' ->
  post e [[]] (reset_count st) st'.
Proof.
  intros W I R H. unfold pass in H. eapply (traverse_ok e e W [] []); eauto.
  - apply reset_ext, I.
  - apply regd_nil.
  - cbn. rewrite R. discriminate.
Qed.
(** When the loop ends, every reference under a marked position has been dealt with. *)
Definition settled (root : expr) (st : state) : Prop := Inv root st /\ forall q, hard (seen_at st q) -> done root st q.
Lemma passes_settled e : well_formed e = true -> forall n st st', Inv e st -> reachable st = false -> passes n e st = Done st' -> settled e st'.
Proof.
  intros W n. induction n as [|n IH]; intros st st' I R H; [discriminate|]. cbn in H.
  destruct (pass e st) as [st1|] eqn:E; [|discriminate]. pose proof (pass_post e st st1 W I R E) as [P1 P2 P3 P4 P5].
  destruct (Nat.eqb_spec (marked_count st1) 0) as [Z|Z].
  - injection H as <-. split; auto. intros q Hq. apply (P5 [] q); [left; auto|exists q; rewrite app_nil_r; reflexivity|].
    destruct (ext_seen _ _ _ P2 q) as [F|[F|[F1 F2]]].
    + pose proof (ext_quiet _ _ _ P2 Z q F). destruct Hq; congruence.
    + rewrite <- F. exact Hq.
    + left; auto.
  - apply (IH st1); auto. rewrite P3. exact R.
Qed.

(** * Termination *)
Fixpoint paths (p : path) (e : expr) : list path :=
  p :: match e with
       | EVar _ => []
       | ELet bs body _ =>
           (fix go (i : nat) (l : list (binding expr)) := match l with [] => [] | b :: l => paths (i :: p) (b_expr b) ++ go (S i) l end) 0 bs ++
           paths (List.length bs :: p) body
       | ELam _ _ body => paths (0 :: p) body
       | ENode _ xs => (fix go (i : nat) (l : list expr) := match l with [] => [] | x :: l => paths (i :: p) x ++ go (S i) l end) 0 xs
       end.
Lemma paths_length e : forall p, List.length (paths p e) = size e.
Proof.
  induction e as [v|bs body t IHbs IHb|il ps body IHb|k xs IHxs] using expr_ind'; intros p; cbn [paths size List.length]; auto.
  - f_equal. rewrite app_length, IHb. f_equal.
    assert (G : forall i, List.length ((fix go (i : nat) (l : list (binding expr)) := match l with [] => [] | b :: l => paths (i :: p) (b_expr b) ++ go (S i) l end) i bs)
      = list_sum (map (fun b => size (b_expr b)) bs)).
    { induction IHbs as [|b bs Hb F IH]; intros i; cbn; auto. rewrite app_length, Hb, IH. reflexivity. }
    apply G.
  - f_equal.
    assert (G : forall i, List.length ((fix go (i : nat) (l : list expr) := match l with [] => [] | x :: l => paths (i :: p) x ++ go (S i) l end) i xs)
      = list_sum (map size xs)).
    { induction IHxs as [|b bs Hb F IH]; intros i; cbn; auto. rewrite app_length, Hb, IH. reflexivity. }
    apply G.
Qed.
Lemma paths_below root e : forall p sc, at_ root p = Some (sc, e) -> forall q, below q p -> at_ root q <> None -> In q (paths p e).
Proof.
  induction e as [v|bs body t IHbs IHb|il ps body IHb|k xs IHxs] using expr_ind'; intros p sc A q B Q;
    destruct (below_child _ _ B) as [->|(i & Bi)]; try (left; reflexivity); right;
    pose proof (at_below root q (i :: p) Bi Q) as Ai.
  - cbn in Ai. rewrite A in Ai. cbn in Ai. congruence.
  - apply in_or_app. rewrite (at_let_child _ _ _ _ _ _ _ A) in Ai.
    destruct (nth_error bs i) as [b|] eqn:E.
    + left. pose proof (at_let_child _ _ _ _ _ _ i A) as Ac. rewrite E in Ac.
      assert (G : forall l j k, nth_error l k = Some b -> j + k = i ->
         (forall p sc, at_ root p = Some (sc, b_expr b) -> forall q, below q p -> at_ root q <> None -> In q (paths p (b_expr b))) ->
         In q ((fix go (i : nat) (l : list (binding expr)) := match l with [] => [] | b :: l => paths (i :: p) (b_expr b) ++ go (S i) l end) j l)).
      { induction l as [|x l IH]; intros j k Ek Ej Hb; [destruct k; discriminate|]. apply in_or_app. destruct k as [|k]; cbn in Ek.
        - injection Ek as ->. left. assert (j = i) as -> by lia. eapply Hb; eauto.
        - right. eapply IH; eauto. lia. }
      apply (G bs 0 i E eq_refl). rewrite Forall_forall in IHbs. apply (IHbs b). eapply nth_error_In, E.
    + destruct (Nat.eqb_spec i (List.length bs)) as [Ei|Ei]; [|congruence]. subst i. right. eapply IHb; eauto. eapply at_let_body; eauto.
  - cbn [at_] in Ai. rewrite A in Ai. cbn in Ai. destruct (Nat.eqb_spec i 0) as [Ei|Ei]; [|congruence]. subst i.
    eapply (IHb (0 :: p)); eauto. cbn. rewrite A. reflexivity.
  - cbn [at_] in Ai. rewrite A in Ai. cbn in Ai. destruct (nth_error xs i) as [x|] eqn:E; [|cbn in Ai; congruence].
    assert (Ac : at_ root (i :: p) = Some (sc, x)) by (cbn; rewrite A; cbn; rewrite E; reflexivity).
    assert (G : forall l j k, nth_error l k = Some x -> j + k = i ->
       (forall p sc, at_ root p = Some (sc, x) -> forall q, below q p -> at_ root q <> None -> In q (paths p x)) ->
       In q ((fix go (i : nat) (l : list expr) := match l with [] => [] | x :: l => paths (i :: p) x ++ go (S i) l end) j l)).
    { induction l as [|y l IH]; intros j k' Ek Ej Hb; [destruct k'; discriminate|]. apply in_or_app. destruct k' as [|k']; cbn in Ek.
      - injection Ek as ->. left. assert (j = i) as -> by lia. eapply Hb; eauto.
      - right. eapply IH; eauto. lia. }
    apply (G xs 0 i E eq_refl). rewrite Forall_forall in IHxs. apply (IHxs x). eapply nth_error_In, E.
Qed.
Definition unseen_count (e : expr) (st : state) : nat := List.length (filter (fun q => is_unseen (seen_at st q)) (paths [] e)).
Lemma filter_le {A} (f g : A -> bool) l : (forall x, g x = true -> f x = true) -> List.length (filter g l) <= List.length (filter f l).
Proof.
  intros H. induction l as [|x l IH]; cbn; auto. destruct (g x) eqn:G; [rewrite (H x G); cbn; lia|]. destruct (f x); cbn; lia.
Qed.
Lemma filter_lt {A} (f g : A -> bool) l x : (forall x, g x = true -> f x = true) -> In x l -> f x = true -> g x = false ->
  List.length (filter g l) < List.length (filter f l).
Proof.
  intros H Hx Fx Gx. induction l as [|y l IH]; [destruct Hx|]. destruct Hx as [->|Hx]; cbn.
  - rewrite Fx, Gx. cbn. pose proof (filter_le f g l H). lia.
  - specialize (IH Hx). destruct (g y) eqn:Gy; [rewrite (H y Gy); cbn; lia|]. destruct (f y); cbn; lia.
Qed.
Lemma passes_enough e : well_formed e = true -> forall n st, Inv e st -> reachable st = false -> unseen_count e st < n -> passes n e st <> Error.
Proof.
  intros W n. induction n as [|n IH]; intros st I R L; [lia|]. cbn.
  destruct (pass e st) as [st1|] eqn:E; [|discriminate]. pose proof (pass_post e st st1 W I R E) as [P1 P2 P3 P4 P5].
  destruct (Nat.eqb_spec (marked_count st1) 0) as [Z|Z]; [discriminate|].
  apply IH; auto; [rewrite P3; exact R|].
  destruct (ext_progress _ _ _ P2) as (q & Q1 & Q2 & Q3); [cbn; lia|].
  enough (unseen_count e st1 < unseen_count e st) by lia. apply (filter_lt _ _ _ q).
  - intros x Hx. destruct (seen_at st x) eqn:Sx; auto; exfalso; apply (ext_marked _ _ _ x P2); cbn; try congruence;
      destruct (seen_at st1 x); auto; discriminate.
  - eapply (paths_below e e [] []); eauto. exists q. rewrite app_nil_r. reflexivity.
  - cbn in Q2. rewrite Q2. reflexivity.
  - destruct (seen_at st1 q); auto. congruence.
Qed.
