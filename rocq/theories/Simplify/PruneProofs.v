(** Proofs about dead code elimination: what the marks mean when marking has finished. *)
From Coq Require Import List Bool Arith String Lia.
From Verif.Scope Require Import Model Spec Proofs.
From Verif.Simplify Require Import Compress Prune PruneSpec.
Import ListNotations.
Local Arguments Nat.eqb : simpl never.
Local Arguments Nat.leb : simpl never.
Local Arguments Nat.ltb : simpl never.

(** * Positions *)
Lemma path_eqb_spec p q : reflect (p = q) (path_eqb p q).
Proof. unfold path_eqb. destruct (list_eq_dec Nat.eq_dec p q); constructor; auto. Qed.
Lemma set_same {A} (f : path -> A) p a : set f p a p = a.
Proof. unfold set. destruct (path_eqb_spec p p); congruence. Qed.
Lemma set_other {A} (f : path -> A) p a q : q <> p -> set f p a q = f q.
Proof. unfold set. destruct (path_eqb_spec q p); congruence. Qed.

Lemma below_refl p : below p p.
Proof. exists []. reflexivity. Qed.
Lemma below_cons i p : below (i :: p) p.
Proof. exists [i]. reflexivity. Qed.
Lemma below_trans a b c : below a b -> below b c -> below a c.
Proof. intros (l & ->) (m & ->). exists (l ++ m). apply app_assoc. Qed.
Lemma below_child q p : below q p -> q = p \/ exists i, below q (i :: p).
Proof.
  intros (l & ->). destruct (rev l) as [|i r] eqn:E.
  - left. rewrite <- (rev_involutive l), E. reflexivity.
  - right. exists i. exists (rev r). rewrite <- (rev_involutive l), E. cbn. rewrite <- app_assoc. reflexivity.
Qed.
Lemma below_cons_inv i p q : below (i :: p) q -> i :: p = q \/ below p q.
Proof. intros ([|j l] & E); cbn in E; [auto|]. injection E as -> ->. right. exists l. reflexivity. Qed.
(** Two positions above the same one are above one another. *)
Lemma below_linear p q r : below p q -> below p r -> below q r \/ below r q.
Proof.
  revert q r. induction p as [|i p IH]; intros q r Hq Hr.
  - destruct Hq as (l & E). symmetry in E. apply app_eq_nil in E. destruct E as [_ ->].
    destruct Hr as (l' & E). symmetry in E. apply app_eq_nil in E. destruct E as [_ ->]. left. apply below_refl.
  - destruct (below_cons_inv _ _ _ Hq) as [<-|Hq']; [left; exact Hr|].
    destruct (below_cons_inv _ _ _ Hr) as [<-|Hr']; [right; exact Hq|]. auto.
Qed.
Lemma at_below root q : forall p, below q p -> at_ root q <> None -> at_ root p <> None.
Proof.
  intros p (l & ->). induction l as [|i l IH]; cbn; auto. intros H. apply IH. destruct (at_ root (l ++ p)); congruence.
Qed.

Lemma at_scopes root p : forall sc e, at_ root p = Some (sc, e) -> forall s lp n, nth_error sc s = Some (Some (lp, n)) ->
  below p lp /\ exists sc' bs body t, at_ root lp = Some (sc', ELet bs body t) /\ n = List.length bs.
Proof.
  induction p as [|i p IH]; intros sc e H s lp n E.
  - injection H as <- <-. destruct s; discriminate.
  - cbn in H. destruct (at_ root p) as [[sc0 e0]|] eqn:A; [|discriminate].
    destruct e0 as [v|bs body t|il ps body|k xs]; cbn in H; [discriminate|..].
    + assert (sc = Some (p, List.length bs) :: sc0) as ->.
      { destruct (nth_error bs i) as [b0|]; [injection H as <- _; reflexivity|]. destruct (i =? _); [injection H as <- _; reflexivity|discriminate]. }
      destruct s as [|s]; cbn in E.
      * injection E as <- <-. split; [apply below_cons|]. eauto 6.
      * destruct (IH _ _ eq_refl _ _ _ E) as [B X]. split; auto. eapply below_trans; [apply below_cons|exact B].
    + destruct (i =? 0); [|discriminate]. injection H as <- <-. destruct s as [|s]; cbn in E; [discriminate|].
      destruct (IH _ _ eq_refl _ _ _ E) as [B X]. split; auto. eapply below_trans; [apply below_cons|exact B].
    + destruct (nth_error xs i); [|discriminate]. injection H as <- <-.
      destruct (IH _ _ eq_refl _ _ _ E) as [B X]. split; auto. eapply below_trans; [apply below_cons|exact B].
Qed.

(** * What has to be known about each reference *)
Definition self_fallback (s b : nat) (fb : list expr) : bool :=
  match fb with EVar (Bound s' b' _) :: _ => (s' =? s) && (b' =? b) | _ => false end.
Definition in_lookup (root : expr) (q : path) : bool :=
  match q with
  | [] => false
  | i :: p => match at_ root p with
              | Some (_, ENode (KLookup _) (EVar (Bound s b _) :: fb)) => (i =? 0) || ((i =? 1) && self_fallback s b fb)
              | _ => false
              end
  end.

(** The binding used at a position, and the member looked up in it if it is used so. *)
Definition event (root : expr) (q : path) : option (path * option string) :=
  match at_ root q with
  | Some (sc, EVar (Bound s b _)) => if in_lookup root q then None else option_map (fun t => (t, None)) (resolve sc s b)
  | Some (sc, ENode (KLookup m) (EVar (Bound s b _) :: _)) => option_map (fun t => (t, Some m)) (resolve sc s b)
  | _ => None
  end.

Definition default (root : expr) (t : path) : bool :=
  match at_ root t with Some (_, e) => is_default_let e | None => false end.
Definition members (st : state) (t : path) : list string := match accessed st t with Some ms => ms | None => [] end.
Definition ev_ok (root : expr) (st : state) (q : path) : Prop :=
  match event root q with
  | None => True
  | Some (t, None) => seen_at st t <> Unseen /\ disqualified st t = true
  | Some (t, Some m) => seen_at st t <> Unseen /\ (In m (members st t) \/ disqualified st t = true \/ default root t = false)
  end.
Definition done (root : expr) (st : state) (r : path) : Prop := forall q, below q r -> ev_ok root st q.

Definition hard (s : seen) : Prop := s = Seen \/ s = Traversed.
Definition covered (st : state) (p : path) : Prop := exists r, below p r /\ hard (seen_at st r).
Record Inv (root : expr) (st : state) : Prop := {
  inv_above : forall r, seen_at st r <> Unseen -> forall q, below r q -> covered st q \/ chain root q;
  inv_done : forall r, seen_at st r = Traversed -> done root st r;
  inv_cand : forall t, candidates st t = true -> disqualified st t = false /\ default root t = true;
  inv_end : forall p sc e, chain root p -> at_ root p = Some (sc, e) ->
    match e with
    | ELet _ _ _ => True
    | ENode KMeta (_ :: _ :: _) => hard (seen_at st (1 :: p))
    | _ => hard (seen_at st p)
    end;
  inv_needed : forall r, hard (seen_at st r) -> needed root r;
  inv_soft : forall r, seen_at st r = SoftSeen -> exists r', below r' r /\ needed root r' }.

Record ext (root : expr) (st st' : state) : Prop := {
  ext_seen : forall q, seen_at st q = Unseen \/ seen_at st' q = seen_at st q \/ (seen_at st q = Seen /\ seen_at st' q = Traversed);
  ext_disq : forall t, disqualified st t = true -> disqualified st' t = true;
  ext_acc : forall t m, In m (members st t) -> In m (members st' t);
  ext_reg : forall t, candidates st t = true \/ disqualified st t = true -> candidates st' t = true \/ disqualified st' t = true;
  ext_count : marked_count st <= marked_count st';
  ext_quiet : marked_count st' = marked_count st -> forall q, seen_at st q = Unseen -> seen_at st' q = Unseen;
  ext_progress : marked_count st < marked_count st' -> exists q, at_ root q <> None /\ seen_at st q = Unseen /\ seen_at st' q <> Unseen }.

Lemma ext_refl root st : ext root st st.
Proof. split; auto. intros H. lia. Qed.
Lemma ext_marked root st st' q : ext root st st' -> seen_at st q <> Unseen -> seen_at st' q <> Unseen.
Proof. intros X H. destruct (ext_seen _ _ _ X q) as [E|[E|[E1 E2]]]; congruence. Qed.
Lemma ext_hard root st st' q : ext root st st' -> hard (seen_at st q) -> hard (seen_at st' q).
Proof. unfold hard. intros X H. destruct (ext_seen _ _ _ X q) as [E|[E|[E1 E2]]]; [rewrite E in H; destruct H; discriminate|rewrite E; auto|auto]. Qed.
Lemma ext_trans root a b c : ext root a b -> ext root b c -> ext root a c.
Proof.
  intros X Y. split.
  - intros q. destruct (ext_seen _ _ _ X q) as [E|[E|[E1 E2]]]; auto;
      destruct (ext_seen _ _ _ Y q) as [F|[F|[F1 F2]]]; rewrite ?E, ?E1, ?E2 in *; auto; try congruence.
  - intros t H. apply (ext_disq _ _ _ Y), (ext_disq _ _ _ X), H.
  - intros t m H. apply (ext_acc _ _ _ Y), (ext_acc _ _ _ X), H.
  - intros t H. apply (ext_reg _ _ _ Y), (ext_reg _ _ _ X), H.
  - pose proof (ext_count _ _ _ X); pose proof (ext_count _ _ _ Y); lia.
  - intros H q Hq. pose proof (ext_count _ _ _ X); pose proof (ext_count _ _ _ Y).
    apply (ext_quiet _ _ _ Y); [lia|]. apply (ext_quiet _ _ _ X); [lia|auto].
  - intros H. pose proof (ext_count _ _ _ X); pose proof (ext_count _ _ _ Y).
    destruct (Nat.eq_dec (marked_count a) (marked_count b)) as [E|E].
    + destruct (ext_progress _ _ _ Y) as (q & K1 & K2 & K3); [lia|]. exists q. split; [auto|split; auto].
      destruct (seen_at a q) eqn:Ea; auto; exfalso; apply (ext_marked _ _ _ q X); congruence.
    + destruct (ext_progress _ _ _ X) as (q & K1 & K2 & K3); [lia|]. exists q. split; [auto|split; auto]. eapply ext_marked; eauto.
Qed.
Lemma ext_covered root st st' p : ext root st st' -> covered st p -> covered st' p.
Proof. intros X (r & B & H). exists r. split; auto. eapply ext_hard; eauto. Qed.
Lemma ext_ev_ok root st st' q : ext root st st' -> ev_ok root st q -> ev_ok root st' q.
Proof.
  intros X. unfold ev_ok. destruct (event root q) as [[t [m|]]|]; auto.
  - intros (H1 & H2). split; [eapply ext_marked; eauto|]. destruct H2 as [H|[H|H]]; auto.
    + left. eapply ext_acc; eauto.
    + right; left. eapply ext_disq; eauto.
  - intros (H1 & H2). split; [eapply ext_marked; eauto|eapply ext_disq; eauto].
Qed.
Lemma ext_done root st st' r : ext root st st' -> done root st r -> done root st' r.
Proof. intros X H q B. eapply ext_ev_ok; eauto. Qed.
Lemma done_below root st r q : below q r -> done root st r -> done root st q.
Proof. intros B H q' B'. apply H. eapply below_trans; eauto. Qed.

(** Extending a state while keeping the invariant. *)
Lemma inv_ext root st st' : Inv root st -> ext root st st' ->
  (forall r, seen_at st r = Unseen -> seen_at st' r <> Unseen -> seen_at st' r <> Traversed /\ forall q, below r q -> covered st' q \/ chain root q) ->
  (forall r, seen_at st r = Seen -> seen_at st' r = Traversed -> done root st' r) ->
  (forall t, candidates st' t = true -> disqualified st' t = false /\ default root t = true) ->
  (forall r, seen_at st r = Unseen -> (hard (seen_at st' r) -> needed root r) /\ (seen_at st' r = SoftSeen -> exists r', below r' r /\ needed root r')) ->
  Inv root st'.
Proof.
  intros I X H1 H2 H3 H4. split.
  - intros r Hr q B. destruct (seen_at st r) eqn:E; try (destruct (inv_above _ _ I r ltac:(congruence) q B) as [C|C]; [left; eapply ext_covered; eauto|auto]).
    apply (H1 r E Hr); auto.
  - intros r Hr. destruct (ext_seen _ _ _ X r) as [E|[E|[E1 E2]]].
    + destruct (H1 r E ltac:(congruence)) as [K _]. congruence.
    + rewrite E in Hr. eapply ext_done; [exact X|]. apply (inv_done _ _ I), Hr.
    + auto.
  - exact H3.
  - intros p sc e C A. pose proof (inv_end _ _ I p sc e C A) as K.
    destruct e as [v|bs body t|il ps body|k xs]; auto; try (eapply ext_hard; eauto).
    destruct k; try (eapply ext_hard; eauto). destruct xs as [|x [|y xs]]; eapply ext_hard; eauto.
  - intros r Hr. destruct (ext_seen _ _ _ X r) as [E|[E|[E1 E2]]].
    + apply (H4 r E), Hr.
    + apply (inv_needed _ _ I). congruence.
    + apply (inv_needed _ _ I). left; auto.
  - intros r Hr. destruct (ext_seen _ _ _ X r) as [E|[E|[E1 E2]]].
    + apply (H4 r E), Hr.
    + apply (inv_soft _ _ I). congruence.
    + congruence.
Qed.

(** * The primitive steps *)
Lemma mark_cases root s p st : s = Seen \/ s = SoftSeen -> at_ root p <> None -> ext root st (mark_as s p st).
Proof.
  intros Hs A. unfold mark_as. destruct (seen_at st p) eqn:E; try apply ext_refl.
  split; cbn; auto; try lia.
  - intros q. destruct (list_eq_dec Nat.eq_dec q p) as [->|N]; [auto|]. rewrite set_other by auto. auto.
  - intros _. exists p. rewrite set_same. repeat split; auto. destruct Hs; congruence.
Qed.
Lemma mark_inv root s p st : s = Seen \/ s = SoftSeen -> at_ root p <> None -> Inv root st ->
  (forall q, below p q -> (q = p /\ s = Seen) \/ covered st q \/ chain root q) ->
  (s = Seen -> needed root p) -> (s = SoftSeen -> exists r', below r' p /\ needed root r') -> Inv root (mark_as s p st).
Proof.
  intros Hs A I H Nd Ns. pose proof (mark_cases root s p st Hs A) as X. apply (inv_ext _ _ _ I X).
  - unfold mark_as in *. destruct (seen_at st p) eqn:E; try (intros; congruence).
    intros r Hr Hr'. cbn in *. destruct (list_eq_dec Nat.eq_dec r p) as [->|N]; [|rewrite set_other in Hr' by auto; congruence].
    rewrite set_same. split; [destruct Hs; congruence|]. intros q B. destruct (H q B) as [[-> ->]|[C|C]]; auto.
    + left. exists p. split; [apply below_refl|]. cbn. rewrite set_same. left; auto.
    + left. eapply ext_covered; eauto.
  - unfold mark_as. destruct (seen_at st p) eqn:E; try (intros; congruence).
    intros r Hr Hr'. cbn in *. destruct (list_eq_dec Nat.eq_dec r p) as [->|N]; [congruence|]. rewrite set_other in Hr' by auto. congruence.
  - intros t. unfold mark_as. destruct (seen_at st p); apply (inv_cand _ _ I).
  - intros r Hr. unfold mark_as. destruct (seen_at st p) eqn:E; [|rewrite Hr; split; [intros [?|?]|]; discriminate..]. cbn.
    destruct (list_eq_dec Nat.eq_dec r p) as [->|N]; [|rewrite set_other, Hr by auto; split; [intros [?|?]|]; discriminate].
    rewrite set_same. split; [|auto]. intros [K|K]; [auto|destruct Hs; congruence].
Qed.
Lemma mark_marked s p st : s <> Unseen -> seen_at (mark_as s p st) p <> Unseen.
Proof. intros Hs. unfold mark_as. destruct (seen_at st p) eqn:E; cbn; rewrite ?set_same; congruence. Qed.
Lemma mark_reach s p st : reachable (mark_as s p st) = reachable st.
Proof. unfold mark_as. destruct (seen_at st p); reflexivity. Qed.
Lemma mark_disq s p st : disqualified (mark_as s p st) = disqualified st.
Proof. unfold mark_as. destruct (seen_at st p); reflexivity. Qed.
Lemma mark_members s p st t : members (mark_as s p st) t = members st t.
Proof. unfold mark_as. destruct (seen_at st p); reflexivity. Qed.

(** A step that leaves the marks alone. *)
Lemma same_marks_inv root st st' : Inv root st -> ext root st st' -> seen_at st' = seen_at st ->
  (forall t, candidates st' t = true -> disqualified st' t = false /\ default root t = true) -> Inv root st'.
Proof.
  intros I X E H. apply (inv_ext _ _ _ I X); auto; rewrite E; try (intros; congruence).
  intros r Hr. rewrite Hr. split; [intros [?|?]|]; discriminate.
Qed.

Lemma increment_ext root t st : ext root st (increment_use t st).
Proof. split; cbn; auto. lia. Qed.
Lemma set_reachable_ext root b st : ext root st (set_reachable b st).
Proof. split; cbn; auto. lia. Qed.
Lemma set_reachable_inv root b st : Inv root st -> Inv root (set_reachable b st).
Proof. intros I. apply (same_marks_inv _ _ _ I (set_reachable_ext _ _ _)); auto. apply (inv_cand _ _ I). Qed.
Lemma increment_inv root t st : Inv root st -> Inv root (increment_use t st).
Proof. intros I. apply (same_marks_inv _ _ _ I (increment_ext _ _ _)); auto. apply (inv_cand _ _ I). Qed.
Lemma disqualify_ext root t st : ext root st (disqualify t st).
Proof.
  split; cbn; auto; try lia.
  - intros u H. unfold set. destruct (path_eqb u t); auto.
  - intros u H. unfold set. destruct (path_eqb u t); auto.
Qed.
Lemma disqualify_inv root t st : Inv root st -> Inv root (disqualify t st).
Proof.
  intros I. apply (same_marks_inv _ _ _ I (disqualify_ext _ _ _)); auto. cbn. intros u H. unfold set in *.
  destruct (path_eqb u t); [discriminate|]. apply (inv_cand _ _ I), H.
Qed.
Lemma record_ext root t m st : ext root st (record_access t m st).
Proof.
  split; cbn; auto; try lia. intros u m' H. unfold members in *. cbn. unfold set.
  destruct (path_eqb_spec u t) as [->|N]; auto. right. exact H.
Qed.
Lemma record_inv root t m st : Inv root st -> Inv root (record_access t m st).
Proof. intros I. apply (same_marks_inv _ _ _ I (record_ext _ _ _ _)); auto. apply (inv_cand _ _ I). Qed.
Lemma register_ext root t st : ext root st (register t st).
Proof.
  unfold register. destruct (disqualified st t) eqn:E; [apply ext_refl|]. split; cbn; auto; try lia.
  intros u [H|H]; auto. left. unfold set. destruct (path_eqb u t); auto.
Qed.
Lemma register_inv root t st : Inv root st -> default root t = true -> Inv root (register t st).
Proof.
  intros I D. apply (same_marks_inv _ _ _ I (register_ext _ _ _)).
  - unfold register. destruct (disqualified st t); reflexivity.
  - unfold register. destruct (disqualified st t) eqn:E; cbn; [apply (inv_cand _ _ I)|].
    intros u H. unfold set in H. destruct (path_eqb_spec u t) as [Eu|N]; [subst u|]; [auto|]. apply (inv_cand _ _ I), H.
Qed.
Lemma register_done t st : candidates (register t st) t = true \/ disqualified (register t st) t = true.
Proof. unfold register. destruct (disqualified st t) eqn:E; [auto|]. left. cbn. apply set_same. Qed.

(** * Uses *)
Definition regd (root : expr) (sc : scopes) (st : state) : Prop :=
  forall s lp n i, nth_error sc s = Some (Some (lp, n)) -> i < n -> default root (i :: lp) = true ->
  candidates st (i :: lp) = true \/ disqualified st (i :: lp) = true.
Lemma regd_ext root sc st st' : ext root st st' -> regd root sc st -> regd root sc st'.
Proof. intros X H s lp n i E L D. apply (ext_reg _ _ _ X). eapply H; eauto. Qed.

(** What every step establishes: [cs] are the positions traversed. *)
Record post (root : expr) (cs : list path) (st st' : state) : Prop := {
  post_inv : Inv root st';
  post_ext : ext root st st';
  post_reach : reachable st' = reachable st;
  post_done : reachable st = true -> forall c, In c cs -> done root st' c;
  post_marked : forall c q, In c cs -> below q c -> hard (seen_at st q) -> done root st' q }.

Definition refers_at (root : expr) (p t : path) : Prop := exists q, below q p /\ refers root q t.
Lemma target_above root sc e p s lp n b st : at_ root p = Some (sc, e) -> nth_error sc s = Some (Some (lp, n)) -> b < n ->
  Inv root st -> covered st p -> refers_at root p (b :: lp) ->
  at_ root (b :: lp) <> None /\ (forall q, below (b :: lp) q -> (q = b :: lp) \/ covered st q \/ chain root q) /\ needed root (b :: lp).
Proof.
  intros A E L I (r & Br & Hr) (q0 & Bq0 & Rf). destruct (at_scopes _ _ _ _ A _ _ _ E) as (B & sc' & bs & body & t & A' & ->).
  split; [|split].
  - cbn. rewrite A'. cbn. destruct (nth_error bs b) eqn:N; [discriminate|]. apply nth_error_None in N. lia.
  - intros q Bq. destruct (below_cons_inv _ _ _ Bq) as [<-|Bq']; [auto|]. right.
    destruct (below_linear p r q) as [H|H]; auto; [eapply below_trans; eauto| |].
    + apply (inv_above _ _ I r); auto. destruct Hr; congruence.
    + left. exists r. auto.
  - eapply needed_reference; [apply (inv_needed _ _ I), Hr| |exact Rf]. eapply below_trans; eauto.
Qed.

Lemma encounter_post root sc e p s b st st' : at_ root p = Some (sc, e) -> (forall t, resolve sc s b = Some t -> refers_at root p t) -> Inv root st -> (reachable st = true -> covered st p) ->
  encounter sc s b st = Some st' ->
  Inv root st' /\ ext root st st' /\ reachable st' = reachable st /\
  (reachable st = true -> forall t, resolve sc s b = Some t -> seen_at st' t <> Unseen /\ disqualified st' t = true).
Proof.
  intros A Rf I C H. unfold encounter, at_binding, resolve in *. destruct (reachable st) eqn:R.
  - destruct (nth_error sc s) as [[[lp n]|]|] eqn:E; [| |discriminate].
    + destruct (Nat.ltb_spec b n); [|discriminate]. injection H as <-.
      destruct (target_above _ _ _ _ _ _ _ _ _ A E H0 I (C eq_refl) (Rf _ eq_refl)) as (At & Ab & Nd).
      set (st1 := increment_use (b :: lp) (disqualify (b :: lp) st)).
      assert (X1 : ext root st st1) by (eapply ext_trans; [apply disqualify_ext|apply increment_ext]).
      assert (I1 : Inv root st1) by (apply increment_inv, disqualify_inv, I).
      split; [|split; [|split]].
      * apply mark_inv; auto; try discriminate. intros q B. destruct (Ab q B) as [->|[K|K]]; [auto|right; left; eapply ext_covered; eauto|auto].
      * eapply ext_trans; [exact X1|]. apply mark_cases; auto.
      * rewrite mark_reach. exact R.
      * intros _ t T. injection T as <-. split; [apply mark_marked; discriminate|]. rewrite mark_disq. cbn. apply set_same.
    + injection H as <-. repeat split; try apply I; try apply ext_refl; auto; try (intros; lia); discriminate.
  - injection H as <-. repeat split; try apply I; try apply ext_refl; auto; try (intros; lia); discriminate.
Qed.

Lemma encounter_lookup_post root sc e p s b m st st' : at_ root p = Some (sc, e) -> (forall t, resolve sc s b = Some t -> refers_at root p t) -> Inv root st -> regd root sc st ->
  (reachable st = true -> covered st p) -> encounter_lookup sc s b m st = Some st' ->
  Inv root st' /\ ext root st st' /\ reachable st' = reachable st /\
  (reachable st = true -> forall t, resolve sc s b = Some t ->
    seen_at st' t <> Unseen /\ (In m (members st' t) \/ disqualified st' t = true \/ default root t = false)).
Proof.
  intros A Rf I Rg C H. unfold encounter_lookup, at_binding, resolve in *. destruct (reachable st) eqn:R.
  - destruct (nth_error sc s) as [[[lp n]|]|] eqn:E; [| |discriminate].
    + destruct (Nat.ltb_spec b n); [|discriminate]. injection H as <-.
      destruct (target_above _ _ _ _ _ _ _ _ _ A E H0 I (C eq_refl) (Rf _ eq_refl)) as (At & Ab & Nd).
      set (t := b :: lp) in *. set (st1 := increment_use t st) in *.
      set (st2 := if candidates st1 t then record_access t m st1 else st1).
      assert (X1 : ext root st st2).
      { eapply ext_trans; [apply (increment_ext root t)|]. unfold st2, st1. destruct (candidates _ t); [apply record_ext|apply ext_refl]. }
      assert (I1 : Inv root st2).
      { unfold st2. destruct (candidates st1 t); [apply record_inv|]; apply increment_inv, I. }
      assert (R1 : reachable st2 = true) by (unfold st2; destruct (candidates st1 t); exact R).
      split; [|split; [|split]].
      * apply mark_inv; auto; try discriminate. intros q B. destruct (Ab q B) as [->|[K|K]]; [auto|right; left; eapply ext_covered; eauto|auto].
      * eapply ext_trans; [exact X1|]. apply mark_cases; auto.
      * rewrite mark_reach. exact R1.
      * intros _ t' T. injection T as <-. split; [apply mark_marked; discriminate|].
        rewrite mark_disq, mark_members. unfold st2. cbn. destruct (candidates st t) eqn:Ct; cbn.
        -- left. unfold members. cbn. rewrite set_same. left; auto.
        -- right. destruct (default root t) eqn:Dt; auto. left. destruct (Rg s lp n b E H0 Dt); [unfold t in Ct; congruence|auto].
    + injection H as <-. repeat split; try apply I; try apply ext_refl; auto; try (intros; lia); discriminate.
  - injection H as <-. repeat split; try apply I; try apply ext_refl; auto; try (intros; lia); discriminate.
Qed.

(** * Sequences of steps *)
Fixpoint run (fs : list (state -> option state)) (st : state) : option state :=
  match fs with [] => Some st | f :: fs => match f st with Some st => run fs st | None => None end end.
Definition good (root : expr) (sc : scopes) (p : path) (c : path) (f : state -> option state) : Prop :=
  forall st st', Inv root st -> regd root sc st -> (reachable st = true -> covered st p) -> f st = Some st' -> post root [c] st st'.
Lemma run_post root sc p : forall cs fs st st', Forall2 (good root sc p) cs fs -> Inv root st -> regd root sc st ->
  (reachable st = true -> covered st p) -> run fs st = Some st' -> post root cs st st'.
Proof.
  intros cs fs st st' G. revert st. induction G as [|c f cs fs Gf G IH]; intros st I Rg C H.
  - injection H as <-. split; auto; try apply ext_refl; try (intros; contradiction).
  - cbn in H. destruct (f st) as [st1|] eqn:F; [|discriminate]. pose proof (Gf st st1 I Rg C F) as P1.
    pose proof (post_ext _ _ _ _ P1) as X1.
    assert (P2 : post root cs st1 st').
    { apply IH; auto.
      - apply (post_inv _ _ _ _ P1).
      - eapply regd_ext; eauto.
      - intros R. rewrite (post_reach _ _ _ _ P1) in R. eapply ext_covered; eauto. }
    split.
    + apply (post_inv _ _ _ _ P2).
    + eapply ext_trans; [exact X1|apply (post_ext _ _ _ _ P2)].
    + rewrite (post_reach _ _ _ _ P2). apply (post_reach _ _ _ _ P1).
    + intros R c' [<-|Hc].
      * eapply ext_done; [apply (post_ext _ _ _ _ P2)|]. apply (post_done _ _ _ _ P1); auto. left; auto.
      * apply (post_done _ _ _ _ P2); auto. rewrite (post_reach _ _ _ _ P1). exact R.
    + intros c' q [<-|Hc] B Hq.
      * eapply ext_done; [apply (post_ext _ _ _ _ P2)|]. eapply (post_marked _ _ _ _ P1); eauto. left; auto.
      * eapply (post_marked _ _ _ _ P2); eauto. eapply ext_hard; eauto.
Qed.

Lemma soft_inv root i p st : at_ root p <> None -> Inv root st -> Inv root (soft_depend (i :: p) p st).
Proof.
  intros A I. unfold soft_depend.
  assert (G : seen_at st (i :: p) <> Unseen -> (exists r', below r' (i :: p) /\ needed root r') -> Inv root (mark_as SoftSeen p st)).
  { intros E (r' & Br & Nr). apply mark_inv; auto; try discriminate.
    - intros q B. right. apply (inv_above _ _ I (i :: p)); auto. eapply below_trans; eauto. apply below_cons.
    - intros _. exists r'. split; auto. eapply below_trans; [exact Br|apply below_cons]. }
  destruct (seen_at st (i :: p)) eqn:E; auto; apply G; try congruence.
  - exists (i :: p). split; [apply below_refl|]. apply (inv_needed _ _ I). left; auto.
  - apply (inv_soft _ _ I), E.
Qed.
Lemma soft_ext root i p st : at_ root p <> None -> ext root st (soft_depend (i :: p) p st).
Proof. intros A. unfold soft_depend. destruct (seen_at st (i :: p)); try apply ext_refl; apply mark_cases; auto. Qed.
Lemma soft_reach q p st : reachable (soft_depend q p st) = reachable st.
Proof. unfold soft_depend. destruct (seen_at st q); auto; apply mark_reach. Qed.

(** * One traversal *)
Fixpoint steps (sc : scopes) (p : path) (i : nat) (xs : list expr) : list (state -> option state) :=
  match xs with [] => [] | x :: xs => traverse sc (i :: p) x :: steps sc p (S i) xs end.
Fixpoint bind_steps (sc : scopes) (p : path) (i : nat) (bs : list (binding expr)) : list (state -> option state) :=
  match bs with
  | [] => []
  | b :: bs => (fun st => traverse sc (i :: p) (b_expr b) (soft_depend (i :: p) p st)) :: bind_steps sc p (S i) bs
  end.
Definition inner (sc : scopes) (p : path) (e : expr) (st : state) : option state :=
  match e with
  | EVar (Free _) => Some st
  | EVar (Bound s b _) => encounter sc s b st
  | ELet bs body _ =>
      let sc' := Some (p, List.length bs) :: sc in
      run (bind_steps sc' p 0 bs ++ [traverse sc' (List.length bs :: p) body]) (register_from 0 p bs st)
  | ELam _ _ body => run [traverse (None :: sc) (0 :: p) body] st
  | ENode k xs =>
      match k, xs with
      | KLookup m, EVar (Bound s b _) :: fb =>
          match encounter_lookup sc s b m st with
          | None => None
          | Some st => match fb with
                       | [] => Some st
                       | f :: _ => if self_fallback s b fb then encounter_lookup sc s b m st else run [traverse sc (1 :: p) f] st
                       end
          end
      | KMeta, _ => run (steps sc p 0 xs) (depend (0 :: p) (1 :: p) st)
      | _, _ => run (steps sc p 0 xs) st
      end
  end.
Lemma children_run sc p xs : forall i st,
  (fix go (i : nat) (xs : list expr) (st : state) : option state :=
        match xs with
        | [] => Some st
        | x :: xs => match traverse sc (i :: p) x st with Some st => go (S i) xs st | None => None end
        end) i xs st = run (steps sc p i xs) st.
Proof. induction xs as [|x xs IH]; intros i st; cbn [steps run]; auto. destruct (traverse sc (i :: p) x st); auto. Qed.
Lemma run_app fs gs st : run (fs ++ gs) st = match run fs st with Some st => run gs st | None => None end.
Proof. revert st. induction fs as [|f fs IH]; intros st; cbn; auto. destruct (f st); auto. Qed.
Lemma run_one f st : run [f] st = f st.
Proof. cbn. destruct (f st); reflexivity. Qed.
Lemma bindings_run sc p bs : forall i st,
  (fix go (i : nat) (l : list (binding expr)) (st : state) : option state :=
                     match l with
                     | [] => Some st
                     | b :: l => match traverse sc (i :: p) (b_expr b) (soft_depend (i :: p) p st) with
                                 | Some st => go (S i) l st
                                 | None => None
                                 end
                     end) i bs st = run (bind_steps sc p i bs) st.
Proof. induction bs as [|x xs IH]; intros i st; cbn [bind_steps run]; auto. destruct (traverse _ _ _ _); auto. Qed.

Definition at_boundary (p : path) (st : state) : bool := negb (reachable st) && is_seen (seen_at st p).
Lemma traverse_eq sc p e st : traverse sc p e st =
  match seen_at st p with
  | Traversed => Some st
  | _ => match inner sc p e (if at_boundary p st then set_reachable true st else st) with
         | None => None
         | Some st' => Some (if at_boundary p st then set_reachable false (set_seen p Traversed st') else st')
         end
  end.
Proof.
  assert (G : forall st, match e with
        | EVar (Free _) => Some st
        | EVar (Bound s b _) => encounter sc s b st
        | ELet bs body _ =>
            let sc' := Some (p, List.length bs) :: sc in
            match (fix go (i : nat) (l : list (binding expr)) (st : state) : option state :=
                     match l with
                     | [] => Some st
                     | b :: l => match traverse sc' (i :: p) (b_expr b) (soft_depend (i :: p) p st) with
                                 | Some st => go (S i) l st
                                 | None => None
                                 end
                     end) 0 bs (register_from 0 p bs st) with
            | Some st => traverse sc' (List.length bs :: p) body st
            | None => None
            end
        | ELam _ _ body => traverse (None :: sc) (0 :: p) body st
        | ENode (KLookup m) (EVar (Bound s b _) :: fb) =>
            match encounter_lookup sc s b m st with
            | None => None
            | Some st =>
                match fb with
                | [] => Some st
                | f :: _ =>
                    match f with
                    | EVar (Bound s' b' _) =>
                        if (s' =? s) && (b' =? b) then encounter_lookup sc s' b' m st else traverse sc (1 :: p) f st
                    | _ => traverse sc (1 :: p) f st
                    end
                end
            end
        | ENode KMeta xs => (fix go (i : nat) (xs : list expr) (st : state) : option state :=
        match xs with
        | [] => Some st
        | x :: xs => match traverse sc (i :: p) x st with Some st => go (S i) xs st | None => None end
        end) 0 xs (depend (0 :: p) (1 :: p) st)
        | ENode _ xs => (fix go (i : nat) (xs : list expr) (st : state) : option state :=
        match xs with
        | [] => Some st
        | x :: xs => match traverse sc (i :: p) x st with Some st => go (S i) xs st | None => None end
        end) 0 xs st
        end = inner sc p e st).
  { clear st. intros st. destruct e as [[n|s b n]|bs body t|il ps body|k xs]; auto.
    - cbv zeta. rewrite bindings_run. unfold inner. cbv zeta. rewrite run_app. destruct (run _ _); auto. rewrite run_one. reflexivity.
    - unfold inner. rewrite run_one. reflexivity.
    - unfold inner. destruct k; try apply children_run. destruct xs as [|x xs]; [reflexivity|].
      destruct x as [[n|s b n]|bs body t|il ps body|k xs'];
        [exact (children_run sc p (EVar (Free n) :: xs) 0 st)| |exact (children_run sc p (ELet bs body t :: xs) 0 st)
        |exact (children_run sc p (ELam il ps body :: xs) 0 st)|exact (children_run sc p (ENode k xs' :: xs) 0 st)].
      destruct (encounter_lookup sc s b key st) as [st1|]; auto. destruct xs as [|f xs]; auto.
      unfold self_fallback. rewrite run_one. destruct f as [[n'|s' b' n']|? ? ?|? ? ?|? ?]; auto.
      destruct (Nat.eqb_spec s' s); cbn [andb]; auto. destruct (Nat.eqb_spec b' b); auto. subst. reflexivity. }
  unfold at_boundary. destruct e; cbn [traverse]; destruct (seen_at st p) eqn:S; auto; rewrite <- G; reflexivity.
Qed.

Lemma good_up root sc p c i f : c = i :: p -> good root sc c c f -> good root sc p c f.
Proof.
  intros -> G st st' I Rg C H. apply G; auto. intros R. destruct (C R) as (r & B & Hr). exists r. split; auto.
  eapply below_trans; [apply below_cons|exact B].
Qed.
Lemma steps_good root sc p xs : forall i,
  (forall j x, nth_error xs j = Some x -> good root sc (i + j :: p) (i + j :: p) (traverse sc (i + j :: p) x)) ->
  Forall2 (good root sc p) (map (fun j => j :: p) (seq i (List.length xs))) (steps sc p i xs).
Proof.
  induction xs as [|x xs IH]; intros i H; cbn; constructor.
  - eapply good_up; [reflexivity|]. pose proof (H 0 x eq_refl) as G. rewrite Nat.add_0_r in G. exact G.
  - apply IH. intros j y E. pose proof (H (S j) y E) as G. replace (i + S j) with (S i + j) in G by lia. exact G.
Qed.
Lemma soft_good root sc p i f : at_ root p <> None -> good root sc (i :: p) (i :: p) f ->
  good root sc p (i :: p) (fun st => f (soft_depend (i :: p) p st)).
Proof.
  intros A G st st' I Rg C H.
  pose proof (soft_ext root i p st A) as X.
  assert (P : post root [i :: p] (soft_depend (i :: p) p st) st').
  { apply G; auto.
    - apply soft_inv; auto.
    - eapply regd_ext; eauto.
    - rewrite soft_reach. intros R. eapply ext_covered; [exact X|]. destruct (C R) as (r & B & Hr). exists r. split; auto.
      eapply below_trans; [apply below_cons|exact B]. }
  destruct P as [P1 P2 P3 P4 P5]. split; auto.
  - eapply ext_trans; eauto.
  - rewrite P3. apply soft_reach.
  - intros R. apply P4. rewrite soft_reach. exact R.
  - intros c q Hc B Hq. apply (P5 c q Hc B). eapply ext_hard; eauto.
Qed.
Lemma bind_steps_good root sc p bs : at_ root p <> None -> forall i,
  (forall j b, nth_error bs j = Some b -> good root sc (i + j :: p) (i + j :: p) (traverse sc (i + j :: p) (b_expr b))) ->
  Forall2 (good root sc p) (map (fun j => j :: p) (seq i (List.length bs))) (bind_steps sc p i bs).
Proof.
  intros A. induction bs as [|x xs IH]; intros i H; cbn; constructor.
  - apply (soft_good root sc p i (traverse sc (i :: p) (b_expr x)) A).
    pose proof (H 0 x eq_refl) as G. rewrite Nat.add_0_r in G. exact G.
  - apply IH. intros j y E. pose proof (H (S j) y E) as G. replace (i + S j) with (S i + j) in G by lia. exact G.
Qed.

Lemma register_from_ok root p bs : forall i st,
  (forall j b, nth_error bs j = Some b -> exists sc', at_ root (i + j :: p) = Some (sc', b_expr b)) -> Inv root st ->
  let st' := register_from i p bs st in
  Inv root st' /\ ext root st st' /\ reachable st' = reachable st /\ seen_at st' = seen_at st /\
  (forall j, j < List.length bs -> default root (i + j :: p) = true -> candidates st' (i + j :: p) = true \/ disqualified st' (i + j :: p) = true).
Proof.
  induction bs as [|b bs IH]; intros i st H I; cbn.
  - split; [exact I|]. split; [apply ext_refl|]. split; auto. split; auto. intros j L. lia.
  - destruct (H 0 b eq_refl) as (sc0 & A0). rewrite Nat.add_0_r in A0.
    set (st1 := if is_default_let (b_expr b) then register (i :: p) st else st).
    assert (D : default root (i :: p) = is_default_let (b_expr b)) by (unfold default; rewrite A0; reflexivity).
    assert (I1 : Inv root st1).
    { unfold st1. destruct (is_default_let (b_expr b)) eqn:E; auto. apply register_inv; auto. }
    assert (X1 : ext root st st1) by (unfold st1; destruct (is_default_let (b_expr b)); [apply register_ext|apply ext_refl]).
    assert (R1 : reachable st1 = reachable st /\ seen_at st1 = seen_at st).
    { unfold st1. destruct (is_default_let (b_expr b)); auto. unfold register. destruct (disqualified st (i :: p)); auto. }
    assert (H1 : forall j b', nth_error bs j = Some b' -> exists sc', at_ root (S i + j :: p) = Some (sc', b_expr b')).
    { intros j b' E. replace (S i + j) with (i + S j) by lia. apply H. exact E. }
    destruct (IH (S i) st1 H1 I1) as (I2 & X2 & R2 & S2 & D2). destruct R1 as [R1 S1].
    split; auto. split; [eapply ext_trans; eauto|]. split; [congruence|]. split; [congruence|].
    intros [|j] L Dj.
    + rewrite Nat.add_0_r in *. apply (ext_reg _ _ _ X2). unfold st1. rewrite <- D, Dj. apply register_done.
    + replace (i + S j) with (S i + j) in * by lia. apply D2; auto. lia.
Qed.

Lemma depend_ok root p sc e m st : at_ root p = Some (sc, ENode KMeta [e; m]) -> Inv root st ->
  Inv root (depend (0 :: p) (1 :: p) st) /\ ext root st (depend (0 :: p) (1 :: p) st) /\
  reachable (depend (0 :: p) (1 :: p) st) = reachable st.
Proof.
  intros A I. unfold depend.
  assert (A1 : at_ root (1 :: p) <> None) by (cbn; rewrite A; discriminate).
  destruct (seen_at st (0 :: p)) eqn:E; try (split; [exact I|split; [apply ext_refl|reflexivity]]).
  split; [|split; [apply mark_cases; auto|apply mark_reach]]. apply mark_inv; auto; try discriminate.
  2:{ intros _. eapply needed_meta; [|exact A]. apply (inv_needed _ _ I). left; auto. }
  intros q B. destruct (below_cons_inv _ _ _ B) as [<-|B']; [auto|]. right.
  apply (inv_above _ _ I (0 :: p)); [congruence|]. eapply below_trans; [apply below_cons|exact B'].
Qed.

(** What [inner] establishes. *)
Record ipost (root : expr) (p : path) (st st' : state) : Prop := {
  ipost_inv : Inv root st';
  ipost_ext : ext root st st';
  ipost_reach : reachable st' = reachable st;
  ipost_done : reachable st = true -> done root st' p;
  ipost_marked : forall q, below q p -> q <> p -> hard (seen_at st q) -> done root st' q }.

(** Positions without a node need nothing. *)
Lemma no_node_done root st q : at_ root q = None -> done root st q.
Proof.
  intros A q' B. unfold ev_ok, event. destruct (at_ root q') eqn:E; auto. exfalso.
  apply (at_below root q' q B); congruence.
Qed.
Lemma post_ipost root p sc e cs st st0 st' : at_ root p = Some (sc, e) -> (forall s b n, e <> EVar (Bound s b n)) ->
  (forall m s b n fb, e <> ENode (KLookup m) (EVar (Bound s b n) :: fb)) ->
  (forall i, at_ root (i :: p) <> None -> In (i :: p) cs) ->
  ext root st st0 -> reachable st0 = reachable st -> post root cs st0 st' -> ipost root p st st'.
Proof.
  intros A N1 N2 Cs X R [P1 P2 P3 P4 P5].
  assert (E : event root p = None).
  { unfold event. rewrite A. destruct e as [[n|s b n]|bs body t|il ps body|k xs]; auto; [destruct (N1 s b n eq_refl)|].
    destruct k; auto. destruct xs as [|[[n|s b n]|? ? ?|? ? ?|? ?] xs]; auto. destruct (N2 key s b n xs eq_refl). }
  split; auto.
  - eapply ext_trans; eauto.
  - congruence.
  - intros Rt q B. destruct (below_child q p B) as [->|(i & Bi)].
    + unfold ev_ok. rewrite E. exact Logic.I.
    + destruct (at_ root (i :: p)) eqn:Ai.
      * apply (P4 ltac:(congruence) (i :: p)); [apply Cs; congruence|exact Bi].
      * eapply no_node_done; eauto.
  - intros q B Nq Hq. destruct (below_child q p B) as [->|(i & Bi)]; [congruence|].
    destruct (at_ root (i :: p)) eqn:Ai.
    + apply (P5 (i :: p) q); auto; [apply Cs; congruence|]. eapply ext_hard; eauto.
    + eapply done_below; [exact Bi|]. apply no_node_done, Ai.
Qed.

Lemma in_children (p : path) n i : i < n -> In (i :: p) (map (fun j => j :: p) (seq 0 n)).
Proof. intros L. apply in_map_iff. exists i. split; auto. apply in_seq. lia. Qed.

Lemma lookup_event root p sc m s b n fb : at_ root p = Some (sc, ENode (KLookup m) (EVar (Bound s b n) :: fb)) ->
  event root p = option_map (fun t => (t, Some m)) (resolve sc s b).
Proof. intros A. unfold event. rewrite A. reflexivity. Qed.
Lemma lookup_target_done root p sc m s b n fb st : at_ root p = Some (sc, ENode (KLookup m) (EVar (Bound s b n) :: fb)) -> done root st (0 :: p).
Proof.
  intros A q B. destruct (below_child _ _ B) as [->|(i & Bi)].
  - unfold ev_ok, event. cbn [at_]. rewrite A. cbn [child nth_error option_map]. unfold in_lookup. rewrite A. exact Logic.I.
  - apply (no_node_done root st (i :: 0 :: p)); auto. cbn [at_]. rewrite A. reflexivity.
Qed.
Lemma lookup_self_done root p sc m s b n fb st : at_ root p = Some (sc, ENode (KLookup m) (EVar (Bound s b n) :: fb)) ->
  self_fallback s b fb = true -> done root st (1 :: p).
Proof.
  intros A S q B. destruct fb as [|[[n'|s' b' n']|? ? ?|? ? ?|? ?] fb]; try discriminate.
  destruct (below_child _ _ B) as [->|(i & Bi)].
  - unfold ev_ok, event. cbn [at_]. rewrite A. cbn [child nth_error option_map]. unfold in_lookup. rewrite A, S.
    rewrite Nat.eqb_refl, orb_true_r. exact Logic.I.
  - apply (no_node_done root st (i :: 1 :: p)); auto. cbn [at_]. rewrite A. reflexivity.
Qed.

Definition traverse_good (root e : expr) : Prop := well_formed e = true ->
  forall sc p, at_ root p = Some (sc, e) -> good root sc p p (traverse sc p e).

(** The children of a node, traversed in order. *)
Lemma nodes_post root k xs sc p st st0 st' : Forall (traverse_good root) xs -> forallb well_formed xs = true ->
  at_ root p = Some (sc, ENode k xs) -> (forall m s b n fb, ENode k xs <> ENode (KLookup m) (EVar (Bound s b n) :: fb)) ->
  Inv root st0 -> regd root sc st0 -> (reachable st0 = true -> covered st0 p) -> ext root st st0 -> reachable st0 = reachable st ->
  run (steps sc p 0 xs) st0 = Some st' -> ipost root p st st'.
Proof.
  intros IH W A N I Rg C X R H.
  eapply (post_ipost root p sc (ENode k xs)); [exact A|discriminate|exact N| |exact X|exact R|].
  2:{ eapply (run_post root sc p); [|exact I|exact Rg|exact C|exact H]. apply steps_good. intros j x E. rewrite Forall_forall in IH. rewrite forallb_forall in W.
      pose proof (nth_error_In _ _ E) as Hx. apply (IH x Hx); auto. cbn [Nat.add at_]. rewrite A. cbn. rewrite E. reflexivity. }
  intros i Ai. apply in_children. cbn [at_] in Ai. rewrite A in Ai. cbn in Ai.
  apply nth_error_Some. destruct (nth_error xs i); [discriminate|]. cbn in Ai. congruence.
Qed.

Lemma inner_post root e : match e with
    | EVar _ => True
    | ELet bs body _ => Forall (fun b => traverse_good root (b_expr b)) bs /\ traverse_good root body
    | ELam _ _ body => traverse_good root body
    | ENode _ xs => Forall (traverse_good root) xs
    end -> well_formed e = true -> forall sc p st st', at_ root p = Some (sc, e) -> Inv root st -> regd root sc st ->
  (reachable st = true -> covered st p) -> inner sc p e st = Some st' -> ipost root p st st'.
Proof.
  intros IH W sc p st st' A I Rg C H. destruct e as [[n|s b n]|bs body t|il ps body|k xs].
  - injection H as <-. eapply (post_ipost root p sc (EVar (Free n)) []); eauto; try discriminate; try apply ext_refl.
    + intros i Ai. cbn in Ai. rewrite A in Ai. cbn in Ai. congruence.
    + split; auto; try apply ext_refl; intros; contradiction.
  - cbn [inner] in H. destruct (encounter_post root sc _ p s b st st' A) as (I' & X & R & T); auto.
    { intros t Et. exists p. split; [apply below_refl|]. exists sc, s, b, n. auto. }
    split; auto.
    + intros Rt q B. destruct (below_child _ _ B) as [->|(i & Bi)].
      * unfold ev_ok, event. rewrite A. destruct (in_lookup root p); [exact Logic.I|].
        destruct (resolve sc s b) as [t|] eqn:E; cbn; [apply (T Rt t eq_refl)|exact Logic.I].
      * apply (no_node_done root st' (i :: p)); auto. cbn. rewrite A. reflexivity.
    + intros q B Nq _. destruct (below_child _ _ B) as [->|(i & Bi)]; [congruence|]. eapply done_below; [exact Bi|].
      apply no_node_done. cbn. rewrite A. reflexivity.
  - destruct IH as [IHbs IHb]. cbn [inner] in H. cbv zeta in H. cbn in W. apply andb_prop in W. destruct W as [W1 W2].
    assert (AB : forall j b, nth_error bs j = Some b -> at_ root (j :: p) = Some (Some (p, List.length bs) :: sc, b_expr b)).
    { intros j b E. cbn. rewrite A. cbn. rewrite E. reflexivity. }
    assert (AE : at_ root (List.length bs :: p) = Some (Some (p, List.length bs) :: sc, body)).
    { cbn. rewrite A. cbn. destruct (nth_error bs (List.length bs)) eqn:E.
      - exfalso. assert (List.length bs < List.length bs) by (apply nth_error_Some; congruence). lia.
      - rewrite Nat.eqb_refl. reflexivity. }
    destruct (register_from_ok root p bs 0 st) as (I1 & X1 & R1 & S1 & D1); auto.
    { intros j b E. eexists. apply AB, E. }
    set (st1 := register_from 0 p bs st) in *.
    assert (Rg1 : regd root (Some (p, List.length bs) :: sc) st1).
    { intros [|s] lp n i E L D; cbn in E; [injection E as <- <-; apply D1; auto|]. eapply (regd_ext _ _ _ _ X1 Rg); eauto. }
    eapply (post_ipost root p sc (ELet bs body t)); [exact A|discriminate|discriminate| |exact X1|exact R1|].
    2:{ eapply (run_post root (Some (p, List.length bs) :: sc) p); [|exact I1|exact Rg1| |exact H].
        - apply Forall2_app.
          + apply bind_steps_good; [congruence|]. intros j b E. cbn [Nat.add]. rewrite Forall_forall in IHbs. rewrite forallb_forall in W1.
            pose proof (nth_error_In _ _ E) as Hb. apply (IHbs b Hb); auto.
          + constructor; [|constructor]. eapply good_up; [reflexivity|]. apply IHb; auto.
        - rewrite R1. intros R. eapply ext_covered; [exact X1|auto]. }
    intros i Ai. apply in_or_app. cbn [at_] in Ai. rewrite A in Ai. cbn in Ai.
    destruct (nth_error bs i) eqn:E.
    + left. apply in_children. apply nth_error_Some. congruence.
    + destruct (Nat.eqb_spec i (List.length bs)) as [->|]; [|congruence]. right. left. reflexivity.
  - cbn [inner] in H. cbn in W.
    assert (AE : at_ root (0 :: p) = Some (None :: sc, body)) by (cbn; rewrite A; reflexivity).
    assert (Rg1 : regd root (None :: sc) st).
    { intros [|s] lp n i E L D; cbn in E; [discriminate|]. eapply Rg; eauto. }
    eapply (post_ipost root p sc (ELam il ps body)); [exact A|discriminate|discriminate| |apply ext_refl|reflexivity|].
    2:{ eapply (run_post root (None :: sc) p); [|exact I|exact Rg1|exact C|exact H].
        constructor; [|constructor]. eapply good_up; [reflexivity|]. apply IH; auto. }
    intros i Ai. cbn [at_] in Ai. rewrite A in Ai. cbn in Ai. destruct (Nat.eqb_spec i 0) as [Ei|Ei]; [subst i; left; reflexivity|congruence].
  - cbn in W. apply andb_prop in W. destruct W as [W1 W2]. cbn [inner] in H.
    assert (G : (forall m s b n fb, ENode k xs <> ENode (KLookup m) (EVar (Bound s b n) :: fb)) ->
      run (steps sc p 0 xs) st = Some st' -> ipost root p st st').
    { intros N H'. eapply (nodes_post root k xs sc p st st st'); eauto. apply ext_refl. }
    destruct k; try (apply G; [discriminate|exact H]).
    + (* lookup *)
      destruct xs as [|x fb]; [discriminate|].
      destruct x as [[n|s b n]|bs body t|il ps body|k xs']; try (apply G; [discriminate|exact H]).
      destruct (encounter_lookup sc s b key st) as [st1|] eqn:E1; [|discriminate].
      assert (Rf : forall t, resolve sc s b = Some t -> refers_at root p t).
      { intros t Et. exists (0 :: p). split; [apply below_cons|]. exists sc, s, b, n. split; auto. cbn. rewrite A. reflexivity. }
      destruct (encounter_lookup_post root sc _ p s b key st st1 A Rf I Rg C E1) as (I1 & X1 & R1 & T1).
      assert (Ev : reachable st = true -> ev_ok root st1 p).
      { intros Rt. unfold ev_ok. rewrite (lookup_event _ _ _ _ _ _ _ _ A).
        destruct (resolve sc s b) as [t|]; cbn; [apply (T1 Rt t eq_refl)|exact Logic.I]. }
      assert (Big : forall i, 2 <= i -> at_ root (i :: p) = None).
      { intros i L. cbn [at_]. rewrite A. cbn [child]. cbn in W1.
        assert (nth_error (EVar (Bound s b n) :: fb) i = None) as ->; [|reflexivity]. apply nth_error_None. cbn.
        apply orb_prop in W1. destruct W1 as [W|W]; apply Nat.eqb_eq in W; lia. }
      (* what remains is the fallback *)
      assert (Fin : forall st2, Inv root st2 -> ext root st1 st2 -> reachable st2 = reachable st1 ->
        (reachable st = true -> done root st2 (1 :: p)) -> (forall q, below q (1 :: p) -> hard (seen_at st1 q) -> done root st2 q) ->
        ipost root p st st2).
      { intros st2 I2 X2 R2 D2 M2. split; auto.
        - eapply ext_trans; eauto.
        - congruence.
        - intros Rt q B. destruct (below_child _ _ B) as [->|(i & Bi)].
          + eapply ext_ev_ok; [exact X2|auto].
          + destruct i as [|[|i]].
            * eapply (lookup_target_done root p); eauto.
            * apply (D2 Rt). exact Bi.
            * eapply no_node_done; [|exact Bi]. apply Big. lia.
        - intros q B Nq Hq. destruct (below_child _ _ B) as [->|(i & Bi)]; [congruence|].
          destruct i as [|[|i]].
          + eapply done_below; [exact Bi|]. eapply lookup_target_done; eauto.
          + apply M2; auto. eapply ext_hard; eauto.
          + eapply done_below; [exact Bi|]. apply no_node_done. apply Big. lia. }
      destruct fb as [|f fb].
      * injection H as <-. apply Fin; auto; try apply ext_refl.
        -- intros _. apply no_node_done. cbn. rewrite A. reflexivity.
        -- intros q B _. eapply done_below; [exact B|]. apply no_node_done. cbn. rewrite A. reflexivity.
      * destruct (self_fallback s b (f :: fb)) eqn:SF.
        -- destruct (encounter_lookup_post root sc _ p s b key st1 st' A Rf I1) as (I2 & X2 & R2 & T2); auto.
           { eapply regd_ext; eauto. } { rewrite R1. intros R. eapply ext_covered; eauto. }
           apply Fin; auto.
           ++ intros _. eapply lookup_self_done; eauto.
           ++ intros q B _. eapply done_below; [exact B|]. eapply lookup_self_done; eauto.
        -- assert (P : post root [1 :: p] st1 st').
           { eapply (run_post root sc p); [|exact I1| | |exact H].
             - constructor; [|constructor]. eapply good_up; [reflexivity|]. inversion IH; subst. inversion H3; subst.
               cbn in W2. apply andb_prop in W2. destruct W2 as [W2 _]. apply H4; auto. cbn. rewrite A. reflexivity.
             - eapply regd_ext; eauto.
             - rewrite R1. intros R. eapply ext_covered; eauto. }
           destruct P as [P1 P2 P3 P4 P5]. apply Fin; auto.
           ++ intros Rt. apply P4; [congruence|left; reflexivity].
           ++ intros q B Hq. eapply P5; eauto. left; reflexivity.
    + (* metadata *)
      destruct xs as [|e [|m [|? ?]]]; try discriminate W1.
      destruct (depend_ok root p sc e m st A I) as (I1 & X1 & R1).
      eapply (nodes_post root KMeta); [exact IH|exact W2|exact A|discriminate|exact I1| | |exact X1|exact R1|exact H].
      * eapply regd_ext; eauto.
      * rewrite R1. intros R. eapply ext_covered; eauto.
Qed.

Lemma traverse_ok root e : traverse_good root e.
Proof.
  assert (G : forall e, match e with
    | EVar _ => True
    | ELet bs body _ => Forall (fun b => traverse_good root (b_expr b)) bs /\ traverse_good root body
    | ELam _ _ body => traverse_good root body
    | ENode _ xs => Forall (traverse_good root) xs
    end -> traverse_good root e).
  { clear e. intros e IH W sc p A st st' I Rg C H. rewrite traverse_eq in H.
    assert (HT : {seen_at st p = Traversed} + {seen_at st p <> Traversed}) by (destruct (seen_at st p); auto; right; discriminate).
    destruct HT as [Sp|NT].
    { rewrite Sp in H. injection H as <-. split; auto; try apply ext_refl.
      - intros _ c [<-|[]]. apply (inv_done _ _ I), Sp.
      - intros c q [<-|[]] B _. eapply done_below; [exact B|]. apply (inv_done _ _ I), Sp. }
    set (bd := at_boundary p st) in *.
    assert (H' : match inner sc p e (if bd then set_reachable true st else st) with
         | None => None
         | Some st' => Some (if bd then set_reachable false (set_seen p Traversed st') else st')
         end = Some st') by (destruct (seen_at st p); congruence).
    clear H.
    assert (HB : (bd = true /\ reachable st = false /\ seen_at st p = Seen) \/ (bd = false /\ (seen_at st p = Seen -> reachable st = true))).
    { unfold bd, at_boundary. destruct (reachable st), (seen_at st p); cbn; auto; right; split; auto; discriminate. }
    destruct (inner sc p e (if bd then set_reachable true st else st)) as [st2|] eqn:Hi; [|discriminate]. injection H' as <-.
    destruct HB as [(Eb & Rf & Sp)|(Eb & Rf)]; rewrite Eb in *.
    - assert (IP : ipost root p (set_reachable true st) st2).
      { eapply inner_post; [exact IH|exact W|exact A|apply set_reachable_inv, I|eapply regd_ext; [apply set_reachable_ext|exact Rg]| |exact Hi].
        intros _. exists p. split; [apply below_refl|left; exact Sp]. }
      destruct IP as [P1 P2 P3 P4 P5].
      set (st3 := set_reachable false (set_seen p Traversed st2)).
      pose proof (P4 eq_refl) as Dp.
      assert (X0 : ext root st st2) by (eapply ext_trans; [apply (set_reachable_ext root true)|exact P2]).
      assert (Hp : hard (seen_at st2 p)) by (eapply ext_hard; [exact X0|left; exact Sp]).
      assert (X3 : ext root st2 st3).
      { split; cbn; auto; try lia.
        - intros q. destruct (list_eq_dec Nat.eq_dec q p) as [->|N]; [rewrite set_same; destruct Hp as [Hp|Hp]; rewrite Hp; auto|rewrite set_other by auto; auto].
        - intros _ q Hq. destruct (list_eq_dec Nat.eq_dec q p) as [->|N]; [destruct Hp; congruence|rewrite set_other by auto; auto]. }
      assert (I3 : Inv root st3).
      { apply (inv_ext _ _ _ P1 X3).
        - cbn. intros r Hr Hr'. destruct (list_eq_dec Nat.eq_dec r p) as [->|N]; [destruct Hp; congruence|rewrite set_other in Hr' by auto; congruence].
        - cbn. intros r Hr Hr'. destruct (list_eq_dec Nat.eq_dec r p) as [->|N]; [eapply ext_done; eauto|rewrite set_other in Hr' by auto; congruence].
        - apply (inv_cand _ _ P1).
        - cbn. intros r Hr. destruct (list_eq_dec Nat.eq_dec r p) as [->|N]; [destruct Hp; congruence|]. rewrite set_other, Hr by auto.
          split; [intros [?|?]|]; discriminate. }
      split; auto; [eapply ext_trans; eauto|rewrite Rf; discriminate|].
      intros c q [<-|[]] B _. eapply done_below; [exact B|]. eapply ext_done; eauto.
    - assert (IP : ipost root p st st2) by (eapply inner_post; eauto).
      destruct IP as [P1 P2 P3 P4 P5]. split; auto.
      + intros R c [<-|[]]; auto.
      + intros c q [<-|[]] B [Hq|Hq].
        * destruct (list_eq_dec Nat.eq_dec q p) as [->|N]; [apply P4, Rf, Hq|apply P5; auto; left; auto].
        * eapply ext_done; [exact P2|apply (inv_done _ _ I), Hq]. }
  induction e as [v|bs body t IHbs IHb|i ps body IHb|k xs IHxs] using expr_ind'; apply G; auto.
Qed.
