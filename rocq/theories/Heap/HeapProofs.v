From Coq Require Import NArith ZArith List Bool Lia ZifyN ZifyNat ZifyBool.
From Verif.Heap Require Import Lines LinesSpec LinesProofs Model Spec.
Import ListNotations.
Local Open Scope N_scope.
Ltac Zify.zify_post_hook ::= Z.div_mod_to_equations.

(** ** Memory lookups *)
Lemma addr_eqb_eq a b : addr_eqb a b = true <-> a = b.
Proof.
  unfold addr_eqb. rewrite andb_true_iff, !N.eqb_eq. destruct a, b; cbn. split; [intros [-> ->]; auto|intros [= -> ->]; auto].
Qed.
Lemma addr_eqb_refl a : addr_eqb a a = true.
Proof. now apply addr_eqb_eq. Qed.
Lemma addr_eqb_neq a b : a <> b -> addr_eqb a b = false.
Proof. intros H. destruct (addr_eqb a b) eqn:E; auto. apply addr_eqb_eq in E. contradiction. Qed.

Lemma mget_cons a o m b : mget ((a, o) :: m) b = if addr_eqb a b then Some o else mget m b.
Proof. unfold mget. cbn. destruct (addr_eqb a b); reflexivity. Qed.
Lemma mget_mset_eq m a o o0 : mget m a = Some o0 -> mget (mset m a o) a = Some o.
Proof.
  induction m as [|[b x] m IH]; [discriminate|]. cbn [mset map fst]. rewrite mget_cons.
  destruct (addr_eqb b a) eqn:E; intros H.
  - rewrite mget_cons, addr_eqb_refl. reflexivity.
  - rewrite mget_cons, E. auto.
Qed.
Lemma mget_mset_ne m a b o : a <> b -> mget (mset m a o) b = mget m b.
Proof.
  intros H. induction m as [|[c x] m IH]; auto. cbn [mset map fst]. rewrite (mget_cons c x).
  destruct (addr_eqb c a) eqn:E.
  - apply addr_eqb_eq in E. subst c. rewrite mget_cons, addr_eqb_neq by auto. exact IH.
  - rewrite mget_cons. destruct (addr_eqb c b); auto.
Qed.
Definition bytes_of (a : addr) (o : obj) (x : N) : Prop := snd a - HEADER <= x < snd a + o_len o.
Lemma mget_filter f m a o : mget m a = Some o -> f (a, o) = true -> mget (filter f m) a = Some o.
Proof.
  induction m as [|[b x] m IH]; [discriminate|]. rewrite mget_cons. cbn [filter].
  destruct (addr_eqb b a) eqn:E; intros H F.
  - injection H as ->. apply addr_eqb_eq in E. subst b. rewrite F, mget_cons, addr_eqb_refl. reflexivity.
  - destruct (f (b, x)); auto. rewrite mget_cons, E. auto.
Qed.
Lemma mget_clobber m b lo hi a o : mget m a = Some o -> lo < hi -> HEADER <= snd a ->
  (fst a = b -> forall x, bytes_of a o x -> ~ (lo <= x < hi)) -> mget (clobber m b lo hi) a = Some o.
Proof.
  intros H L S D. apply mget_filter; auto. unfold overlaps. cbn [fst snd].
  destruct (N.eqb_spec (fst a) b) as [E|]; auto. cbn [andb].
  destruct (N.ltb_spec (snd a - HEADER) hi); auto. destruct (N.ltb_spec lo (snd a + o_len o)); auto.
  exfalso. apply (D E (N.max lo (snd a - HEADER))); unfold bytes_of, HEADER in *; lia.
Qed.
Lemma mget_clobber_all rs : forall m b a o, mget m a = Some o -> HEADER <= snd a ->
  (forall lo hi, In (lo, hi) rs -> lo < hi) ->
  (fst a = b -> forall lo hi x, In (lo, hi) rs -> bytes_of a o x -> ~ (lo <= x < hi)) ->
  mget (clobber_all m b rs) a = Some o.
Proof.
  induction rs as [|[lo hi] rs IH]; intros m b a o H S R D; auto. unfold clobber_all in *. cbn [fold_left fst snd].
  apply IH; auto.
  - apply mget_clobber; auto. { apply R; left; auto. } intros E x B. apply (D E lo hi x); auto. left; auto.
  - intros; eapply R; right; eauto.
  - intros E lo' hi' x I. apply (D E); right; auto.
Qed.

(** ** The spatial invariant *)
Definition cnt (x : N) (l : list N) : nat := count_occ N.eq_dec l x.
Lemma cnt_app x l k : cnt x (l ++ k) = (cnt x l + cnt x k)%nat.
Proof. apply count_occ_app. Qed.
Lemma cnt_nil x : cnt x [] = 0%nat. Proof. reflexivity. Qed.
Definition one (x y : N) : nat := if N.eqb y x then 1%nat else 0%nat.
Lemma cnt_cons x y l : cnt x (y :: l) = (one x y + cnt x l)%nat.
Proof. unfold cnt, one. cbn. destruct (N.eq_dec y x); destruct (N.eqb_spec y x); auto; contradiction. Qed.
Lemma cnt_In x l : In x l <-> (0 < cnt x l)%nat.
Proof. apply count_occ_In. Qed.
Lemma cnt_base (k : bblock) l : In k l -> (0 < cnt (base k) (map base l))%nat.
Proof. intros H. apply cnt_In, in_map, H. Qed.

Definition shape (k : bblock) : Prop := lower k <= cursor k /\ cursor k <= BLOCK.

Record space (act uns rst : list bblock) (lobs : list N) (fresh : N) (m : memory) (L : addr -> Prop) : Prop := {
  sp_unique : forall x, (cnt x (map base act) + cnt x (map base uns) + cnt x (map base rst) + cnt x lobs <= 1)%nat;
  sp_fresh : forall x, (0 < cnt x (map base act) + cnt x (map base uns) + cnt x (map base rst) + cnt x lobs)%nat -> x < fresh;
  sp_shape : forall k, In k act -> shape k;
  sp_live : forall a, L a -> exists o, mget m a = Some o /\ HEADER <= snd a /\
    (((0 < cnt (fst a) (map base act) + cnt (fst a) (map base uns) + cnt (fst a) (map base rst))%nat /\
      snd a + o_len o <= BLOCK) \/ (0 < cnt (fst a) lobs)%nat);
  sp_act : forall k a o x, In k act -> L a -> mget m a = Some o -> fst a = base k -> bytes_of a o x -> ~ usable k x;
  sp_uns : forall k a o x, In k uns -> L a -> mget m a = Some o -> fst a = base k -> bytes_of a o x ->
    lines k (x / LINE) = true;
  sp_disj : forall a b o p x, L a -> L b -> a <> b -> mget m a = Some o -> mget m b = Some p ->
    fst a = fst b -> bytes_of a o x -> ~ bytes_of b p x }.

Ltac cnt_simpl := repeat (rewrite ?map_app, ?map_cons, ?cnt_app, ?cnt_nil in *; cbn [map] in *).

Section Space.
  Variables (lobs : list N) (m : memory) (L : addr -> Prop).

  Lemma space_ext act uns rst act' uns' rst' fr :
    space act uns rst lobs fr m L ->
    (forall k, In k act' -> In k act) -> (forall k, In k uns' -> In k uns) ->
    (forall x, cnt x (map base act') + cnt x (map base uns') + cnt x (map base rst') =
               cnt x (map base act) + cnt x (map base uns) + cnt x (map base rst))%nat ->
    space act' uns' rst' lobs fr m L.
  Proof.
    intros [U F S V A N D] HA HU E. constructor.
    - intros x. rewrite E. apply U.
    - intros x. rewrite E. apply F.
    - auto.
    - intros a La. destruct (V a La) as (o & G & H & I). exists o. rewrite E. auto.
    - intros; eapply A; eauto.
    - intros; eapply N; eauto.
    - exact D.
  Qed.

  Lemma space_mem act uns rst fr m' : space act uns rst lobs fr m L ->
    (forall a, L a -> exists o o', mget m a = Some o /\ mget m' a = Some o' /\ o_len o' = o_len o) ->
    space act uns rst lobs fr m' L.
  Proof.
    intros [U F S V A N D] H.
    assert (B : forall a o', L a -> mget m' a = Some o' -> exists o, mget m a = Some o /\ o_len o' = o_len o).
    { intros a o' La G. destruct (H a La) as (o & o1 & G1 & G2 & E). exists o. split; auto. congruence. }
    constructor; auto.
    - intros a La. destruct (V a La) as (o & G & H1 & I). destruct (H a La) as (p & o' & G1 & G2 & E).
      exists o'. assert (p = o) by congruence. subst p. rewrite E. auto.
    - intros k a o x K La G E Bx. destruct (B a o La G) as (p & G1 & E1).
      eapply A; eauto. unfold bytes_of in *. rewrite <- E1. exact Bx.
    - intros k a o x K La G E Bx. destruct (B a o La G) as (p & G1 & E1).
      eapply N; eauto. unfold bytes_of in *. rewrite <- E1. exact Bx.
    - intros a b o p x La Lb Ne Ga Gb E Bx Bx'. destruct (B a o La Ga) as (o1 & G1 & E1). destruct (B b p Lb Gb) as (p1 & G2 & E2).
      apply (D a b o1 p1 x); auto; unfold bytes_of in *; congruence.
  Qed.

  Lemma space_bump k k' act uns rst fr : space (k :: act) uns rst lobs fr m L ->
    base k' = base k -> shape k' -> (forall x, usable k' x -> usable k x) ->
    space (k' :: act) uns rst lobs fr m L.
  Proof.
    intros [U F S V A N D] E Sh Us. constructor; auto; cbn [map] in *.
    - intros x. rewrite E. apply U.
    - intros x. rewrite E. apply F.
    - intros j [<-|J]; auto. apply S. right; auto.
    - intros a La. rewrite E. apply V; auto.
    - intros j a o x [<-|J] La G Ea B; [|eapply A; eauto; right; auto].
      intros Q. eapply (A k a o x); eauto; [left; auto|congruence].
  Qed.

  Lemma space_retire k act uns rst fr : space (k :: act) uns rst lobs fr m L -> space act uns (k :: rst) lobs fr m L.
  Proof.
    intros H. eapply space_ext; eauto.
    - intros; right; auto.
    - intros x. cbn [map]. rewrite !(cnt_cons x (base k)). lia.
  Qed.

  Lemma space_new act uns rst fr : space act uns rst lobs fr m L ->
    space (block_new fr :: act) uns rst lobs (fr + 1) m L.
  Proof.
    intros [U F S V A N D].
    assert (Z : (cnt fr (map base act) + cnt fr (map base uns) + cnt fr (map base rst) + cnt fr lobs = 0)%nat).
    { destruct (Nat.eq_dec (cnt fr (map base act) + cnt fr (map base uns) + cnt fr (map base rst) + cnt fr lobs) 0); auto.
      specialize (F fr ltac:(lia)). lia. }
    assert (NL : forall a, L a -> fst a <> fr).
    { intros a La E. destruct (V a La) as (o & _ & _ & [[I _]|I]); rewrite E in I; lia. }
    constructor; cbn [map].
    - intros x. rewrite cnt_cons; unfold one. cbn [base block_new]. specialize (U x). destruct (N.eqb_spec fr x); subst; lia.
    - intros x. rewrite cnt_cons; unfold one. cbn [base block_new]. specialize (F x). destruct (N.eqb_spec fr x); subst; lia.
    - intros k [<-|K]; auto. unfold shape, block_new. cbn. unfold BLOCK. lia.
    - intros a La. rewrite cnt_cons. destruct (V a La) as (o & G & H & I). exists o. split; auto. split; auto.
      destruct I as [[I1 I2]|I]; [left; split; auto; lia|auto].
    - intros k a o x [<-|K] La G E B; [|eapply A; eauto]. cbn in E. exfalso. eapply NL; eauto.
    - auto.
    - auto.
  Qed.

  Lemma space_sweep_ok k k' act uns rst fr : space act (k :: uns) rst lobs fr m L -> recycle k = (k', true) ->
    space (k' :: act) uns rst lobs fr m L.
  Proof.
    intros [U F S V A N D] R. pose proof (recycle_spec k) as K. rewrite R in K. destruct K as (K1 & K2 & K3 & K4 & _ & K6).
    constructor; cbn [map] in *; rewrite ?K2; auto.
    - intros x. rewrite cnt_cons. specialize (U x). rewrite (cnt_cons x (base k)) in U. lia.
    - intros x. rewrite cnt_cons. specialize (F x). rewrite (cnt_cons x (base k)) in F. intros; apply F; lia.
    - intros j [<-|J]; auto. split; lia.
    - intros a La. destruct (V a La) as (o & G & H & I). exists o. split; auto. split; auto.
      rewrite ?(cnt_cons (fst a) (base k)) in I |- *. destruct I as [[I1 I2]|I]; [left; split; auto; lia|auto].
    - intros j a o x [<-|J] La G E B; [|eapply A; eauto].
      intros [X1 X2]. rewrite K2 in E. pose proof (N k a o x (or_introl eq_refl) La G E B) as Ml.
      destruct X2 as [X2|X2]; [rewrite K6 in Ml by lia; discriminate|rewrite K1 in X2; congruence].
    - intros j a o x J. apply N; right; auto.
  Qed.
  Lemma space_sweep_full k k' act uns rst fr : space act (k :: uns) rst lobs fr m L -> base k' = base k ->
    space act uns (k' :: rst) lobs fr m L.
  Proof.
    intros H E. eapply space_ext; eauto.
    - intros; right; auto.
    - intros x. cbn [map]. rewrite E, !(cnt_cons x (base k)). lia.
  Qed.

  (** Overwriting bytes usable in an active block harms no live object. *)
  Lemma live_clobber k act uns rst fr lo hi : space act uns rst lobs fr m L -> In k act -> lo < hi ->
    (forall x, lo <= x < hi -> usable k x) ->
    forall a, L a -> exists o, mget m a = Some o /\ mget (clobber m (base k) lo hi) a = Some o.
  Proof.
    intros [U F S V A N D] K Lt Us a La. destruct (V a La) as (o & G & H & I). exists o. split; auto.
    apply mget_clobber; auto. intros E x B Q. eapply (A k a o x); eauto.
  Qed.
  Lemma live_clobber_all k act uns rst fr rs : space act uns rst lobs fr m L -> In k act ->
    (forall lo hi, In (lo, hi) rs -> lo < hi) ->
    (forall lo hi, In (lo, hi) rs -> forall x, lo <= x < hi -> usable k x) ->
    forall a, L a -> exists o, mget m a = Some o /\ mget (clobber_all m (base k) rs) a = Some o.
  Proof.
    intros [U F S V A N D] K Lt Us a La. destruct (V a La) as (o & G & H & I). exists o. split; auto.
    apply mget_clobber_all; auto. intros E lo hi x Il B Q. eapply (A k a o x); eauto.
  Qed.
End Space.

(** Adding a live object in an active block at its cursor. *)
Lemma space_add k act uns rst lobs fr m (L : addr -> Prop) a o :
  space (k :: act) uns rst lobs fr m L -> mget m a = None ->
  fst a = base k -> HEADER <= snd a -> cursor k + HEADER <= snd a -> snd a + o_len o <= BLOCK ->
  (forall b p x, L b -> mget m b = Some p -> fst b = base k -> bytes_of a o x -> ~ bytes_of b p x) ->
  space (k :: act) uns rst lobs fr ((a, o) :: m) (fun b => b = a \/ L b).
Proof.
  intros [U F S V A N D] G0 Ea Ha Hc Hb Dj.
  assert (NL : ~ L a) by (intros La; destruct (V a La) as (p & G & _); congruence).
  assert (ME : mget ((a, o) :: m) a = Some o) by (rewrite mget_cons, addr_eqb_refl; auto).
  assert (MO : forall b, L b -> mget ((a, o) :: m) b = mget m b).
  { intros b Lb. rewrite mget_cons, addr_eqb_neq; auto. intros <-. contradiction. }
  constructor; auto.
  - intros b [->|Lb].
    + exists o. split; auto. split; auto. left. split; auto.
      cbn [map]. rewrite cnt_cons; unfold one; rewrite Ea, N.eqb_refl. lia.
    + destruct (V b Lb) as (p & G & I). exists p. rewrite MO by auto. auto.
  - intros j b p x J [->|Lb] G E B.
    + rewrite ME in G. injection G as <-.
      assert (j = k \/ In j act) as [->|J'] by (destruct J; auto).
      * intros [X _]. unfold bytes_of, HEADER in *. lia.
      * exfalso. specialize (U (base k)). cbn [map] in U. rewrite cnt_cons in U; unfold one in U; rewrite N.eqb_refl in U.
        pose proof (cnt_base _ _ J') as C. rewrite <- E, Ea in C. lia.
    + rewrite MO in G by auto. eapply A; eauto.
  - intros j b p x J [->|Lb] G E B.
    + exfalso. specialize (U (base k)). cbn [map] in U. rewrite cnt_cons in U; unfold one in U; rewrite N.eqb_refl in U.
      pose proof (cnt_base _ _ J) as C. rewrite <- E, Ea in C. lia.
    + rewrite MO in G by auto. eapply N; eauto.
  - intros b c p q x [->|Lb] [->|Lc] Ne Gb Gc E Bx Cx.
    + contradiction.
    + rewrite ME in Gb. injection Gb as <-. rewrite MO in Gc by auto. eapply (Dj c q x); eauto. congruence.
    + rewrite ME in Gc. injection Gc as <-. rewrite MO in Gb by auto. eapply (Dj b p x); eauto. congruence.
    + rewrite MO in Gb, Gc by auto. eapply (D b c p q x); eauto.
Qed.
