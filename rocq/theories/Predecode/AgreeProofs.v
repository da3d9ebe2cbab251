(** The instructions are the program. *)
From Coq Require Import List Bool Arith NArith Lia ZifyN ZifyNat ZifyBool.
From Verif.Simplify Require Import Compress.
From Verif.Bytecode Require Import Model Spec Proofs EncProofs ProgProofs.
From Verif.Predecode Require Import Model Spec InvProofs NodeProofs RunProofs LocProofs.
Import ListNotations.
Open Scope N_scope.

Lemma view_smid refs offsets headers branches smid i n : view refs offsets headers branches smid i = Done n ->
  match n with NDirectApp _ s _ _ => s = smid | NLookupLit s _ _ _ => s = smid | _ => True end.
Proof.
  unfold view. cbv zeta.
  repeat match goal with
  | |- Done _ = _ -> _ => let H := fresh in intros H; inversion H; subst; auto
  | |- Panic = _ -> _ => discriminate
  | |- (if ?c then _ else _) = _ -> _ => destruct c
  | |- obind ?x _ = _ -> _ => destruct x; cbn [obind]; try discriminate
  end.
Qed.
Lemma match_tag_rel R min t t' tag : Forall2 (Ropt R) t t' -> Ropt R (match_tag min t tag) (match_tag min t' tag).
Proof.
  intros F. unfold match_tag. destruct (tag <? min); [exact I|]. generalize (N.to_nat (tag - min)). intros k. revert k.
  induction F as [|a b l l' H F IH]; intros [|k]; cbn; auto.
Qed.

Section Final.
Context {native : Type} (p : program native) (root : N) (globals : list gform) (D : decoded) (d : dec)
  (F : final p root globals D d) (L : li (p_code p) None d) (P : pools_fit D).
Notation code := (p_code p).

Lemma at_node off ord n : ordinal D off ord -> read_node code off = Done n -> (forall s b, n <> NAnn s b) ->
  nth_error (o_off_of D) (N.to_nat ord) = Some off /\ exists n', view_at D ord = Done n' /\ Rnode (ordinal D) n n'.
Proof.
  intros Ho En Na. destruct (final_ord _ _ _ _ _ F _ _ Ho) as [(s & b & E & _)|H]; [exfalso; apply (Na s b); congruence|].
  split; [exact H|]. destruct (final_off _ _ _ _ _ F _ _ H) as (_ & n0 & En' & Hv). destruct (Hv P) as (n' & Ev & R). rewrite N2Nat.id in Ev. exists n'. split; [exact Ev|congruence].
Qed.
Lemma own_smid off ord n' s : nth_error (o_off_of D) (N.to_nat ord) = Some off -> own code off = Some s -> s <> 0 -> view_at D ord = Done n' ->
  match n' with NDirectApp _ s' _ _ => s' = s | NLookupLit s' _ _ _ => s' = s | _ => True end.
Proof.
  intros Ho Eo Ns Ev. unfold view_at in Ev. destruct (nth_error (o_instrs D) (N.to_nat ord)) as [x|] eqn:Ex; [|discriminate].
  destruct (nth_error (o_smids D) (N.to_nat ord)) as [sm|] eqn:Es; [|discriminate].
  assert (sm = s) as <-; [|exact (view_smid _ _ _ _ _ _ _ Ev)].
  rewrite (f_off _ _ _ _ _ F) in Ho. rewrite (f_smids _ _ _ _ _ F) in Es.
  apply (l_own _ _ _ L _ _ _ _ Ho Es Eo Ns). left. exists x. rewrite (f_instrs _ _ _ _ _ F). now apply map_nth_error.
Qed.
Context (consts : list native).
Notation reads := (reads code consts).
Notation atom_at := (atom_at code consts).
Notation runs := (runs D consts).
Ltac node H Ho E := let n' := fresh "n'" in let Ev := fresh "Ev" in let R := fresh "R" in let Hoff := fresh "Hoff" in
  destruct (at_node _ _ _ H Ho E) as (Hoff & n' & Ev & R); destruct n'; cbn in R; try contradiction.
Lemma atom_runs off ord r : atom_at off r -> ordinal D off ord -> runs_atom D consts ord r.
Proof.
  intros (dr & E & S) H. destruct (at_node _ _ _ H E ltac:(discriminate)) as (_ & n' & Ev & R). destruct n'; cbn in R; try contradiction. subst.
  eexists; eauto.
Qed.
Lemma atoms_run offs ords args : Forall2 atom_at offs args -> Forall2 (ordinal D) offs ords -> Forall2 (runs_atom D consts) ords args.
Proof.
  intros A. revert ords. induction A as [|o a l l' H A IH]; intros ords B; inversion B; subst; constructor; eauto using atom_runs.
Qed.
Lemma reads_runs off t : reads off t -> forall ord, ordinal D off ord -> runs ord t.
Proof.
  induction 1 as [off r A|off so min table fo scr bs fb E R1 IH1 N1 B1 IHb N2 B2 IHf|off tag ds args E A|off eager dr c offs args E S A
    |off eager smid dr c offs args E S A|off i ds args E A|off rec hs o bs body E Ln K B IHb R IH|off smid o body E R IH|off d1 d2 m b E S1 S2
    |off o1 o2 o3 a b c E R1 IH1 R2 IH2 R3 IH3|off o1 o2 a b E R1 IH1 R2 IH2|off smid d1 d2 o k obj df E S1 S2 A|off id o1 o2 l r inner E A1 A2|off E];
  intros ord H.
  - apply U_atom. eapply atom_runs; eauto.
  - destruct (at_node _ _ _ H E ltac:(discriminate)) as (_ & n' & Ev & Rn). destruct n'; cbn in Rn; try contradiction.
    destruct Rn as (Ra & <- & Rt & Rf). pose proof (fun tag => match_tag_rel _ min _ _ tag Rt) as Mt.
    eapply U_case; [exact Ev|auto|..].
    + intros tag. rewrite <- N1. specialize (Mt tag). destruct (match_tag min table tag), (match_tag min table0 tag); cbn in Mt; try contradiction; split; congruence.
    + intros tag o b Hm Hb. specialize (Mt tag). rewrite Hm in Mt. destruct (match_tag min table tag) as [o'|] eqn:Eo; cbn in Mt; [|contradiction]. eapply IHb; eauto.
    + rewrite <- N2. destruct fo, fallback; cbn in Rf; try contradiction; split; congruence.
    + intros o f Hf Hfb. subst fallback. destruct fo as [o'|]; cbn in Rf; [|contradiction]. eapply IHf; eauto.
  - destruct (at_node _ _ _ H E ltac:(discriminate)) as (_ & n' & Ev & Rn). destruct n'; cbn in Rn; try contradiction. destruct Rn as (<- & <-). eapply U_cons; eauto.
  - destruct (at_node _ _ _ H E ltac:(discriminate)) as (_ & n' & Ev & Rn). destruct n'; cbn in Rn; try contradiction. destruct Rn as (<- & <- & Ra).
    eapply U_app; eauto using atoms_run.
  - destruct (at_node _ _ _ H E ltac:(discriminate)) as (Ho & n' & Ev & Rn).
    assert (own code off = Some smid) as Eo by (unfold own; now rewrite E).
    pose proof (fun Ns => own_smid _ _ _ _ Ho Eo Ns Ev) as Sm.
    destruct n'; cbn in Rn; try contradiction. destruct Rn as (<- & <- & Ra). eapply U_direct_app; eauto using atoms_run.
  - destruct (at_node _ _ _ H E ltac:(discriminate)) as (_ & n' & Ev & Rn). destruct n'; cbn in Rn; try contradiction. destruct Rn as (<- & <-). eapply U_bif; eauto.
  - destruct (at_node _ _ _ H E ltac:(discriminate)) as (_ & n' & Ev & Rn). destruct n' as [| | | | | | rec' hs' o'| | | | | | |]; cbn in Rn; try contradiction. destruct Rn as (<- & Rh & Ro).
    assert (forall i h', nth_error hs' i = Some h' -> exists h, nth_error hs i = Some h /\ Rheader (ordinal D) h h') as Back.
    { clear -Rh. induction Rh as [|a b l l' X Y IH]; intros [|i] h' Hn; cbn in *; try discriminate; [inversion Hn; subst; eauto|eauto]. }
    eapply U_let; [exact Ev|rewrite <- (Forall2_len _ _ _ Rh); exact Ln|..|auto].
    + intros i h' k b Hh Hb. destruct (Back _ _ Hh) as (h & Hh0 & X1 & X2 & X3 & X4). rewrite <- (K i h k b Hh0 Hb).
      unfold header_info. now rewrite X1, X2, X3.
    + intros i h' k b Hh Hb. destruct (Back _ _ Hh) as (h & Hh0 & X1 & X2 & X3 & X4). eapply IHb; eauto.
  - apply U_ann. apply IH. destruct (final_ord _ _ _ _ _ F _ _ H) as [(s & b & E' & Hb)|Hoff]; [congruence|].
    exfalso. eapply off_not_ann; eauto.
  - destruct (at_node _ _ _ H E ltac:(discriminate)) as (_ & n' & Ev & Rn). destruct n'; cbn in Rn; try contradiction. destruct Rn as (<- & <-). eapply U_meta; eauto.
  - destruct (at_node _ _ _ H E ltac:(discriminate)) as (_ & n' & Ev & Rn). destruct n'; cbn in Rn; try contradiction. destruct Rn as (X & Y & Z). eapply U_demeta; eauto.
  - destruct (at_node _ _ _ H E ltac:(discriminate)) as (_ & n' & Ev & Rn). destruct n'; cbn in Rn; try contradiction. destruct Rn as (X & Y). eapply U_seq; eauto.
  - destruct (at_node _ _ _ H E ltac:(discriminate)) as (Ho & n' & Ev & Rn).
    assert (own code off = Some smid) as Eo by (unfold own; now rewrite E).
    pose proof (fun Ns => own_smid _ _ _ _ Ho Eo Ns Ev) as Sm.
    destruct n'; cbn in Rn; try contradiction. destruct Rn as (<- & <- & Ra). eapply U_lookup; eauto using atom_runs.
  - destruct (at_node _ _ _ H E ltac:(discriminate)) as (_ & n' & Ev & Rn). destruct n'; cbn in Rn; try contradiction. destruct Rn as (<- & X & Y). eapply U_fused; eauto using atom_runs.
  - destruct (at_node _ _ _ H E ltac:(discriminate)) as (_ & n' & Ev & Rn). destruct n'; cbn in Rn; try contradiction. now apply U_black_hole.
Qed.

(** ** Locations *)
Fixpoint inner_out (t : syn native) : list N := match t with SAnn s t => inner_out t ++ [s] | _ => [] end.
Fixpoint core (t : syn native) : syn native := match t with SAnn _ t => core t | t => t end.
Lemma location_chain t : (match core t with SDirectApp s _ _ _ => s <> 0 | SLookupLit s _ _ _ => s <> 0 | _ => True end) ->
  location t = match core t with SDirectApp s _ _ _ => s | SLookupLit s _ _ _ => s | _ => first_valid (inner_out t) end.
Proof.
  induction t; cbn [location core inner_out]; intros H; try reflexivity. specialize (IHt H). rewrite IHt. rewrite first_valid_snoc.
  destruct (core t); try reflexivity; apply N.eqb_neq in H; rewrite H; reflexivity.
Qed.
Lemma location_located t : ~ unlocated t -> match core t with SDirectApp s _ _ _ => s <> 0 | SLookupLit s _ _ _ => s <> 0 | _ => True end.
Proof. induction t; cbn; auto. Qed.
Lemma not_ann off t : reads off t -> (forall s t', t <> SAnn s t') -> is_ann code off = false.
Proof.
  intros R N. unfold is_ann. destruct R; try (rewrite H; reflexivity); [destruct H as (x & -> & _); reflexivity|].
  exfalso. eapply N; reflexivity.
Qed.
Lemma wraps_self off : is_ann code off = false -> forall o, wraps code off o -> o = off.
Proof. intros Na o W. inversion W as [|? s b ? E W']; subst; [reflexivity|]. unfold is_ann in Na. rewrite E in Na. discriminate. Qed.
Fixpoint depth (t : syn native) : nat := match t with SAnn _ t => S (depth t) | _ => 0 end.
Lemma depth_flat off t : reads off t -> is_ann code off = false -> depth t = 0%nat.
Proof.
  intros R Na. destruct t; try reflexivity. inversion R as [| | | | | | |? ? o body E R'| | | | | |]; subst. unfold is_ann in Na. rewrite E in Na. discriminate.
Qed.
Lemma depth_fun off t : reads off t -> forall t', reads off t' -> depth t = depth t'.
Proof.
  revert off. induction t; intros off R t' R';
  try (pose proof (not_ann _ _ R ltac:(discriminate)) as Na; rewrite (depth_flat _ _ R Na), (depth_flat _ _ R' Na); reflexivity).
  inversion R as [| | | | | | |? ? o body E R1| | | | | |]; subst.
  inversion R' as [? ? (? & ? & ?)| | | | | | |? ? o' body' E' R2| | | | | |]; subst; try congruence. cbn. f_equal. rewrite E in E'. inversion E'; subst. eauto.
Qed.
Lemma wraps_depth off t : reads off t -> forall a, wraps code off a -> exists t', reads a t' /\ (depth t' <= depth t)%nat.
Proof.
  intros R a W. revert t R. induction W as [o|o s b o' E W IH]; intros t R; [exists t; split; [exact R|lia]|].
  inversion R as [? ? (? & ? & ?)| | | | | | |? ? o2 body' E' R2| | | | | |]; subst; try congruence.
  rewrite E in E'. inversion E'; subst. destruct (IH _ R2) as (t' & Rt & Dt). exists t'. split; [exact Rt|cbn; lia].
Qed.
Lemma anns_order t : forall off (l : list N), reads off t -> NoDup l ->
  (forall a, In a l -> is_ann code a = true /\ wraps code off a) ->
  (forall a, wraps code off a -> is_ann code a = true -> In a l) ->
  (forall l1 a l2 s b, l = l1 ++ a :: l2 -> read_node code a = Done (NAnn s b) -> is_ann code b = true -> In b l1) ->
  map (ann_smid code) l = inner_out t.
Proof.
  assert (forall t off (l : list N), reads off t -> (forall s t', t <> SAnn s t') -> (forall a, In a l -> is_ann code a = true /\ wraps code off a) -> l = []) as Base.
  { intros t0 off l R N H. pose proof (not_ann _ _ R N) as Na. destruct l as [|a l]; [reflexivity|]. destruct (H a (or_introl eq_refl)) as [X W].
    apply (wraps_self _ Na) in W. congruence. }
  induction t; intros off l R ND In1 In2 Ord; try (rewrite (Base _ _ _ R ltac:(discriminate) In1); reflexivity).
  inversion R as [| | | | | | |? ? o body E R'| | | | | |]; subst.
  assert (is_ann code off = true) as Ia by (unfold is_ann; now rewrite E).
  destruct (rev l) as [|z rl] eqn:Er.
  { apply (f_equal (@rev N)) in Er. rewrite rev_involutive in Er. subst l. exfalso. apply (In2 off (W_here _ _) Ia). }
  assert (l = rev rl ++ [z]) as El by (rewrite <- (rev_involutive l), Er; reflexivity). set (l' := rev rl) in *. clearbody l'. subst l. clear Er.
  assert (~ In z l' /\ NoDup l') as [Nz ND'].
  { apply NoDup_remove in ND. rewrite app_nil_r in ND. tauto. }
  assert (z = off) as ->.
  { destruct (In1 z) as [Iz Wz]; [apply in_app_iff; right; now left|].
    (* the predecessor of [z] in the chain comes after [z] *)
    assert (forall x, wraps code off x -> x = z -> x = off \/ exists y s, wraps code off y /\ read_node code y = Done (NAnn s x)) as Pre.
    { intros x W _. clear -W. induction W as [|o' s b x E W IH]; [now left|]. right. destruct IH as [->|(y & s' & Wy & Ey)].
      - exists o', s. split; [apply W_here|exact E].
      - exists y, s'. split; [eapply W_in; eauto|exact Ey]. }
    destruct (Pre z Wz eq_refl) as [?|(y & s' & Wy & Ey)]; [auto|].
    assert (is_ann code y = true) as Iy by (unfold is_ann; now rewrite Ey).
    pose proof (In2 y Wy Iy) as Hy. apply in_app_iff in Hy. destruct Hy as [Hy|[Hy|[]]].
    - apply in_split in Hy. destruct Hy as (m1 & m2 & ->). exfalso. apply Nz. apply in_app_iff. left.
      eapply (Ord m1 y (m2 ++ [z])); [now rewrite <- app_assoc|exact Ey|exact Iz].
    - subst y. exfalso. apply Nz. eapply (Ord l' z []); [reflexivity|exact Ey|exact Iz]. }
  rewrite map_app. cbn [map inner_out]. f_equal; [|unfold ann_smid; now rewrite E].
  eapply IHt; [exact R'|exact ND'|..].
  - intros a Ha. destruct (In1 a) as [Xa Wa]; [apply in_app_iff; now left|]. split; [exact Xa|].
    inversion Wa as [|? s' b' ? E' W']; subst; [contradiction|]. congruence.
  - intros a Wa Xa. assert (In a (l' ++ [off])) as Ha by (apply In2; [eapply W_in; eauto|exact Xa]).
    apply in_app_iff in Ha. destruct Ha as [Ha|[Ha|[]]]; [exact Ha|]. subst a. exfalso.
    destruct (wraps_depth _ _ R' _ Wa) as (t' & Rt & Dt). pose proof (depth_fun _ _ R _ Rt) as Eq. cbn in Eq. lia.
  - intros l1 a l2 s' b' El Ea Ib. eapply (Ord l1 a (l2 ++ [off])); eauto. subst l'. now rewrite <- app_assoc.
Qed.
(** An annotation's ordinal is that of the node it wraps. *)
Lemma resolves a i : ordinal D a i -> exists o, nth_error (o_off_of D) (N.to_nat i) = Some o /\ wraps code a o.
Proof.
  intros H.
  assert (forall l2 l1, d_ord d = l1 ++ l2 -> forall a i, In (a, i) l2 -> exists o, nth_error (o_off_of D) (N.to_nat i) = Some o /\ wraps code a o) as K.
  { induction l2 as [|[a0 j] l2 IH]; intros l1 El b k Hin; [destruct Hin|].
    destruct Hin as [Hin|Hin]; [|apply (IH (l1 ++ [(a0, j)])); [now rewrite <- app_assoc|exact Hin]].
    inversion Hin; subst a0 j. assert (ordinal D b k) as Hb.
    { unfold ordinal. rewrite (f_ord _ _ _ _ _ F). apply in_lookup; [apply (l_nodup _ _ _ L)|]. rewrite El. apply in_app_iff. right. now left. }
    destruct (final_ord _ _ _ _ _ F _ _ Hb) as [(s & c & E & Hc)|Ho]; [|exists b; split; [exact Ho|apply W_here]].
    pose proof (l_order _ _ _ L _ _ _ _ _ _ El E) as Hin2.
    destruct (IH (l1 ++ [(b, k)]) ltac:(now rewrite <- app_assoc) c k Hin2) as (o & Ho & W). exists o. split; [exact Ho|]. eapply W_in; eauto. }
  unfold ordinal in H. rewrite (f_ord _ _ _ _ _ F) in H. apply (K (d_ord d) []); [reflexivity|]. now apply lookup_in.
Qed.
Lemma wraps_ordinal a o i : wraps code a o -> ordinal D a i -> ordinal D o i.
Proof.
  intros W. induction W as [o|o s b o' E W IH]; [auto|]. intros H. apply IH.
  destruct (final_ord _ _ _ _ _ F _ _ H) as [(s' & b' & E' & Hb)|Hoff]; [congruence|]. exfalso. eapply off_not_ann; eauto.
Qed.
Lemma locations off t i : reads off t -> ordinal D off i -> ~ unlocated t ->
  (forall a s b, read_node code a = Done (NAnn s b) -> ordinal D a i -> wraps code off a) ->
  nth_error (o_smids D) (N.to_nat i) = Some (location t).
Proof.
  intros R Ho Nu Uniq. destruct (resolves _ _ Ho) as (o & Hn & W).
  assert (reads o (core t)) as Rc.
  { pose proof (fun s b => off_not_ann _ _ _ _ _ F _ _ s b Hn) as Na. clear -R W Hn F Na. revert t R. induction W as [o|o s b o' E W IH]; intros t R.
    - destruct t; try exact R. exfalso. inversion R as [| | | | | | |? ? o2 body E R'| | | | | |]; subst. exact (Na _ _ E).
    - inversion R as [? ? (? & ? & ?)| | | | | | |? ? o2 body E' R2| | | | | |]; subst; try congruence. cbn. apply IH; [exact Hn|exact Na|congruence]. }
  destruct (final_len _ _ _ _ _ F) as [_ L2].
  destruct (nth_error (o_smids D) (N.to_nat i)) as [sm|] eqn:Es.
  2:{ apply nth_error_None in Es. assert (N.to_nat i < length (o_off_of D))%nat by (apply nth_error_Some; congruence). lia. }
  f_equal. rewrite (location_chain _ (location_located _ Nu)). pose proof (location_located _ Nu) as Lo.
  pose proof Hn as Hn'. rewrite (f_off _ _ _ _ _ F) in Hn'. rewrite (f_smids _ _ _ _ _ F) in Es.
  assert (exists x, nth_error (d_instrs d) (N.to_nat i) = Some (Some x)) as Dx.
  { destruct (final_len _ _ _ _ _ F) as [L1 _]. destruct (nth_error (o_instrs D) (N.to_nat i)) as [x|] eqn:Ex.
    - exists x. rewrite (f_instrs _ _ _ _ _ F). now apply map_nth_error.
    - apply nth_error_None in Ex. assert (N.to_nat i < length (o_off_of D))%nat by (apply nth_error_Some; congruence). lia. }
  assert (own code o = None -> sm = first_valid (inner_out t)) as Free.
  { intros No. rewrite (l_free _ _ _ L _ _ _ Hn' Es (or_introl No)). unfold anns. rewrite N2Nat.id. f_equal.
    apply (anns_order t off); [exact R|..].
    - unfold ann_keys. apply NoDup_rev. pose proof (l_nodup _ _ _ L) as ND. revert ND. generalize (d_ord d). intros m ND.
      induction m as [|[a j] m IH]; [constructor|]. cbn in ND. inversion ND as [|x l Nx ND']; subst. cbn.
      destruct ((j =? i) && is_ann code a); [|auto]. cbn. constructor; [|auto]. intros Hin. apply Nx. apply in_map_iff in Hin.
      destruct Hin as (e & <- & He). apply filter_In in He. apply in_map. apply He.
    - intros a Ha. apply ann_keys_in in Ha. destruct Ha as [Ha Ia]. split; [exact Ia|]. unfold is_ann in Ia.
      destruct (read_node code a) as [[]| |] eqn:Ea; try discriminate. eapply Uniq; [exact Ea|]. unfold ordinal. rewrite (f_ord _ _ _ _ _ F).
      apply in_lookup; [apply (l_nodup _ _ _ L)|exact Ha].
    - intros a Wa Ia. apply ann_keys_in. split; [|exact Ia]. apply lookup_in. rewrite <- (f_ord _ _ _ _ _ F). apply (wraps_ordinal off); assumption.
    - assert (forall m, (forall l1 o i0 l2 s b, m = l1 ++ (o, i0) :: l2 -> read_node code o = Done (NAnn s b) -> In (b, i0) l2) ->
        forall l1 a l2 s b, ann_keys code m i = l1 ++ a :: l2 -> read_node code a = Done (NAnn s b) -> is_ann code b = true -> In b l1) as K.
      { induction m as [|[a j] m IH]; intros Ord l1 a' l2 s b El Ea Ib; [destruct l1; discriminate|].
        rewrite ann_keys_cons in El.
        assert (forall l1 o i0 l2 s b, m = l1 ++ (o, i0) :: l2 -> read_node code o = Done (NAnn s b) -> In (b, i0) l2) as Ord'.
        { intros m1 o1 i1 m2 s1 b1 Em. apply (Ord ((a, j) :: m1)). now rewrite Em. }
        destruct ((j =? i) && is_ann code a) eqn:Ec; [|rewrite app_nil_r in El; eapply IH; eauto].
        apply andb_true_iff in Ec. destruct Ec as [Ej Ia]. apply N.eqb_eq in Ej. subst j.
        destruct (@exists_last _ (a' :: l2) ltac:(discriminate)) as (q & z & Eq). rewrite Eq in El. rewrite app_assoc in El.
        apply app_inj_tail in El. destruct El as [El Ez]. subst z. destruct q as [|q0 q]; cbn in Eq.
        - inversion Eq; subst a' l2. rewrite app_nil_r in El. rewrite <- El. apply ann_keys_in. split; [|exact Ib].
          exact (Ord [] a i m s b eq_refl Ea).
        - inversion Eq; subst q0 l2. eapply (IH Ord' l1 a' q); eauto. }
      intros l1 a l2 s b. apply (K (d_ord d)). intros. eapply (l_order _ _ _ L); eauto. }
  assert (forall s, own code o = Some s -> s <> 0 -> sm = s) as Own.
  { intros s Eo Ns. apply (l_own _ _ _ L _ _ _ _ Hn' Es Eo Ns). left. exact Dx. }
  destruct (core t) eqn:Ec;
    try (apply Free; unfold own; inversion Rc; subst; try match goal with H : read_node code o = _ |- _ => rewrite H; reflexivity end; fail).
  - apply Free. unfold own. inversion Rc as [? ? (x & E & _)| | | | | | | | | | | | |]; subst. now rewrite E.
  - apply Own; [|exact Lo]. unfold own. inversion Rc; subst. match goal with H : read_node code o = _ |- _ => rewrite H; reflexivity end.
  - apply Own; [|exact Lo]. unfold own. inversion Rc; subst. match goal with H : read_node code o = _ |- _ => rewrite H; reflexivity end.
Qed.
Lemma location_sound i o s : nth_error (o_off_of D) i = Some o -> nth_error (o_smids D) i = Some s ->
  s = 0 \/ own code o = Some s \/ exists a b, read_node code a = Done (NAnn s b) /\ ordinal D a (N.of_nat i).
Proof.
  intros Ho Es. rewrite (f_off _ _ _ _ _ F) in Ho. rewrite (f_smids _ _ _ _ _ F) in Es.
  destruct (l_any _ _ _ L _ _ _ Ho Es) as [H|[H|H]]; auto. right; right. unfold anns in H. apply in_map_iff in H. destruct H as (a & Ea & Ha).
  apply ann_keys_in in Ha. destruct Ha as [Ha Ia]. unfold is_ann in Ia. unfold ann_smid in Ea. destruct (read_node code a) as [[]| |] eqn:En; try discriminate.
  subst smid. exists a, body. split; [exact En|]. unfold ordinal. rewrite (f_ord _ _ _ _ _ F). apply in_lookup; [apply (l_nodup _ _ _ L)|exact Ha].
Qed.
End Final.
