(** Encoded programs consist of bytes. *)
From Coq Require Import List Bool Arith NArith Lia ZifyN ZifyNat ZifyBool.
From Verif.Simplify Require Import Compress.
From Verif.Bytecode Require Import Model Spec Proofs EncProofs ProgProofs WholeProofs SizeProofs.
Import ListNotations.
Open Scope N_scope.

Section Bytes.
Context {native : Type}.
Notation enc := (enc native).
Notation syn := (syn native).
Notation ref := (ref native).
Notation B := (fun b => b < 256).

Definition bytewise (s : enc) : Prop := Forall B (e_code s).
Lemma b_emit bs s : Forall B bs -> bytewise s -> bytewise (emit bs s).
Proof. intros F H. unfold bytewise. rewrite emit_code. now apply Forall_app. Qed.
Lemma b_le32 v : Forall B (le32 v).
Proof. unfold le32. repeat constructor; apply N.mod_lt; discriminate. Qed.
Lemma b_le32s l : Forall B (flat_map le32 l).
Proof. induction l as [|a l IH]; cbn [flat_map]; [constructor|]. apply Forall_app. split; [apply b_le32|exact IH]. Qed.
Lemma b_u8 n : u8 n < 256. Proof. apply N.mod_lt. discriminate. Qed.
Lemma b_ref r s : bytewise s -> bytewise (emit_ref r s).
Proof.
  intros H. unfold bytewise. rewrite emit_ref_code. apply Forall_app. split; [exact H|].
  unfold ref_bytes. destruct r; (constructor; [reflexivity|apply b_le32]).
Qed.
Lemma b_atom r s o s' : emit_atom r s = (o, s') -> bytewise s -> bytewise s'.
Proof. unfold emit_atom. intros E H. apply pair_equal_spec in E. destruct E as [_ <-]. apply b_ref, b_emit; [|exact H]. repeat constructor. Qed.
Lemma b_smap {A C} (f : A -> enc -> C * enc) l : (forall a, In a l -> forall s b s', f a s = (b, s') -> bytewise s -> bytewise s') ->
  forall s bs s', smap f l s = (bs, s') -> bytewise s -> bytewise s'.
Proof.
  induction l as [|a l IH]; intros H s bs s' E Hs; cbn [smap] in E.
  - apply pair_equal_spec in E. destruct E as [_ <-]. exact Hs.
  - destruct (f a s) as [b s1] eqn:E1. destruct (smap f l s1) as [bs' s2] eqn:E2. apply pair_equal_spec in E. destruct E as [_ <-].
    eapply IH; [intros; eapply H; [right| |]; eassumption|exact E2|]. eapply H; [left; reflexivity|exact E1|exact Hs].
Qed.
Lemma b_args args s offs s' : emit_arg_atoms args s = (offs, s') -> bytewise s -> bytewise s'.
Proof. apply b_smap. intros a _ s0 b s1. apply b_atom. Qed.
Lemma b_arg_offsets l : Forall B (arg_offsets l).
Proof. constructor; [apply b_u8|apply b_le32s]. Qed.
Lemma b_headers {A} (bs : list (fkind * A)) offs : (forall b, In b bs -> kind_fits (fst b)) -> Forall B (form_headers bs offs).
Proof.
  intros H. unfold form_headers. revert offs. induction bs as [|[k a] bs IH]; intros offs; [constructor|]. destruct offs as [|o offs]; [constructor|].
  cbn [combine flat_map fst snd]. apply Forall_app. split; [|apply IH; intros; apply H; now right].
  pose proof (H _ (or_introl eq_refl)) as K. cbn [fst] in K. unfold form_header, classify.
  destruct k; cbn [fk_update fk_arity fk_annotation]; try (constructor; [reflexivity|constructor; [reflexivity|apply Forall_app; split; apply b_le32]]).
  destruct K as [[K1 K2] _]. match goal with |- context [?n =? 0] => destruct (n =? 0) end;
    (constructor; [reflexivity|constructor; [first [reflexivity|assumption]|apply Forall_app; split; apply b_le32]]).
Qed.
Lemma b_table l : (forall p, In p l -> fst p < 256) -> Forall B (branch_table l).
Proof.
  intros H. unfold branch_table. destruct l as [|p l]; [repeat constructor|].
  destruct (min_tag_spec (p :: l) ltac:(discriminate)) as (_ & q & I & E). specialize (H q I). rewrite E in H.
  apply Forall_app. split; [|apply b_le32s]. constructor; [exact H|]. constructor; [apply b_u8|constructor].
Qed.
Lemma b_flag e : eager_flag e < 256. Proof. now destruct e. Qed.
Ltac bt := repeat first
  [ assumption | apply b_le32 | apply b_arg_offsets | apply b_flag | reflexivity
  | match goal with
    | |- bytewise (emit _ _) => apply b_emit
    | |- bytewise (emit_ref _ _) => apply b_ref
    | |- Forall _ (_ ++ _) => apply Forall_app; split
    | |- Forall _ (_ :: _) => constructor
    | |- Forall _ [] => constructor
    end ].
Lemma b_fused id l r s o s' : emit_fused_primop_refs id l r s = (o, s') -> id < 256 -> bytewise s -> bytewise s'.
Proof.
  unfold emit_fused_primop_refs. destruct (emit_atom l s) as [lo s1] eqn:E1. destruct (emit_atom r s1) as [ro s2] eqn:E2.
  intros E I H. apply pair_equal_spec in E. destruct E as [_ <-]. apply (b_atom _ _ _ _ E1) in H. apply (b_atom _ _ _ _ E2) in H. bt.
Qed.
Lemma All_in {A} (P : A -> Prop) l : All P l -> forall a, In a l -> P a.
Proof. induction l as [|x l IH]; [intros _ ? []|]. intros [H1 H2] a [<-|I]; auto. Qed.
Lemma b_encode t : fits t -> forall s o s', encode_node t s = (o, s') -> bytewise s -> bytewise s'.
Proof.
  induction t using syn_ind'; intros F s0 o0 s' E Hs; cbn [encode_node] in E; cbn [fits] in F.
  - eapply b_atom; eauto.
  - destruct F as (F1 & [F2 _] & F3 & F4).
    destruct (encode_node t s0) as [so s1] eqn:E1. destruct (smap _ bs s1) as [data s2] eqn:E2.
    apply (IHt F1 _ _ _ E1) in Hs. rewrite Forall_forall in H.
    pose proof E2 as E2'. apply b_smap in E2; [| |exact Hs].
    2:{ intros b I s4 r s5 Eb. cbv beta in Eb. destruct (encode_node (snd b) s4) as [o5 s6] eqn:E6. apply pair_equal_spec in Eb. destruct Eb as [_ <-].
        eapply H; eauto. exact (All_in _ _ F3 b I). }
    assert (forall p, In p data -> fst p < 256) as T.
    { clear -E2' F2. revert s1 data s2 E2'. induction bs as [|b bs IH]; intros s1 data s2 E2'; cbn [smap] in E2'.
      - apply pair_equal_spec in E2'. destruct E2' as [<- _]. intros p [].
      - destruct (encode_node (snd b) s1) as [o5 s6]. destruct (smap _ bs s6) as [ps s7] eqn:E7. apply pair_equal_spec in E2'. destruct E2' as [<- _].
        intros p [<-|I]; [apply F2; now left|]. eapply IH; [intros; apply F2; now right|exact E7|exact I]. }
    pose proof (b_table data T) as Bt.
    destruct fb as [f|].
    + destruct (encode_node f s2) as [fo s3] eqn:E3. apply pair_equal_spec in E. destruct E as [_ <-]. apply (H0 _ eq_refl F4 _ _ _ E3) in E2. bt.
    + apply pair_equal_spec in E. destruct E as [_ <-]. bt.
  - destruct F as [F1 _]. destruct (emit_arg_atoms args s0) as [offs s1] eqn:E1. apply pair_equal_spec in E. destruct E as [_ <-]. apply (b_args _ _ _ _ E1) in Hs. bt.
  - destruct (emit_arg_atoms args s0) as [offs s1] eqn:E1. apply pair_equal_spec in E. destruct E as [_ <-]. apply (b_args _ _ _ _ E1) in Hs. bt.
  - destruct (emit_arg_atoms args s0) as [offs s1] eqn:E1. apply pair_equal_spec in E. destruct E as [_ <-]. apply (b_args _ _ _ _ E1) in Hs. bt.
  - destruct F as [F1 _]. destruct (emit_arg_atoms args s0) as [offs s1] eqn:E1. apply pair_equal_spec in E. destruct E as [_ <-]. apply (b_args _ _ _ _ E1) in Hs. bt.
  - destruct F as [F1 F2]. destruct (smap _ bs s0) as [offs s1] eqn:E1. destruct (encode_node t s1) as [bo s2] eqn:E2. apply pair_equal_spec in E. destruct E as [_ <-].
    rewrite Forall_forall in H. apply b_smap in E1; [| |exact Hs]. 2:{ intros b I s4 r s5 Eb. eapply H; eauto. exact (proj2 (All_in _ _ F1 b I)). }
    apply (IHt F2 _ _ _ E2) in E1.
    assert (Forall B (form_headers bs offs)) as Bh by (apply b_headers; intros b I; exact (proj1 (All_in _ _ F1 b I))).
    destruct rec; bt.
  - destruct F as [_ F]. destruct (encode_node t s0) as [bo s1] eqn:E1. apply pair_equal_spec in E. destruct E as [_ <-]. apply (IHt F _ _ _ E1) in Hs. bt.
  - destruct (emit_atom m s0) as [lo s1] eqn:E1. destruct (emit_atom b s1) as [ro s2] eqn:E2.
    apply pair_equal_spec in E. destruct E as [_ <-]. apply (b_atom _ _ _ _ E1) in Hs. apply (b_atom _ _ _ _ E2) in Hs. bt.
  - destruct F as (F1 & F2 & F3). destruct (encode_node t1 s0) as [o1 s1] eqn:E1. destruct (encode_node t2 s1) as [o2 s2] eqn:E2.
    destruct (encode_node t3 s2) as [o3 s3] eqn:E3. apply pair_equal_spec in E. destruct E as [_ <-].
    apply (IHt1 F1 _ _ _ E1) in Hs. apply (IHt2 F2 _ _ _ E2) in Hs. apply (IHt3 F3 _ _ _ E3) in Hs. bt.
  - destruct F as (F1 & F2). destruct (encode_node t1 s0) as [o1 s1] eqn:E1. destruct (encode_node t2 s1) as [o2 s2] eqn:E2.
    apply pair_equal_spec in E. destruct E as [_ <-]. apply (IHt1 F1 _ _ _ E1) in Hs. apply (IHt2 F2 _ _ _ E2) in Hs. bt.
  - destruct (emit_atom d s0) as [lo s1] eqn:E1. apply pair_equal_spec in E. destruct E as [_ <-]. apply (b_atom _ _ _ _ E1) in Hs. bt.
  - destruct F as [F _]. eapply b_fused; eauto.
  - apply pair_equal_spec in E. destruct E as [_ <-]. bt.
Qed.

Lemma b_cons_args tag args s o s' : encode_node (SCons tag args) s = (o, s') -> tag < 256 -> bytewise s -> bytewise s'.
Proof.
  cbn [encode_node]. destruct (emit_arg_atoms args s) as [offs s1] eqn:E1. intros E T H. apply pair_equal_spec in E. destruct E as [_ <-]. apply (b_args _ _ _ _ E1) in H. bt.
Qed.
Lemma b_app c args e s o s' : encode_node (SApp c args e) s = (o, s') -> bytewise s -> bytewise s'.
Proof.
  cbn [encode_node]. destruct (emit_arg_atoms args s) as [offs s1] eqn:E1. intros E H. apply pair_equal_spec in E. destruct E as [_ <-]. apply (b_args _ _ _ _ E1) in H. bt.
Qed.
Lemma b_templates (s : enc) os s' : encode_templates s = (os, s') -> bytewise s -> bytewise s'.
Proof.
  unfold encode_templates. apply b_smap. intros a I s9 b s10 Eb. eapply b_cons_args; [exact Eb|]. destruct a as [i n]. apply in_combine_l in I. apply in_seq in I.
  cbn [fst]. assert (length arities = 18)%nat as La by reflexivity. lia.
Qed.
Lemma b_pap (s : enc) os s' : encode_pap_templates s = (os, s') -> bytewise s -> bytewise s'.
Proof. unfold encode_pap_templates. apply b_smap. intros a _ s9 b s10 Eb. exact (b_app _ _ _ _ _ _ Eb). Qed.
Lemma b_meta (s : enc) os s' : encode_node (SMeta (RL 0) (RL 1)) s = (os, s') -> bytewise s -> bytewise s'.
Proof. apply b_encode. cbn. lia. Qed.
Lemma b_bif i args (s : enc) o s' : encode_node (SBif i args) s = (o, s') -> i < 256 -> bytewise s -> bytewise s'.
Proof.
  cbn [encode_node]. destruct (emit_arg_atoms args s) as [offs s1] eqn:E1. intros E T H. apply pair_equal_spec in E. destruct E as [_ <-]. apply (b_args _ _ _ _ E1) in H. bt.
Qed.
Section Registry.
Context (producer_next : N) (fusible : N -> bool) (Bp : producer_next < 256).
Lemma b_global i f s g s' : encode_global fusible i f s = (g, s') -> fits (snd f) -> bytewise s -> bytewise s'.
Proof.
  unfold encode_global. intros E F H. destruct (fusible i && is_fusible_shape f).
  - unfold emit_fused_primop in E. destruct (emit_fused_primop_refs (u8 i) (RL 0) (RL 1) s) as [o s1] eqn:E1. destruct (classify (fst f)) as [[x y] z].
    apply pair_equal_spec in E. destruct E as [_ <-]. eapply b_fused; eauto. apply b_u8.
  - destruct (encode_node (snd f) s) as [o s1] eqn:E1. destruct (classify (fst f)) as [[x y] z].
    apply pair_equal_spec in E. destruct E as [_ <-]. eapply b_encode; eauto.
Qed.
Lemma b_fixtures globals s f s' : emit_fixtures_and_globals producer_next fusible globals s = (f, s') ->
  (forall g, In g globals -> form_fits g) -> bytewise s -> bytewise s'.
Proof.
  unfold emit_fixtures_and_globals. intros E F H.
  destruct (encode_templates s) as [ts s1] eqn:E1. set (s2 := emit [op_black_hole] s1) in *.
  destruct (encode_node (SMeta (RL 0) (RL 1)) s2) as [m s3] eqn:E3.
  destruct (encode_pap_templates s3) as [pap s4] eqn:E4.
  destruct (encode_node (SApp (RL 0) [RL 1] false) s4) as [a1 s5] eqn:E5.
  destruct (encode_node (SApp (RL 0) [RL 1; RL 2] false) s5) as [a2 s6] eqn:E6.
  destruct (encode_node (SBif producer_next [RL 0]) s6) as [pr s7] eqn:E7.
  destruct (smap _ _ s7) as [gs s8] eqn:E8. apply pair_equal_spec in E. destruct E as [_ <-].
  apply (b_templates _ _ _ E1) in H. assert (bytewise s2) as H2 by (apply b_emit; [repeat constructor|exact H]).
  apply (b_meta _ _ _ E3) in H2. apply (b_pap _ _ _ E4) in H2. apply (b_app _ _ _ _ _ _ E5) in H2. apply (b_app _ _ _ _ _ _ E6) in H2.
  pose proof (b_bif _ _ _ _ _ E7 Bp H2) as H7.
  eapply b_smap; [|exact E8|exact H7]. intros a I s9 b s10 Eb. eapply b_global; [exact Eb|]. destruct a as [i g]. apply in_combine_r in I. apply F, I.
Qed.
Local Opaque emit_fixtures_and_globals.
Lemma b_whole root globals (p : program native) off gs : encode producer_next fusible root globals = (p, off, gs) ->
  (forall g, In g globals -> form_fits g) -> fits root -> Forall B (p_code p).
Proof.
  unfold encode. destruct (emit_fixtures_and_globals producer_next fusible globals (mkEnc [] [])) as [f s] eqn:E1.
  destruct (encode_node root s) as [o s'] eqn:E2. intros E F Fr. apply pair_equal_spec in E. destruct E as [E _]. apply pair_equal_spec in E. destruct E as [<- _].
  apply (b_encode _ Fr _ _ _ E2). eapply b_fixtures; [exact E1|exact F|]. constructor.
Qed.
Lemma b_prelude globals (base : program native) gs : encode_prelude producer_next fusible globals = (base, gs) ->
  (forall g, In g globals -> form_fits g) -> Forall B (p_code base).
Proof.
  unfold encode_prelude. destruct (emit_fixtures_and_globals producer_next fusible globals (mkEnc [] [])) as [f s] eqn:E1.
  intros E F. apply pair_equal_spec in E. destruct E as [<- _]. eapply b_fixtures; [exact E1|exact F|]. constructor.
Qed.
Lemma b_overrides overrides : forall entries forms s entries' forms' s', encode_overrides overrides entries forms s = (entries', forms', s') ->
  (forall o, In o overrides -> form_fits (snd o)) -> bytewise s -> bytewise s'.
Proof.
  induction overrides as [|[slot f] l IH]; intros entries forms s entries' forms' s' E F H; cbn [encode_overrides] in E.
  - apply pair_equal_spec in E. destruct E as [_ <-]. exact H.
  - destruct (encode_node (snd f) s) as [o s1] eqn:E1. destruct (classify (fst f)) as [[x y] z].
    eapply IH; [exact E|intros; apply F; now right|]. eapply b_encode; eauto. exact (proj2 (F _ (or_introl eq_refl))).
Qed.
Lemma b_overridden (base : program native) overrides forms root (p : program native) off gs : encode_overrides_and_root base overrides forms root = (p, off, gs) ->
  Forall B (p_code base) -> (forall o, In o overrides -> form_fits (snd o)) -> fits root -> Forall B (p_code p).
Proof.
  unfold encode_overrides_and_root. intros E H F Fr.
  destruct (encode_overrides overrides (p_globals base) forms (mkEnc (p_code base) (p_consts base))) as [[entries gs1] s] eqn:E1.
  destruct (encode_node root s) as [o s'] eqn:E2. apply pair_equal_spec in E. destruct E as [E _]. apply pair_equal_spec in E. destruct E as [<- _].
  apply (b_encode _ Fr _ _ _ E2). eapply b_overrides; [exact E1|exact F|exact H].
Qed.
End Registry.
End Bytes.
