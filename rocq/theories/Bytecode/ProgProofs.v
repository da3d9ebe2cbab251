(** Whole programs: fixtures, globals, roots and overrides. *)
From Coq Require Import List Bool Arith NArith ZArith Lia ZifyN ZifyNat ZifyBool.
From Verif.Simplify Require Import Compress.
From Verif.Bytecode Require Import Model Spec Proofs EncProofs.
Import ListNotations.
Open Scope N_scope.

Section Prog.
Context {native : Type}.
Notation enc := (enc native).
Notation syn := (syn native).

(** ** Every constant takes five bytes of code *)
Definition spare (s : enc) : Prop := (5 * length (e_consts s) <= length (e_code s))%nat.
Lemma spare_emit bs s : spare s -> spare (emit bs s).
Proof. unfold spare. cbn. rewrite app_length. lia. Qed.
Lemma spare_ref r s : spare s -> spare (emit_ref r s).
Proof. unfold spare. rewrite emit_ref_code. destruct r as [i|i|n]; cbn; rewrite !app_length; cbn; lia. Qed.
Lemma spare_atom r s o s' : emit_atom r s = (o, s') -> spare s -> spare s'.
Proof. intros E H. inversion E; subst. now apply spare_ref, spare_emit. Qed.
Lemma spare_smap {A B} (f : A -> enc -> B * enc) l :
  (forall a, In a l -> forall s b s', f a s = (b, s') -> spare s -> spare s') ->
  forall s bs s', smap f l s = (bs, s') -> spare s -> spare s'.
Proof.
  induction l as [|a l IH]; intros H s bs s' E Sp; cbn [smap] in E.
  - now inversion E; subst.
  - destruct (f a s) as [b s1] eqn:E1. destruct (smap f l s1) as [bs' s2] eqn:E2. inversion E; subst.
    eapply IH; [|exact E2|eapply H; [now left|exact E1|exact Sp]]. intros x I. apply H. now right.
Qed.
Lemma spare_args args s offs s' : emit_arg_atoms args s = (offs, s') -> spare s -> spare s'.
Proof. intros E. eapply spare_smap; [|exact E]. intros a _ s0 b s1 H. eapply spare_atom, H. Qed.
Ltac sp := repeat first [apply spare_emit | apply spare_ref]; auto.
Lemma spare_fused id l r s o s' : emit_fused_primop_refs id l r s = (o, s') -> spare s -> spare s'.
Proof.
  unfold emit_fused_primop_refs. destruct (emit_atom l s) as [lo s1] eqn:E1. destruct (emit_atom r s1) as [ro s2] eqn:E2.
  intros E Sp; inversion E; subst. apply spare_emit. eapply spare_atom; [exact E2|]. eapply spare_atom; eauto.
Qed.
Lemma encode_spare t : forall s o s', encode_node t s = (o, s') -> spare s -> spare s'.
Proof.
  induction t using syn_ind'; intros s0 o0 s' E Sp; cbn [encode_node] in E.
  - eapply spare_atom; eauto.
  - destruct (encode_node t s0) as [so s1] eqn:E1. destruct (smap _ bs s1) as [data s2] eqn:E2.
    apply IHt in E1; [|exact Sp].
    assert (spare s2) as S2.
    { eapply spare_smap; [|exact E2|exact E1]. intros b I s4 r s5 Eb. cbv beta in Eb.
      destruct (encode_node (snd b) s4) as [o5 s6] eqn:E6. inversion Eb; subst.
      rewrite Forall_forall in H. eapply H; [exact I|exact E6]. }
    destruct fb as [f|].
    + destruct (encode_node f s2) as [fo s3] eqn:E3. inversion E; subst. eapply H0 in E3; [|reflexivity|exact S2]. sp.
    + inversion E; subst. sp.
  - destruct (emit_arg_atoms args s0) as [offs s1] eqn:E1. inversion E; subst. apply spare_args in E1; auto. sp.
  - destruct (emit_arg_atoms args s0) as [offs s1] eqn:E1. inversion E; subst. apply spare_args in E1; auto. sp.
  - destruct (emit_arg_atoms args s0) as [offs s1] eqn:E1. inversion E; subst. apply spare_args in E1; auto. sp.
  - destruct (emit_arg_atoms args s0) as [offs s1] eqn:E1. inversion E; subst. apply spare_args in E1; auto. sp.
  - destruct (smap _ bs s0) as [offs s1] eqn:E1. destruct (encode_node t s1) as [bo s2] eqn:E2. inversion E; subst.
    apply spare_emit. eapply IHt; [exact E2|]. eapply spare_smap; [|exact E1|exact Sp].
    intros b I s4 r s5 Eb. rewrite Forall_forall in H. eapply H; [exact I|exact Eb].
  - destruct (encode_node t s0) as [bo s1] eqn:E1. inversion E; subst. apply IHt in E1; auto. sp.
  - destruct (emit_atom m s0) as [lo s1] eqn:E1. destruct (emit_atom b s1) as [ro s2] eqn:E2.
    inversion E; subst. apply spare_atom in E1; auto. apply spare_atom in E2; auto. sp.
  - destruct (encode_node t1 s0) as [o1 s1] eqn:E1. destruct (encode_node t2 s1) as [o2 s2] eqn:E2.
    destruct (encode_node t3 s2) as [o3 s3] eqn:E3. inversion E; subst.
    apply IHt1 in E1; auto. apply IHt2 in E2; auto. apply IHt3 in E3; auto. sp.
  - destruct (encode_node t1 s0) as [o1 s1] eqn:E1. destruct (encode_node t2 s1) as [o2 s2] eqn:E2.
    inversion E; subst. apply IHt1 in E1; auto. apply IHt2 in E2; auto. sp.
  - destruct (emit_atom d s0) as [lo s1] eqn:E1. inversion E; subst. apply spare_atom in E1; auto. sp.
  - eapply spare_fused; eauto.
  - inversion E; subst. sp.
Qed.
Lemma spare_small s : spare s -> code_fits (e_code s) = true -> small s.
Proof. unfold spare, code_fits, small, no_branch. intros A B. apply N.leb_le in B. lia. Qed.

(** ** Nothing is lost *)
Lemma stands_unique (consts : list native) d r r' : stands_for consts d r -> stands_for consts d r' -> r = r'.
Proof.
  destruct r as [i|i|n], r' as [i'|i'|n']; cbn; intros A B;
    repeat match goal with H : exists _, _ |- _ => destruct H as (? & ? & ?) end; subst; try congruence.
  all: match goal with H : DValue _ = DValue _ |- _ => inversion H; subst end; congruence.
Qed.
Lemma stands_unique_all (consts : list native) ds : forall rs rs', Forall2 (stands_for consts) ds rs ->
  Forall2 (stands_for consts) ds rs' -> rs = rs'.
Proof.
  induction ds as [|d ds IH]; intros rs rs' A B; inversion A; subst; inversion B; subst; auto. f_equal.
  - eapply stands_unique; eauto.
  - now apply IH.
Qed.
Lemma atom_unique code (consts : list native) o r r' : atom_at code consts o r -> atom_at code consts o r' -> r = r'.
Proof. intros (d & E & A) (d' & E' & B). rewrite E in E'. inversion E'; subst. eapply stands_unique; eauto. Qed.
Lemma atom_unique_all code (consts : list native) ds : forall rs rs', Forall2 (atom_at code consts) ds rs ->
  Forall2 (atom_at code consts) ds rs' -> rs = rs'.
Proof.
  induction ds as [|d ds IH]; intros rs rs' A B; inversion A; subst; inversion B; subst; auto. f_equal.
  - eapply atom_unique; eauto.
  - now apply IH.
Qed.
Lemma reads_unique code consts o (t : syn) : reads code consts o t -> forall t', reads code consts o t' -> same t t'.
Proof.
  induction 1; intros t' R.
  - destruct H as (d & E & A). inversion R as [? ? (d' & E' & A')| | | | | | | | | | | | |]; subst; try congruence.
    assert (r = r0) as -> by (rewrite E in E'; inversion E'; subst; eapply stands_unique; eauto). apply Sm_refl.
  - inversion R as [? ? (d' & E' & A')|? ? ? ? ? ? ? ? E' R1 N1 B1 N2 B2| | | | | | | | | | | |]; subst; try congruence.
    rewrite H in E'. inversion E'; subst. apply Sm_case.
    + now apply IHreads.
    + intros tag. now rewrite <- H1, <- N1.
    + intros tag b b' X Y. destruct (match_tag min0 table0 tag) as [o|] eqn:M.
      * eapply H3; eauto.
      * rewrite (proj1 (H1 tag) M) in X. discriminate.
    + now rewrite <- H4, <- N2.
    + intros f f' X Y. destruct fo0 as [o|].
      * eapply H6; eauto.
      * rewrite (proj1 H4 eq_refl) in X. discriminate.
  - inversion R as [? ? (d' & E' & A')| |? ? ? ? E' F'| | | | | | | | | | |]; subst; try congruence.
    rewrite H in E'. inversion E'; subst. rewrite (stands_unique_all _ _ _ _ H0 F'). apply Sm_refl.
  - inversion R as [? ? (d' & E' & A')| | |? ? ? ? ? ? E' S' F'| | | | | | | | | |]; subst; try congruence.
    rewrite H in E'. inversion E'; subst. rewrite (atom_unique_all _ _ _ _ _ H1 F'), (stands_unique _ _ _ _ H0 S'). apply Sm_refl.
  - inversion R as [? ? (d' & E' & A')| | | |? ? ? ? ? ? ? E' S' F'| | | | | | | | |]; subst; try congruence.
    rewrite H in E'. inversion E'; subst. rewrite (atom_unique_all _ _ _ _ _ H1 F'), (stands_unique _ _ _ _ H0 S'). apply Sm_refl.
  - inversion R as [? ? (d' & E' & A')| | | | |? ? ? ? E' F'| | | | | | | |]; subst; try congruence.
    rewrite H in E'. inversion E'; subst. rewrite (stands_unique_all _ _ _ _ H0 F'). apply Sm_refl.
  - inversion R as [? ? (d' & E' & A')| | | | | |? ? ? ? ? ? E' L' I' B' R'| | | | | | |]; subst; try congruence.
    rewrite H in E'. inversion E'; subst. apply Sm_let.
    + congruence.
    + intros i k b k' b' X Y. destruct (nth_error hs0 i) as [h|] eqn:M.
      * rewrite <- (H1 _ _ _ _ M X). apply (I' _ _ _ _ M Y).
      * apply nth_error_None in M. assert (i < length bs)%nat by (apply nth_error_Some; congruence). lia.
    + intros i k b k' b' X Y. destruct (nth_error hs0 i) as [h|] eqn:M.
      * apply (H3 _ _ _ _ M X). apply (B' _ _ _ _ M Y).
      * apply nth_error_None in M. assert (i < length bs)%nat by (apply nth_error_Some; congruence). lia.
    + now apply IHreads.
  - inversion R as [? ? (d' & E' & A')| | | | | | |? ? ? ? E' R'| | | | | |]; subst; try congruence.
    rewrite H in E'. inversion E'; subst. apply Sm_ann. now apply IHreads.
  - inversion R as [? ? (d' & E' & A')| | | | | | | |? ? ? ? ? E' S1 S2| | | | |]; subst; try congruence.
    rewrite H in E'. inversion E'; subst. rewrite (stands_unique _ _ _ _ H0 S1), (stands_unique _ _ _ _ H1 S2). apply Sm_refl.
  - inversion R as [? ? (d' & E' & A')| | | | | | | | |? ? ? ? ? ? ? E' R1 R2 R3| | | |]; subst; try congruence.
    rewrite H in E'. inversion E'; subst. apply Sm_demeta; auto.
  - inversion R as [? ? (d' & E' & A')| | | | | | | | | |? ? ? ? ? E' R1 R2| | |]; subst; try congruence.
    rewrite H in E'. inversion E'; subst. apply Sm_seq; auto.
  - inversion R as [? ? (d' & E' & A')| | | | | | | | | | |? ? ? ? ? ? ? ? E' S1 S2 S3| |]; subst; try congruence.
    rewrite H in E'. inversion E'; subst.
    rewrite (stands_unique _ _ _ _ H0 S1), (stands_unique _ _ _ _ H1 S2), (atom_unique _ _ _ _ _ H2 S3). apply Sm_refl.
  - inversion R as [? ? (d' & E' & A')| | | | | | | | | | | |? ? ? ? ? ? ? E' S1 S2|]; subst; try congruence.
    rewrite H in E'. inversion E'; subst. rewrite (atom_unique _ _ _ _ _ H0 S1), (atom_unique _ _ _ _ _ H1 S2). apply Sm_fused.
  - inversion R as [? ? (d' & E' & A')| | | | | | | | | | | | |]; subst; try congruence. apply Sm_refl.
Qed.
End Prog.
