(** Which source location a pre-decoded node has. *)
From Coq Require Import List Bool Arith NArith Lia ZifyN ZifyNat ZifyBool.
From Verif.Simplify Require Import Compress.
From Verif.Bytecode Require Import Model Spec Proofs EncProofs ProgProofs.
From Verif.Predecode Require Import Model Spec InvProofs NodeProofs RunProofs.
Import ListNotations.
Open Scope N_scope.

Section Code.
Context (code : list N) (Ok : is_code code).
Notation inv := (inv code).

(** ** How deep resolving an offset goes *)
Inductive needs (d : dec) : N -> nat -> Prop :=
| n_hit o i : ord_lookup (d_ord d) o = Some i -> needs d o 0
| n_new o op pc : ord_lookup (d_ord d) o = None -> read_u8 code o = Done (op, pc) -> op <> op_ann -> needs d o 0
| n_ann o s b k : ord_lookup (d_ord d) o = None -> read_node code o = Done (NAnn s b) -> needs d b k -> needs d o (S k).
Lemma needs_fun d o k : needs d o k -> forall k', needs d o k' -> k = k'.
Proof.
  induction 1 as [o i H|o op pc H E Ne|o s b k H E N IH]; intros k' N'; inversion N' as [? ? H'|? ? ? H' E' Ne'|? ? ? ? H' E' N'']; subst; try congruence.
  - apply ann_byte in E'. destruct E' as [pc' E']. congruence.
  - apply ann_byte in E. destruct E as [pc' E]. congruence.
  - rewrite E in E'. inversion E'; subst. f_equal. auto.
Qed.
Lemma ordinal_inv fuel off d i d' : ordinal_for code fuel off d = Done (i, d') ->
  (ord_lookup (d_ord d) off = Some i /\ d' = d) \/
  (ord_lookup (d_ord d) off = None /\ exists op pc, read_u8 code off = Done (op, pc) /\
    ((op <> op_ann /\ new_ordinal off d = Done (i, d')) \/
     (exists f s b d1 old d2, fuel = S f /\ read_node code off = Done (NAnn s b) /\ ordinal_for code f b d = Done (i, d1)
       /\ nth_error (d_smids d1) (N.to_nat i) = Some old
       /\ (if old =? 0 then set_smid i s d1 = Done (tt, d2) else d2 = d1)
       /\ d' = mkDec ((off, i) :: d_ord d2) (d_off d2) (d_instrs d2) (d_smids d2) (d_refs d2) (d_offsets d2) (d_headers d2) (d_branches d2) (d_queue d2)))).
Proof.
  intros E. destruct fuel as [|f]; cbn [ordinal_for] in E; (destruct (ord_lookup (d_ord d) off) as [j|] eqn:El; [inversion E; subst; auto|]);
  right; split; try reflexivity; ubind E a d0 E0; ulift E0; destruct a as [op pc]; exists op, pc; (split; [exact E0|]);
  (destruct (op =? op_ann) eqn:Eo; [apply N.eqb_eq in Eo|apply N.eqb_neq in Eo; left; auto]); right;
  ubind E a d1 E1; ulift E1; destruct a as [s pc1]; ubind E a d1 E2; ulift E2; destruct a as [b pc2]; ubind E bo d1 E3; [discriminate|].
  ubind E old d2 E4. unfold get_smid in E4. destruct (nth_error (d_smids d1) (N.to_nat bo)) as [s0|] eqn:Es; [|discriminate].
  inversion E4; subst s0 d2; clear E4. ubind E u d2 E5. inversion E; subst; clear E.
  exists f, s, b, d1, old, d2. split; [reflexivity|]. split; [exact (read_ann code _ _ _ _ _ _ _ E0 eq_refl E1 E2)|].
  split; [exact E3|]. split; [exact Es|]. split; [|reflexivity]. destruct (old =? 0); [destruct u; exact E5|now inversion E5].
Qed.
Lemma set_smid_same o s d u d' : set_smid o s d = Done (u, d') -> d_ord d' = d_ord d /\ d_off d' = d_off d /\ d_instrs d' = d_instrs d
  /\ d_smids d' = replace (N.to_nat o) s (d_smids d) /\ d_queue d' = d_queue d.
Proof. unfold set_smid. destruct (nth_error _ _); intros E; inversion E; subst; auto. Qed.
Lemma maybe_smid_same (c : bool) o s d d' : (if c then set_smid o s d = Done (tt, d') else d' = d) ->
  d_ord d' = d_ord d /\ d_off d' = d_off d /\ d_instrs d' = d_instrs d
  /\ d_smids d' = (if c then replace (N.to_nat o) s (d_smids d) else d_smids d).
Proof. destruct c; [intros E; apply set_smid_same in E; tauto|intros ->; auto]. Qed.
Lemma ordinal_needs fuel : forall off d i d', ordinal_for code fuel off d = Done (i, d') ->
  exists k, (k <= fuel)%nat /\ needs d off k /\
    forall o, ord_lookup (d_ord d) o = None -> ord_lookup (d_ord d') o <> None -> exists k', (k' <= k)%nat /\ needs d o k'.
Proof.
  induction fuel as [|f IH]; intros off d i d' E; apply ordinal_inv in E;
  destruct E as [(El & ->)|(El & op & pc & E0 & [(Ne & En)|(f' & s & b & d1 & old & d2 & Ef & En & E1 & Es & E2 & ->)])]; try discriminate.
  1, 3: exists 0%nat; split; [lia|]; split; [eapply n_hit, El|]; congruence.
  1, 2: exists 0%nat; split; [lia|]; split; [eapply n_new; eauto|]; intros o H1 H2; unfold new_ordinal in En; inversion En; subst;
     cbn in H2; rewrite lookup_cons in H2; destruct (off =? o) eqn:Eq; [|congruence]; apply N.eqb_eq in Eq; subst o; exists 0%nat; split; [lia|eapply n_new; eauto].
  inversion Ef; subst f'; clear Ef. destruct (IH _ _ _ _ E1) as (k & Lk & Nk & Hk). exists (S k). split; [lia|]. split; [eapply n_ann; eauto|].
  intros o H1 H2. cbn in H2. rewrite lookup_cons in H2. destruct (off =? o) eqn:Eq.
  - apply N.eqb_eq in Eq. subst o. exists (S k). split; [lia|]. eapply n_ann; eauto.
  - apply maybe_smid_same in E2. destruct E2 as (Eo & _). rewrite Eo in H2. destruct (Hk o H1 H2) as (k' & L' & N'). exists k'. split; [lia|exact N'].
Qed.
Lemma body_fresh f off s b d i d1 : ord_lookup (d_ord d) off = None -> read_node code off = Done (NAnn s b) ->
  ordinal_for code f b d = Done (i, d1) -> ord_lookup (d_ord d1) off = None.
Proof.
  intros El En E. destruct (ordinal_needs _ _ _ _ _ E) as (k & _ & Nk & Hk). destruct (ord_lookup (d_ord d1) off) eqn:E1; [|reflexivity].
  destruct (Hk off El) as (k' & L & N'); [congruence|]. pose proof (needs_fun _ _ _ N' (S k) (n_ann d off s b k El En Nk)). lia.
Qed.

(** ** The locations *)
Definition own (o : N) : option N :=
  match read_node code o with Done (NDirectApp _ s _ _) => Some s | Done (NLookupLit s _ _ _) => Some s | _ => None end.
Definition is_ann (o : N) : bool := match read_node code o with Done (NAnn _ _) => true | _ => false end.
Definition ann_smid (o : N) : N := match read_node code o with Done (NAnn s _) => s | _ => 0 end.
Fixpoint first_valid (l : list N) : N := match l with [] => 0 | s :: l => if s =? 0 then first_valid l else s end.
Lemma first_valid_snoc l s : first_valid (l ++ [s]) = if first_valid l =? 0 then s else first_valid l.
Proof. induction l as [|a l IH]; cbn; [destruct (s =? 0) eqn:E; [apply N.eqb_eq in E; auto|reflexivity]|]. destruct (a =? 0) eqn:Ea; [exact IH|]. now rewrite Ea. Qed.
Lemma first_valid_in l : first_valid l = 0 \/ In (first_valid l) l.
Proof. induction l as [|a l IH]; cbn; [auto|]. destruct (a =? 0); [destruct IH; auto|auto]. Qed.
(** Annotations resolved to an ordinal, oldest first. *)
Definition ann_keys (m : list (N * N)) (i : N) : list N := rev (map fst (filter (fun e => (snd e =? i) && is_ann (fst e)) m)).
Lemma ann_keys_cons o j m i : ann_keys ((o, j) :: m) i = ann_keys m i ++ (if (j =? i) && is_ann o then [o] else []).
Proof. unfold ann_keys. cbn. destruct ((j =? i) && is_ann o); cbn; [reflexivity|now rewrite app_nil_r]. Qed.
Lemma ann_keys_in m i o : In o (ann_keys m i) <-> In (o, i) m /\ is_ann o = true.
Proof.
  unfold ann_keys. rewrite <- in_rev, in_map_iff. split.
  - intros ([o' j] & <- & H). apply filter_In in H. destruct H as [H1 H2]. cbn in H2. apply andb_true_iff in H2. destruct H2 as [H2 H3]. apply N.eqb_eq in H2. subst j. auto.
  - intros [H1 H2]. exists (o, i). split; [reflexivity|]. apply filter_In. split; [exact H1|]. cbn. now rewrite N.eqb_refl, H2.
Qed.
Lemma lookup_in m o i : ord_lookup m o = Some i -> In (o, i) m.
Proof.
  induction m as [|[a j] m IH]; [discriminate|]. rewrite lookup_cons. destruct (a =? o) eqn:E; [apply N.eqb_eq in E; intros H; inversion H; subst; now left|].
  intros H. right. auto.
Qed.
Lemma in_lookup m o i : NoDup (map fst m) -> In (o, i) m -> ord_lookup m o = Some i.
Proof.
  induction m as [|[a j] m IH]; [intros _ []|]. cbn. intros ND. inversion ND as [|x l Nx ND']; subst. rewrite lookup_cons. intros [H|H].
  - inversion H; subst. now rewrite N.eqb_refl.
  - destruct (a =? o) eqn:E; [|auto]. apply N.eqb_eq in E. subst a. exfalso. apply Nx. change o with (fst (o, i)). now apply in_map.
Qed.
Lemma lookup_none m o : ord_lookup m o = None -> ~ In o (map fst m).
Proof.
  induction m as [|[a j] m IH]; [auto|]. rewrite lookup_cons. destruct (a =? o) eqn:E; [discriminate|]. apply N.eqb_neq in E. cbn. intros H [K|K]; auto. now apply IH.
Qed.
Definition anns (d : dec) (i : nat) : list N := map ann_smid (ann_keys (d_ord d) (N.of_nat i)).
(** [cur]: an ordinal whose own location has been set, though its instruction has not. *)
Record li (cur : option N) (d : dec) : Prop := {
  l_nodup : NoDup (map fst (d_ord d));
  l_order : forall l1 o i l2 s b, d_ord d = l1 ++ (o, i) :: l2 -> read_node code o = Done (NAnn s b) -> In (b, i) l2;
  l_free : forall i o s, nth_error (d_off d) i = Some o -> nth_error (d_smids d) i = Some s ->
    own o = None \/ (nth_error (d_instrs d) i = Some None /\ cur <> Some (N.of_nat i)) -> s = first_valid (anns d i);
  l_own : forall i o s s', nth_error (d_off d) i = Some o -> nth_error (d_smids d) i = Some s -> own o = Some s' -> s' <> 0 ->
    (exists x, nth_error (d_instrs d) i = Some (Some x)) \/ cur = Some (N.of_nat i) -> s = s';
  l_any : forall i o s, nth_error (d_off d) i = Some o -> nth_error (d_smids d) i = Some s -> s = 0 \/ own o = Some s \/ In s (anns d i) }.

Lemma new_ordinal_li cur off d i d' op pc : new_ordinal off d = Done (i, d') -> inv cur d -> li None d ->
  ord_lookup (d_ord d) off = None -> read_u8 code off = Done (op, pc) -> op <> op_ann -> li None d'.
Proof.
  unfold new_ordinal. intros E V I El E0 Ne. inversion E; subst; clear E.
  assert (is_ann off = false) as Na.
  { unfold is_ann. destruct (read_node code off) as [[]| |] eqn:En; try reflexivity. apply ann_byte in En. destruct En as [pc' En]. congruence. }
  pose proof (off_small code Ok _ _ V) as Os. pose proof (code_small code Ok) as Cs.
  pose proof (v_len1 _ _ _ V) as L1. pose proof (v_len2 _ _ _ V) as L2.
  assert (u32 (N.of_nat (length (d_instrs d))) = N.of_nat (length (d_off d))) as Eu.
  { unfold u32. rewrite L1. apply N.mod_small. unfold no_branch in Cs. lia. }
  rewrite Eu. remember (N.of_nat (length (d_off d))) as n eqn:Hnn.
  assert (forall k, ann_keys ((off, n) :: d_ord d) k = ann_keys (d_ord d) k) as Ka.
  { intros k. rewrite ann_keys_cons, Na, andb_false_r. apply app_nil_r. }
  destruct I as [I1 I2 I3 I4 I5]. constructor; cbn [d_ord d_off d_instrs d_smids map fst].
  - constructor; [now apply lookup_none|exact I1].
  - intros l1 o k l2 s b H1 H2. destruct l1 as [|e l1]; cbn in H1; inversion H1; subst.
    + apply ann_byte in H2. destruct H2 as [pc' H2]. congruence.
    + eapply I2; eauto.
  - intros k o s H1 H2 H3. unfold anns. cbn [d_ord]. rewrite Ka. apply nth_snoc in H1. apply nth_snoc in H2.
    destruct H1 as [H1|[-> ->]].
    + assert (k < length (d_off d))%nat as Lk by (apply nth_error_Some; congruence). destruct H2 as [H2|[-> _]]; [|lia].
      apply (I3 k o s H1 H2). destruct H3 as [H3|[H3 _]]; [now left|]. right. split; [|discriminate].
      apply nth_snoc in H3. destruct H3 as [H3|[-> _]]; [exact H3|lia].
    + destruct H2 as [H2|[_ ->]].
      * assert (length (d_off d) < length (d_smids d))%nat by (apply nth_error_Some; congruence). lia.
      * replace (ann_keys (d_ord d) (N.of_nat (length (d_off d)))) with (@nil N); [reflexivity|].
        destruct (ann_keys _ _) as [|a l] eqn:Ea; [reflexivity|]. exfalso.
        assert (In a (ann_keys (d_ord d) (N.of_nat (length (d_off d))))) as Hin by (rewrite Ea; now left).
        apply ann_keys_in in Hin. destruct Hin as [Hin _]. apply (in_lookup _ _ _ I1) in Hin. apply (v_ord _ _ _ V) in Hin. lia.
  - intros k o s s' H1 H2 H3 H4 [[x H5]|H5]; [|discriminate]. apply nth_snoc in H5. destruct H5 as [H5|[_ H5]]; [|discriminate].
    assert (k < length (d_instrs d))%nat as Lk by (apply nth_error_Some; congruence).
    apply nth_snoc in H1. destruct H1 as [H1|[-> _]]; [|lia]. apply nth_snoc in H2. destruct H2 as [H2|[-> _]]; [|lia]. eapply I4; eauto.
  - intros k o s H1 H2. apply nth_snoc in H2. destruct H2 as [H2|[_ ->]]; [|now left].
    assert (k < length (d_smids d))%nat as Lk by (apply nth_error_Some; congruence).
    apply nth_snoc in H1. destruct H1 as [H1|[-> _]]; [|lia]. unfold anns. cbn [d_ord]. rewrite Ka. exact (I5 k o s H1 H2).
Qed.
Lemma ordinal_li cur fuel : forall off d i d', ordinal_for code fuel off d = Done (i, d') -> inv cur d -> li None d -> li None d'.
Proof.
  induction fuel as [|f IH]; intros off d i d' E V I; apply ordinal_inv in E;
  destruct E as [(El & ->)|(El & op & pc & E0 & [(Ne & En)|(f' & s & b & d1 & old & d2 & Ef & En & E1 & Es & E2 & ->)])]; try discriminate; auto;
  try (eapply new_ordinal_li; eauto; fail).
  inversion Ef; subst f'; clear Ef. pose proof (IH _ _ _ _ E1 V I) as [I1 I2 I3 I4 I5].
  destruct (ordinal_for_assigned code Ok _ _ _ _ _ _ E1 V) as [A1 M1]. pose proof (a_inv _ _ _ _ A1) as V1.
  pose proof (body_fresh _ _ _ _ _ _ _ El En E1) as Fr. apply maybe_smid_same in E2. destruct E2 as (Q1 & Q2 & Q3 & Q4).
  assert (forall k, ann_keys ((off, i) :: d_ord d1) k = ann_keys (d_ord d1) k ++ (if i =? k then [off] else [])) as Ka.
  { intros k. rewrite ann_keys_cons. replace (is_ann off) with true by (unfold is_ann; now rewrite En). now rewrite andb_true_r. }
  assert (ann_smid off = s) as Sm by (unfold ann_smid; now rewrite En).
  constructor; cbn [d_ord d_off d_instrs d_smids map fst]; rewrite ?Q1, ?Q2, ?Q3, ?Q4.
  - constructor; [now apply lookup_none|exact I1].
  - intros l1 o k l2 s' b' H1 H2. destruct l1 as [|e l1]; cbn in H1; inversion H1; subst.
    + rewrite En in H2. inversion H2; subst. now apply lookup_in.
    + eapply I2; eauto.
  - intros k o s0 H1 H2 H3. unfold anns. cbn [d_ord]. rewrite Ka.
    destruct (i =? N.of_nat k) eqn:Ek.
    + apply N.eqb_eq in Ek. subst i. rewrite Nat2N.id in *. pose proof (I3 k o old H1 Es H3) as Eo. unfold anns in Eo.
      rewrite map_app. cbn [map]. rewrite Sm, first_valid_snoc, <- Eo. destruct (old =? 0); [|congruence].
      rewrite replace_nth, Nat.eqb_refl, Es in H2. congruence.
    + rewrite app_nil_r. apply (I3 k o s0 H1); [|exact H3]. apply N.eqb_neq in Ek. destruct (old =? 0); [|exact H2].
      rewrite replace_nth in H2. destruct (Nat.eqb_spec (N.to_nat i) k); [lia|exact H2].
  - intros k o s0 s' H1 H2 H3 H4 H5. apply (I4 k o s0 s' H1); auto. destruct (old =? 0) eqn:Eo; [|exact H2].
    apply N.eqb_eq in Eo. subst old. rewrite replace_nth in H2. destruct (Nat.eqb_spec (N.to_nat i) k) as [K|K]; [|exact H2].
    exfalso. subst k. pose proof (I4 _ o 0 s' H1 Es H3 H4 H5). auto.
  - intros k o s0 H1 H2. unfold anns. cbn [d_ord]. rewrite Ka, map_app.
    assert (nth_error (d_smids d1) k = Some s0 \/ (i = N.of_nat k /\ s0 = s)) as [H3|[-> ->]].
    { destruct (old =? 0); [|auto]. rewrite replace_nth in H2. destruct (Nat.eqb_spec (N.to_nat i) k); [|auto]. right. split; [lia|].
      destruct (nth_error (d_smids d1) k); congruence. }
    + destruct (I5 k o s0 H1 H3) as [A|[A|A]]; auto. right; right. apply in_app_iff. now left.
    + right; right. rewrite N.eqb_refl. apply in_app_iff. right. cbn. auto.
Qed.
Lemma li_ext cur d d' : d_ord d' = d_ord d -> d_off d' = d_off d -> d_instrs d' = d_instrs d -> d_smids d' = d_smids d -> li cur d -> li cur d'.
Proof. intros Q1 Q2 Q3 Q4 [I1 I2 I3 I4 I5]. constructor; unfold anns in *; rewrite ?Q1, ?Q2, ?Q3, ?Q4; auto. Qed.

Section Node.
Context (fuel : nat) (ord : N).
Definition both (d : dec) : Prop := inv (Some ord) d /\ li None d.
Notation kb := (keeps (fun d d' => both d -> both d')).
Lemma kb_ordinal off : kb (ordinal_for code fuel off).
Proof.
  intros d a d' E [V I]. split; [apply (ordinal_for_assigned code Ok _ _ _ _ _ _ E V)|exact (ordinal_li _ _ _ _ _ _ E V I)].
Qed.
Ltac kbp d V I := split; [apply pool_inv; auto using prefix_refl, prefix_snoc|apply (li_ext None d); [reflexivity|reflexivity|reflexivity|reflexivity|exact I]].
Lemma kb_ref r : kb (push_ref r).
Proof. intros d a d' E [V I]. inversion E; subst. kbp d V I. Qed.
Lemma kb_off r : kb (push_offset r).
Proof. intros d a d' E [V I]. inversion E; subst. kbp d V I. Qed.
Lemma kb_header r : kb (push_header r).
Proof. intros d a d' E [V I]. inversion E; subst. kbp d V I. Qed.
Lemma kb_branch r : kb (push_branch r).
Proof. intros d a d' E [V I]. inversion E; subst. kbp d V I. Qed.
Lemma own_set s d u d' off : set_smid ord s d = Done (u, d') -> both d -> own off = Some s -> nth_error (d_off d) (N.to_nat ord) = Some off ->
  li (Some ord) d'.
Proof.
  intros E [V I] Ho Hn. apply set_smid_same in E. destruct E as (Q1 & Q2 & Q3 & Q4 & _). destruct I as [I1 I2 I3 I4 I5].
  constructor; unfold anns in *; rewrite ?Q1, ?Q2, ?Q3, ?Q4; auto.
  - intros i o s0 H1 H2 H3. rewrite replace_nth in H2. destruct (Nat.eqb_spec (N.to_nat ord) i) as [K|K].
    + subst i. rewrite Hn in H1. inversion H1; subst o. rewrite N2Nat.id in H3. destruct H3 as [H3|[_ H3]]; congruence.
    + apply (I3 i o s0 H1 H2). destruct H3 as [H3|[H3 _]]; [now left|right; split; [exact H3|discriminate]].
  - intros i o s0 s' H1 H2 H3 H4 H5. rewrite replace_nth in H2. destruct (Nat.eqb_spec (N.to_nat ord) i) as [K|K].
    + subst i. destruct (nth_error (d_smids d) _); [|discriminate]. congruence.
    + apply (I4 i o s0 s' H1 H2 H3 H4). destruct H5 as [H5|H5]; [now left|]. inversion H5. lia.
  - intros i o s0 H1 H2. rewrite replace_nth in H2. destruct (Nat.eqb_spec (N.to_nat ord) i) as [K|K]; [|eauto].
    subst i. destruct (nth_error (d_smids d) _); [|discriminate]. right; left. congruence.
Qed.
Ltac rn E0 := unfold own, read_node; rewrite E0; cbn [obind];
  repeat match goal with |- context [?a =? ?b] => let v := eval compute in (a =? b) in change (a =? b) with v end;
  cbn [orb]; cbv iota;
  repeat match goal with H : ?r = Done _ |- context [obind ?r _] => rewrite H; cbn [obind] end.
Lemma own_byte o s : own o = Some s -> exists pc, read_u8 code o = Done (op_direct_app, pc) \/ read_u8 code o = Done (op_lookup_lit, pc).
Proof.
  unfold own. destruct (read_node code o) as [n| |] eqn:En; try discriminate. intros H. revert En.
  unfold read_node. destruct (read_u8 code o) as [[op pc]| |] eqn:E; try discriminate. cbn [obind]. intros En. exists pc.
  destruct (op =? op_direct_app) eqn:O1; [apply N.eqb_eq in O1; subst; auto|].
  destruct (op =? op_lookup_lit) eqn:O2; [apply N.eqb_eq in O2; subst; auto|]. exfalso. revert En.
  repeat match goal with
  | |- Done _ = _ -> _ => intros K; inversion K; subst n; discriminate H
  | |- Error = _ -> _ => intros K; discriminate K
  | |- Panic = _ -> _ => intros K; discriminate K
  | |- (if ?x then _ else _) = _ -> _ => destruct x
  | |- (let '(_, _) := ?p in _) = _ -> _ => destruct p
  | |- obind ?x _ = _ -> _ => destruct x; cbn [obind]
  end.
Qed.
Lemma node_li off d x d' : decode_node code fuel off ord d = Done (x, d') -> both d -> nth_error (d_off d) (N.to_nat ord) = Some off ->
  (own off = None /\ li None d') \/ li (Some ord) d'.
Proof.
  intros E B Hn. assert (exists op pc, read_u8 code off = Done (op, pc)) as (op & pc & E0).
  { unfold decode_node in E. ubind E a d0 E1. ulift E1. destruct a as [op pc]. eauto. }
  destruct (N.eq_dec op op_direct_app) as [O1|O1]; [|destruct (N.eq_dec op op_lookup_lit) as [O2|O2]].
  - subst op. right.
      unfold decode_node in E. ubind E a d0 E1. ulift E1. rewrite E0 in E1. inversion E1; subst a; clear E1.
      repeat match type of E with context [?a =? ?b] => let v := eval compute in (a =? b) in change (a =? b) with v in E end.
      cbn [orb] in E. cbv iota in E.
      ubind E a d1 E1. ulift E1. destruct a as [flags pc1]. ubind E a d1 E5. ulift E5. destruct a as [sm pcs]. ubind E a d1 E2. ulift E2. destruct a as [c pc2].
      ubind E a d1 E3. ulift E3. destruct a as [offs pc3]. ubind E a d1 E4. destruct a as [start len]. ubind E u d2 E6. inversion E; subst; clear E.
      assert (own off = Some sm) as Eo' by (rn E0; reflexivity). 
      eapply own_set; [exact E6| |exact Eo'|].
      * revert B. eapply (k_offsets (fun d d' => both d -> both d')); eauto using kb_ordinal, kb_off.
      * assert (inv (Some ord) d1 /\ grows d d1) as [_ G].
        { unfold push_offsets in E4. ubind E4 st d3 E7. inversion E7; subst; clear E7. ubind E4 uu d4 E8. inversion E4; subst; clear E4.
          exact (proj1 (each_offsets code Ok _ _ _ _ _ _ E8 (proj1 B))). }
        eapply prefix_nth; [apply G|exact Hn].
  - subst op. right.
      unfold decode_node in E. ubind E a d0 E1. ulift E1. rewrite E0 in E1. inversion E1; subst a; clear E1.
      repeat match type of E with context [?a =? ?b] => let v := eval compute in (a =? b) in change (a =? b) with v in E end.
      cbn [orb] in E. cbv iota in E.
      ubind E a d1 E1. ulift E1. destruct a as [sm pc1]. ubind E a d1 E2. ulift E2. destruct a as [k pc2].
      ubind E a d1 E3. ulift E3. destruct a as [o pc3]. ubind E a d1 E4. ulift E4. destruct a as [dfo pc4].
      ubind E dm d1 E5. ubind E u d2 E6. inversion E; subst; clear E.
      assert (own off = Some sm) as Eo' by (rn E0; reflexivity).
      eapply own_set; [exact E6|exact (kb_ordinal _ _ _ _ E5 B)|exact Eo'|].
      destruct (ordinal_for_assigned code Ok _ _ _ _ _ _ E5 (proj1 B)) as [A _]. eapply prefix_nth; [apply A|exact Hn].
  - left. split.
    { destruct (own off) as [s|] eqn:Eo; [|reflexivity]. exfalso. destruct (own_byte _ _ Eo) as (pc' & [K|K]); rewrite E0 in K; inversion K; subst; auto. }
    enough (both d -> both d') as H by exact (proj2 (H B)).
    eapply (k_node (fun d d' => both d -> both d')); eauto using kb_ordinal, kb_off, kb_ref, kb_header, kb_branch.
    intros op' pc' s K [->| ->]; rewrite E0 in K; inversion K; subst; contradiction.
Qed.
Lemma set_instr_li off x d u d' : set_instr ord x d = Done (u, d') -> nth_error (d_off d) (N.to_nat ord) = Some off ->
  (own off = None /\ li None d) \/ li (Some ord) d -> li None d'.
Proof.
  unfold set_instr. destruct (nth_error (d_instrs d) (N.to_nat ord)) as [y|] eqn:Ey; [|discriminate]. intros E Hn H. inversion E; subst; clear E.
  destruct H as [[Eo [I1 I2 I3 I4 I5]]|[I1 I2 I3 I4 I5]]; constructor; unfold anns in *; cbn [d_ord d_off d_instrs d_smids]; auto.
  - intros i o s H1 H2 H3. apply (I3 i o s H1 H2). destruct H3 as [H3|[H3 _]]; [now left|]. rewrite replace_nth in H3.
    destruct (Nat.eqb_spec (N.to_nat ord) i) as [K|K]; [|right; split; [exact H3|discriminate]].
    destruct (nth_error (d_instrs d) i); discriminate.
  - intros i o s s' H1 H2 H3 H4 [[z H5]|H5]; [|discriminate]. rewrite replace_nth in H5. destruct (Nat.eqb_spec (N.to_nat ord) i) as [K|K].
    + subst i. congruence.
    + apply (I4 i o s s' H1 H2 H3 H4). left. eauto.
  - intros i o s H1 H2 H3. apply (I3 i o s H1 H2). destruct H3 as [H3|[H3 _]]; [now left|]. rewrite replace_nth in H3.
    destruct (Nat.eqb_spec (N.to_nat ord) i) as [K|K]; [destruct (nth_error (d_instrs d) i); discriminate|].
    right. split; [exact H3|]. intros C; inversion C. lia.
  - intros i o s s' H1 H2 H3 H4 [[z H5]|H5]; [|discriminate]. rewrite replace_nth in H5. apply (I4 i o s s' H1 H2 H3 H4).
    destruct (Nat.eqb_spec (N.to_nat ord) i) as [K|K]; [right; f_equal; lia|left; eauto].
Qed.
End Node.
Lemma run_li fuel steps : forall d u d', run code fuel steps d = Done (u, d') -> inv None d -> li None d -> li None d'.
Proof.
  induction steps as [|n IH]; intros d u d' E V I; cbn [run] in E; ubind E q d1 E1; pose proof (pop_inv code _ _ _ E1 V) as H;
  destruct q as [[off ord]|]; try (destruct H as [-> Q]; inversion E; subst; exact I); try discriminate.
  destruct H as ((V1 & G1) & Ho & Hi & Q1 & Q2 & Q3 & Q4). ubind E x d2 E2. ubind E u2 d3 E3.
  destruct (decode_node_ok code Ok fuel _ _ _ _ _ E2 V1) as ((V2 & G2) & nd & En & Dn).
  pose proof (undecoded_node code _ _ _ ord _ _ _ E2 Hi) as Hi2.
  pose proof (prefix_nth _ _ _ _ (g_off _ _ G2) Ho) as Ho2.
  destruct (set_instr_inv code _ _ _ _ _ _ _ E3 V2 Ho2 En Dn Hi2) as (V3 & G3 & _).
  assert (li None d1) as I1 by exact (li_ext _ _ _ Q1 Q3 Q4 Q2 I).
  pose proof (node_li _ _ _ _ _ _ E2 (conj V1 I1) Ho) as L2. pose proof (set_instr_li _ _ _ _ _ _ E3 Ho2 L2) as L3.
  exact (IH _ _ _ E V3 L3).
Qed.
Lemma empty_li : li None empty_dec.
Proof.
  constructor; cbn; intros.
  - constructor.
  - destruct l1; discriminate.
  - destruct i; discriminate.
  - destruct i; discriminate.
  - destruct i; discriminate.
Qed.
Lemma ordinals_li cur fuel l : forall d is d', ordinals code fuel l d = Done (is, d') -> inv cur d -> li None d -> li None d'.
Proof.
  induction l as [|o l IH]; intros d is d' E V I; cbn [ordinals] in E; [now inversion E; subst|].
  ubind E i d1 E1. destruct (ordinal_for_assigned code Ok _ _ _ _ _ _ E1 V) as [A1 M1]. pose proof (ordinal_li _ _ _ _ _ _ E1 V I) as I1.
  ubind E is' d2 E2. inversion E; subst; clear E. exact (IH _ _ _ E2 (a_inv _ _ _ _ A1) I1).
Qed.
End Code.

Lemma whole_li {native} depth steps (p : program native) root globals D :
  decode_program_with depth steps p root globals = Done D -> is_code (p_code p) ->
  exists d, final p root globals D d /\ li (p_code p) None d.
Proof.
  intros E0 Ok. destruct (whole_ok _ _ _ _ _ _ E0 Ok) as [d F]. exists d. split; [exact F|]. rename E0 into E.
  unfold decode_program_with in E. cbv zeta in E.
  match type of E with obind (?x empty_dec) _ = _ => destruct (x empty_dec) as [[build d']| |] eqn:Ex; try discriminate end.
  cbn [obind] in E. destruct (collect _) as [instrs| |] eqn:Ec; try discriminate. cbn [obind] in E.
  assert (D = build d' instrs) as ED by congruence. clear E. rename Ex into E. apply collect_some in Ec.
  pose proof (empty_inv (p_code p) None eq_refl) as V0. pose proof (empty_li (p_code p)) as I0.
  ubind E r d1 E1. pose proof (a_inv _ _ _ _ (proj1 (ordinal_for_assigned _ Ok _ _ _ _ _ _ E1 V0))) as V1. pose proof (ordinal_li _ Ok _ _ _ _ _ _ E1 V0 I0) as I1.
  ubind E gl d2 E2. pose proof (a_inv _ _ _ _ (proj1 (ordinals_ok _ Ok _ _ _ _ _ _ E2 V1))) as V2. pose proof (ordinals_li _ Ok _ _ _ _ _ _ E2 V1 I1) as I2.
  ubind E te d3 E3. pose proof (a_inv _ _ _ _ (proj1 (ordinals_ok _ Ok _ _ _ _ _ _ E3 V2))) as V3. pose proof (ordinals_li _ Ok _ _ _ _ _ _ E3 V2 I2) as I3.
  ubind E bh d4 E4. pose proof (a_inv _ _ _ _ (proj1 (ordinal_for_assigned _ Ok _ _ _ _ _ _ E4 V3))) as V4. pose proof (ordinal_li _ Ok _ _ _ _ _ _ E4 V3 I3) as I4.
  ubind E me d5 E5. pose proof (a_inv _ _ _ _ (proj1 (ordinal_for_assigned _ Ok _ _ _ _ _ _ E5 V4))) as V5. pose proof (ordinal_li _ Ok _ _ _ _ _ _ E5 V4 I4) as I5.
  ubind E a1 d6 E6. pose proof (a_inv _ _ _ _ (proj1 (ordinal_for_assigned _ Ok _ _ _ _ _ _ E6 V5))) as V6. pose proof (ordinal_li _ Ok _ _ _ _ _ _ E6 V5 I5) as I6.
  ubind E a2 d7 E7. pose proof (a_inv _ _ _ _ (proj1 (ordinal_for_assigned _ Ok _ _ _ _ _ _ E7 V6))) as V7. pose proof (ordinal_li _ Ok _ _ _ _ _ _ E7 V6 I6) as I7.
  ubind E pr d8 E8. pose proof (a_inv _ _ _ _ (proj1 (ordinal_for_assigned _ Ok _ _ _ _ _ _ E8 V7))) as V8. pose proof (ordinal_li _ Ok _ _ _ _ _ _ E8 V7 I7) as I8.
  ubind E pa d9 E9. pose proof (a_inv _ _ _ _ (proj1 (ordinals_ok _ Ok _ _ _ _ _ _ E9 V8))) as V9. pose proof (ordinals_li _ Ok _ _ _ _ _ _ E9 V8 I8) as I9.
  ubind E u d10 E10. inversion E; subst build d10; clear E.
  pose proof (run_li _ Ok _ _ _ _ _ E10 V9 I9) as I10.
  eapply li_ext; [| | | |exact I10].
  - rewrite <- (f_ord _ _ _ _ _ F). now subst D.
  - rewrite <- (f_off _ _ _ _ _ F). now subst D.
  - rewrite (f_instrs _ _ _ _ _ F), Ec. now subst D.
  - rewrite <- (f_smids _ _ _ _ _ F). now subst D.
Qed.
