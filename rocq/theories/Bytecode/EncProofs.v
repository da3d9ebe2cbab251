(** The encoder writes what the machine reads back. *)
From Coq Require Import List Bool Arith NArith ZArith Lia ZifyN ZifyNat ZifyBool.
From Verif.Simplify Require Import Compress.
From Verif.Bytecode Require Import Model Spec Proofs.
Import ListNotations.
Open Scope N_scope.
Ltac Zify.zify_post_hook ::= Z.div_mod_to_equations.

Lemma All_Forall {A} (P : A -> Prop) l : All P l <-> Forall P l.
Proof.
  induction l as [|a l IH]; cbn; split; intros H; auto.
  - constructor; [apply H|now apply IH].
  - inversion H; subst. split; [assumption|now apply IH].
Qed.

(** ** The dense branch table *)
Lemma branch_for_app {B} tag (l : list (N * B)) p :
  branch_for tag (l ++ [p]) = if fst p =? tag then Some (snd p) else branch_for tag l.
Proof. unfold branch_for. rewrite rev_app_distr. cbn. now destruct (fst p =? tag). Qed.
Lemma branch_for_in {B} tag (l : list (N * B)) b : branch_for tag l = Some b -> In (tag, b) l.
Proof.
  unfold branch_for. destruct (find _ _) as [[t x]|] eqn:E; cbn; [|discriminate]. intros H; inversion H; subst.
  apply find_some in E. cbn in E. destruct E as [I E]. apply N.eqb_eq in E. subst. now apply in_rev.
Qed.
Lemma branch_for_none {B} tag (l : list (N * B)) : branch_for tag l = None <-> forall b, In b l -> fst b <> tag.
Proof.
  unfold branch_for. destruct (find _ _) as [[t x]|] eqn:E; cbn.
  - split; [discriminate|]. intros H. apply find_some in E. cbn in E. destruct E as [I E]. apply in_rev in I.
    apply H in I. cbn in I. apply N.eqb_eq in E. congruence.
  - split; [|reflexivity]. intros _ b I K. apply in_rev in I.
    apply (find_none _ _ E) in I. apply N.eqb_neq in I. congruence.
Qed.
Lemma set_nth_length i x l : length (set_nth i x l) = length l.
Proof. revert i. induction l as [|y l IH]; intros [|i]; cbn; auto. Qed.
Lemma set_nth_get x : forall l i j, nth_error (set_nth i x l) j =
  if Nat.eqb i j then (if Nat.ltb j (length l) then Some x else None) else nth_error l j.
Proof.
  induction l as [|y l IH]; intros [|i] [|j]; cbn [set_nth nth_error length]; auto.
  - now destruct (Nat.eqb (S i) (S j)).
  - rewrite IH. reflexivity.
Qed.

Definition fill (m : N) (l : list (N * N)) (t : list N) : list N :=
  fold_left (fun t p => set_nth (N.to_nat (fst p - m)) (snd p) t) l t.
Lemma fill_spec m l t : (forall p, In p l -> m <= fst p) -> forall i, (i < length t)%nat ->
  nth_error (fill m l t) i =
  match branch_for (m + N.of_nat i) l with Some o => Some o | None => nth_error t i end.
Proof.
  intros H. assert (forall n, length (fill m (firstn n l) t) = length t) as L.
  { intros n. generalize (firstn n l). intros k. unfold fill. revert t. induction k as [|p k IH]; intros t; cbn; auto.
    rewrite IH. apply set_nth_length. }
  assert (forall k t, length (fill m k t) = length t) as L'.
  { intros k. induction k as [|p k IH]; intros t'; cbn; auto. unfold fill in IH. rewrite IH. apply set_nth_length. }
  clear L. induction l as [|p l IH] using rev_ind; intros i B.
  - reflexivity.
  - unfold fill. rewrite fold_left_app. cbn [fold_left]. fold (fill m l t).
    rewrite set_nth_get, branch_for_app, L'.
    assert (m <= fst p) by (apply H, in_or_app; right; left; reflexivity).
    destruct (Nat.eqb_spec (N.to_nat (fst p - m)) i) as [E|E].
    + replace (Nat.ltb i (length t)) with true by (symmetry; now apply Nat.ltb_lt).
      replace (fst p =? m + N.of_nat i) with true by (symmetry; apply N.eqb_eq; lia). reflexivity.
    + replace (fst p =? m + N.of_nat i) with false by (symmetry; apply N.eqb_neq; lia).
      apply IH; [|exact B]. intros q I. apply H, in_or_app. now left.
Qed.
Lemma fill_length m l t : length (fill m l t) = length t.
Proof. revert t. induction l as [|p k IH]; intros t; cbn; auto. unfold fill in IH. rewrite IH. apply set_nth_length. Qed.

Lemma fold_min (l : list (N * N)) : forall m0, let m := fold_left (fun m q => N.min m (fst q)) l m0 in
  m <= m0 /\ (forall p, In p l -> m <= fst p) /\ (m = m0 \/ exists p, In p l /\ fst p = m).
Proof.
  induction l as [|q l IH]; intros m0; cbn [fold_left].
  - cbv zeta. split; [lia|]. split; [intros ? []|now left].
  - cbv zeta. destruct (IH (N.min m0 (fst q))) as (A & B & C). split; [lia|]. split.
    + intros p [<-|I]; [lia|now apply B].
    + destruct C as [C|(p & I & C)]; [|right; exists p; split; [now right|exact C]].
      destruct (N.min_spec m0 (fst q)) as [[_ E]|[_ E]]; [left|right].
      * congruence.
      * exists q. split; [now left|congruence].
Qed.
Lemma fold_max (l : list (N * N)) : forall m0, let m := fold_left (fun m q => N.max m (fst q)) l m0 in
  m0 <= m /\ (forall p, In p l -> fst p <= m) /\ (m = m0 \/ exists p, In p l /\ fst p = m).
Proof.
  induction l as [|q l IH]; intros m0; cbn [fold_left].
  - cbv zeta. split; [lia|]. split; [intros ? []|now left].
  - cbv zeta. destruct (IH (N.max m0 (fst q))) as (A & B & C). split; [lia|]. split.
    + intros p [<-|I]; [lia|now apply B].
    + destruct C as [C|(p & I & C)]; [|right; exists p; split; [now right|exact C]].
      destruct (N.max_spec m0 (fst q)) as [[_ E]|[_ E]]; [right|left].
      * exists q. split; [now left|congruence].
      * congruence.
Qed.
Lemma min_tag_spec l : l <> [] -> (forall p, In p l -> min_tag l <= fst p) /\ exists p, In p l /\ fst p = min_tag l.
Proof.
  destruct l as [|p l]; [congruence|]. intros _. cbn [min_tag]. destruct (fold_min l (fst p)) as (A & B & C). split.
  - intros q [<-|I]; auto.
  - destruct C as [C|(q & I & C)]; [exists p|exists q]; split; auto; [now left|now right].
Qed.
Lemma max_tag_spec l : l <> [] -> (forall p, In p l -> fst p <= max_tag l) /\ exists p, In p l /\ fst p = max_tag l.
Proof.
  destruct l as [|p l]; [congruence|]. intros _. cbn [max_tag]. destruct (fold_max l (fst p)) as (A & B & C). split.
  - intros q [<-|I]; auto.
  - destruct C as [C|(q & I & C)]; [exists p|exists q]; split; auto; [now left|now right].
Qed.

Lemma dense_length l : length (dense_table l) = S (N.to_nat (max_tag l - min_tag l)).
Proof. unfold dense_table. cbv zeta. fold (fill (min_tag l) l (repeat no_branch (S (N.to_nat (max_tag l - min_tag l))))).
  rewrite fill_length. apply repeat_length. Qed.
Lemma dense_get l i : l <> [] -> (i < length (dense_table l))%nat -> nth_error (dense_table l) i =
  Some (match branch_for (min_tag l + N.of_nat i) l with Some o => o | None => no_branch end).
Proof.
  intros NE B. rewrite dense_length in B. unfold dense_table. cbv zeta.
  fold (fill (min_tag l) l (repeat no_branch (S (N.to_nat (max_tag l - min_tag l))))).
  rewrite fill_spec; [|apply (min_tag_spec l NE)|rewrite repeat_length; exact B].
  destruct (branch_for _ l); [reflexivity|]. now apply nth_error_repeat.
Qed.
Lemma table_lookup l tag : l <> [] -> Forall (fun p => snd p < no_branch) l ->
  match_tag (min_tag l) (map entry_of (dense_table l)) tag = branch_for tag l.
Proof.
  intros NE F. unfold match_tag. destruct (min_tag_spec l NE) as [Mn _]. destruct (max_tag_spec l NE) as [Mx _].
  destruct (N.ltb_spec tag (min_tag l)) as [B|B].
  - symmetry. apply branch_for_none. intros b I E. specialize (Mn b I). lia.
  - rewrite nth_error_map.
    destruct (Nat.lt_ge_cases (N.to_nat (tag - min_tag l)) (length (dense_table l))) as [C|C].
    + rewrite (dense_get l _ NE C). cbn [option_map].
      replace (min_tag l + N.of_nat (N.to_nat (tag - min_tag l))) with tag by lia.
      destruct (branch_for tag l) as [o|] eqn:E.
      * apply branch_for_in in E. rewrite Forall_forall in F. specialize (F _ E). cbn in F.
        unfold entry_of. destruct (N.eqb_spec o no_branch); [lia|reflexivity].
      * reflexivity.
    + rewrite (proj2 (nth_error_None _ _) C). cbn [option_map]. symmetry. apply branch_for_none. intros b I E.
      rewrite dense_length in C. specialize (Mx b I). lia.
Qed.
Lemma dense_small l : l <> [] -> Forall (fun p => snd p < no_branch) l -> Forall (fun v => v < 4294967296) (dense_table l).
Proof.
  intros NE F. apply Forall_forall. intros v I. apply In_nth_error in I. destruct I as [i I].
  assert (i < length (dense_table l))%nat as B by (apply nth_error_Some; congruence).
  rewrite (dense_get l i NE B) in I. inversion I; subst.
  destruct (branch_for _ l) as [o|] eqn:E; [|reflexivity]. apply branch_for_in in E.
  rewrite Forall_forall in F. specialize (F _ E). cbn in F. unfold no_branch in F. lia.
Qed.
Lemma rd_table code pc l r : tags_fit l -> Forall (fun p => snd p < no_branch) l ->
  holds code pc (branch_table l ++ r) ->
  exists min table pc', read_branch_table code pc = Done (min, table, pc')
    /\ (forall tag, match_tag min table tag = branch_for tag l) /\ holds code pc' r.
Proof.
  intros [T1 T2] F H. destruct l as [|p l].
  - cbn [branch_table app] in H. destruct (rd8 _ _ _ _ H) as [E1 H1]. destruct (rd8 _ _ _ _ H1) as [E2 H2].
    exists 0, [], (pc + 1 + 1). unfold read_branch_table. rewrite E1; cbn [obind]. rewrite E2; cbn [obind].
    split; [reflexivity|]. split; [|exact H2]. intros tag. unfold match_tag. destruct (tag <? 0); [reflexivity|].
    now destruct (N.to_nat (tag - 0)).
  - remember (p :: l) as l' eqn:El. assert (l' <> []) as NE by (subst; discriminate).
    assert (branch_table l' = [min_tag l'; u8 (N.of_nat (length (dense_table l')))] ++ flat_map le32 (dense_table l')) as Eb
      by (subst; reflexivity).
    rewrite Eb in H. cbn [app] in H. destruct (rd8 _ _ _ _ H) as [E1 H1]. destruct (rd8 _ _ _ _ H1) as [E2 H2].
    destruct (rd32s code _ (dense_small l' NE F) _ _ H2) as (pc' & E3 & H3).
    assert (N.of_nat (length (dense_table l')) < 256) as B.
    { rewrite dense_length. destruct (max_tag_spec l' NE) as [_ (q & I & Q)]. destruct (min_tag_spec l' NE) as [_ (q' & I' & Q')].
      pose proof (T1 q I) as B1.
      assert (~ (min_tag l' = 0 /\ max_tag l' = 255)) as B2.
      { intros [X Y]. apply T2. split; [exists q'|exists q]; split; auto; congruence. }
      lia. }
    unfold u8 in E2. rewrite N.mod_small in E2 by exact B.
    exists (min_tag l'), (map entry_of (dense_table l')), pc'.
    unfold read_branch_table. rewrite E1; cbn [obind]. rewrite E2; cbn [obind]. rewrite Nat2N.id, E3; cbn [obind].
    split; [reflexivity|]. split; [|exact H3]. intros tag. now apply table_lookup.
Qed.

Section Enc.
Context {native : Type}.
Notation enc := (enc native).
Notation syn := (syn native).

(** ** Induction over programs *)
Fixpoint syn_ind' (P : syn -> Prop)
  (Hatom : forall r, P (SAtom r))
  (Hcase : forall scr bs fb, P scr -> Forall (fun b => P (snd b)) bs -> (forall f, fb = Some f -> P f) -> P (SCase scr bs fb))
  (Hcons : forall tag args, P (SCons tag args))
  (Happ : forall c args e, P (SApp c args e))
  (Hdapp : forall s c args e, P (SDirectApp s c args e))
  (Hbif : forall i args, P (SBif i args))
  (Hlet : forall rec bs body, Forall (fun b => P (snd b)) bs -> P body -> P (SLet rec bs body))
  (Hann : forall s body, P body -> P (SAnn s body))
  (Hmeta : forall m b, P (SMeta m b))
  (Hdemeta : forall a b c, P a -> P b -> P c -> P (SDeMeta a b c))
  (Hseq : forall a b, P a -> P b -> P (SSeq a b))
  (Hlookup : forall s k o d, P (SLookupLit s k o d))
  (Hfused : forall id l r inner, P (SFused id l r inner))
  (Hbh : P SBlackHole) (t : syn) {struct t} : P t.
Proof.
  pose (IH := syn_ind' P Hatom Hcase Hcons Happ Hdapp Hbif Hlet Hann Hmeta Hdemeta Hseq Hlookup Hfused Hbh).
  destruct t.
  - apply Hatom.
  - apply Hcase.
    + apply IH.
    + induction branches as [|b bs IHb]; constructor; [apply IH|exact IHb].
    + destruct fallback as [f|]; [|discriminate]. pose proof (IH f) as Hf. intros f' E. injection E as <-. exact Hf.
  - apply Hcons.
  - apply Happ.
  - apply Hdapp.
  - apply Hbif.
  - apply Hlet; [|apply IH]. induction bindings as [|b bs IHb]; constructor; [apply IH|exact IHb].
  - apply Hann, IH.
  - apply Hmeta.
  - apply Hdemeta; apply IH.
  - apply Hseq; apply IH.
  - apply Hlookup.
  - apply Hfused.
  - apply Hbh.
Qed.

(** ** Encoding only appends *)
Definition ext (s s' : enc) : Prop := exists c k, e_code s' = e_code s ++ c /\ e_consts s' = e_consts s ++ k.
Lemma ext_refl s : ext s s.
Proof. exists [], []. now rewrite !app_nil_r. Qed.
Lemma ext_trans a b c : ext a b -> ext b c -> ext a c.
Proof.
  intros (x & y & E1 & E2) (u & v & E3 & E4). exists (x ++ u), (y ++ v). rewrite E3, E4, E1, E2. now rewrite !app_assoc.
Qed.
Lemma ext_emit bs s : ext s (emit bs s).
Proof. exists bs, []. cbn. now rewrite app_nil_r. Qed.
Lemma ext_ref r s : ext s (emit_ref r s).
Proof.
  destruct r as [i|i|n]; cbn [emit_ref add_constant]; try apply ext_emit.
  eexists _, [n]. cbn. split; [now rewrite <- app_assoc|reflexivity].
Qed.
Lemma ext_atom r s o s' : emit_atom r s = (o, s') -> ext s s'.
Proof. intros E. inversion E; subst. eapply ext_trans; [apply ext_emit|apply ext_ref]. Qed.
Lemma ext_smap {A B} (f : A -> enc -> B * enc) l :
  (forall a, In a l -> forall s b s', f a s = (b, s') -> ext s s') ->
  forall s bs s', smap f l s = (bs, s') -> ext s s'.
Proof.
  induction l as [|a l IH]; intros H s bs s' E; cbn [smap] in E.
  - inversion E; subst. apply ext_refl.
  - destruct (f a s) as [b s1] eqn:E1. destruct (smap f l s1) as [bs' s2] eqn:E2. inversion E; subst.
    eapply ext_trans; [eapply H; [now left|exact E1]|]. eapply IH; [|exact E2]. intros x I. apply H. now right.
Qed.
Lemma ext_args args s offs s' : emit_arg_atoms args s = (offs, s') -> ext s s'.
Proof. intros E. eapply ext_smap; [|exact E]. intros a _ s0 b s1 H. eapply ext_atom, H. Qed.
Ltac ext_chain := repeat first
  [ apply ext_refl
  | match goal with |- ext ?a (emit _ ?b) => apply ext_trans with b; [|apply ext_emit] end
  | match goal with |- ext ?a (emit_ref _ ?b) => apply ext_trans with b; [|apply ext_ref] end
  | match goal with H : ext ?a ?b |- ext _ ?b => apply ext_trans with a; [|exact H] end ].
Lemma ext_fused id l r s o s' : emit_fused_primop_refs id l r s = (o, s') -> ext s s'.
Proof.
  unfold emit_fused_primop_refs. destruct (emit_atom l s) as [lo s1] eqn:E1. destruct (emit_atom r s1) as [ro s2] eqn:E2.
  intros E; inversion E; subst. apply ext_atom in E1, E2. ext_chain.
Qed.
Lemma encode_ext t : forall s o s', encode_node t s = (o, s') -> ext s s'.
Proof.
  induction t using syn_ind'; intros s0 o0 s' E; cbn [encode_node] in E.
  - eapply ext_atom, E.
  - destruct (encode_node t s0) as [so s1] eqn:E1. destruct (smap _ bs s1) as [data s2] eqn:E2.
    destruct fb as [f|].
    + destruct (encode_node f s2) as [fo s3] eqn:E3. inversion E; subst.
      apply IHt in E1. eapply H0 in E3; [|reflexivity].
      assert (ext s1 s2) as X2.
      { eapply ext_smap; [|exact E2]. intros b I s4 r s5 Eb. cbv beta in Eb.
        destruct (encode_node (snd b) s4) as [o5 s6] eqn:E6. inversion Eb; subst.
        rewrite Forall_forall in H. eapply H; [exact I|exact E6]. }
      ext_chain.
    + inversion E; subst. apply IHt in E1.
      assert (ext s1 s2) as X2.
      { eapply ext_smap; [|exact E2]. intros b I s4 r s5 Eb. cbv beta in Eb.
        destruct (encode_node (snd b) s4) as [o5 s6] eqn:E6. inversion Eb; subst.
        rewrite Forall_forall in H. eapply H; [exact I|exact E6]. }
      ext_chain.
  - destruct (emit_arg_atoms args s0) as [offs s1] eqn:E1. inversion E; subst. apply ext_args in E1. ext_chain.
  - destruct (emit_arg_atoms args s0) as [offs s1] eqn:E1. inversion E; subst. apply ext_args in E1. ext_chain.
  - destruct (emit_arg_atoms args s0) as [offs s1] eqn:E1. inversion E; subst. apply ext_args in E1. ext_chain.
  - destruct (emit_arg_atoms args s0) as [offs s1] eqn:E1. inversion E; subst. apply ext_args in E1. ext_chain.
  - destruct (smap _ bs s0) as [offs s1] eqn:E1. destruct (encode_node t s1) as [bo s2] eqn:E2. inversion E; subst.
    apply IHt in E2. apply ext_smap in E1; [ext_chain|]. intros b I s4 r s5 Eb. rewrite Forall_forall in H. eapply H; [exact I|exact Eb].
  - destruct (encode_node t s0) as [bo s1] eqn:E1. inversion E; subst. apply IHt in E1. ext_chain.
  - destruct (emit_atom m s0) as [lo s1] eqn:E1. destruct (emit_atom b s1) as [ro s2] eqn:E2.
    inversion E; subst. apply ext_atom in E1, E2. ext_chain.
  - destruct (encode_node t1 s0) as [o1 s1] eqn:E1. destruct (encode_node t2 s1) as [o2 s2] eqn:E2.
    destruct (encode_node t3 s2) as [o3 s3] eqn:E3. inversion E; subst.
    apply IHt1 in E1. apply IHt2 in E2. apply IHt3 in E3. ext_chain.
  - destruct (encode_node t1 s0) as [o1 s1] eqn:E1. destruct (encode_node t2 s1) as [o2 s2] eqn:E2.
    inversion E; subst. apply IHt1 in E1. apply IHt2 in E2. ext_chain.
  - destruct (emit_atom d s0) as [lo s1] eqn:E1. inversion E; subst. apply ext_atom in E1. ext_chain.
  - eapply ext_fused, E.
  - inversion E; subst. apply ext_emit.
Qed.

(** ** Sizes *)
Definition small (s : enc) : Prop :=
  N.of_nat (length (e_code s)) <= no_branch /\ N.of_nat (length (e_consts s)) <= 4294967296.
Lemma small_ext s s' : ext s s' -> small s' -> small s.
Proof. intros (c & k & E1 & E2) [A B]. unfold small. rewrite E1, app_length in A. rewrite E2, app_length in B. lia. Qed.
Lemma ext_len s s' : ext s s' -> N.of_nat (length (e_code s)) <= N.of_nat (length (e_code s')).
Proof. intros (c & k & E1 & E2). rewrite E1, app_length. lia. Qed.
Lemma here_small s : small s -> here s = N.of_nat (length (e_code s)).
Proof. intros [A _]. unfold here, u32. unfold no_branch in A. apply N.mod_small. lia. Qed.
Lemma ext_le s s' : ext s s' -> le_code (e_code s) (e_code s').
Proof. intros (c & k & E & _). rewrite E. apply le_code_app. Qed.

(** ** References *)
Lemma stands_ext s s' d (r : ref native) : ext s s' -> stands_for (e_consts s) d r -> stands_for (e_consts s') d r.
Proof.
  intros (c & k & _ & E) H. destruct r as [i|i|n]; cbn in *; auto.
  destruct H as (j & Ej & H). exists j. split; [exact Ej|]. rewrite E, nth_error_app1; [exact H|]. apply nth_error_Some; congruence.
Qed.
(** What [emit_ref] appended can be read back, at any later time. *)
Definition ref_bytes (r : ref native) (s : enc) : list N :=
  match r with
  | RL i => ref_l :: le32 (u32 i)
  | RG i => ref_g :: le32 (u32 i)
  | RV n => ref_v :: le32 (u32 (N.of_nat (length (e_consts s))))
  end.
Lemma emit_ref_code r s : e_code (emit_ref r s) = e_code s ++ ref_bytes r s.
Proof. destruct r as [i|i|n]; cbn [emit_ref add_constant emit e_code ref_bytes]; auto. now rewrite <- app_assoc. Qed.
Lemma u32_lt n : u32 n < 4294967296.
Proof. apply N.mod_lt. discriminate. Qed.
Lemma rd_ref r s code pc rest s' : ref_fits r -> small s' -> ext (emit_ref r s) s' ->
  holds code pc (ref_bytes r s ++ rest) ->
  exists d, read_ref code pc = Done (d, pc + 5) /\ stands_for (e_consts s') d r /\ holds code (pc + 5) rest.
Proof.
  intros F S X H. destruct r as [i|i|n]; cbn [ref_bytes app] in H; cbn [ref_fits] in F;
    destruct (rd8 _ _ _ _ H) as [E1 H1]; (destruct (rd32 _ _ _ _ (u32_lt _) H1) as [E2 H2]);
    unfold read_ref; rewrite E1; cbn [obind]; rewrite E2; cbn [obind]; replace (pc + 1 + 4) with (pc + 5) in * by lia.
  - exists (DLocal i). unfold u32. rewrite N.mod_small by exact F. split; [reflexivity|]. now split.
  - exists (DGlobal i). unfold u32. rewrite N.mod_small by exact F. split; [reflexivity|]. now split.
  - exists (DValue (u32 (N.of_nat (length (e_consts s))))). split; [reflexivity|]. split; [|exact H2].
    exists (u32 (N.of_nat (length (e_consts s)))). split; [reflexivity|].
    destruct X as (c & k & _ & Ek). cbn [emit_ref add_constant emit e_consts] in Ek. destruct S as [_ S].
    rewrite Ek, !app_length in S. cbn [length] in S.
    unfold u32. rewrite N.mod_small by lia. rewrite Nat2N.id, Ek, nth_error_app1 by (rewrite app_length; cbn; lia).
    rewrite nth_error_app2 by lia. now rewrite Nat.sub_diag.
Qed.

(** ** Nodes, given what their operands' bytes are *)
Lemma emit_code bs (s : enc) : e_code (emit bs s) = e_code s ++ bs.
Proof. reflexivity. Qed.
Lemma holds_ext bs (s s' : enc) : ext (emit bs s) s' -> holds (e_code s') (N.of_nat (length (e_code s))) bs.
Proof. intros X. eapply holds_mono; [apply ext_le, X|]. cbn. apply holds_end. Qed.

Definition good (t : syn) (o : N) (s : enc) : Prop :=
  o < N.of_nat (length (e_code s)) /\ reads (e_code s) (e_consts s) o t.
Definition good_atom (r : ref native) (o : N) (s : enc) : Prop :=
  o < N.of_nat (length (e_code s)) /\ atom_at (e_code s) (e_consts s) o r.
Lemma atom_ext s s' o r : ext s s' -> atom_at (e_code s) (e_consts s) o r -> atom_at (e_code s') (e_consts s') o r.
Proof.
  intros X (d & E & H). exists d. split; [eapply node_mono; [apply ext_le, X|exact E]|eapply stands_ext; eauto].
Qed.
Lemma reads_mono code consts code' consts' o (t : syn) :
  le_code code code' -> (forall d r, stands_for consts d r -> stands_for consts' d r) ->
  reads code consts o t -> reads code' consts' o t.
Proof.
  intros L S H.
  assert (forall o r, atom_at code consts o r -> atom_at code' consts' o r) as A.
  { intros o' r (d & E & K). exists d. split; [eapply node_mono; eauto|auto]. }
  assert (forall os rs, Forall2 (atom_at code consts) os rs -> Forall2 (atom_at code' consts') os rs) as As.
  { induction 1; constructor; auto. }
  assert (forall os rs, Forall2 (stands_for consts) os rs -> Forall2 (stands_for consts') os rs) as Ss.
  { induction 1; constructor; auto. }
  induction H.
  - apply R_atom. auto.
  - eapply R_case; [eapply node_mono; eauto|..]; eauto.
  - eapply R_cons; [eapply node_mono; eauto|..]; eauto.
  - eapply R_app; [eapply node_mono; eauto|..]; eauto.
  - eapply R_direct_app; [eapply node_mono; eauto|..]; eauto.
  - eapply R_bif; [eapply node_mono; eauto|..]; eauto.
  - eapply R_let; [eapply node_mono; eauto|..]; eauto.
  - eapply R_ann; [eapply node_mono; eauto|..]; eauto.
  - eapply R_meta; [eapply node_mono; eauto|..]; eauto.
  - eapply R_demeta; [eapply node_mono; eauto|..]; eauto.
  - eapply R_seq; [eapply node_mono; eauto|..]; eauto.
  - eapply R_lookup; [eapply node_mono; eauto|..]; eauto.
  - eapply R_fused; [eapply node_mono; eauto|..]; eauto.
  - eapply R_black_hole; eapply node_mono; eauto.
Qed.
Lemma reads_ext s s' o t : ext s s' -> reads (e_code s) (e_consts s) o t -> reads (e_code s') (e_consts s') o t.
Proof. intros X. apply reads_mono; [apply ext_le, X|]. intros d r. eapply stands_ext, X. Qed.
Lemma good_ext t o s s' : ext s s' -> good t o s -> good t o s'.
Proof. intros X [A B]. split; [apply ext_len in X; lia|eapply reads_ext; eauto]. Qed.
Lemma good_atom_ext t o s s' : ext s s' -> good_atom t o s -> good_atom t o s'.
Proof. intros X [A B]. split; [apply ext_len in X; lia|eapply atom_ext; eauto]. Qed.

Lemma emit_atom_good r s o s' : ref_fits r -> emit_atom r s = (o, s') -> small s' -> good_atom r o s'.
Proof.
  intros F E S. pose proof (ext_atom _ _ _ _ E) as X. unfold emit_atom in E. inversion E; subst; clear E.
  pose proof (small_ext _ _ X S) as S0. rewrite (here_small _ S0).
  split.
  - rewrite emit_ref_code, emit_code, !app_length. cbn. lia.
  - assert (holds (e_code (emit_ref r (emit [op_atom] s))) (N.of_nat (length (e_code s)))
                  ([op_atom] ++ (ref_bytes r (emit [op_atom] s) ++ []))) as H.
    { rewrite emit_ref_code, emit_code, app_nil_r, <- app_assoc. apply holds_end. }
    cbn [app] in H. destruct (rd8 _ _ _ _ H) as [E1 H1].
    destruct (rd_ref _ _ _ _ _ _ F S (ext_refl _) H1) as (d & E2 & St & _).
    exists d. split; [|exact St]. unfold read_node. rewrite E1. cbn [obind].
    change (op_atom =? op_atom) with true. cbv iota. rewrite E2. reflexivity.
Qed.

Lemma smap_good {A B} (f : A -> enc -> B * enc) (R : A -> B -> enc -> Prop) l :
  (forall a b s s', ext s s' -> R a b s -> R a b s') ->
  (forall a, In a l -> forall s b s', f a s = (b, s') -> ext s s') ->
  (forall a, In a l -> forall s b s', f a s = (b, s') -> small s' -> R a b s') ->
  forall s bs s', smap f l s = (bs, s') -> small s' -> Forall2 (fun a b => R a b s') l bs.
Proof.
  intros M. induction l as [|a l IH]; intros X H s bs s' E S; cbn [smap] in E.
  - inversion E; subst. constructor.
  - destruct (f a s) as [b s1] eqn:E1. destruct (smap f l s1) as [bs' s2] eqn:E2. inversion E; subst.
    assert (ext s1 s') as X2 by (eapply ext_smap; [|exact E2]; intros x I; apply X; now right).
    constructor.
    + eapply M; [exact X2|]. eapply H; [now left|exact E1|]. eapply (small_ext _ _ X2); exact S.
    + eapply IH; [|  |exact E2|exact S]; intros x I; [apply X|apply H]; now right.
Qed.
Lemma args_good args s offs s' : args_fit args -> emit_arg_atoms args s = (offs, s') -> small s' ->
  Forall2 (fun r o => good_atom r o s') args offs.
Proof.
  intros [_ F] E S. rewrite All_Forall, Forall_forall in F. eapply (smap_good emit_atom good_atom); [| | |exact E|exact S].
  - intros a b s0 s1 X. now apply good_atom_ext.
  - intros a _ s0 b s1 H. eapply ext_atom, H.
  - intros a I s0 b s1 H S1. eapply emit_atom_good; [apply F, I|exact H|exact S1].
Qed.
Lemma arg_ref_atom code o d : read_node code o = Done (NAtom d) -> arg_ref code o = Done d.
Proof.
  unfold read_node, arg_ref. intros H. destruct (read_u8 code o) as [[b pc]| |] eqn:E; try discriminate. cbn [obind] in H.
  assert (pc = o + 1) as ->.
  { unfold read_u8 in E. destruct (nth_error _ _); inversion E; reflexivity. }
  destruct (b =? op_atom).
  - destruct (read_ref code (o + 1)) as [[r p]| |]; cbn in *; try discriminate. now inversion H.
  - exfalso. revert H.
    repeat match goal with
    | |- Done _ = _ -> _ => intros K; discriminate K
    | |- Error = _ -> _ => intros K; discriminate K
    | |- Panic = _ -> _ => intros K; discriminate K
    | |- (if ?x then _ else _) = _ -> _ => destruct x
    | |- (let '(_, _) := ?p in _) = _ -> _ => destruct p
    | |- obind ?x _ = _ -> _ => destruct x; cbn [obind]
    end.
Qed.
Lemma Forall2_swap {A B} (R : A -> B -> Prop) l l' : Forall2 R l l' -> Forall2 (fun b a => R a b) l' l.
Proof. induction 1; constructor; auto. Qed.
Lemma F2_impl {A B} (R Q : A -> B -> Prop) l l' : (forall a b, R a b -> Q a b) -> Forall2 R l l' -> Forall2 Q l l'.
Proof. induction 2; constructor; auto. Qed.
Lemma Forall2_len {A B} (R : A -> B -> Prop) l l' : Forall2 R l l' -> length l = length l'.
Proof. induction 1; cbn; auto. Qed.
Lemma args_refs (s : enc) (args : list (ref native)) offs : Forall2 (fun r o => good_atom r o s) args offs ->
  exists ds, arg_refs (e_code s) offs = Done ds /\ Forall2 (stands_for (e_consts s)) ds args.
Proof.
  unfold arg_refs. induction 1 as [|r o args offs [_ (d & E & St)] _ (ds & Ed & Fd)].
  - exists []. split; [reflexivity|constructor].
  - exists (d :: ds). split; [|now constructor]. cbn [map collect]. rewrite (arg_ref_atom _ _ _ E). cbn [obind].
    rewrite Ed. reflexivity.
Qed.
Lemma args_small (s : enc) (args : list (ref native)) offs : small s -> Forall2 (fun r o => good_atom r o s) args offs ->
  Forall (fun v => v < 4294967296) offs.
Proof.
  intros [S _] F. induction F as [|r o args offs [H _] _ IH]; constructor; auto. unfold no_branch in S. lia.
Qed.
Lemma args_atoms (s : enc) (args : list (ref native)) offs : Forall2 (fun r o => good_atom r o s) args offs ->
  Forall2 (atom_at (e_code s) (e_consts s)) offs args.
Proof. induction 1 as [|r o args offs [_ H] _ IH]; constructor; auto. Qed.
Lemma good_atom_all s s' (args : list (ref native)) offs : ext s s' ->
  Forall2 (fun r o => good_atom r o s) args offs -> Forall2 (fun r o => good_atom r o s') args offs.
Proof. intros X. induction 1; constructor; auto. eapply good_atom_ext; eauto. Qed.

Ltac rd8' H := let E := fresh "E" in let H' := fresh "H" in
  destruct (rd8 _ _ _ _ H) as [E H']; rewrite E; cbn [obind]; clear E H; rename H' into H.
Ltac rd32' H B := let E := fresh "E" in let H' := fresh "H" in
  destruct (rd32 _ _ _ _ B H) as [E H']; rewrite E; cbn [obind]; clear E H; rename H' into H.
Ltac op H := unfold read_node; cbn [app] in H; rd8' H;
  repeat match goal with |- context [?a =? ?b] => let v := eval compute in (a =? b) in change (a =? b) with v end;
  cbn [orb]; cbv iota.

Lemma small_off (s : enc) o : small s -> o < N.of_nat (length (e_code s)) -> o < 4294967296.
Proof. intros [A _] B. unfold no_branch in A. lia. Qed.
Lemma le32_length v : length (le32 v) = 4%nat.
Proof. reflexivity. Qed.

(** The node itself is within the code. *)
Lemma emitted_lt bs (s : enc) b : N.of_nat (length (e_code s)) < N.of_nat (length (e_code (emit (b :: bs) s))).
Proof. cbn. rewrite app_length. cbn. lia. Qed.

Lemma fused_good id l r inner s o s' : id < 256 -> ref_fits l -> ref_fits r ->
  emit_fused_primop_refs id l r s = (o, s') -> small s' -> good (SFused id l r inner) o s'.
Proof.
  intros Bi Fl Fr E S. unfold emit_fused_primop_refs in E.
  destruct (emit_atom l s) as [lo s1] eqn:E1. destruct (emit_atom r s1) as [ro s2] eqn:E2.
  apply pair_equal_spec in E; destruct E as [<- <-].
  pose proof (ext_atom _ _ _ _ E2) as X2. pose proof (ext_emit ([op_fused_primop; id] ++ le32 lo ++ le32 ro) s2) as X3.
  set (s' := emit _ s2) in *.
  pose proof (small_ext _ _ X3 S) as S2. pose proof (small_ext _ _ X2 S2) as S1.
  pose proof (emit_atom_good _ _ _ _ Fl E1 S1) as G1. pose proof (emit_atom_good _ _ _ _ Fr E2 S2) as G2.
  apply (good_atom_ext _ _ _ _ X2) in G1. apply (good_atom_ext _ _ _ _ X3) in G1, G2.
  rewrite (here_small _ S2). split; [apply emitted_lt|].
  pose proof (holds_ext _ _ _ (ext_refl s')) as H.
  rewrite <- (app_nil_r (le32 ro)) in H.
  eapply (R_fused _ _ _ id lo ro); [|apply G1|apply G2]. fold s' in H. clearbody s'.
  op H. rd8' H. rd32' H (small_off _ _ S (proj1 G1)). rd32' H (small_off _ _ S (proj1 G2)). reflexivity.
Qed.

Lemma form_headers_length {A} (bs : list (fkind * A)) offs : length offs = length bs ->
  length (form_headers bs offs) = (10 * length bs)%nat.
Proof.
  revert offs. induction bs as [|[k b] bs IH]; intros [|o offs] L; cbn in L; try discriminate; [reflexivity|].
  unfold form_headers in *. cbn [combine flat_map fst snd length]. rewrite app_length, IH by lia.
  unfold form_header. destruct (classify k) as [[? ?] ?]. cbn. lia.
Qed.
Lemma hdr_info k o : kind_fits k -> header_info (hdr k o) = kind_info k.
Proof.
  unfold hdr, header_info, kind_info. destruct k as [n a| |]; cbn; try reflexivity. intros [B _].
  destruct (N.eqb_spec n 0); [lia|]. reflexivity.
Qed.
Lemma nth_combine {A B} (l : list A) (l' : list B) i : nth_error (combine l l') i =
  match nth_error l i, nth_error l' i with Some a, Some b => Some (a, b) | _, _ => None end.
Proof.
  revert l' i. induction l as [|a l IH]; intros [|b l'] [|i]; cbn; auto.
  - now destruct (nth_error l i).
Qed.
Lemma Forall2_nth {A B} (R : A -> B -> Prop) l l' : Forall2 R l l' -> forall i a b,
  nth_error l i = Some a -> nth_error l' i = Some b -> R a b.
Proof.
  induction 1; intros [|i] a b Ea Eb; cbn in *; try discriminate.
  - inversion Ea; inversion Eb; subst; auto.
  - eauto.
Qed.
Lemma branch_for_map (bs : list (N * syn)) (data : list (N * N)) (Q : syn -> N -> Prop) :
  Forall2 (fun b p => fst p = fst b /\ Q (snd b) (snd p)) bs data -> forall tag,
  (branch_for tag data = None <-> branch_for tag bs = None) /\
  (forall b o, branch_for tag bs = Some b -> branch_for tag data = Some o -> Q b o).
Proof.
  intros F tag. revert data F. induction bs as [|b bs IH] using rev_ind; intros data F.
  - inversion F; subst. split; [tauto|discriminate].
  - apply Forall2_app_inv_l in F. destruct F as (d1 & d2 & F1 & F2 & ->).
    inversion F2 as [|? p ? ? [Ht Hq] F3]; subst. inversion F3; subst.
    rewrite !branch_for_app, Ht. destruct (fst b =? tag).
    + split; [split; discriminate|]. intros b' o E1 E2; inversion E1; inversion E2; subst. exact Hq.
    + now apply IH.
Qed.
Lemma tags_fit_data (bs : list (N * syn)) (data : list (N * N)) (Q : syn -> N -> Prop) :
  Forall2 (fun b p => fst p = fst b /\ Q (snd b) (snd p)) bs data -> tags_fit bs -> tags_fit data.
Proof.
  intros F [A B].
  assert (forall p, In p data -> exists b, In b bs /\ fst p = fst b) as I.
  { induction F as [|b p bs data [E _] F IH]; intros q; [intros []|]. intros [<-|I].
    - exists b. split; [now left|exact E].
    - destruct IH with q as (b' & I' & E'); auto.
      + intros b' I'. apply A. now right.
      + intros [(x & Ix & X) (y & Iy & Y)]. apply B. split; [exists x|exists y]; split; auto; now right.
      + exists b'. split; [now right|exact E']. }
  split.
  - intros p Ip. destruct (I p Ip) as (b & Ib & ->). now apply A.
  - intros [(x & Ix & X) (y & Iy & Y)]. destruct (I x Ix) as (x' & Ix' & X'). destruct (I y Iy) as (y' & Iy' & Y').
    apply B. split; [exists x'|exists y']; split; auto; congruence.
Qed.

(** ** The encoder is correct *)
Theorem encode_good t : fits t -> forall s o s', encode_node t s = (o, s') -> small s' -> good t o s'.
Proof.
  induction t using syn_ind'; intros Ft s0 o0 s' E S; cbn [encode_node] in E; cbn [fits] in Ft.
  - destruct (emit_atom_good _ _ _ _ Ft E S) as [A B]. split; [exact A|now apply R_atom].
  - destruct Ft as (F1 & F2 & F3 & F4). rewrite All_Forall, Forall_forall in F3.
    destruct (encode_node t s0) as [so s1] eqn:E1. destruct (smap _ bs s1) as [data s2] eqn:E2.
    rewrite Forall_forall in H.
    assert (forall b, In b bs -> forall s4 r s5,
              (let '(o, s) := encode_node (snd b) s4 in (fst b, o, s)) = (r, s5) -> ext s4 s5) as Xb.
    { intros b I s4 r s5 Eb. destruct (encode_node (snd b) s4) as [o5 s6] eqn:E6. inversion Eb; subst. eapply encode_ext, E6. }
    assert (ext s1 s2) as X2 by (eapply ext_smap; [exact Xb|exact E2]).
    assert (small s2 -> Forall2 (fun b p => fst p = fst b /\ good (snd b) (snd p) s2) bs data) as Gb.
    { intros S2. eapply (smap_good _ (fun b p s => fst p = fst b /\ good (snd b) (snd p) s)); [| |  |exact E2|exact S2].
      - intros a b s4 s5 X [Y Z]. split; [exact Y|eapply good_ext; eauto].
      - exact Xb.
      - intros b I s4 r s5 Eb S5. cbv beta in Eb. destruct (encode_node (snd b) s4) as [o5 s6] eqn:E6. inversion Eb; subst. cbn.
        split; [reflexivity|]. eapply H; eauto. }
    assert (exists fo s3, (match fb with Some f => let '(o, s) := encode_node f s2 in (Some o, s) | None => (None, s2) end) = (fo, s3)) as (fo & s3 & E3)
      by (destruct fb as [f|]; [destruct (encode_node f s2)|]; eauto).
    rewrite E3 in E. apply pair_equal_spec in E; destruct E as [<- <-].
    assert (ext s2 s3) as X3.
    { destruct fb as [f|]; [|inversion E3; subst; apply ext_refl].
      destruct (encode_node f s2) as [o5 s6] eqn:E6. inversion E3; subst. eapply encode_ext, E6. }
    set (bytes := [op_case] ++ _) in *. pose proof (ext_emit bytes s3) as X4. set (s' := emit bytes s3) in *.
    pose proof (small_ext _ _ X4 S) as S3. pose proof (small_ext _ _ X3 S3) as S2. pose proof (small_ext _ _ X2 S2) as S1.
    rewrite (here_small _ S3). split; [apply emitted_lt|].
    assert (good t so s') as G1.
    { apply (good_ext _ _ _ _ X4), (good_ext _ _ _ _ X3), (good_ext _ _ _ _ X2). exact (IHt F1 _ _ _ E1 S1). }
    assert (Forall2 (fun b p => fst p = fst b /\ good (snd b) (snd p) s') bs data) as G2.
    { eapply F2_impl; [|exact (Gb S2)]. intros b p [Y Z].
      split; [exact Y|]. apply (good_ext _ _ _ _ X4), (good_ext _ _ _ _ X3). exact Z. }
    assert ((fo = None <-> fb = None) /\ (forall o f, fo = Some o -> fb = Some f -> good f o s')) as [G3 G4].
    { destruct fb as [f|].
      - destruct (encode_node f s2) as [o5 s6] eqn:E6. inversion E3; subst. split; [split; discriminate|].
        intros o f' Eo Ef. inversion Eo; inversion Ef; subst. eapply good_ext; [exact X4|]. eapply H0; eauto.
      - inversion E3; subst. split; [tauto|discriminate]. }
    pose proof (holds_ext _ _ _ (ext_refl s')) as Hd. fold s' in Hd. unfold bytes in Hd.
    assert (tags_fit data) as Td by (eapply (tags_fit_data bs data (fun b o => good b o s')); eauto).
    assert (Forall (fun p => snd p < no_branch) data) as Fd.
    { clearbody s'. clear -G2 S. induction G2 as [|b p bs data [_ [Z _]] _ IH]; constructor; auto. destruct S as [S _]. lia. }
    clearbody s'.
    cbn [app] in Hd.
    assert (exists min table, read_node (e_code s') (N.of_nat (length (e_code s3))) = Done (NCase so min table fo)
            /\ forall tag, match_tag min table tag = branch_for tag data) as (min & table & En & Et).
    { op Hd. rd32' Hd (small_off _ _ S (proj1 G1)).
      destruct (rd_table _ _ _ _ Td Fd Hd) as (min & table & pc' & E5 & Et & H5). rewrite E5. cbn [obind].
      destruct fo as [o|].
      - rd8' H5. change (1 =? 1) with true. cbv iota. rewrite <- (app_nil_r (le32 o)) in H5.
        destruct fb as [f|]; [|discriminate (proj2 G3 eq_refl)].
        rd32' H5 (small_off _ _ S (proj1 (G4 o f eq_refl eq_refl))). eauto.
      - rd8' H5. change (0 =? 1) with false. cbv iota. eauto. }
    eapply R_case; [exact En|apply G1|..].
    + intros tag. rewrite Et. apply (branch_for_map bs data (fun b o => good b o s') G2).
    + intros tag o b Eo Eb. rewrite Et in Eo. eapply (branch_for_map bs data (fun b o => good b o s') G2); eauto.
    + exact G3.
    + intros o f Eo Ef. apply (G4 o f Eo Ef).
  - destruct Ft as [F1 F2]. destruct (emit_arg_atoms args s0) as [offs s1] eqn:E1. apply pair_equal_spec in E; destruct E as [<- <-].
    set (bytes := [op_cons; tag] ++ _) in *. pose proof (ext_emit bytes s1) as X4. set (s' := emit bytes s1) in *.
    pose proof (small_ext _ _ X4 S) as S1. rewrite (here_small _ S1). split; [apply emitted_lt|].
    pose proof (args_good _ _ _ _ F2 E1 S1) as G. apply (good_atom_all _ _ _ _ X4) in G.
    pose proof (holds_ext _ _ _ (ext_refl s')) as Hd. fold s' in Hd. unfold bytes in Hd.
    rewrite <- (app_nil_r (arg_offsets offs)) in Hd. clearbody s'.
    destruct (args_refs _ _ _ G) as (ds & Ed & Fd). eapply (R_cons _ _ _ tag ds); [|exact Fd].
    op Hd. rd8' Hd. destruct (rd_args _ _ offs _ ltac:(rewrite <- (Forall2_len _ _ _ G); apply F2) (args_small _ _ _ S G) Hd) as (pc & Ea & _).
    rewrite Ea. cbn [obind]. rewrite Ed. reflexivity.
  - destruct Ft as [F1 F2]. destruct (emit_arg_atoms args s0) as [offs s1] eqn:E1. apply pair_equal_spec in E; destruct E as [<- <-].
    set (s2 := emit [op_app; eager_flag e] s1) in *. set (s3 := emit_ref c s2) in *. set (s' := emit (arg_offsets offs) s3) in *.
    assert (ext s3 s') as X3 by apply ext_emit. assert (ext s1 s') as X1 by (unfold s', s3, s2; ext_chain).
    pose proof (small_ext _ _ X1 S) as S1. rewrite (here_small _ S1).
    assert (e_code s' = e_code s1 ++ [op_app; eager_flag e] ++ ref_bytes c s2 ++ arg_offsets offs ++ []) as Ec.
    { unfold s', s3. rewrite emit_code, emit_ref_code. unfold s2. rewrite emit_code, app_nil_r, <- !app_assoc. reflexivity. }
    split; [rewrite Ec, app_length; cbn; lia|].
    pose proof (args_good _ _ _ _ F2 E1 S1) as G. apply (good_atom_all _ _ _ _ X1) in G.
    assert (holds (e_code s') (N.of_nat (length (e_code s1))) ([op_app; eager_flag e] ++ ref_bytes c s2 ++ arg_offsets offs ++ [])) as Hd
      by (rewrite Ec; apply holds_end).
    assert (exists d, read_node (e_code s') (N.of_nat (length (e_code s1))) = Done (NApp e d offs) /\ stands_for (e_consts s') d c) as (d & En & St).
    { op Hd. rd8' Hd. destruct (rd_ref _ _ _ _ _ _ F1 S X3 Hd) as (d & Er & St & Hd'). rewrite Er. cbn [obind].
      destruct (rd_args _ _ offs _ ltac:(rewrite <- (Forall2_len _ _ _ G); apply F2) (args_small _ _ _ S G) Hd') as (pc & Ea & _).
      rewrite Ea. cbn [obind]. exists d. split; [now destruct e|exact St]. }
    eapply R_app; [exact En|exact St|]. now apply args_atoms.
  - destruct Ft as (F0 & F1 & F2). destruct (emit_arg_atoms args s0) as [offs s1] eqn:E1. apply pair_equal_spec in E; destruct E as [<- <-].
    set (s2 := emit ([op_direct_app; eager_flag e] ++ le32 s) s1) in *. set (s3 := emit_ref c s2) in *. set (s' := emit (arg_offsets offs) s3) in *.
    assert (ext s3 s') as X3 by apply ext_emit. assert (ext s1 s') as X1 by (unfold s', s3, s2; ext_chain).
    pose proof (small_ext _ _ X1 S) as S1. rewrite (here_small _ S1).
    assert (e_code s' = e_code s1 ++ [op_direct_app; eager_flag e] ++ le32 s ++ ref_bytes c s2 ++ arg_offsets offs ++ []) as Ec.
    { unfold s', s3. rewrite emit_code, emit_ref_code. unfold s2. rewrite emit_code, app_nil_r, <- !app_assoc. reflexivity. }
    split; [rewrite Ec, app_length; cbn; lia|].
    pose proof (args_good _ _ _ _ F2 E1 S1) as G. apply (good_atom_all _ _ _ _ X1) in G.
    assert (holds (e_code s') (N.of_nat (length (e_code s1))) ([op_direct_app; eager_flag e] ++ le32 s ++ ref_bytes c s2 ++ arg_offsets offs ++ [])) as Hd
      by (rewrite Ec; apply holds_end).
    assert (exists d, read_node (e_code s') (N.of_nat (length (e_code s1))) = Done (NDirectApp e s d offs) /\ stands_for (e_consts s') d c) as (d & En & St).
    { op Hd. rd8' Hd. rd32' Hd F0. destruct (rd_ref _ _ _ _ _ _ F1 S X3 Hd) as (d & Er & St & Hd'). rewrite Er. cbn [obind].
      destruct (rd_args _ _ offs _ ltac:(rewrite <- (Forall2_len _ _ _ G); apply F2) (args_small _ _ _ S G) Hd') as (pc & Ea & _).
      rewrite Ea. cbn [obind]. exists d. split; [now destruct e|exact St]. }
    eapply R_direct_app; [exact En|exact St|]. now apply args_atoms.
  - destruct Ft as [F1 F2]. destruct (emit_arg_atoms args s0) as [offs s1] eqn:E1. apply pair_equal_spec in E; destruct E as [<- <-].
    set (bytes := [op_bif; i] ++ _) in *. pose proof (ext_emit bytes s1) as X4. set (s' := emit bytes s1) in *.
    pose proof (small_ext _ _ X4 S) as S1. rewrite (here_small _ S1). split; [apply emitted_lt|].
    pose proof (args_good _ _ _ _ F2 E1 S1) as G. apply (good_atom_all _ _ _ _ X4) in G.
    pose proof (holds_ext _ _ _ (ext_refl s')) as Hd. fold s' in Hd. unfold bytes in Hd.
    rewrite <- (app_nil_r (arg_offsets offs)) in Hd. clearbody s'.
    destruct (args_refs _ _ _ G) as (ds & Ed & Fd). eapply (R_bif _ _ _ i ds); [|exact Fd].
    op Hd. rd8' Hd. destruct (rd_args _ _ offs _ ltac:(rewrite <- (Forall2_len _ _ _ G); apply F2) (args_small _ _ _ S G) Hd) as (pc & Ea & _).
    rewrite Ea. cbn [obind]. rewrite Ed. reflexivity.
  - destruct Ft as [F1 F2]. rewrite All_Forall, Forall_forall in F1. rewrite Forall_forall in H.
    destruct (smap _ bs s0) as [offs s1] eqn:E1. destruct (encode_node t s1) as [bo s2] eqn:E2. apply pair_equal_spec in E; destruct E as [<- <-].
    set (bytes := [if rec then op_letrec else op_let] ++ _) in *. pose proof (ext_emit bytes s2) as X4. set (s' := emit bytes s2) in *.
    pose proof (encode_ext _ _ _ _ E2) as X2.
    pose proof (small_ext _ _ X4 S) as S2. pose proof (small_ext _ _ X2 S2) as S1. rewrite (here_small _ S2). split; [apply emitted_lt|].
    assert (Forall2 (fun b o => good (snd b) o s') bs offs) as G1.
    { eapply F2_impl; [intros b o Hb; eapply good_ext; [exact X4|eapply good_ext; [exact X2|exact Hb]]|].
      eapply (smap_good _ (fun b o s => good (snd b) o s)); [| |  |exact E1|exact S1].
      - intros a b s4 s5 X. now apply good_ext.
      - intros b I s4 r s5 Eb. eapply encode_ext, Eb.
      - intros b I s4 r s5 Eb S5. exact (H _ I (proj2 (F1 _ I)) _ _ _ Eb S5). }
    assert (good t bo s') as G2 by (eapply good_ext; [exact X4|]; eapply IHt; eauto).
    pose proof (Forall2_len _ _ _ G1) as Ln.
    assert (N.of_nat (length bs) < 4294967296) as Bn.
    { destruct S as [S _]. unfold s', bytes in S. rewrite emit_code, !app_length, form_headers_length in S by congruence.
      unfold no_branch in S. lia. }
    pose proof (holds_ext _ _ _ (ext_refl s')) as Hd. fold s' in Hd. unfold bytes in Hd.
    rewrite <- (app_nil_r (le32 bo)) in Hd. clearbody s'.
    assert (read_node (e_code s') (N.of_nat (length (e_code s2)))
            = Done (NLet rec (map (fun p => hdr (fst (fst p)) (snd p)) (combine bs offs)) bo)) as En.
    { unfold read_node. cbn [app] in Hd. rd8' Hd.
      assert (u32 (N.of_nat (length bs)) = N.of_nat (length bs)) as Eu by (apply N.mod_small; exact Bn).
      rewrite Eu in Hd.
      destruct rec;
        repeat match goal with |- context [?a =? ?b] => let v := eval compute in (a =? b) in change (a =? b) with v end;
        cbn [orb]; cbv iota; rd32' Hd Bn; rewrite Nat2N.id;
        (destruct (rd_headers (e_code s') bs offs (eq_sym Ln)
          ltac:(apply Forall_forall; intros b I; apply F1, I)
          ltac:(clear -G1 S; induction G1 as [|b o bs offs [Z _] _ IH]; constructor; [eapply small_off; eauto|exact IH]) _ _ Hd) as (pc & Eh & Hd'));
        rewrite Eh; cbn [obind]; rd32' Hd' (small_off _ _ S (proj1 G2)); reflexivity. }
    eapply R_let; [exact En|..|apply G2].
    + rewrite map_length, combine_length, <- Ln. lia.
    + intros i h k b Eh Eb. rewrite nth_error_map, nth_combine, Eb in Eh.
      destruct (nth_error offs i) as [o|] eqn:Eo; cbn in Eh; inversion Eh; subst.
      apply hdr_info. apply nth_error_In in Eb. apply (F1 _ Eb).
    + intros i h k b Eh Eb. rewrite nth_error_map, nth_combine, Eb in Eh.
      destruct (nth_error offs i) as [o|] eqn:Eo; cbn in Eh; inversion Eh; subst.
      assert (h_body (hdr k o) = o) as -> by (unfold hdr; now destruct (classify k) as [[? ?] ?]).
      apply (Forall2_nth _ _ _ G1 i _ _ Eb Eo).
  - destruct Ft as [F1 F2]. destruct (encode_node t s0) as [bo s1] eqn:E1. apply pair_equal_spec in E; destruct E as [<- <-].
    set (bytes := [op_ann] ++ _) in *. pose proof (ext_emit bytes s1) as X4. set (s' := emit bytes s1) in *.
    pose proof (small_ext _ _ X4 S) as S1. rewrite (here_small _ S1). split; [apply emitted_lt|].
    assert (good t bo s') as G by (eapply good_ext; [exact X4|]; eapply IHt; eauto).
    pose proof (holds_ext _ _ _ (ext_refl s')) as Hd. fold s' in Hd. unfold bytes in Hd.
    rewrite <- (app_nil_r (le32 bo)) in Hd. clearbody s'.
    eapply (R_ann _ _ _ s bo); [|apply G]. op Hd. rd32' Hd F1. rd32' Hd (small_off _ _ S (proj1 G)). reflexivity.
  - destruct Ft as [F1 F2]. destruct (emit_atom m s0) as [lo s1] eqn:E1. destruct (emit_atom b s1) as [ro s2] eqn:E2.
    apply pair_equal_spec in E; destruct E as [<- <-]. pose proof (ext_atom _ _ _ _ E2) as X2.
    set (bytes := [op_meta] ++ _) in *. pose proof (ext_emit bytes s2) as X4. set (s' := emit bytes s2) in *.
    pose proof (small_ext _ _ X4 S) as S2. pose proof (small_ext _ _ X2 S2) as S1. rewrite (here_small _ S2). split; [apply emitted_lt|].
    pose proof (emit_atom_good _ _ _ _ F1 E1 S1) as G1. pose proof (emit_atom_good _ _ _ _ F2 E2 S2) as G2.
    apply (good_atom_ext _ _ _ _ X2) in G1. apply (good_atom_ext _ _ _ _ X4) in G1, G2.
    pose proof (holds_ext _ _ _ (ext_refl s')) as Hd. fold s' in Hd. unfold bytes in Hd.
    rewrite <- (app_nil_r (le32 ro)) in Hd. clearbody s'.
    destruct G1 as (L1 & d1 & A1 & T1). destruct G2 as (L2 & d2 & A2 & T2).
    eapply (R_meta _ _ _ d1 d2); [|exact T1|exact T2]. op Hd. rd32' Hd (small_off _ _ S L1). rd32' Hd (small_off _ _ S L2).
    rewrite (arg_ref_atom _ _ _ A1). cbn [obind]. rewrite (arg_ref_atom _ _ _ A2). reflexivity.
  - destruct Ft as (F1 & F2 & F3). destruct (encode_node t1 s0) as [o1 s1] eqn:E1. destruct (encode_node t2 s1) as [o2 s2] eqn:E2.
    destruct (encode_node t3 s2) as [o3 s3] eqn:E3. apply pair_equal_spec in E; destruct E as [<- <-].
    pose proof (encode_ext _ _ _ _ E2) as X2. pose proof (encode_ext _ _ _ _ E3) as X3.
    set (bytes := [op_demeta] ++ _) in *. pose proof (ext_emit bytes s3) as X4. set (s' := emit bytes s3) in *.
    pose proof (small_ext _ _ X4 S) as S3. pose proof (small_ext _ _ X3 S3) as S2. pose proof (small_ext _ _ X2 S2) as S1.
    rewrite (here_small _ S3). split; [apply emitted_lt|].
    pose proof (IHt1 F1 _ _ _ E1 S1) as G1. pose proof (IHt2 F2 _ _ _ E2 S2) as G2. pose proof (IHt3 F3 _ _ _ E3 S3) as G3.
    apply (good_ext _ _ _ _ X2) in G1. apply (good_ext _ _ _ _ X3) in G1, G2. apply (good_ext _ _ _ _ X4) in G1, G2, G3.
    pose proof (holds_ext _ _ _ (ext_refl s')) as Hd. fold s' in Hd. unfold bytes in Hd.
    rewrite <- (app_nil_r (le32 o3)) in Hd. clearbody s'.
    eapply (R_demeta _ _ _ o1 o2 o3); [|apply G1|apply G2|apply G3].
    op Hd. rd32' Hd (small_off _ _ S (proj1 G1)). rd32' Hd (small_off _ _ S (proj1 G2)). rd32' Hd (small_off _ _ S (proj1 G3)). reflexivity.
  - destruct Ft as (F1 & F2). destruct (encode_node t1 s0) as [o1 s1] eqn:E1. destruct (encode_node t2 s1) as [o2 s2] eqn:E2.
    apply pair_equal_spec in E; destruct E as [<- <-]. pose proof (encode_ext _ _ _ _ E2) as X2.
    set (bytes := [op_seq] ++ _) in *. pose proof (ext_emit bytes s2) as X4. set (s' := emit bytes s2) in *.
    pose proof (small_ext _ _ X4 S) as S2. pose proof (small_ext _ _ X2 S2) as S1.
    rewrite (here_small _ S2). split; [apply emitted_lt|].
    pose proof (IHt1 F1 _ _ _ E1 S1) as G1. pose proof (IHt2 F2 _ _ _ E2 S2) as G2.
    apply (good_ext _ _ _ _ X2) in G1. apply (good_ext _ _ _ _ X4) in G1, G2.
    pose proof (holds_ext _ _ _ (ext_refl s')) as Hd. fold s' in Hd. unfold bytes in Hd.
    rewrite <- (app_nil_r (le32 o2)) in Hd. clearbody s'.
    eapply (R_seq _ _ _ o1 o2); [|apply G1|apply G2].
    op Hd. rd32' Hd (small_off _ _ S (proj1 G1)). rd32' Hd (small_off _ _ S (proj1 G2)). reflexivity.
  - destruct Ft as (F0 & F1 & F2 & F3). destruct (emit_atom d s0) as [lo s1] eqn:E1. apply pair_equal_spec in E; destruct E as [<- <-].
    set (s2 := emit ([op_lookup_lit] ++ le32 s) s1) in *. set (s3 := emit_ref k s2) in *. set (s4 := emit_ref o s3) in *.
    set (s' := emit (le32 lo) s4) in *.
    assert (ext s4 s') as X4 by apply ext_emit. assert (ext s3 s') as X3 by (unfold s', s4; ext_chain).
    assert (ext s1 s') as X1 by (unfold s', s4, s3, s2; ext_chain).
    pose proof (small_ext _ _ X1 S) as S1. rewrite (here_small _ S1).
    assert (e_code s' = e_code s1 ++ [op_lookup_lit] ++ le32 s ++ ref_bytes k s2 ++ ref_bytes o s3 ++ le32 lo ++ []) as Ec.
    { unfold s'. rewrite emit_code. unfold s4. rewrite emit_ref_code. unfold s3 at 1. rewrite emit_ref_code. unfold s2 at 1.
      rewrite emit_code, app_nil_r, <- !app_assoc. reflexivity. }
    split; [rewrite Ec, app_length; cbn; lia|].
    pose proof (emit_atom_good _ _ _ _ F3 E1 S1) as G1. apply (good_atom_ext _ _ _ _ X1) in G1.
    assert (holds (e_code s') (N.of_nat (length (e_code s1)))
              ([op_lookup_lit] ++ le32 s ++ ref_bytes k s2 ++ ref_bytes o s3 ++ le32 lo ++ [])) as Hd by (rewrite Ec; apply holds_end).
    assert (exists d1 d2, read_node (e_code s') (N.of_nat (length (e_code s1))) = Done (NLookupLit s d1 d2 lo)
              /\ stands_for (e_consts s') d1 k /\ stands_for (e_consts s') d2 o) as (d1 & d2 & En & T1 & T2).
    { op Hd. rd32' Hd F0. destruct (rd_ref _ _ _ _ _ _ F1 S X3 Hd) as (d1 & Er & St & Hd'). rewrite Er. cbn [obind].
      destruct (rd_ref _ _ _ _ _ _ F2 S X4 Hd') as (d2 & Er' & St' & Hd''). rewrite Er'. cbn [obind].
      rd32' Hd'' (small_off _ _ S (proj1 G1)). eauto. }
    eapply R_lookup; [exact En|exact T1|exact T2|apply G1].
  - destruct Ft as (F1 & F2 & F3). eapply fused_good; eauto.
  - inversion E; subst. pose proof (small_ext _ _ (ext_emit _ _) S) as S1. rewrite (here_small _ S1).
    split; [apply emitted_lt|]. pose proof (holds_ext _ _ _ (ext_refl (emit [op_black_hole] s0))) as Hd.
    apply R_black_hole. op Hd. reflexivity.
Qed.
End Enc.
