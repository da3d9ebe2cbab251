(** An intermediate machine: call by name with an explicit stack, without a heap. It takes no part
    in the statements; it is shown here to compute exactly the values of [Spec.evals]. *)
From Coq Require Import List Bool Arith NArith Lia.
From Verif.Bytecode Require Import Model Spec.
From Verif.Machine Require Import Model Spec.
Import ListNotations.
Open Scope nat_scope.

Section Name.
Context {native : Type}.
Notation ref := (ref native).
Notation syn := (syn native).
Notation form := (form native).
Notation value := (value (native := native)).
Notation env := (env (native := native)).
Variable prim : N -> list native -> prim_result (native := native).
Variable merge : N.
Variable globals : list form.
Notation variable := (variable globals).
Notation variables := (variables globals).
Notation arguments := (arguments globals).
Notation evals := (evals prim merge globals).
Notation strips := (strips prim merge globals).
Notation applies := (applies prim merge globals).
Notation operand := (operand prim merge globals).
Notation natives := (natives prim merge globals).
Notation result := (result prim merge globals).

Inductive pcont :=
| PBranch (bs : list (N * syn)) (fb : option syn) (e : env)
| PApply (vs : list value)
| PDeMeta (handler or_else : syn) (e : env)
| PSeq (body : syn) (e : env)
| PFusedLeft (i : N) (r : ref) (e : env)
| PFusedRight (i : N) (l : value) (e : env)
| PBif (i : N) (got : list native) (todo : list value).

Definition pstate : Type := value * list pcont.

Definition deliver (i : N) (ns : list native) (K : list pcont) : option pstate :=
  match delivered (prim i ns) with Some v => Some (v, K) | None => None end.

(** What a fused operator sees of an operand. *)
Definition box_field (v : value) : option (option value) :=
  match v with
  | VClo (SCons tag args) 0 e =>
      if is_boxed tag then
        match args with
        | [] => Some None
        | r :: _ => Some (variable e r)
        end
      else None
  | _ => None
  end.

Definition enter_fun (v : value) (args : list value) (K : list pcont) : option pstate :=
  match v with
  | VClo c _ e => Some (VClo c 0 (Vals args :: e), K)
  | VPap f held => Some (f, PApply (held ++ args) :: K)
  | VNat _ => None
  end.
Definition apply_fun (v : value) (args : list value) (K : list pcont) : option pstate :=
  match takes v with
  | 0 => None
  | S _ =>
      match length args ?= takes v with
      | Lt => Some (VPap v args, K)
      | Eq => enter_fun v args K
      | Gt => enter_fun v (firstn (takes v) args) (PApply (skipn (takes v) args) :: K)
      end
  end.
Definition apply_value (v : value) (args : list value) (K : list pcont) : option pstate :=
  match v with
  | VClo (SCons tag xs) 0 e =>
      if (tag =? tag_block)%N then
        match variable [] (RG merge) with
        | Some m => Some (m, PApply (args ++ [v]) :: K)
        | None => None
        end
      else None
  | _ => apply_fun v args K
  end.

(** Returning a value without metadata. *)
Definition preturn (v : value) (K : list pcont) : option pstate :=
  match K with
  | [] => None
  | PBranch bs fb e :: K =>
      match selects v bs with
      | Some b =>
          match v with
          | VClo (SCons _ args) 0 e' =>
              match variables e' args with
              | Some vs => Some (VClo b 0 (bind vs e), K)
              | None => None
              end
          | _ => None
          end
      | None => match fb with Some f => Some (VClo f 0 (Vals [v] :: e), K) | None => None end
      end
  | PApply vs :: K => apply_value v vs K
  | PDeMeta _ o e :: K => Some (VClo o 0 (Vals [v] :: e), K)
  | PSeq b e :: K => Some (VClo b 0 e, K)
  | PFusedLeft i r e :: K =>
      match box_field v with
      | Some (Some q) => Some (q, PFusedLeft i r e :: K)
      | Some None => None
      | None => Some (VClo (SAtom r) 0 e, PFusedRight i v e :: K)
      end
  | PFusedRight i l e :: K =>
      match box_field v with
      | Some (Some q) => Some (q, PFusedRight i l e :: K)
      | Some None => None
      | None => match l, v with VNat a, VNat b => deliver i [a; b] K | _, _ => None end
      end
  | PBif i got todo :: K =>
      match v with
      | VNat n => match todo with
                  | [] => deliver i (got ++ [n]) K
                  | p :: todo => Some (p, PBif i (got ++ [n]) todo :: K)
                  end
      | _ => None
      end
  end.

Definition pmeta (m b : ref) (e : env) (K : list pcont) : option pstate :=
  match variable e b with
  | None => None
  | Some q =>
      match K with
      | [] => match variable e m with Some _ => Some (q, []) | None => None end
      | PDeMeta h _ e' :: K =>
          match variable e m with Some p => Some (VClo h 0 (Vals [p; q] :: e'), K) | None => None end
      | PBif _ _ _ :: _ => None
      | _ => Some (q, K)
      end
  end.

Definition pcode (c : syn) (e : env) (K : list pcont) : option pstate :=
  match c with
  | SAtom r => match variable e r with Some p => Some (p, K) | None => None end
  | SCase scr bs fb => Some (VClo scr 0 e, PBranch bs fb e :: K)
  | SCons tag args => preturn (VClo (SCons tag args) 0 e) K
  | SApp f args eager | SDirectApp _ f args eager =>
      match variable e f, arguments eager e args with
      | Some p, Some vs => Some (p, PApply vs :: K)
      | _, _ => None
      end
  | SBif i args =>
      match variables e args with
      | Some [] => deliver i [] K
      | Some (p :: ps) => Some (p, PBif i [] ps :: K)
      | None => None
      end
  | SLet false fs body => Some (VClo body 0 (Vals (map (closure e) fs) :: e), K)
  | SLet true fs body => Some (VClo body 0 (Rec fs :: e), K)
  | SAnn _ body => Some (VClo body 0 e, K)
  | SMeta m b => pmeta m b e K
  | SDeMeta scr h o => Some (VClo scr 0 e, PDeMeta h o e :: K)
  | SSeq scr b => Some (VClo scr 0 e, PSeq b e :: K)
  | SFused i l r _ => Some (VClo (SAtom l) 0 e, PFusedLeft i r e :: K)
  | SLookupLit _ _ _ _ | SBlackHole => None
  end.

Definition pstep (S : pstate) : option pstate :=
  let '(p, K) := S in
  match p with
  | VClo c 0 e => pcode c e K
  | _ => preturn p K
  end.

Inductive steps : nat -> pstate -> pstate -> Prop :=
| steps_0 S : steps 0 S S
| steps_S n S S' S'' : pstep S = Some S' -> steps n S' S'' -> steps (Datatypes.S n) S S''.

Definition reaches (S S' : pstate) : Prop := exists n, steps n S S'.

Lemma steps_trans n m S1 S2 S3 : steps n S1 S2 -> steps m S2 S3 -> steps (n + m) S1 S3.
Proof. induction 1; simpl; eauto using steps. Qed.
Lemma steps_one S S' : pstep S = Some S' -> steps 1 S S'.
Proof. intros H; econstructor; [exact H | constructor]. Qed.
Lemma steps_zero S S' : steps 0 S S' -> S = S'.
Proof. inversion 1; reflexivity. Qed.
Lemma reaches_refl S : reaches S S.
Proof. exists 0; constructor. Qed.
Lemma reaches_trans S1 S2 S3 : reaches S1 S2 -> reaches S2 S3 -> reaches S1 S3.
Proof. intros [n Hn] [m Hm]; exists (n + m); eauto using steps_trans. Qed.
Lemma reaches_step S S' S'' : pstep S = Some S' -> reaches S' S'' -> reaches S S''.
Proof. intros H [n Hn]; exists (Datatypes.S n); econstructor; eauto. Qed.
Lemma reaches_one S S' : pstep S = Some S' -> reaches S S'.
Proof. intros H; eapply reaches_step; [exact H | apply reaches_refl]. Qed.

Lemma steps_split n S S' : steps n S S' -> forall m S'', steps m S S'' -> m <= n -> steps (n - m) S'' S'.
Proof.
  induction 1; intros m T Hm Hle; inversion Hm; subst; try lia; simpl.
  - constructor.
  - econstructor; eauto.
  - rewrite H in H1; injection H1 as ->. apply IHsteps; [assumption | lia].
Qed.

(** A value in weak head normal form. *)
Definition whnf (v : value) : bool :=
  match v with
  | VNat _ | VPap _ _ => true
  | VClo _ (S _) _ => true
  | VClo (SCons _ _) 0 _ | VClo (SMeta _ _) 0 _ => true
  | VClo _ 0 _ => false
  end.
Lemma whnf_evals v : whnf v = true -> evals v v.
Proof.
  destruct v as [n | c [|a] e | f args]; simpl; intros H.
  - constructor.
  - destruct c; try discriminate; [apply ev_data | apply ev_meta].
  - constructor; lia.
  - constructor.
Qed.
Lemma delivered_whnf r v : delivered r = Some v -> whnf v = true /\ is_meta v = false.
Proof. destruct r; simpl; intros [= <-]; split; reflexivity. Qed.
Scheme evals_mind := Minimality for Spec.evals Sort Prop
  with strips_mind := Minimality for Spec.strips Sort Prop
  with applies_mind := Minimality for Spec.applies Sort Prop
  with operand_mind := Minimality for Spec.operand Sort Prop
  with natives_mind := Minimality for Spec.natives Sort Prop.
Combined Scheme eval_mutual from evals_mind, strips_mind, applies_mind, operand_mind, natives_mind.

Lemma all_whnf :
  (forall p v, evals p v -> whnf v = true) /\
  (forall p v, strips p v -> whnf v = true /\ is_meta v = false) /\
  (forall p args v, applies p args v -> whnf v = true) /\
  (forall p n, operand p n -> True) /\ (forall ps ns, natives ps ns -> True).
Proof.
  apply eval_mutual; try (intros; trivial; fail); try (intros; apply delivered_whnf in H1; tauto).
  - intros c [|a] e H; [lia | destruct c; reflexivity].
  - intros i args e ps ns v _ _ _ Hd. apply delivered_whnf in Hd; tauto.
  - intros i l r inner e a b v _ _ _ _ Hd. apply delivered_whnf in Hd; tauto.
  - intros p v _ Hv Hm. auto.
Qed.
Lemma evals_whnf p v : evals p v -> whnf v = true.
Proof. apply (proj1 all_whnf). Qed.
Lemma pstep_return v K : whnf v = true -> is_meta v = false -> pstep (v, K) = preturn v K.
Proof.
  destruct v as [n | c [|a] e | f args]; simpl; try reflexivity.
  destruct c; simpl; try discriminate; reflexivity.
Qed.
Lemma strips_whnf p v : strips p v -> whnf v = true /\ is_meta v = false.
Proof. apply (proj1 (proj2 all_whnf)). Qed.

Lemma is_boxed_spec tag : is_boxed tag = true <-> boxed tag.
Proof.
  unfold is_boxed, boxed, tag_boxed_number, tag_boxed_string, tag_boxed_symbol, tag_boxed_zdt. simpl.
  rewrite !orb_true_iff, !N.eqb_eq. intuition congruence.
Qed.

(** Continuations to which metadata is transparent. *)
Definition transparent (k : pcont) : bool :=
  match k with PDeMeta _ _ _ | PBif _ _ _ => false | _ => true end.

Definition fused_done (p : value) (n : native) : Prop :=
  forall k K, (exists i r e, k = PFusedLeft i r e) \/ (exists i l e, k = PFusedRight i l e) ->
              reaches (p, k :: K) (VNat n, k :: K).

Lemma apply_value_fun w args K : whnf w = true -> is_meta w = false -> 0 < takes w ->
  apply_value w args K = apply_fun w args K.
Proof.
  destruct w as [n | c [|a] e | f held]; simpl; intros; try reflexivity; try lia; destruct c; reflexivity.
Qed.

Lemma big_small :
  (forall p v, evals p v -> forall K, reaches (p, K) (v, K)) /\
  (forall p v, strips p v -> forall k K, transparent k = true -> reaches (p, k :: K) (v, k :: K)) /\
  (forall p args v, applies p args v -> forall K, reaches (p, PApply args :: K) (v, K)) /\
  (forall p n, operand p n -> fused_done p n) /\
  (forall ps ns, natives ps ns -> forall i got K v,
      delivered (prim i (got ++ ns)) = Some v ->
      match ps with [] => True | p :: ps => reaches (p, PBif i got ps :: K) (v, K) end).
Proof.
  apply eval_mutual.
  - (* native *) intros; apply reaches_refl.
  - intros; apply reaches_refl.
  - intros; apply reaches_refl.
  - intros; apply reaches_refl.
  - intros; apply reaches_refl.
  - (* variable *) intros r e p v Hv _ IH K.
    eapply reaches_step; [simpl; rewrite Hv; reflexivity | apply IH].
  - (* branch *) intros scr bs fb e tag args e' b vs v _ IHs Hb Hv _ IH K.
    eapply reaches_step; [reflexivity |].
    eapply reaches_trans; [apply IHs; reflexivity |].
    eapply reaches_step; [| apply IH]. simpl. rewrite Hb, Hv. reflexivity.
  - (* fallback *) intros scr bs f e w v Hs IHs Hb _ IH K.
    eapply reaches_step; [reflexivity |].
    eapply reaches_trans; [apply IHs; reflexivity |].
    destruct (strips_whnf _ _ Hs) as [Hw Hm].
    eapply reaches_step; [| apply IH]. rewrite pstep_return by assumption.
    simpl. rewrite Hb. reflexivity.
  - (* app *) intros f args eager e p vs v Hf Ha _ IH K.
    eapply reaches_step; [simpl; rewrite Hf, Ha; reflexivity | apply IH].
  - intros smid f args eager e p vs v Hf Ha _ IH K.
    eapply reaches_step; [simpl; rewrite Hf, Ha; reflexivity | apply IH].
  - (* primitive *) intros i args e ps ns v Hv Hn IH Hd K.
    specialize (IH i [] K v Hd). destruct ps as [|p ps].
    + inversion Hn; subst. apply reaches_one. simpl. rewrite Hv. unfold deliver. rewrite Hd. reflexivity.
    + eapply reaches_step; [simpl; rewrite Hv; reflexivity | exact IH].
  - (* let *) intros fs body e v _ IH K. eapply reaches_step; [reflexivity | apply IH].
  - intros fs body e v _ IH K. eapply reaches_step; [reflexivity | apply IH].
  - intros smid body e v _ IH K. eapply reaches_step; [reflexivity | apply IH].
  - (* demeta *) intros scr h o e m b e' p q v _ IHs Hp Hq _ IH K.
    eapply reaches_step; [reflexivity |].
    eapply reaches_trans; [apply IHs |].
    eapply reaches_step; [| apply IH]. simpl. unfold pmeta. rewrite Hp, Hq. reflexivity.
  - intros scr h o e w v Hs IHs Hm _ IH K.
    eapply reaches_step; [reflexivity |].
    eapply reaches_trans; [apply IHs |].
    eapply reaches_step; [| apply IH]. rewrite pstep_return by eauto using evals_whnf. reflexivity.
  - (* seq *) intros scr body e w v Hs IHs _ IH K.
    eapply reaches_step; [reflexivity |].
    eapply reaches_trans; [apply IHs; reflexivity |].
    destruct (strips_whnf _ _ Hs) as [Hw Hm].
    eapply reaches_step; [| apply IH]. rewrite pstep_return by assumption. reflexivity.
  - (* fused *) intros i l r inner e a b v _ IHa _ IHb Hd K.
    eapply reaches_step; [reflexivity |].
    eapply reaches_trans; [apply IHa; left; eauto |].
    eapply reaches_step; [reflexivity |].
    eapply reaches_trans; [apply IHb; right; eauto |].
    apply reaches_one. simpl. unfold deliver. rewrite Hd. reflexivity.
  - (* strips *) intros p v _ IH Hm k K Hk. apply IH.
  - intros p m b e q v _ IH Hq _ IHs k K Hk.
    eapply reaches_trans; [apply IH |].
    eapply reaches_step; [| apply IHs; exact Hk].
    simpl. unfold pmeta. rewrite Hq. destruct k; try discriminate; reflexivity.
  - (* saturated *) intros p args c e v Hs IHs Hpos _ IH K.
    eapply reaches_trans; [apply IHs; reflexivity |].
    eapply reaches_step; [| apply IH].
    destruct (strips_whnf _ _ Hs) as [Hw Hm].
    rewrite pstep_return by assumption. cbn [preturn].
    rewrite apply_value_fun by assumption. unfold apply_fun. cbn [takes].
    rewrite Nat.compare_refl. destruct (length args); [lia | reflexivity].
  - intros p args f held v Hs IHs Ht Hpos _ IH K.
    eapply reaches_trans; [apply IHs; reflexivity |].
    eapply reaches_step; [| apply IH].
    cbn [pstep preturn apply_value]. unfold apply_fun. rewrite Ht, Nat.compare_refl.
    destruct (length args); [lia | reflexivity].
  - intros p args w Hs IHs Hlt K.
    eapply reaches_trans; [apply IHs; reflexivity |].
    apply reaches_one.
    destruct (strips_whnf _ _ Hs) as [Hw Hm].
    rewrite pstep_return by assumption. cbn [preturn].
    rewrite apply_value_fun by (assumption || lia). unfold apply_fun.
    destruct (takes w) eqn:E; [lia |].
    rewrite (proj2 (Nat.compare_lt_iff _ _)) by lia. reflexivity.
  - intros p args w u v Hs IHs Hlt _ IH1 _ IH2 K.
    eapply reaches_trans; [apply IHs; reflexivity |].
    destruct (strips_whnf _ _ Hs) as [Hw Hm].
    assert (H1 : pstep (w, PApply args :: K) =
                 pstep (w, PApply (firstn (takes w) args) :: PApply (skipn (takes w) args) :: K)).
    { rewrite !pstep_return by assumption. cbn [preturn].
      rewrite !apply_value_fun by (assumption || lia). unfold apply_fun.
      destruct (takes w) eqn:E; [lia |].
      rewrite (proj2 (Nat.compare_gt_iff _ _)) by lia.
      rewrite firstn_length_le by lia. rewrite Nat.compare_refl. reflexivity. }
    specialize (IH1 (PApply (skipn (takes w) args) :: K)).
    eapply reaches_trans; [| apply IH2].
    destruct IH1 as [[|n] Hn].
    + exfalso. apply steps_zero in Hn. apply (f_equal (fun S => length (snd S))) in Hn. simpl in Hn. lia.
    + inversion Hn as [|n' S0 S1 S2 E1 E2]; subst. eapply reaches_step; [rewrite H1; exact E1 | exists n; exact E2].
  - intros p args fields e m v Hs IHs Hm _ IH K.
    eapply reaches_trans; [apply IHs; reflexivity |].
    eapply reaches_step; [| apply IH].
    cbn [pstep pcode preturn apply_value]. rewrite N.eqb_refl, Hm. reflexivity.
  - (* operand *) intros p n _ IH k K Hk. apply IH.
    destruct Hk as [(i & r & e & ->) | (i & l & e & ->)]; reflexivity.
  - intros p tag r rs e q n _ IHs Hb Hq _ IH k K Hk.
    apply is_boxed_spec in Hb.
    eapply reaches_trans; [apply IHs; destruct Hk as [(i & r' & e' & ->) | (i & l & e' & ->)]; reflexivity |].
    eapply reaches_step; [| apply IH; exact Hk].
    destruct Hk as [(i & r' & e' & ->) | (i & l & e' & ->)]; simpl; rewrite Hb, Hq; reflexivity.
  - intros; exact I.
  - intros p n ps ns _ IHp Hn IH i got K v Hd.
    eapply reaches_trans; [apply IHp |].
    destruct ps as [|p2 ps].
    + inversion Hn; subst. apply reaches_one. simpl. unfold deliver. rewrite Hd. reflexivity.
    + eapply reaches_step; [reflexivity |]. apply IH. rewrite <- app_assoc. exact Hd.
Qed.

(** Conversely, whatever the stack machine computes has a value. *)
Definition final (S : pstate) : Prop := snd S = [] /\ whnf (fst S) = true /\ is_meta (fst S) = false.
Definition runs (n : nat) (S T : pstate) : Prop := steps n S T /\ final T.
Definition sound_at (n : nat) : Prop := forall p K T,
  runs n (p, K) T -> exists v m, evals p v /\ m <= n /\ runs m (v, K) T.

Lemma runs_step n p K T : runs n (p, K) T -> K <> [] \/ whnf p = false \/ is_meta p = true ->
  exists n' Q, n = S n' /\ pstep (p, K) = Some Q /\ runs n' Q T.
Proof.
  intros [H (F1 & F2 & F3)] Hn. inversion H; subst.
  - simpl in *. intuition congruence.
  - eexists _, _. repeat split; eauto.
Qed.

Section Below.
Variable n : nat.
Hypothesis IH : forall m, m < n -> sound_at m.

Lemma strips_below m : m < n -> forall p k K T, transparent k = true -> runs m (p, k :: K) T ->
  exists w m', strips p w /\ m' <= m /\ runs m' (w, k :: K) T.
Proof.
  induction m as [m IHm] using lt_wf_ind. intros Hm p k K T Hk Hr.
  destruct (IH m Hm _ _ _ Hr) as (v & m1 & Hv & Hle & Hr1).
  destruct (is_meta v) eqn:Em.
  - destruct v as [ | c [|a] e | ]; try discriminate; destruct c; try discriminate.
    destruct (runs_step _ _ _ _ Hr1) as (m2 & Q & -> & Hs & Hr2); [left; discriminate |].
    simpl in Hs. unfold pmeta in Hs. destruct (variable e body) as [q|] eqn:Eq; [| discriminate].
    assert (Q = (q, k :: K)) as -> by (destruct k; simpl in *; congruence).
    destruct (IHm m2) with (p := q) (k := k) (K := K) (T := T) as (w & m3 & Hw & Hle3 & Hr3);
      try assumption; try lia.
    exists w, m3. split; [econstructor; eassumption | split; [lia | assumption]].
  - exists v, m1. split; [constructor; assumption | split; assumption].
Qed.

Lemma self_strips w : whnf w = true -> is_meta w = false -> strips w w.
Proof. intros; apply st_plain; auto using whnf_evals. Qed.

Lemma enter_below m w args K T :
  m < n -> (forall m' p args K, m' < m -> runs m' (p, PApply args :: K) T ->
            exists v m'', applies p args v /\ m'' < m' /\ runs m'' (v, K) T) ->
  whnf w = true -> is_meta w = false -> takes w = length args -> 0 < length args ->
  forall Q m', m' < m -> enter_fun w args K = Some Q -> runs m' Q T ->
  exists v m'', applies w args v /\ m'' <= m' /\ runs m'' (v, K) T.
Proof.
  intros Hm Happ Hw Hnm Ht Hpos Q m' Hm' He Hr.
  destruct w as [k | c a e | f held]; simpl in He; try discriminate; injection He as <-.
  - destruct (IH m' ltac:(lia) _ _ _ Hr) as (v & m2 & Hv & Hle & Hr2).
    exists v, m2. split; [| split; assumption].
    simpl in Ht; subst a. eapply ap_saturated; [apply self_strips; eassumption | assumption | assumption].
  - destruct (Happ m' f (held ++ args) K Hm' Hr) as (v & m2 & Hv & Hle & Hr2).
    exists v, m2. split; [| split; [lia | assumption]].
    eapply ap_completed; [apply self_strips; eassumption | assumption | assumption | assumption].
Qed.

Lemma applies_via p w args v : strips p w -> applies w args v -> whnf w = true -> is_meta w = false ->
  applies p args v.
Proof.
  intros Hs Ha Hw Hm.
  assert (forall u, strips w u -> u = w) as Hself.
  { intros u Hu. inversion Hu; subst.
    - match goal with H : evals w u |- _ => clear - H Hw; inversion H; subst; simpl in *; congruence || reflexivity end.
    - match goal with H : evals w _ |- _ => clear - H Hw Hm; inversion H; subst; simpl in *; discriminate end. }
  inversion Ha; subst;
    match goal with H : strips w _ |- _ => pose proof (Hself _ H); subst end.
  - eapply ap_saturated; eassumption.
  - eapply ap_completed; eassumption.
  - eapply ap_partial; eassumption.
  - eapply ap_surplus; eassumption.
  - eapply ap_block; eassumption.
Qed.

Lemma applies_below m : m < n -> forall p args K T, runs m (p, PApply args :: K) T ->
  exists v m', applies p args v /\ m' < m /\ runs m' (v, K) T.
Proof.
  induction m as [m IHm] using lt_wf_ind. intros Hm p args K T Hr.
  destruct (strips_below m Hm p (PApply args) K T eq_refl Hr) as (w & m1 & Hs & Hle & Hr1).
  destruct (strips_whnf _ _ Hs) as [Hw Hnm].
  destruct (runs_step _ _ _ _ Hr1) as (m2 & Q & -> & Hstep & Hr2); [left; discriminate |].
  rewrite pstep_return in Hstep by assumption. cbn [preturn] in Hstep.
  assert (Happ : forall m' p args K, m' < S m2 -> runs m' (p, PApply args :: K) T ->
            exists v m'', applies p args v /\ m'' < m' /\ runs m'' (v, K) T).
  { intros m' p' args' K' Hlt Hr'. apply (IHm m'); try lia; assumption. }
  destruct (takes w) as [|t] eqn:Et.
  - (* a block *)
    assert (exists tag xs e, w = VClo (SCons tag xs) 0 e) as (tag & xs & e & ->).
    { destruct w as [k | c a e | f held]; cbn in Et.
      - discriminate.
      - subst a. destruct c; try discriminate; eauto.
      - cbn [apply_value] in Hstep. unfold apply_fun in Hstep. cbn [takes] in Hstep. rewrite Et in Hstep. discriminate. }
    cbn [apply_value] in Hstep. destruct (N.eqb_spec tag tag_block) as [->|]; [| discriminate].
    destruct (variable [] (RG merge)) as [g|] eqn:Eg; [| discriminate]. injection Hstep as <-.
    destruct (Happ m2 _ _ _ ltac:(lia) Hr2) as (v & m3 & Hv & Hlt & Hr3).
    exists v, m3. split; [eapply ap_block; eassumption | split; [lia | assumption]].
  - rewrite apply_value_fun in Hstep by (assumption || lia). unfold apply_fun in Hstep.
    rewrite Et in Hstep. destruct (Nat.compare_spec (length args) (S t)) as [E | E | E].
    + destruct (enter_below (S m2) w args K T) with (Q := Q) (m' := m2) as (v & m3 & Hv & Hlt & Hr3);
        try assumption; try lia.
      exists v, m3. split; [eapply applies_via; eassumption | split; [lia | assumption]].
    + injection Hstep as <-. exists (VPap w args), m2.
      split; [apply ap_partial; [assumption | lia] | split; [lia | assumption]].
    + destruct (enter_below (S m2) w (firstn (S t) args) (PApply (skipn (S t) args) :: K) T) with (Q := Q) (m' := m2)
        as (u & m3 & Hu & Hlt & Hr3); try assumption; try lia.
      { rewrite firstn_length_le by lia. assumption. }
      { rewrite firstn_length_le by lia. lia. }
      destruct (Happ m3 _ _ _ ltac:(lia) Hr3) as (v & m4 & Hv & Hlt4 & Hr4).
      exists v, m4. split; [| split; [lia | assumption]].
      eapply ap_surplus; rewrite ?Et; eauto. lia.
Qed.

Lemma operand_below m : m < n -> forall p k K T,
  (exists i r e, k = PFusedLeft i r e) \/ (exists i l e, k = PFusedRight i l e) ->
  runs m (p, k :: K) T ->
  exists w m', (forall a, w = VNat a -> operand p a) /\ box_field w = None /\
               whnf w = true /\ is_meta w = false /\ m' <= m /\ runs m' (w, k :: K) T.
Proof.
  induction m as [m IHm] using lt_wf_ind. intros Hm p k K T Hk Hr.
  assert (Ht : transparent k = true) by (destruct Hk as [(?&?&?&->)|(?&?&?&->)]; reflexivity).
  destruct (strips_below m Hm p k K T Ht Hr) as (w & m1 & Hs & Hle & Hr1).
  destruct (strips_whnf _ _ Hs) as [Hw Hnm].
  destruct (box_field w) as [o|] eqn:Eb.
  - destruct (runs_step _ _ _ _ Hr1) as (m2 & Q & -> & Hstep & Hr2); [left; discriminate |].
    rewrite pstep_return in Hstep by assumption.
    assert (exists q, o = Some q /\ Q = (q, k :: K)) as (q & -> & ->).
    { destruct Hk as [(i&r&e&->)|(i&l&e&->)]; cbn [preturn] in Hstep; rewrite Eb in Hstep;
        destruct o; try discriminate; injection Hstep as <-; eauto. }
    destruct (IHm m2 ltac:(lia) ltac:(lia) q k K T Hk Hr2) as (w2 & m3 & Ho & H2 & H3 & H4 & H5 & H6).
    exists w2, m3. repeat split; try assumption; try lia; [| apply H6..].
    intros a ->. specialize (Ho a eq_refl).
    unfold box_field in Eb. destruct w as [| c [|] e | ]; try discriminate; destruct c; try discriminate.
    destruct (is_boxed tag) eqn:Et; [| discriminate].
    destruct args as [|r args]; [discriminate |]. injection Eb as Eb.
    eapply op_box; [exact Hs | apply is_boxed_spec; exact Et | exact Eb | exact Ho].
  - exists w, m1. repeat split; try assumption; [| apply Hr1..].
    intros a ->. constructor; assumption.
Qed.

Lemma natives_below ps : forall m, m < n -> forall p i got K T, runs m (p, PBif i got ps :: K) T ->
  exists ns v m', natives (p :: ps) ns /\ delivered (prim i (got ++ ns)) = Some v /\ m' < m /\ runs m' (v, K) T.
Proof.
  induction ps as [|p2 ps IHps]; intros m Hm p i got K T Hr;
    destruct (IH m Hm _ _ _ Hr) as (w & m1 & Hv & Hle & Hr1);
    destruct (runs_step _ _ _ _ Hr1) as (m2 & Q & -> & Hstep & Hr2); try (left; discriminate);
    pose proof (evals_whnf _ _ Hv) as Hw;
    (destruct (is_meta w) eqn:Em;
     [ destruct w as [| c [|] e |]; try discriminate; destruct c; try discriminate;
       cbn [pstep pcode] in Hstep; unfold pmeta in Hstep;
       destruct (variable e body); discriminate |]);
    rewrite pstep_return in Hstep by assumption; cbn [preturn] in Hstep;
    destruct w as [a | |]; try discriminate.
  - unfold deliver in Hstep. destruct (delivered _) as [v|] eqn:Ed; [| discriminate]. injection Hstep as <-.
    exists [a], v, m2. split; [repeat constructor; assumption | split; [exact Ed | split; [lia | exact Hr2]]].
  - injection Hstep as <-.
    destruct (IHps m2 ltac:(lia) _ _ _ _ _ Hr2) as (ns & v & m3 & Hn & Hd & Hlt & Hr3).
    exists (a :: ns), v, m3. rewrite <- app_assoc in Hd.
    split; [constructor; assumption | split; [exact Hd | split; [lia | exact Hr3]]].
Qed.

Lemma sound_here : sound_at n.
Proof.
  intros p K T Hr. destruct (whnf p) eqn:Hw.
  { exists p, n. split; [apply whnf_evals; assumption | split; [lia | assumption]]. }
  destruct (runs_step _ _ _ _ Hr) as (m & Q & En & Hstep & Hr1); [auto |].
  destruct p as [| c [|a] e |]; try discriminate; [| destruct c; discriminate]. cbn [pstep] in Hstep.
  destruct c as [r | scr bs fb | tag args | f args eager | smid f args eager | i args | [] fs body | smid body
                | m' b | scr h o | scr b | smid k o d | i l r inner | ]; cbn [pcode] in Hstep; try discriminate.
  - destruct (variable e r) as [p|] eqn:E; [| discriminate]. injection Hstep as <-.
    destruct (IH m ltac:(lia) _ _ _ Hr1) as (v & m1 & Hv & Hle & Hr2).
    exists v, m1. split; [econstructor; eassumption | split; [lia | assumption]].
  - injection Hstep as <-.
    destruct (strips_below m ltac:(lia) _ (PBranch bs fb e) _ _ eq_refl Hr1) as (w & m1 & Hs & Hle & Hr2).
    destruct (strips_whnf _ _ Hs) as [Hww Hm].
    destruct (runs_step _ _ _ _ Hr2) as (m2 & Q & -> & Hstep & Hr3); [left; discriminate |].
    rewrite pstep_return in Hstep by assumption. cbn [preturn] in Hstep.
    destruct (selects w bs) as [b|] eqn:Es.
    + unfold selects in Es. destruct w as [| c [|] e' |]; try discriminate; destruct c; try discriminate.
      destruct (variables e' args) as [vs|] eqn:Ev; [| discriminate]. injection Hstep as <-.
      destruct (IH m2 ltac:(lia) _ _ _ Hr3) as (v & m3 & Hv & Hle3 & Hr4).
      exists v, m3. split; [eapply ev_branch; eassumption | split; [lia | assumption]].
    + destruct fb as [f|]; [| discriminate]. injection Hstep as <-.
      destruct (IH m2 ltac:(lia) _ _ _ Hr3) as (v & m3 & Hv & Hle3 & Hr4).
      exists v, m3. split; [eapply ev_fallback; eassumption | split; [lia | assumption]].
  - destruct (variable e f) as [p|] eqn:Ef; [| discriminate].
    destruct (arguments eager e args) as [vs|] eqn:Ea; [| discriminate]. injection Hstep as <-.
    destruct (applies_below m ltac:(lia) _ _ _ _ Hr1) as (v & m1 & Hv & Hle & Hr2).
    exists v, m1. split; [eapply ev_apply; eassumption | split; [lia | assumption]].
  - destruct (variable e f) as [p|] eqn:Ef; [| discriminate].
    destruct (arguments eager e args) as [vs|] eqn:Ea; [| discriminate]. injection Hstep as <-.
    destruct (applies_below m ltac:(lia) _ _ _ _ Hr1) as (v & m1 & Hv & Hle & Hr2).
    exists v, m1. split; [eapply ev_direct; eassumption | split; [lia | assumption]].
  - destruct (variables e args) as [[|p ps]|] eqn:Ev; [| | discriminate].
    + unfold deliver in Hstep. destruct (delivered _) as [v|] eqn:Ed; [| discriminate]. injection Hstep as <-.
      exists v, m. split; [eapply ev_primitive; [eassumption | constructor | eassumption] | split; [lia | assumption]].
    + injection Hstep as <-.
      destruct (natives_below ps m ltac:(lia) _ _ _ _ _ Hr1) as (ns & v & m1 & Hn & Hd & Hlt & Hr2).
      exists v, m1. split; [eapply ev_primitive; eassumption | split; [lia | assumption]].
  - injection Hstep as <-.
    destruct (IH m ltac:(lia) _ _ _ Hr1) as (v & m1 & Hv & Hle & Hr2).
    exists v, m1. split; [apply ev_letrec; assumption | split; [lia | assumption]].
  - injection Hstep as <-.
    destruct (IH m ltac:(lia) _ _ _ Hr1) as (v & m1 & Hv & Hle & Hr2).
    exists v, m1. split; [apply ev_let; assumption | split; [lia | assumption]].
  - injection Hstep as <-.
    destruct (IH m ltac:(lia) _ _ _ Hr1) as (v & m1 & Hv & Hle & Hr2).
    exists v, m1. split; [apply ev_annotated; assumption | split; [lia | assumption]].
  - (* demeta *) injection Hstep as <-.
    destruct (IH m ltac:(lia) _ _ _ Hr1) as (w & m1 & Hv & Hle & Hr2).
    pose proof (evals_whnf _ _ Hv) as Hww.
    destruct (runs_step _ _ _ _ Hr2) as (m2 & Q & -> & Hstep & Hr3); [left; discriminate |].
    destruct (is_meta w) eqn:Em.
    + destruct w as [| c [|] e' |]; try discriminate; destruct c; try discriminate.
      cbn [pstep pcode] in Hstep. unfold pmeta in Hstep.
      destruct (variable e' body) as [q|] eqn:Eq; [| discriminate].
      destruct (variable e' meta) as [p|] eqn:Ep; [| discriminate]. injection Hstep as <-.
      destruct (IH m2 ltac:(lia) _ _ _ Hr3) as (v & m3 & Hv3 & Hle3 & Hr4).
      exists v, m3. split; [eapply ev_has_meta; eassumption | split; [lia | assumption]].
    + rewrite pstep_return in Hstep by assumption. injection Hstep as <-.
      destruct (IH m2 ltac:(lia) _ _ _ Hr3) as (v & m3 & Hv3 & Hle3 & Hr4).
      exists v, m3. split; [eapply ev_no_meta; eassumption | split; [lia | assumption]].
  - (* seq *) injection Hstep as <-.
    destruct (strips_below m ltac:(lia) _ (PSeq b e) _ _ eq_refl Hr1) as (w & m1 & Hs & Hle & Hr2).
    destruct (strips_whnf _ _ Hs) as [Hww Hm].
    destruct (runs_step _ _ _ _ Hr2) as (m2 & Q & -> & Hstep & Hr3); [left; discriminate |].
    rewrite pstep_return in Hstep by assumption. injection Hstep as <-.
    destruct (IH m2 ltac:(lia) _ _ _ Hr3) as (v & m3 & Hv3 & Hle3 & Hr4).
    exists v, m3. split; [eapply ev_force; eassumption | split; [lia | assumption]].
  - (* fused *) injection Hstep as <-.
    destruct (operand_below m ltac:(lia) _ (PFusedLeft i r e) _ _ ltac:(left; eauto) Hr1)
      as (w1 & m1 & Ho1 & Hb1 & Hw1 & Hm1 & Hle1 & Hr2).
    destruct (runs_step _ _ _ _ Hr2) as (m2 & Q & -> & Hstep & Hr3); [left; discriminate |].
    rewrite pstep_return in Hstep by assumption. cbn [preturn] in Hstep. rewrite Hb1 in Hstep.
    injection Hstep as <-.
    destruct (operand_below m2 ltac:(lia) _ (PFusedRight i w1 e) _ _ ltac:(right; eauto) Hr3)
      as (w2 & m3 & Ho2 & Hb2 & Hw2 & Hm2 & Hle2 & Hr4).
    destruct (runs_step _ _ _ _ Hr4) as (m4 & Q & -> & Hstep & Hr5); [left; discriminate |].
    rewrite pstep_return in Hstep by assumption. cbn [preturn] in Hstep. rewrite Hb2 in Hstep.
    destruct w1 as [a| |]; try discriminate. destruct w2 as [b| |]; try discriminate.
    unfold deliver in Hstep. destruct (delivered _) as [v|] eqn:Ed; [| discriminate]. injection Hstep as <-.
    exists v, m4. split; [eapply ev_fused; eauto | split; [lia | assumption]].
Qed.
End Below.

Lemma sound_all n : sound_at n.
Proof. induction n as [n IH] using lt_wf_ind. apply sound_here. exact IH. Qed.

(** The stack machine, started on an expression with nothing else to do, computes its result. *)
Theorem result_iff p v : result p v <-> reaches (p, []) (v, []) /\ whnf v = true /\ is_meta v = false.
Proof.
  split.
  - induction 1 as [p v He Hm | p m b e w q v He Hw Hq _ IH].
    + split; [apply (proj1 big_small); exact He | eauto using evals_whnf].
    + destruct IH as (IH & H1 & H2). split; [| auto].
      eapply reaches_trans; [apply (proj1 big_small _ _ He) |].
      eapply reaches_step; [| exact IH]. simpl. unfold pmeta. rewrite Hq, Hw. reflexivity.
  - intros ([n Hn] & Hw & Hm). revert p Hn.
    induction n as [n IH] using lt_wf_ind. intros p Hn.
    destruct (sound_all n p [] (v, [])) as (u & m & He & Hle & Hr1).
    { split; [exact Hn | repeat split; assumption]. }
    destruct (is_meta u) eqn:Em.
    + destruct (runs_step _ _ _ _ Hr1) as (m2 & Q & -> & Hs & Hr2); [auto |].
      destruct u as [ | c [|a] e | ]; try discriminate; destruct c; try discriminate.
      cbn [pstep pcode] in Hs. unfold pmeta in Hs. destruct (variable e body) as [q|] eqn:Eq; [| discriminate].
      destruct (variable e meta) as [w|] eqn:Ew; [| discriminate]. injection Hs as <-.
      eapply rs_meta; [exact He | exact Ew | exact Eq |]. apply (IH m2); [lia | apply Hr2].
    + destruct Hr1 as [Hr1 _]. inversion Hr1; subst.
      * constructor; assumption.
      * exfalso. rewrite pstep_return in H by eauto using evals_whnf. discriminate.
Qed.
End Name.
