(** Compiled code, what it was compiled from, and values that differ by it. *)
From Coq Require Import String List Bool Arith NArith Lia.
From Verif.Basics Require Model.
From Verif.Bytecode Require Import Model Spec.
From Verif.Machine Require Import Model Spec Name.
From Verif.Optimise Require Import Spec.
From Verif.Scope Require Import Model.
From Verif.Compile Require Import Model Spec Relate.
Import ListNotations.
Open Scope nat_scope.

Section Means.
Context {native : Type}.
Notation ref := (ref native).
Notation syn := (syn native).
Notation form := (form native).
Notation value := (value (native := native)).
Notation env := (env (native := native)).
Notation level := (level (native := native)).
Notation lookup := Machine.Spec.lookup.
Variable St : settings (native := native).
Variable forcing : bool.
Variable globals : list form.
Notation variable := (variable globals).

Definition intrinsic_slot (n : string) : option N := option_map N.of_nat (position (s_catalogue St) n).
Definition prelude_slot (n : string) : option N :=
  match s_prelude_globals St with
  | Some m => option_map (fun i => N.of_nat (List.length (s_catalogue St) + i)) (find m n)
  | None => None
  end.
Notation direct := (direct intrinsic_slot prelude_slot (s_string St) (s_symbol St) (s_number St) ix_empty_list).
Notation list_of := (list_of ix_empty_list).
Notation pair_of := (pair_of (s_symbol St)).
Notation reads := (reads St forcing).
Notation freads := (freads St forcing).
Notation rreads := (rreads St forcing).

Fixpoint sizes (G : list level) : list nat :=
  match G with
  | [] => []
  | LLam n :: G => n :: sizes G
  | LLet refs _ :: G => List.length refs :: sizes G
  | LSyn _ _ :: G => sizes G
  end.
Definition scope_of (rec : bool) (fs : list form) (p : env) : env :=
  match fs with [] => p | _ => (if rec then Rec fs else Vals (map (closure p) fs)) :: p end.
(** Code, or what it becomes when its definitions are made. *)
Inductive stage (c : syn) (p : env) : value -> Prop :=
| st_now : stage c p (VClo c 0 p)
| st_let fs body : c = SLet false fs body -> stage c p (VClo body 0 (Vals (map (closure p) fs) :: p)).

Inductive vrel : value -> value -> Prop :=
| vr_native n : vrel (VNat n) (VNat n)
| vr_pap f f' vs vs' : takes f = takes f' -> vrel f f' -> Forall2 vrel vs vs' -> vrel (VPap f vs) (VPap f' vs')
| vr_same c a p p' d : erel d p p' -> scoped (a + d) c -> regular c -> vrel (VClo c a p) (VClo c a p')
| vr_data tag rs rs' p p' : has_fields tag (List.length rs) ->
    Forall2 (fun r r' => exists v v', variable p r = Some v /\ variable p' r' = Some v' /\ vrel v v') rs rs' ->
    vrel (VClo (SCons tag rs) 0 p) (VClo (SCons tag rs') 0 p')
| vr_meta m b m' b' p p' u u' v v' :
    variable p m = Some u -> variable p' m' = Some u' -> vrel u u' ->
    variable p b = Some v -> variable p' b' = Some v' -> vrel v v' ->
    vrel (VClo (SMeta m b) 0 p) (VClo (SMeta m' b') 0 p')
| vr_fused i l r x l' r' x' p p' :
    vrel (VClo (SAtom l) 0 p) (VClo (SAtom l') 0 p') -> vrel (VClo (SAtom r) 0 p) (VClo (SAtom r') 0 p') ->
    vrel (VClo (SFused i l r x) 0 p) (VClo (SFused i l' r' x') 0 p')
| vr_core G idx t e p p' q : crel G p p' -> idx = [] \/ Is_true forcing -> reads G t e -> supported e ->
    stage (direct (sizes G) e) p' q -> vrel (VClo (forces idx t) 0 p) q
| vr_fun G n t e p p' : 0 < n -> crel G p p' -> reads (LLam n :: G) t e -> supported e ->
    vrel (VClo t n p) (VClo (direct (n :: sizes G) e) n p')
| vr_lam G n t e p p' inl ps q : 0 < n -> n = List.length ps -> crel G p p' -> reads (LLam n :: G) t e -> supported e ->
    stage (direct (sizes G) (ELam inl ps e)) p' q -> vrel (VClo t n p) q
| vr_pairs G r kvs p p' v q : crel G p p' -> preads St forcing G r kvs -> Forall (fun kv => supported (snd kv)) kvs ->
    variable p r = Some v -> stage (list_of (map (fun kv => pair_of (fst kv, direct (sizes G) (snd kv))) kvs)) p' q -> vrel v q
| vr_pair G r key x p p' q : crel G p p' -> rreads G r x -> supported x -> stage (pair_of (key, direct (sizes G) x)) p' q ->
    vrel (VClo (pair St key r) 0 p) q
| vr_left r p v w : variable p r = Some v -> vrel v w -> vrel (VClo (SAtom r) 0 p) w
| vr_right r p' v w : variable p' r = Some w -> vrel v w -> vrel v (VClo (SAtom r) 0 p')
with erel : nat -> env -> env -> Prop :=
| er_any p p' : erel 0 p p'
| er_vals d p p' vs vs' : erel d p p' -> Forall2 vrel vs vs' -> erel (List.length vs + d) (Vals vs :: p) (Vals vs' :: p')
| er_rec d p p' fs : erel d p p' -> All (fun f => scoped (params f + (List.length fs + d)) (snd f) /\ regular (snd f)) fs ->
    erel (List.length fs + d) (Rec fs :: p) (Rec fs :: p')
with crel : list level -> env -> env -> Prop :=
| cr_nil : crel [] [] []
| cr_lam n G p p' vs vs' : crel G p p' -> List.length vs = n -> Forall2 vrel vs vs' -> crel (LLam n :: G) (Vals vs :: p) (Vals vs' :: p')
| cr_let refs fs G p p' es : crel G p p' -> Forall supported es -> breads St forcing (LLet refs fs :: G) refs 0 refs es ->
    crel (LLet refs fs :: G) (scope_of true fs p)
      (Rec (map (fun e => thunk (direct (List.length refs :: sizes G) e)) es) :: p')
| cr_syn rec fs G p p' : crel G p p' -> crel (LSyn rec fs :: G) (scope_of rec fs p) p'.

(** The globals the compiler refers to exist, and are sound. *)
Definition sound (f : form) : Prop := scoped (params f) (snd f) /\ regular (snd f).
Hypothesis globals_sound : Forall sound globals.
Hypothesis globals_there : forall e r, global_of St e = Some r -> exists i f, r = RG i /\ nth_error globals (N.to_nat i) = Some f.

Lemma global_self i f : nth_error globals i = Some f -> vrel (closure [] f) (closure [] f).
Proof.
  intros H. apply nth_error_In in H. rewrite Forall_forall in globals_sound. destruct (globals_sound f H) as (H1 & H2).
  unfold closure. eapply vr_same; [apply er_any | rewrite Nat.add_0_r; exact H1 | exact H2].
Qed.
Lemma global_value e r p : global_of St e = Some r -> exists v, variable p r = Some v /\ vrel v v.
Proof.
  intros H. destruct (globals_there e r H) as (i & f & -> & E). exists (closure [] f). cbn [Machine.Spec.variable]. rewrite E.
  split; [reflexivity | eapply global_self; exact E].
Qed.
Lemma global_direct e r s : global_of St e = Some r -> direct s e = SAtom r.
Proof.
  destruct e as [[n|s' b n]|bs body ty|inl ps body|k xs]; cbn [global_of]; try discriminate.
  - cbn [Spec.direct]. unfold resolve_free, prelude_slot, global. destruct (s_prelude_globals St) as [m|]; [| discriminate].
    destruct (find m n); [| discriminate]. intros [= <-]. reflexivity.
  - destruct k; try discriminate.
    + cbn [Spec.direct]. unfold intrinsic_index, intrinsic_slot, global. destruct (position _ _); [| discriminate].
      intros [= <-]. destruct xs; reflexivity.
    + destruct xs; [| discriminate]. intros [= <-]. reflexivity.
Qed.
Lemma lookup_scope rec fs p i : lookup (scope_of rec fs p) (i + List.length fs) = lookup p i.
Proof.
  unfold scope_of. destruct fs as [|f fs]; [rewrite Nat.add_0_r; reflexivity |]. set (gs := f :: fs).
  assert (E : i + List.length gs <? List.length gs = false) by (apply Nat.ltb_ge; lia).
  destruct rec; cbn [Machine.Spec.lookup]; rewrite ?map_length, E; f_equal; lia.
Qed.
Lemma variable_bump rec fs p r : variable (scope_of rec fs p) (bump (List.length fs) r) = variable p r.
Proof.
  destruct r as [i|i|x]; cbn [bump Machine.Spec.variable]; try reflexivity.
  rewrite N2Nat.inj_add, Nat2N.id. apply lookup_scope.
Qed.
Lemma variable_bump_vals vs p r : variable (Vals vs :: p) (bump (List.length vs) r) = variable p r.
Proof.
  destruct r as [i|i|x]; cbn [bump Machine.Spec.variable]; try reflexivity.
  rewrite N2Nat.inj_add, Nat2N.id. cbn [Machine.Spec.lookup].
  assert (N.to_nat i + List.length vs <? List.length vs = false) as -> by (apply Nat.ltb_ge; lia). f_equal. lia.
Qed.
Lemma breads_length G refs i rs es : breads St forcing G refs i rs es -> List.length es = List.length rs.
Proof. revert i es. induction rs as [|r rs IH]; intros i es H; inversion H; subst; cbn; [reflexivity | f_equal; eauto]. Qed.
Lemma breads_nth G refs i rs es : breads St forcing G refs i rs es -> forall j r, nth_error rs j = Some r ->
  exists e, nth_error es j = Some e /\ bread St forcing G refs (i + j) r e.
Proof.
  revert i es. induction rs as [|r0 rs IH]; intros i es H j r E; [destruct j; discriminate |].
  inversion H as [|? ? ? ? ? e es' Hb Hbs]; subst. destruct j as [|j]; cbn in *.
  - injection E as <-. rewrite Nat.add_0_r. eauto.
  - destruct (IH _ _ Hbs j r E) as (e' & E' & Hb'). exists e'. split; [exact E' |]. replace (i + S j) with (i + 1 + j) by lia. exact Hb'.
Qed.

(** What a slot holds. *)
Lemma slot_value G p p' : crel G p p' -> forall n G' f, slot G n = Some (G', f) ->
  exists p1, lookup p n = Some (closure p1 f) /\ crel G' p1 p' /\ sizes G' = sizes G.
Proof.
  induction 1 as [|k G p p' vs vs' H IH Hl Hv | refs fs G p p' es H IH Hs Hb | rec fs G p p' H IH]; intros n G' f; cbn [slot]; try discriminate.
  - destruct (nth_error fs n) as [g|] eqn:E; [| discriminate]. intros [= <- <-]. exists (scope_of true fs p).
    split; [| split; [econstructor; eassumption | reflexivity]].
    destruct fs as [|f0 fs]; [destruct n; discriminate |]. cbn [scope_of Machine.Spec.lookup].
    assert (n <? List.length (f0 :: fs) = true) as -> by (apply Nat.ltb_lt, nth_error_Some; congruence). rewrite E. reflexivity.
  - destruct (nth_error fs n) as [g|] eqn:E.
    + assert (Hl : n <? List.length fs = true) by (apply Nat.ltb_lt, nth_error_Some; congruence).
      intros [= <- <-]. destruct fs as [|f0 fs]; [destruct n; discriminate |]. destruct rec.
      * exists (scope_of true (f0 :: fs) p). split; [| split; [constructor; exact H | reflexivity]].
        cbn [scope_of Machine.Spec.lookup]. rewrite Hl, E. reflexivity.
      * exists p. split; [| split; [exact H | reflexivity]].
        cbn [scope_of Machine.Spec.lookup]. rewrite map_length, Hl, nth_error_map, E. reflexivity.
    + intros Hs. destruct (IH _ _ _ Hs) as (p1 & H1 & H2 & H3). exists p1. split; [| auto].
      assert (Hle : List.length fs <= n) by (apply nth_error_None; exact E).
      replace n with ((n - List.length fs) + List.length fs) at 1 by lia. rewrite lookup_scope. exact H1.
Qed.

Lemma freads_vrel G p p' f e : crel G p p' -> freads G f e -> supported e -> vrel (closure p f) (VClo (direct (sizes G) e) 0 p').
Proof.
  intros Hc H He. destruct H as [G k t e Hk Ht | G a t inl ps body Ht]; unfold closure; cbn [fst snd].
  - replace (N.to_nat (fk_arity k)) with 0 by (destruct Hk; subst; reflexivity).
    apply (vr_core G [] t e p p'); auto. constructor.
  - cbn [fk_arity]. rewrite Nat2N.id. destruct He as (Hps & Hb).
    eapply vr_lam; [destruct ps; [congruence | cbn; lia] | reflexivity | exact Hc | exact Ht | exact Hb | constructor].
Qed.
Lemma supported_operator fx pr x rest : supported (ENode (KOperator fx pr) (x :: rest)) -> supported x.
Proof. intros (_ & H). cbn in H. tauto. Qed.
Lemma local_variable p n : variable p (local n) = lookup p n.
Proof. unfold local. cbn [Machine.Spec.variable]. rewrite Nat2N.id. reflexivity. Qed.

(** What a variable of the source stands for. *)
Lemma bread_value refs fs G p p' es : crel (LLet refs fs :: G) p p' ->
  p' = Rec (map (fun e => thunk (direct (List.length refs :: sizes G) e)) es) :: tl p' ->
  Forall supported es -> breads St forcing (LLet refs fs :: G) refs 0 refs es ->
  forall i r, nth_error refs i = Some r ->
  exists v e, nth_error es i = Some e /\ variable p r = Some v /\ vrel v (VClo (direct (List.length refs :: sizes G) e) 0 p').
Proof.
  intros Hc Ep Hs Hb i. induction i as [i IH] using lt_wf_ind. intros r Hr.
  destruct (breads_nth _ _ _ _ _ Hb i r Hr) as (e & He & Hbr). cbn [Nat.add] in Hbr.
  assert (Hse : supported e) by (rewrite Forall_forall in Hs; apply Hs; eapply nth_error_In; exact He).
  assert (D : exists v, variable p r = Some v /\ vrel v (VClo (direct (List.length refs :: sizes G) e) 0 p')).
  2:{ destruct D as (v & D). exists v, e. auto. }
  clear He. remember (LLet refs fs :: G) as G1 eqn:EG. revert Hse.
  induction Hbr as [G1 refs i j nm r Hj Hn | G1 refs i e r Hg | G1 refs i n G' f e Hsl Hf | G1 refs i r fx pr x rest Hx IHx];
    intros Hse; subst G1.
  - destruct (IH j Hj r Hn) as (v & e & E & Ev & Hv). exists v. split; [exact Ev |]. cbn [Spec.direct index].
    eapply vr_right; [| exact Hv]. unfold arg. cbn [Machine.Spec.variable]. rewrite Nat2N.id, Ep. cbn [Machine.Spec.lookup].
    rewrite map_length, nth_error_map, E.
    assert (j <? List.length es = true) as -> by (apply Nat.ltb_lt, nth_error_Some; congruence). reflexivity.
  - rewrite (global_direct _ _ _ Hg). destruct (globals_there _ _ Hg) as (k & f & -> & Hf). exists (closure [] f).
    cbn [Machine.Spec.variable]. rewrite Hf. split; [reflexivity |].
    eapply vr_right; [cbn [Machine.Spec.variable]; rewrite Hf; reflexivity | eapply global_self; exact Hf].
  - destruct (slot_value _ _ _ Hc _ _ _ Hsl) as (p1 & H1 & H2 & H3). exists (closure p1 f). split; [rewrite local_variable; exact H1 |].
    cbn [sizes] in H3. rewrite <- H3. eapply freads_vrel; eassumption.
  - apply supported_operator in Hse. cbn [Spec.direct map]. apply IHx; auto.
Qed.
Lemma var_value G p p' : crel G p p' -> forall s b r, Compile.Model.lookup (ctx G) s b = Ok r ->
  exists v v', variable p r = Some v /\ lookup p' (index (sizes G) s b) = Some v' /\ vrel v v'.
Proof.
  induction 1 as [|k G p p' vs vs' H IH Hl Hv | refs fs G p p' es H IH Hs Hb | rec fs G p p' H IH]; intros s b r; cbn [ctx map Compile.Model.lookup level_frame f_scope f_refs f_size].
  - discriminate.
  - destruct s as [|s].
    + rewrite nth_error_map. destruct (nth_error (seq 0 k) b) as [x|] eqn:E; [| discriminate]. cbn [option_map]. intros [= <-].
      assert (Hb : b < k) by (rewrite <- (seq_length k 0); apply nth_error_Some; congruence).
      assert (x = b).
      { apply (nth_error_nth _ _ 0) in E. rewrite seq_nth in E by exact Hb. lia. } subst x.
      rewrite local_variable. cbn [sizes index Machine.Spec.lookup].
      assert (Hlen : List.length vs' = List.length vs) by (clear - Hv; induction Hv; cbn; congruence).
      rewrite Hlen. assert (b <? List.length vs = true) as -> by (apply Nat.ltb_lt; lia).
      destruct (nth_error vs b) as [v|] eqn:Ev; [| apply nth_error_None in Ev; lia].
      assert (Hx : exists v', nth_error vs' b = Some v' /\ vrel v v').
      { clear - Hv Ev. revert b Ev. induction Hv as [|a a' l l' Ha _ IHl]; intros [|b] Ev; cbn in *; try discriminate; [injection Ev as <-; eauto | eauto]. }
      destruct Hx as (v' & -> & Hvv). eauto.
    + destruct (Compile.Model.lookup (map level_frame G) s b) as [r0|] eqn:E; [| discriminate]. cbn [Compile.Model.bind]. intros [= <-].
      destruct (IH _ _ _ E) as (v & v' & E1 & E2 & Hvv). exists v, v'. rewrite <- Hl, variable_bump_vals. split; [exact E1 |].
      split; [| exact Hvv]. cbn [sizes index Machine.Spec.lookup].
      assert (Hlen : List.length vs' = List.length vs) by (clear - Hv; induction Hv; cbn; congruence).
      rewrite Hlen. assert (List.length vs + index (sizes G) s b <? List.length vs = false) as -> by (apply Nat.ltb_ge; lia).
      replace (List.length vs + index (sizes G) s b - List.length vs) with (index (sizes G) s b) by lia. exact E2.
  - pose proof (breads_length _ _ _ _ _ Hb) as Hlen. destruct s as [|s].
    + destruct (nth_error refs b) as [r0|] eqn:E; [| discriminate]. intros [= <-].
      destruct (bread_value _ _ _ _ _ es (cr_let _ _ _ _ _ _ H Hs Hb) eq_refl Hs Hb b r0 E) as (v & e & He & Ev & Hv).
      exists v. eexists. split; [exact Ev |]. split; [| exact Hv]. cbn [sizes index Machine.Spec.lookup].
      rewrite map_length, Hlen. assert (b <? List.length refs = true) as -> by (apply Nat.ltb_lt, nth_error_Some; congruence).
      rewrite nth_error_map, He. reflexivity.
    + destruct (Compile.Model.lookup (map level_frame G) s b) as [r0|] eqn:E; [| discriminate]. cbn [Compile.Model.bind]. intros [= <-].
      destruct (IH _ _ _ E) as (v & v' & E1 & E2 & Hvv). exists v, v'. rewrite variable_bump. split; [exact E1 |].
      split; [| exact Hvv]. cbn [sizes index Machine.Spec.lookup]. rewrite map_length, Hlen.
      assert (List.length refs + index (sizes G) s b <? List.length refs = false) as -> by (apply Nat.ltb_ge; lia).
      replace (List.length refs + index (sizes G) s b - List.length refs) with (index (sizes G) s b) by lia. exact E2.
  - destruct (Compile.Model.lookup (map level_frame G) s b) as [r0|] eqn:E; [| discriminate]. cbn [Compile.Model.bind]. intros [= <-].
    destruct (IH _ _ _ E) as (v & v' & E1 & E2 & Hvv). exists v, v'. rewrite variable_bump. auto.
Qed.
Lemma rreads_value G p p' r e : crel G p p' -> rreads G r e -> supported e ->
  exists v, variable p r = Some v /\ vrel v (VClo (direct (sizes G) e) 0 p').
Proof.
  intros Hc H. revert p p' Hc. induction H as [G s b nm r E | G e r Hg | G n G' f e Hsl Hf | G r fx pr x rest Hx IH]; intros p p' Hc Hs.
  - destruct (var_value _ _ _ Hc _ _ _ E) as (v & v' & E1 & E2 & Hv). exists v. split; [exact E1 |]. cbn [Spec.direct].
    eapply vr_right; [| exact Hv]. unfold arg. cbn [Machine.Spec.variable]. rewrite Nat2N.id. exact E2.
  - rewrite (global_direct _ _ _ Hg). destruct (globals_there _ _ Hg) as (k & f & -> & Hf). exists (closure [] f).
    cbn [Machine.Spec.variable]. rewrite Hf. split; [reflexivity |].
    eapply vr_right; [cbn [Machine.Spec.variable]; rewrite Hf; reflexivity | eapply global_self; exact Hf].
  - destruct (slot_value _ _ _ Hc _ _ _ Hsl) as (p1 & H1 & H2 & H3). exists (closure p1 f). split; [rewrite local_variable; exact H1 |].
    rewrite <- H3. eapply freads_vrel; eassumption.
  - apply supported_operator in Hs. cbn [Spec.direct map]. eauto.
Qed.
End Means.
