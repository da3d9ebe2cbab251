(** Whatever compiled code evaluates to, the expression it was compiled from means. *)
From Coq Require Import String List Bool Arith NArith Lia.
From Verif.Basics Require Model.
From Verif.Bytecode Require Import Model Spec.
From Verif.Machine Require Import Model Spec Name Curry.
From Verif.Optimise Require Import Spec.
From Verif.Scope Require Import Model.
From Verif.Compile Require Import Model Spec Relate Means.
Import ListNotations.
Open Scope nat_scope.

Section Sound.
Context {native : Type}.
Notation ref := (ref native).
Notation syn := (syn native).
Notation form := (form native).
Notation value := (value (native := native)).
Notation env := (env (native := native)).
Notation level := (level (native := native)).
Notation lookup := Machine.Spec.lookup.
Notation bind := Machine.Spec.bind.
Variable St : settings (native := native).
Variable forcing : bool.
Variable prim : N -> list native -> prim_result (native := native).
Variable merge : N.
Variable globals : list form.
Notation variable := (variable globals).
Notation argument := (Machine.Spec.argument globals).
Notation vrel := (vrel St forcing globals).
Notation erel := (erel St forcing globals).
Notation crel := (crel St forcing globals).
Notation evals := (evals prim merge globals).
Notation strips := (strips prim merge globals).
Notation applies := (applies prim merge globals).
Notation operand := (operand prim merge globals).
Notation natives := (natives prim merge globals).
Notation direct := (direct (intrinsic_slot St) (prelude_slot St) (s_string St) (s_symbol St) (s_number St) ix_empty_list).
Notation list_of := (list_of ix_empty_list).
Notation pair_of := (pair_of (s_symbol St)).
Notation reads := (reads St forcing).
Notation rreads := (rreads St forcing).
Notation rreadss := (rreadss St forcing).
Hypothesis globals_sound : Forall sound globals.
Hypothesis globals_there : forall e r, global_of St e = Some r -> exists i f, r = RG i /\ nth_error globals (N.to_nat i) = Some f.
Hypothesis prims : regular_operators prim.
(** Intrinsics that are inlined are the globals they are. *)
Hypothesis inlined : forall n bif, nth_error (s_intrinsics St) n = Some bif -> i_inlinable bif = true ->
  exists a c, nth_error globals n = Some (FLambda (N.of_nat (i_arity bif)) a, c) /\
    (if i_fusible bif && (i_arity bif =? 2) && is_fusible_body (i_wrapper bif)
     then exists inner, c = SFused (u8 (N.of_nat n)) (RL 0) (RL 1) inner
     else c = i_wrapper bif).

Definition orel (o o' : option value) : Prop :=
  match o, o' with Some v, Some v' => vrel v v' | None, None => True | _, _ => False end.
Inductive wrel : value -> value -> Prop :=
| w_native n : wrel (VNat n) (VNat n)
| w_pap f f' vs vs' : takes f = takes f' -> vrel f f' -> Forall2 vrel vs vs' -> wrel (VPap f vs) (VPap f' vs')
| w_fun c c' a p p' : 0 < a ->
    (forall args args', List.length args = a -> Forall2 vrel args args' -> vrel (VClo c 0 (Vals args :: p)) (VClo c' 0 (Vals args' :: p'))) ->
    wrel (VClo c a p) (VClo c' a p')
| w_data tag rs rs' p p' : has_fields tag (List.length rs) ->
    Forall2 (fun r r' => orel (variable p r) (variable p' r')) rs rs' -> wrel (VClo (SCons tag rs) 0 p) (VClo (SCons tag rs') 0 p')
| w_meta m b m' b' p p' : orel (variable p m) (variable p' m') -> orel (variable p b) (variable p' b') ->
    wrel (VClo (SMeta m b) 0 p) (VClo (SMeta m' b') 0 p').
Definition out (v v' : value) : Prop := vrel v v' /\ wrel v v'.

Lemma forall2_len {A B} (R : A -> B -> Prop) l l' : Forall2 R l l' -> List.length l = List.length l'.
Proof. induction 1; cbn; congruence. Qed.

(** ** The same code in related environments *)
Lemma erel_lookup d p p' : erel d p p' -> forall i, i < d ->
  exists v v', lookup p i = Some v /\ lookup p' i = Some v' /\ vrel v v'.
Proof.
  induction 1 as [p p' | d p p' vs vs' H IH Hv | d p p' fs H IH Hf]; intros i Hi; [lia | | ].
  - cbn [Machine.Spec.lookup]. rewrite <- (forall2_len _ _ _ Hv). destruct (Nat.ltb_spec i (List.length vs)) as [L|L].
    + destruct (nth_error vs i) as [v|] eqn:E; [| apply nth_error_None in E; lia].
      assert (Hx : exists v', nth_error vs' i = Some v' /\ vrel v v').
      { clear - Hv E. revert i E. induction Hv as [|a b l l' Hab _ IHl]; intros [|i] E; cbn in *; try discriminate; [injection E as <-; eauto | eauto]. }
      destruct Hx as (v' & -> & Hx). eauto.
    + apply IH. lia.
  - cbn [Machine.Spec.lookup]. destruct (Nat.ltb_spec i (List.length fs)) as [L|L]; [| apply IH; lia].
    destruct (nth_error fs i) as [f|] eqn:E; [| apply nth_error_None in E; lia]. cbn [option_map].
    eexists _, _. split; [reflexivity |]. split; [reflexivity |].
    assert (Hx : scoped (params f + (List.length fs + d)) (snd f) /\ regular (snd f)).
    { clear - Hf E. revert i E. generalize dependent (List.length fs + d). intros n. induction fs as [|g fs IHf]; intros Hf [|i] E; cbn in *; try discriminate.
      - injection E as <-. apply Hf.
      - eapply IHf; [apply Hf | exact E]. }
    destruct Hx as (H1 & H2). unfold closure. eapply vr_same; [apply er_rec; eassumption | exact H1 | exact H2].
Qed.
Lemma orel_global i : orel (option_map (closure []) (nth_error globals i)) (option_map (closure []) (nth_error globals i)).
Proof. destruct (nth_error globals i) as [f|] eqn:E; cbn; [eapply global_self; [exact globals_sound | exact E] | trivial]. Qed.
Lemma same_variable d p p' r : erel d p p' -> bound d r -> orel (variable p r) (variable p' r).
Proof.
  intros H Hb. destruct r as [i|i|n]; cbn [Machine.Spec.variable].
  - destruct (erel_lookup _ _ _ H _ Hb) as (v & v' & -> & -> & Hv). exact Hv.
  - apply orel_global.
  - apply vr_native.
Qed.
Lemma same_refs d p p' rs : erel d p p' -> bounds d rs -> Forall2 (fun r r' => orel (variable p r) (variable p' r')) rs rs.
Proof. intros H Hb. induction Hb; constructor; [eapply same_variable; eassumption | assumption]. Qed.
Lemma same_atom d p p' r : erel d p p' -> bound d r -> vrel (VClo (SAtom r) 0 p) (VClo (SAtom r) 0 p').
Proof. intros H Hb. eapply vr_same; [exact H | exact Hb | exact I]. Qed.
Lemma same_code d p p' c : erel d p p' -> scoped d c -> regular c -> vrel (VClo c 0 p) (VClo c 0 p').
Proof. intros. eapply vr_same; eassumption. Qed.
Lemma same_closures d p p' fs : erel d p p' -> All (fun f => scoped (params f + d) (snd f)) fs -> All (fun f => regular (snd f)) fs ->
  Forall2 vrel (map (closure p) fs) (map (closure p') fs).
Proof.
  intros H. induction fs as [|f fs IH]; cbn; intros (H1 & H2) (H3 & H4) || intros; constructor; [| auto].
  unfold closure. eapply vr_same; eassumption.
Qed.
Lemma same_argument d p p' r : erel d p p' -> bound d r -> unbound_local p r = false /\ unbound_local p' r = false /\ vrel (argument p r) (argument p' r).
Proof.
  intros H Hb. pose proof (same_variable _ _ _ _ H Hb) as Ho. unfold Machine.Spec.argument. destruct r as [i|i|n]; cbn [unbound_local].
  - destruct (erel_lookup _ _ _ H _ Hb) as (v & v' & E & E' & Hv). cbn [Machine.Spec.variable]. rewrite E, E'. auto.
  - split; [reflexivity |]. split; [reflexivity |].
    destruct (variable p (RG i)) eqn:E1, (variable p' (RG i)) eqn:E2; try contradiction; [exact Ho |].
    eapply same_atom; [exact H | exact Hb].
  - split; [reflexivity |]. split; [reflexivity |]. apply vr_native.
Qed.
Lemma same_arguments d p p' rs : erel d p p' -> bounds d rs ->
  existsb (unbound_local p) rs = false /\ existsb (unbound_local p') rs = false /\ Forall2 vrel (map (argument p) rs) (map (argument p') rs).
Proof.
  intros H Hb. induction Hb as [|r rs Hr _ (H1 & H2 & H3)]; cbn; [auto |].
  destruct (same_argument _ _ _ _ H Hr) as (E1 & E2 & E3). rewrite E1, E2. auto.
Qed.
Lemma bind_same d p p' vs vs' : erel d p p' -> Forall2 vrel vs vs' -> erel (List.length vs + d) (bind vs p) (bind vs' p').
Proof. intros H Hv. destruct Hv; cbn [bind]; [exact H |]. apply er_vals; [exact H | constructor; assumption]. Qed.
Lemma branch_in tag (bs : list (N * syn)) b : branch_for tag bs = Some b -> In (tag, b) bs.
Proof.
  unfold branch_for. destruct (List.find _ (rev bs)) as [[t c]|] eqn:E; cbn; [| discriminate]. intros [= <-].
  apply find_some in E. destruct E as (E1 & E2). cbn in E2. apply N.eqb_eq in E2. subst. apply in_rev. exact E1.
Qed.
Lemma all_in {A} (P : A -> Prop) l x : All P l -> In x l -> P x.
Proof. induction l as [|y l IH]; cbn; [tauto |]. intros (H1 & H2) [<-|Hin]; auto. Qed.

Lemma all_and {A} (P Q : A -> Prop) l : All P l -> All Q l -> All (fun x => P x /\ Q x) l.
Proof. induction l as [|x l IH]; cbn; [auto |]. intros (H1 & H2) (H3 & H4). auto. Qed.

(** ** Variables *)
Lemma orel_some o o' v : orel o o' -> o = Some v -> exists v', o' = Some v' /\ vrel v v'.
Proof. intros H ->. destruct o' as [v'|]; [eauto | destruct H]. Qed.
Lemma orel_some_r o o' v' : orel o o' -> o' = Some v' -> exists v, o = Some v /\ vrel v v'.
Proof. intros H ->. destruct o as [v|]; [eauto | destruct H]. Qed.
Lemma fields_related p p' rs rs' : Forall2 (fun r r' => orel (variable p r) (variable p' r')) rs rs' -> forall vs,
  variables globals p rs = Some vs -> exists vs', variables globals p' rs' = Some vs' /\ Forall2 vrel vs vs'.
Proof.
  induction 1 as [|r r' rs rs' Hr _ IH]; cbn; intros vs; [intros [= <-]; eauto |].
  destruct (variable p r) as [v|] eqn:E; [| discriminate]. destruct (variables globals p rs) as [ws|]; [| discriminate].
  intros [= <-]. destruct (orel_some _ _ _ Hr eq_refl) as (v' & -> & Hv). destruct (IH ws eq_refl) as (ws' & -> & Hw). eauto.
Qed.
Lemma fields_related_r p p' rs rs' : Forall2 (fun r r' => orel (variable p r) (variable p' r')) rs rs' -> forall vs',
  variables globals p' rs' = Some vs' -> exists vs, variables globals p rs = Some vs /\ Forall2 vrel vs vs'.
Proof.
  induction 1 as [|r r' rs rs' Hr _ IH]; cbn; intros vs; [intros [= <-]; eauto |].
  destruct (variable p' r') as [v|] eqn:E; [| discriminate]. destruct (variables globals p' rs') as [ws|]; [| discriminate].
  intros [= <-]. destruct (orel_some_r _ _ _ Hr eq_refl) as (v' & -> & Hv). destruct (IH ws eq_refl) as (ws' & -> & Hw). eauto.
Qed.
Lemma variables_len p rs : forall vs, variables globals p rs = Some vs -> List.length vs = List.length rs.
Proof.
  induction rs as [|x xs IH]; intros vs; cbn; [intros [= <-]; reflexivity |].
  destruct (variable p x); [| discriminate]. destruct (variables globals p xs); [| discriminate].
  intros [= <-]. cbn. f_equal. auto.
Qed.
Lemma some_orel p p' rs rs' : Forall2 (fun r r' => exists v v', variable p r = Some v /\ variable p' r' = Some v' /\ vrel v v') rs rs' ->
  Forall2 (fun r r' => orel (variable p r) (variable p' r')) rs rs'.
Proof. induction 1 as [|r r' rs rs' (v & v' & E & E' & H) _ IH]; constructor; [rewrite E, E'; exact H | exact IH]. Qed.

(** Values already there. *)
Lemma whnf_same c a p p' d : erel d p p' -> scoped (a + d) c -> regular c -> whnf (VClo c a p) = true -> out (VClo c a p) (VClo c a p').
Proof.
  intros H1 H2 H3 Hw. split; [eapply vr_same; eassumption |]. destruct a as [|a].
  - destruct c; try discriminate; cbn in H2.
    + apply w_data; [exact H3 | eapply same_refs; eassumption].
    + destruct H2 as (H2 & H2'). apply w_meta; eapply same_variable; eassumption.
  - apply w_fun; [lia |]. intros args args' Hl Ha. rewrite <- Hl in H2. eapply same_code; [apply er_vals; eassumption | exact H2 | exact H3].
Qed.
Lemma delivered_out i ns v : delivered (prim i ns) = Some v -> out v v.
Proof.
  intros H. destruct (prim i ns) as [n|tag ms|] eqn:E; [injection H as <-; split; constructor | | discriminate].
  injection H as <-. pose proof (prims _ _ _ _ E) as Hf.
  assert (He : erel (List.length ms + 0) (bind (map VNat ms) []) (bind (map VNat ms) [])).
  { rewrite <- (map_length VNat ms). apply bind_same; [apply er_any |]. clear. induction ms; cbn; constructor; auto. apply vr_native. }
  eapply whnf_same; [exact He | | | reflexivity]; cbn.
  - unfold bounds, lrefs. rewrite Forall_forall. intros r Hr. apply in_map_iff in Hr. destruct Hr as (k & <- & Hk). apply in_seq in Hk.
    cbn. rewrite Nat2N.id. lia.
  - unfold lrefs. rewrite map_length, seq_length. exact Hf.
Qed.

(** ** What the head of compiled code may be *)
Inductive next : value -> value -> Prop :=
| nx_ann smid t p : next (VClo (SAnn smid t) 0 p) (VClo t 0 p)
| nx_seq i t p : next (VClo (SSeq (SAtom (local i)) t) 0 p) (VClo t 0 p)
| nx_let fs t p : next (VClo (SLet false fs t) 0 p) (VClo t 0 (Vals (map (closure p) fs) :: p))
| nx_letrec fs t p : next (VClo (SLet true fs t) 0 p) (VClo t 0 (Rec fs :: p)).
Definition is_call (c : syn) (f : ref) (rs : list ref) (eager : bool) : Prop :=
  c = SApp f rs eager \/ exists smid, c = SDirectApp smid f rs eager.
Inductive hrel (l q : value) : Prop :=
| h_value y : whnf l = true -> evals q y -> out l y -> hrel l q
| h_next l' q1 : next l l' -> vrel l' q1 -> (forall x, evals q1 x -> evals q x) -> hrel l q
| h_left r p v q1 : l = VClo (SAtom r) 0 p -> variable p r = Some v -> vrel v q1 -> (forall x, evals q1 x -> evals q x) -> hrel l q
| h_app c f rs eager p v g args : is_call c f rs eager -> l = VClo c 0 p -> variable p f = Some v -> vrel v g ->
    Forall2 vrel (map (argument p) rs) args -> (forall x, applies g args x -> evals q x) -> hrel l q
| h_fused i a b inner p a' b' : l = VClo (SFused i a b inner) 0 p ->
    vrel (VClo (SAtom a) 0 p) a' -> vrel (VClo (SAtom b) 0 p) b' ->
    (forall x y v, operand a' x -> operand b' y -> delivered (prim i [x; y]) = Some v -> evals q v) -> hrel l q
| h_same c p p' d : l = VClo c 0 p -> erel d p p' -> scoped d c -> regular c ->
    (forall x, evals (VClo c 0 p') x -> evals q x) -> whnf l = false -> hrel l q.

Lemma hrel_expand l q1 q : (forall x, evals q1 x -> evals q x) -> hrel l q1 -> hrel l q.
Proof.
  intros H [y W E O | l' q2 N V E | r p v q2 E1 E2 V E | c f rs eager p v g args C El Ef V A E | i a b inner p a' b' El Va Vb E | c p p' d El Ee Es Er E W].
  - eapply h_value; eauto.
  - eapply h_next; eauto.
  - eapply h_left; eauto.
  - eapply h_app; eauto.
  - eapply h_fused; eauto.
  - eapply h_same; eauto.
Qed.
Lemma evals_now v : whnf v = true -> evals v v.
Proof. apply whnf_evals. Qed.
Lemma stage_let fs body p' (c : syn) q : c = SLet false fs body -> stage c p' q -> forall x,
  evals (VClo body 0 (Vals (map (closure p') fs) :: p')) x -> evals q x.
Proof. intros -> H x E. inversion H as [|fs' body' Ec]; subst; [apply ev_let; exact E |]. injection Ec as -> ->. exact E. Qed.
Lemma stage_now (c : syn) p' q : (forall fs (body : syn), c <> SLet false fs body) -> stage c p' q -> q = VClo c 0 p'.
Proof. intros H1 H. inversion H as [|fs body Ec]; subst; [reflexivity | destruct (H1 _ _ eq_refl)]. Qed.

Lemma rreadss_values G p p' rs es : crel G p p' -> rreadss G rs es -> Forall supported es ->
  Forall2 (fun r v' => exists v, variable p r = Some v /\ vrel v v') rs (map (fun e => VClo (direct (sizes G) e) 0 p') es).
Proof.
  intros Hc H. revert es H. induction rs as [|r rs IH]; intros es H Hs; inversion H as [|? ? ? e es' Hr Hrs]; subst; cbn; constructor.
  - inversion Hs; subst. eapply rreads_value; eassumption.
  - inversion Hs; subst. auto.
Qed.
Lemma values_arguments p rs vs' : Forall2 (fun r v' => exists v, variable p r = Some v /\ vrel v v') rs vs' ->
  Forall2 vrel (map (argument p) rs) vs' /\ existsb (unbound_local p) rs = false.
Proof.
  induction 1 as [|r v' rs vs' (v & E & H) _ (IH & IH')]; cbn; [split; constructor |]. split.
  - constructor; [| exact IH]. unfold Machine.Spec.argument. rewrite E. exact H.
  - rewrite IH'. destruct r; cbn [unbound_local]; try reflexivity. cbn in E. rewrite E. reflexivity.
Qed.
Lemma arg_value vs p i v : nth_error vs i = Some v -> variable (Vals vs :: p) (arg i) = Some v.
Proof.
  intros E. unfold arg. cbn [Machine.Spec.variable Machine.Spec.lookup]. rewrite Nat2N.id.
  assert (i <? List.length vs = true) as -> by (apply Nat.ltb_lt, nth_error_Some; congruence). exact E.
Qed.
Lemma args_values (vs : list value) p : forall k ws, skipn k vs = ws -> map (argument (Vals vs :: p)) (map arg (seq k (List.length ws))) = ws.
Proof.
  intros k ws. revert k. induction ws as [|w ws IH]; intros k E; cbn; [reflexivity |].
  assert (Hn : nth_error vs k = Some w).
  { clear - E. revert k E. induction vs as [|v vs IHv]; intros [|k] E; cbn in *; try discriminate; [injection E as -> _; reflexivity | auto]. }
  f_equal.
  - unfold Machine.Spec.argument. rewrite (arg_value _ _ _ _ Hn). reflexivity.
  - apply IH. clear - E. revert k E. induction vs as [|v vs IHv]; intros [|k] E; cbn in *; try discriminate; [injection E as _ ->; reflexivity | auto].
Qed.
Lemma preads_value G p p' r kvs : crel G p p' -> preads St forcing G r kvs -> exists v, variable p r = Some v.
Proof.
  intros Hc H. inversion H as [|? n k kv tl m k' v key x kvs' Hs _ _ _ _ _ _]; subst.
  - edestruct (global_value St forcing globals globals_sound globals_there (ENode KList []) empty_list p) as (v & E & _); [reflexivity | eauto].
  - destruct (slot_value _ _ _ _ _ _ Hc _ _ _ Hs) as (p1 & E & _). rewrite local_variable. eauto.
Qed.

(** The call of a function with arguments, in the plain translation. *)
Lemma direct_app sizes x xs : direct sizes (ENode KApp (x :: xs)) = call_of (direct sizes x) (map (direct sizes) xs).
Proof. reflexivity. Qed.
Lemma call_code p' f ts q y : stage (call_of f ts) p' q -> applies (VClo f 0 p') (map (fun t => VClo t 0 p') ts) y -> evals q y.
Proof.
  intros Hq Ha. eapply stage_let; [reflexivity | exact Hq |].
  set (vs := map (closure p') (map thunk (f :: ts))).
  assert (Evs : vs = VClo f 0 p' :: map (fun t => VClo t 0 p') ts).
  { unfold vs. cbn [map]. f_equal. rewrite map_map. reflexivity. }
  clearbody vs. eapply ev_apply; [apply arg_value; rewrite Evs; reflexivity | unfold Machine.Spec.arguments; cbn [andb]; reflexivity |].
  rewrite <- (map_length (fun t => VClo t 0 p') ts) at 1. rewrite args_values; [exact Ha |]. rewrite Evs. reflexivity.
Qed.
Lemma call_means (G : list level) p' x xs q : stage (direct (sizes G) (ENode KApp (x :: xs))) p' q -> forall y,
  applies (VClo (direct (sizes G) x) 0 p') (map (fun e => VClo (direct (sizes G) e) 0 p') xs) y -> evals q y.
Proof.
  rewrite direct_app. intros Hq y Ha. eapply call_code; [exact Hq |]. rewrite map_map. exact Ha.
Qed.

Lemma supported_parts k xs : supported (ENode k xs) -> Forall supported xs.
Proof. intros (_ & H). revert H. induction xs as [|x xs IH]; cbn; [constructor | intros (H1 & H2); constructor; auto]. Qed.

Lemma u8_id n : n < 256 -> N.to_nat (u8 (N.of_nat n)) = n.
Proof. intros H. unfold u8. rewrite N.mod_small by lia. apply Nat2N.id. Qed.

(** Calls of intrinsics. *)
Lemma intrinsic_call (G : list level) p' name ys xs q n f c a : intrinsic_index St name = Ok n ->
  nth_error globals n = Some (FLambda (N.of_nat (List.length xs)) a, c) -> xs <> [] ->
  stage (direct (sizes G) (ENode KApp (ENode (KIntrinsic name) ys :: xs))) p' q ->
  f = map (fun e => VClo (direct (sizes G) e) 0 p') xs ->
  forall y, evals (VClo c 0 [Vals f]) y -> evals q y.
Proof.
  intros Hn Hg Hxs Hq -> y Hy. eapply call_means; [exact Hq |].
  assert (Hlen : List.length xs = List.length (map (fun e => VClo (direct (sizes G) e) 0 p') xs)) by (rewrite map_length; reflexivity).
  eapply ap_saturated with (c := c) (e := []); [| rewrite <- Hlen; destruct xs; [congruence | cbn; lia] | exact Hy].
  assert (Ed : direct (sizes G) (ENode (KIntrinsic name) ys) = SAtom (RG (N.of_nat n))).
  { apply global_direct. cbn. rewrite Hn. reflexivity. }
  rewrite Ed, <- Hlen. apply st_plain; [| destruct xs; [congruence | destruct c; reflexivity]].
  eapply ev_variable; [cbn; rewrite Nat2N.id, Hg; reflexivity |]. unfold closure. cbn. rewrite Nat2N.id. apply ev_function.
  destruct xs; [congruence | cbn; lia].
Qed.

Lemma core_hrel G t e : reads G t e -> forall p p' q, crel G p p' -> supported e -> stage (direct (sizes G) e) p' q -> hrel (VClo t 0 p) q.
Proof.
  induction 1 as [G s b nm r E | G e r Hg | G pl xs | G f rs eager x xs Hf Hrs | G smid f rs eager x xs Hf Hrs _
    | G name ys xs n bif rs Hn Hb Hsup Hin Har Hnf Hrs | G name ys xs n bif a b Hn Hb Hsup Hin Har Hfu Hbody Hrs
    | G smid t e Ht IH | G rec fs idx t e Hi Ht IH | G bs body ty refs fs idx t Hi Hbs Ht IH | G f inl ps body Hf | G h tl x xs Hh Htl
    | G r keys xs Hp | G m e rm re rest Hm He | G t fx pr x rest Ht IH | G key x fallback smid o dft n k Ho Hd Hsl Hk]; intros p p' q Hc Hs Hq.
  - destruct (var_value _ _ _ globals_sound globals_there _ _ _ Hc _ _ _ E) as (v & v' & E1 & E2 & Hv).
    apply stage_now in Hq; [| discriminate]. subst q. eapply h_left; [reflexivity | exact E1 | exact Hv |].
    intros y Hy. cbn [Spec.direct]. eapply ev_variable; [| exact Hy]. unfold arg. cbn [Machine.Spec.variable]. rewrite Nat2N.id. exact E2.
  - rewrite (global_direct _ _ _ _ Hg) in Hq. apply stage_now in Hq; [| discriminate]. subst q.
    destruct (globals_there _ _ Hg) as (k & f & -> & Hf). eapply h_left; [reflexivity | | eapply global_self; [exact globals_sound | exact Hf] |].
    + cbn [Machine.Spec.variable]. rewrite Hf. reflexivity.
    + intros y Hy. eapply ev_variable; [| exact Hy]. cbn [Machine.Spec.variable]. rewrite Hf. reflexivity.
  - apply stage_now in Hq; [| destruct pl as [| | |[]| |]; discriminate]. subst q.
    assert (H : exists tag ns, boxed_literal St pl = SCons tag (map RV ns) /\ direct (sizes G) (ENode (KLiteral pl) xs) = SCons tag (map RV ns) /\ has_fields tag (List.length ns)).
    { destruct pl as [s|s|s|bb| |s].
      - exists 5%N, [s_string St s]. repeat split; destruct xs; reflexivity.
      - exists 4%N, [s_symbol St s]. repeat split; destruct xs; reflexivity.
      - exists 3%N, [s_number St s]. repeat split; destruct xs; reflexivity.
      - exists (if bb then 1%N else 2%N), []. destruct bb; repeat split; destruct xs; reflexivity.
      - exists 0%N, []. repeat split; destruct xs; reflexivity.
      - exists 17%N, [s_string St s]. repeat split; destruct xs; reflexivity. }
    destruct H as (tag & ns & -> & -> & Hf). eapply h_value; [reflexivity | apply ev_data |].
    eapply whnf_same; [apply er_any | | cbn; rewrite map_length; exact Hf | reflexivity]. cbn. unfold bounds. clear. induction ns; cbn; constructor; auto. exact I.
  - pose proof (supported_parts _ _ Hs) as Hp. inversion Hp as [|? ? Hx Hxs]; subst.
    destruct (rreads_value _ _ _ globals_sound globals_there _ _ _ _ _ Hc Hf Hx) as (v & Ev & Hv).
    destruct (values_arguments _ _ _ (rreadss_values _ _ _ _ _ Hc Hrs Hxs)) as (Ha & _).
    eapply h_app; [left; reflexivity | reflexivity | exact Ev | exact Hv | exact Ha |]. intros y Hy. eapply call_means; [exact Hq | exact Hy].
  - pose proof (supported_parts _ _ Hs) as Hp. inversion Hp as [|? ? Hx Hxs]; subst.
    destruct (rreads_value _ _ _ globals_sound globals_there _ _ _ _ _ Hc Hf Hx) as (v & Ev & Hv).
    destruct (values_arguments _ _ _ (rreadss_values _ _ _ _ _ Hc Hrs Hxs)) as (Ha & _).
    eapply h_app; [right; eauto | reflexivity | exact Ev | exact Hv | exact Ha |]. intros y Hy. eapply call_means; [exact Hq | exact Hy].
  - pose proof (supported_parts _ _ Hs) as Hp. inversion Hp as [|? ? Hx Hxs]; subst.
    pose proof (rreadss_values _ _ _ _ _ Hc Hrs Hxs) as Hvs. pose proof (forall2_len _ _ _ Hvs) as Hlen. rewrite map_length in Hlen.
    destruct (inlined n bif Hb Hin) as (a & c & Hgl & Hcase).
    assert (c = i_wrapper bif) as ->.
    { destruct (i_fusible bif) eqn:Ef; cbn [andb] in Hcase; [| exact Hcase]. destruct (Nat.eqb_spec (i_arity bif) 2) as [E2|]; cbn [andb] in Hcase; [| exact Hcase].
      rewrite (Hnf eq_refl ltac:(congruence)) in Hcase. exact Hcase. }
    assert (Hsg : sound (FLambda (N.of_nat (i_arity bif)) a, i_wrapper bif)) by (rewrite Forall_forall in globals_sound; apply globals_sound; eapply nth_error_In; exact Hgl).
    destruct Hsg as (Hsc & Hrg). unfold params in Hsc. cbn in Hsc, Hrg. rewrite Nat2N.id in Hsc.
    set (f := map (fun e => VClo (direct (sizes G) e) 0 p') xs) in *.
    eapply h_next with (q1 := VClo (i_wrapper bif) 0 [Vals f]); [constructor | |].
    + eapply same_code with (d := List.length rs + 0); [| rewrite Nat.add_0_r, <- Har; exact Hsc | exact Hrg].
      rewrite map_map. cbn [closure fst snd]. rewrite <- (map_length (fun r => closure p (FValue, SAtom r)) rs).
      apply er_vals; [apply er_any |]. clear - Hvs. induction Hvs as [|r v' rs vs' (v & E & H) _ IH]; cbn; constructor; [| exact IH].
      unfold closure. cbn. eapply vr_left; eassumption.
    + eapply intrinsic_call; [exact Hn | rewrite <- Hlen, <- Har; exact Hgl | | exact Hq | reflexivity].
      destruct Hs as (H2 & _). cbn in H2. destruct xs; [cbn in H2; lia | discriminate].
  - pose proof (supported_parts _ _ Hs) as Hp. inversion Hp as [|? ? Hx Hxs]; subst.
    pose proof (rreadss_values _ _ _ _ _ Hc Hrs Hxs) as Hvs.
    destruct (inlined n bif Hb Hin) as (an & c & Hgl & Hcase). rewrite Hfu, Har, Hbody in Hcase. cbn in Hcase. destruct Hcase as (inner & ->).
    inversion Hvs as [|? v1 ? l1 (va & Ea & Hva) H1 E1 E2]; subst. inversion H1 as [|? v2 ? l2 (vb & Eb & Hvb) H2 E3 E4]; subst. inversion H2; subst.
    eapply h_fused with (a' := v1) (b' := v2); [reflexivity | eapply vr_left; eassumption | eapply vr_left; eassumption |].
    intros x y v Hxv Hyv Hd. destruct xs as [|x1 [|x2 [|? ?]]]; try discriminate. cbn [map] in E2. injection E2 as -> ->.
    eapply intrinsic_call with (xs := [x1; x2]); [exact Hn | rewrite Har in Hgl; exact Hgl | discriminate | exact Hq | reflexivity |].
    assert (O : forall p v w z, variable p w = Some v -> operand v z -> operand (VClo (SAtom w) 0 p) z).
    { clear. intros p v w z E Ho.
      assert (S : forall u, strips v u -> strips (VClo (SAtom w) 0 p) u).
      { intros u Hu. inversion Hu; subst; [apply st_plain; [eapply ev_variable; eassumption | assumption] | eapply st_meta; [eapply ev_variable; eassumption | eassumption ..]]. }
      inversion Ho; subst; [apply op_native; auto | eapply op_box; [apply S |..]; eassumption]. }
    eapply ev_fused; [eapply O; [reflexivity | exact Hxv] | eapply O; [reflexivity | exact Hyv] | exact Hd].
  - eapply h_next; [constructor | eapply (vr_core _ _ _ G [] t e); eauto | auto].
  - cbn [sizes] in *. destruct fs as [|f fs].
    + cbn [let_code]. eapply IH; [apply (cr_syn _ _ _ rec []); exact Hc | exact Hs | exact Hq].
    + assert (Hc1 : crel (LSyn rec (f :: fs) :: G) (scope_of rec (f :: fs) p) p') by (apply cr_syn; exact Hc).
      cbn [let_code scope_of] in *. destruct rec; (eapply h_next with (q1 := q); [constructor | eapply (vr_core _ _ _ _ idx t e); eauto | auto]).
  - apply stage_now in Hq; [| discriminate]. subst q. destruct Hs as (Hs1 & Hs2).
    assert (Hse : Forall supported (map b_expr bs)).
    { clear - Hs1. induction bs as [|b bs IHb]; cbn in *; constructor; tauto. }
    pose proof (cr_let _ _ _ _ _ _ _ _ _ Hc Hse Hbs) as Hc1. pose proof (breads_length _ _ _ _ _ _ _ Hbs) as Hlen. rewrite map_length in Hlen.
    cbn [Spec.direct]. rewrite Hlen. rewrite map_map in Hc1.
    assert (Hexp : forall x, evals (VClo (direct (List.length refs :: sizes G) body) 0
      (Rec (map (fun b => thunk (direct (List.length refs :: sizes G) (b_expr b))) bs) :: p')) x ->
      evals (VClo (SLet true (map (fun b => thunk (direct (List.length refs :: sizes G) (b_expr b))) bs) (direct (List.length refs :: sizes G) body)) 0 p') x)
      by (intros; apply ev_letrec; assumption).
    destruct fs as [|f fs].
    + cbn [let_code scope_of] in *. eapply hrel_expand; [exact Hexp |]. eapply IH; [exact Hc1 | exact Hs2 | constructor].
    + cbn [let_code]. eapply h_next; [constructor | | exact Hexp]. cbn [scope_of] in Hc1. eapply (vr_core _ _ _ _ idx t body); eauto. constructor.
  - eapply h_next with (q1 := q); [constructor | | auto].
    inversion Hf as [? ? ? ? Hk Ht | ? a t ? ? ? Ht]; subst.
    + eapply vr_left; [reflexivity |]. unfold closure. cbn [fst snd map].
      replace (N.to_nat (fk_arity k)) with 0 by (destruct Hk; subst; reflexivity). apply (vr_core _ _ _ G [] t (ELam inl ps body) p p'); auto.
    + eapply vr_left; [reflexivity |]. unfold closure. cbn [fst snd map fk_arity]. rewrite Nat2N.id. destruct Hs as (Hps & Hsb).
      eapply vr_lam; [destruct ps; [congruence | cbn; lia] | reflexivity | exact Hc | exact Ht | exact Hsb | exact Hq].
  - pose proof (supported_parts _ _ Hs) as Hp. inversion Hp as [|? ? Hx Hxs]; subst.
    destruct (rreads_value _ _ _ globals_sound globals_there _ _ _ _ _ Hc Hh Hx) as (v & Ev & Hv).
    destruct (rreads_value _ _ _ globals_sound globals_there _ _ _ _ (ENode KList xs) Hc Htl) as (w & Ew & Hw).
    { destruct Hs as (_ & Hs). cbn in Hs. split; [exact I | apply Hs]. }
    cbn [Spec.direct] in Hq, Hw. eapply h_value; [reflexivity | eapply stage_let; [reflexivity | exact Hq | apply ev_data] |].
    assert (Hfs : Forall2 (fun r r' => exists v v', variable p r = Some v /\ variable (Vals (map (closure p')
        [thunk (direct (sizes G) x); thunk (list_of (map (direct (sizes G)) xs))]) :: p') r' = Some v' /\ vrel v v') [h; tl] [arg 0; arg 1]).
    { constructor; [| constructor; [| constructor]]; eexists _, _; (split; [eassumption |]); (split; [reflexivity |]); assumption. }
    split; [apply vr_data; [reflexivity | exact Hfs] | apply w_data; [reflexivity | apply some_orel; exact Hfs]].
  - cbn [Spec.direct] in Hq. destruct (preads_value _ _ _ _ _ Hc Hp) as (v & Ev).
    eapply h_value; [reflexivity | eapply stage_let; [destruct xs; reflexivity | exact Hq | apply ev_data] |].
    assert (Hfs : Forall2 (fun r r' => exists v v', variable p r = Some v /\ variable (Vals (map (closure p')
        [thunk (list_of (map pair_of (combine keys (map (direct (sizes G)) xs))))]) :: p') r' = Some v' /\ vrel v v')
        [r; RV (s_number St "0")] [arg 0; RV (s_number St "0")]).
    { constructor; [| constructor; [| constructor]].
      - exists v. eexists. split; [exact Ev |]. split; [reflexivity |]. eapply vr_pairs; [exact Hc | exact Hp | | exact Ev |].
        + apply supported_parts in Hs. clear - Hs. revert keys. induction Hs as [|x xs Hx _ IHx]; intros [|k keys]; cbn; constructor; auto.
        + assert (E : map pair_of (combine keys (map (direct (sizes G)) xs)) = map (fun kv => pair_of (fst kv, direct (sizes G) (snd kv))) (combine keys xs)).
          { clear. revert xs. induction keys as [|k keys IHk]; intros [|x xs]; cbn; try reflexivity. f_equal. apply IHk. }
          rewrite E. constructor.
      - eexists _, _. split; [reflexivity |]. split; [reflexivity |]. apply vr_native. }
    split; [apply vr_data; [reflexivity | exact Hfs] | apply w_data; [reflexivity | apply some_orel; exact Hfs]].
  - pose proof (supported_parts _ _ Hs) as Hp. inversion Hp as [|? ? Hse Hr]; subst. inversion Hr as [|? ? Hsm _]; subst.
    destruct (rreads_value _ _ _ globals_sound globals_there _ _ _ _ _ Hc Hm Hsm) as (v & Ev & Hv).
    destruct (rreads_value _ _ _ globals_sound globals_there _ _ _ _ _ Hc He Hse) as (w & Ew & Hw).
    eapply h_value; [reflexivity | eapply stage_let; [reflexivity | exact Hq | apply ev_meta] |].
    split; [eapply vr_meta; [exact Ev | reflexivity | exact Hv | exact Ew | reflexivity | exact Hw] |].
    apply w_meta; [rewrite Ev | rewrite Ew]; assumption.
  - apply IH with (p' := p'); [exact Hc | eapply supported_operator; exact Hs | exact Hq].
  - destruct Hs as (H & _). destruct H.
Qed.

Lemma whnf_head l q : whnf l = true -> hrel l q -> exists y, evals q y /\ out l y.
Proof.
  intros W [y _ E O | l' q1 N V E | r p v q1 -> | c f rs eager p v g args C -> | i a b inner p a' b' -> | c p p' d _ _ _ _ _ W'];
    [eauto | inversion N; subst; discriminate | discriminate | destruct C as [-> | (smid & ->)]; discriminate | discriminate | congruence].
Qed.
Lemma pair_head G r key x p p' q : crel G p p' -> rreads G r x -> supported x -> stage (pair_of (key, direct (sizes G) x)) p' q ->
  hrel (VClo (pair St key r) 0 p) q.
Proof.
  intros Hc Hr Hs Hq. destruct (rreads_value _ _ _ globals_sound globals_there _ _ _ _ _ Hc Hr Hs) as (v & Ev & Hv).
  eapply h_value; [reflexivity | eapply stage_let; [reflexivity | exact Hq | apply ev_data] |]. cbn [fst snd].
  assert (Hfs : Forall2 (fun r r' => exists v v', variable p r = Some v /\
      variable (Vals (map (closure p') [thunk (direct (sizes G) x)]) :: p') r' = Some v' /\ vrel v v')
      [RV (s_symbol St key); r] [RV (s_symbol St key); arg 0]).
  { constructor; [| constructor; [| constructor]].
    - eexists _, _. split; [reflexivity |]. split; [reflexivity |]. apply vr_native.
    - eexists _, _. split; [exact Ev |]. split; [reflexivity |]. exact Hv. }
  split; [apply vr_data; [reflexivity | exact Hfs] | apply w_data; [reflexivity | apply some_orel; exact Hfs]].
Qed.
Lemma norm l q : vrel l q -> hrel l q.
Proof.
  induction 1 as [n | f f' vs vs' Ht Hf IH Hv | c a p p' d He Hs Hr | tag rs rs' p p' Hf Hfs | m b m' b' p p' u u' v v' E1 E2 H1 _ E3 E4 H2 _
    | i x y z x' y' z' p p' H1 _ H2 _ | G idx t e p p' q Hc Hi Ht Hs Hq | G n t e p p' Hn Hc Ht Hs | G n t e p p' inl ps q Hn Hps Hc Ht Hs Hq
    | G r kvs p p' v q Hc Hp Hs Ev Hq | G r key x p p' q Hc Hr Hs Hq | r p v w E H _ | r p' v w E H IH].
  - eapply h_value; [reflexivity | constructor | split; constructor].
  - eapply h_value; [reflexivity | constructor | split; constructor; assumption].
  - destruct (whnf (VClo c a p)) eqn:W.
    + eapply h_value; [exact W | apply evals_now; exact W | eapply whnf_same; eassumption].
    + destruct a as [|a]; [| destruct c; discriminate]. eapply h_same; [reflexivity | exact He | exact Hs | exact Hr | auto | exact W].
  - eapply h_value; [reflexivity | apply ev_data | split; [apply vr_data; assumption | apply w_data; [exact Hf | apply some_orel; exact Hfs]]].
  - eapply h_value; [reflexivity | apply ev_meta | split; [eapply vr_meta; eassumption |]]. apply w_meta; [rewrite E1, E2 | rewrite E3, E4]; assumption.
  - eapply h_fused; [reflexivity | exact H1 | exact H2 |]. intros a b v Ha Hb Hd. eapply ev_fused; eassumption.
  - destruct idx as [|i idx]; cbn [forces]; [eapply core_hrel; eassumption |].
    eapply h_next with (q1 := q); [constructor | eapply vr_core; [exact Hc | | exact Ht | exact Hs | exact Hq] | auto].
    destruct Hi as [Hi|Hi]; [discriminate | auto].
  - eapply h_value; [destruct n; [lia | destruct t; reflexivity] | apply ev_function; exact Hn | split; [eapply vr_fun; eassumption |]].
    apply w_fun; [exact Hn |]. intros args args' Hl Ha. apply (vr_core _ _ _ (LLam n :: G) [] t e _ (Vals args' :: p')); auto; [apply cr_lam; assumption | constructor].
  - cbn [Spec.direct] in Hq. eapply h_value with (y := VClo (direct (n :: sizes G) e) n p'); [destruct n; [lia | destruct t; reflexivity] | |].
    + eapply stage_let; [reflexivity | exact Hq |]. eapply ev_variable; [reflexivity |]. unfold closure. cbn [fst snd fk_arity map].
      rewrite Nat2N.id, <- Hps. apply ev_function. exact Hn.
    + split; [eapply vr_fun; eassumption |].
      apply w_fun; [exact Hn |]. intros args args' Hl Ha. apply (vr_core _ _ _ (LLam n :: G) [] t e _ (Vals args' :: p')); auto; [apply cr_lam; assumption | constructor].
  - inversion Hp as [? E1 E2 E3 | ? n k kv tl m k' v0 key x kvs' Hsl Hk -> Hsl' Hk' Hr Hps]; subst.
    + cbn in Hq. apply stage_now in Hq; [| discriminate]. subst q.
      destruct (globals_there (ENode KList []) empty_list eq_refl) as (i & f & Ei & Hf). unfold empty_list, global in Ei. injection Ei as <-.
      unfold empty_list, global in Ev. cbn [Machine.Spec.variable] in Ev. rewrite Hf in Ev. injection Ev as <-.
      assert (Hexp : forall x, evals (closure [] f) x -> evals (VClo (SAtom (RG ix_empty_list)) 0 p') x).
      { intros x Hx. eapply ev_variable; [| exact Hx]. cbn [Machine.Spec.variable]. rewrite Hf. reflexivity. }
      eapply hrel_expand; [exact Hexp |]. clear Hexp. assert (Hsf : sound f) by (rewrite Forall_forall in globals_sound; apply globals_sound; eapply nth_error_In; exact Hf).
      destruct Hsf as (H1 & H2). unfold closure. fold (params f). destruct (whnf (VClo (snd f) (params f) [])) eqn:W.
      * eapply h_value; [exact W | apply evals_now; exact W | eapply whnf_same; [apply er_any | rewrite Nat.add_0_r; exact H1 | exact H2 | exact W]].
      * destruct (params f) as [|a]; [| destruct (snd f); discriminate]. eapply h_same; [reflexivity | apply (er_any _ _ _ [] []) | exact H1 | exact H2 | auto | exact W].
    + rewrite local_variable in Ev. destruct (slot_value _ _ _ _ _ _ Hc _ _ _ Hsl) as (p1 & E & Hc1 & _). rewrite E in Ev. injection Ev as <-.
      unfold closure. cbn [fst snd]. rewrite Hk. change (N.to_nat 0) with 0. cbn [map Spec.list_of fst snd] in Hq.
      inversion Hs as [|? ? Hsx Hsxs]; subst. cbn in Hsx.
      destruct (slot_value _ _ _ _ _ _ Hc1 _ _ _ Hsl') as (p2 & E2 & Hc2 & _). destruct (preads_value _ _ _ _ _ Hc1 Hps) as (w & Ew).
      eapply h_value; [reflexivity | eapply stage_let; [reflexivity | exact Hq | apply ev_data] |].
      match goal with |- out (VClo (cons ?a ?b) 0 ?e) (VClo (SCons ?t ?rs) 0 ?e') =>
        assert (Hfs : Forall2 (fun r r' => exists v v', variable e r = Some v /\ variable e' r' = Some v' /\ vrel v v') [a; b] rs) end.
      { constructor; [| constructor; [| constructor]].
        - eexists _, _. split; [rewrite local_variable; exact E2 |]. split; [reflexivity |]. unfold closure. cbn [fst snd]. rewrite Hk'. change (N.to_nat 0) with 0.
          eapply vr_pair; [exact Hc2 | exact Hr | exact Hsx | constructor].
        - eexists _, _. split; [exact Ew |]. split; [reflexivity |]. eapply vr_pairs; [exact Hc1 | exact Hps | exact Hsxs | exact Ew | constructor]. }
      split; [apply vr_data; [reflexivity | exact Hfs] | apply w_data; [reflexivity | apply some_orel; exact Hfs]].
  - eapply pair_head; eassumption.
  - eapply h_left; [reflexivity | exact E | exact H | auto].
  - eapply hrel_expand; [| exact IH]. intros x Hx. eapply ev_variable; eassumption.
Qed.

(** ** Soundness *)
Lemma arguments_map eager e rs vs : Machine.Spec.arguments globals eager e rs = Some vs -> vs = map (argument e) rs.
Proof. unfold Machine.Spec.arguments. destruct (eager && existsb (unbound_local e) rs); [discriminate | congruence]. Qed.
Lemma wrel_shape v v' : wrel v v' -> is_meta v = is_meta v' /\ takes v = takes v' /\ forall bs, selects v bs = selects v' bs.
Proof.
  intros [n | f f' vs vs' Ht Hf Hv | c c' a p p' Ha Hb | tag rs rs' p p' Hf Hr | m b m' b' p p' H1 H2]; cbn; try (repeat split; reflexivity).
  - repeat split. rewrite Ht, (forall2_len _ _ _ Hv). reflexivity.
  - destruct a; [lia |]. repeat split; [destruct c, c'; reflexivity | intros; destruct c, c'; reflexivity].
Qed.
Ltac heads H :=
  destruct (norm _ _ H) as [yv W E O | l1 q1 N V E | r0 p0 w0 q1 Eq Ev V E | c0 f0 rs0 eg0 p0 w0 g0 args0 C Eq Ev V A E
    | i0 a0 b0 in0 p0 a1 b1 Eq Va Vb E | c0 p0 p1 d Eq He Hs Hr E W];
  [try discriminate | try (inversion N; fail) | try discriminate
  | try (exfalso; inversion Eq; subst; destruct C as [C | (sm & C)]; discriminate) | try discriminate
  | inversion Eq; subst; cbn [scoped regular] in Hs, Hr; clear Eq W].
Ltac value_case := intros; match goal with H : vrel ?l ?q |- _ => refine (whnf_head l q _ (norm l q H)) end.
Theorem sound_evals :
  (forall p v, evals p v -> forall p', vrel p p' -> exists v', evals p' v' /\ out v v') /\
  (forall p v, strips p v -> forall p', vrel p p' -> exists v', strips p' v' /\ out v v') /\
  (forall p args v, applies p args v -> forall p' args', vrel p p' -> Forall2 vrel args args' -> exists v', applies p' args' v' /\ out v v') /\
  (forall p n, operand p n -> forall p', vrel p p' -> operand p' n) /\
  (forall ps ns, natives ps ns -> forall ps', Forall2 vrel ps ps' -> natives ps' ns).
Proof.
  apply eval_mutual.
  - value_case. reflexivity.
  - value_case. destruct a; [lia | destruct c; reflexivity].
  - value_case. reflexivity.
  - value_case. reflexivity.
  - value_case. reflexivity.
  - intros r e p v Hx _ IH p' H. heads H.
    + injection Eq as <- <-. rewrite Hx in Ev. injection Ev as <-. destruct (IH _ V) as (v' & H1 & H2). eauto.
    + destruct (orel_some _ _ _ (same_variable _ _ _ _ He Hs) Hx) as (q & Eq & Hq). destruct (IH _ Hq) as (v' & H1 & H2).
      exists v'. split; [apply E; eapply ev_variable; eassumption | exact H2].
  - intros scr bs fb e tag args e1 b vs v _ IHs Hb Hvs _ IHb p' H. heads H.
    destruct Hs as (Hs1 & Hs2 & _), Hr as (Hr1 & Hr2 & _).
    destruct (IHs _ (same_code _ _ _ _ He Hs1 Hr1)) as (w' & Hw & _ & Hww). inversion Hww as [| | ? ? ? ? ? Ha | ? ? rs' ? p2 Hf Hfs |]; subst; [lia |].
    destruct (fields_related _ _ _ _ Hfs _ Hvs) as (vs' & Hvs' & Hv). pose proof (branch_in _ _ _ Hb) as Hin.
    destruct (IHb (VClo b 0 (bind vs' p1))) as (v' & Hv' & Ho).
    + eapply same_code; [eapply bind_same; eassumption | rewrite (variables_len _ _ _ Hvs); exact (all_in _ _ _ Hs2 Hin _ Hf) | exact (proj2 (all_in _ _ _ Hr2 Hin))].
    + exists v'. split; [apply E; eapply ev_branch; eassumption | exact Ho].
  - intros scr bs f e w v _ IHs Hsel _ IHb p' H. heads H.
    destruct Hs as (Hs1 & _ & Hs2), Hr as (Hr1 & _ & Hr2).
    destruct (IHs _ (same_code _ _ _ _ He Hs1 Hr1)) as (w' & Hw & Hv & Hww). apply wrel_shape in Hww. destruct Hww as (_ & _ & Hsl).
    destruct (IHb (VClo f 0 (Vals [w'] :: p1))) as (v' & Hv' & Ho).
    + eapply same_code; [apply (er_vals St forcing globals d p0 p1 [w] [w']); [exact He | constructor; [exact Hv | constructor]] | exact Hs2 | exact Hr2].
    + exists v'. split; [apply E; eapply ev_fallback; [exact Hw | rewrite <- Hsl; exact Hsel | exact Hv'] | exact Ho].
  - intros f args eager e p vs v Hf Ha _ IH p' H. heads H.
    + inversion Eq; subst. destruct C as [C | (sm & C)]; [| discriminate]. inversion C; subst. rewrite Hf in Ev. injection Ev as <-.
      apply arguments_map in Ha. subst vs.
      destruct (IH _ _ V A) as (v' & H1 & H2). eauto.
    + destruct Hs as (Hs1 & Hs2). destruct (orel_some _ _ _ (same_variable _ _ _ _ He Hs1) Hf) as (q & Eq & Hq).
      destruct (same_arguments _ _ _ _ He Hs2) as (U1 & U2 & A). unfold Machine.Spec.arguments in Ha. rewrite U1, andb_false_r in Ha. injection Ha as <-.
      destruct (IH _ _ Hq A) as (v' & H1 & H2). exists v'. split; [apply E; eapply ev_apply; [exact Eq | unfold Machine.Spec.arguments; rewrite U2, andb_false_r; reflexivity | exact H1] | exact H2].
  - intros smid f args eager e p vs v Hf Ha _ IH p' H. heads H.
    + inversion Eq; subst. destruct C as [C | (sm & C)]; [discriminate |]. inversion C; subst. rewrite Hf in Ev. injection Ev as <-.
      apply arguments_map in Ha. subst vs.
      destruct (IH _ _ V A) as (v' & H1 & H2). eauto.
    + destruct Hs as (Hs1 & Hs2). destruct (orel_some _ _ _ (same_variable _ _ _ _ He Hs1) Hf) as (q & Eq & Hq).
      destruct (same_arguments _ _ _ _ He Hs2) as (U1 & U2 & A). unfold Machine.Spec.arguments in Ha. rewrite U1, andb_false_r in Ha. injection Ha as <-.
      destruct (IH _ _ Hq A) as (v' & H1 & H2). exists v'. split; [apply E; eapply ev_direct; [exact Eq | unfold Machine.Spec.arguments; rewrite U2, andb_false_r; reflexivity | exact H1] | exact H2].
  - intros i args e ps ns v Hps _ IH Hd p' H. heads H.
    destruct (fields_related _ _ _ _ (same_refs _ _ _ _ He Hs) _ Hps) as (ps' & Hps' & Hp). exists v.
    split; [apply E; eapply ev_primitive; [exact Hps' | apply IH; exact Hp | exact Hd] | eapply delivered_out; exact Hd].
  - intros fs body e v _ IH p' H. heads H.
    + inversion N; subst. destruct (IH _ V) as (v' & H1 & H2). eauto.
    + destruct Hs as (Hs1 & Hs2), Hr as (Hr1 & Hr2).
      destruct (IH (VClo body 0 (Vals (map (closure p1) fs) :: p1))) as (v' & H1 & H2).
      * eapply same_code; [apply er_vals; [exact He | eapply same_closures; eassumption] | rewrite map_length; exact Hs2 | exact Hr2].
      * exists v'. split; [apply E; apply ev_let; exact H1 | exact H2].
  - intros fs body e v _ IH p' H. heads H.
    + inversion N; subst. destruct (IH _ V) as (v' & H1 & H2). eauto.
    + destruct Hs as (Hs1 & Hs2), Hr as (Hr1 & Hr2).
      destruct (IH (VClo body 0 (Rec fs :: p1))) as (v' & H1 & H2).
      * eapply same_code; [apply er_rec; [exact He |] | exact Hs2 | exact Hr2].
        exact (all_and _ _ _ Hs1 Hr1).
      * exists v'. split; [apply E; apply ev_letrec; exact H1 | exact H2].
  - intros smid body e v _ IH p' H. heads H.
    + inversion N; subst. destruct (IH _ V) as (v' & H1 & H2). eauto.
    + destruct (IH _ (same_code _ _ _ _ He Hs Hr)) as (v' & H1 & H2). exists v'. split; [apply E; apply ev_annotated; exact H1 | exact H2].
  - intros scr h o e m b e1 p q v _ IHs Hm Hb _ IHh p' H. heads H.
    destruct Hs as (Hs1 & Hs2 & _), Hr as (Hr1 & Hr2 & _).
    destruct (IHs _ (same_code _ _ _ _ He Hs1 Hr1)) as (w' & Hw & _ & Hww). inversion Hww as [| | ? ? ? ? ? Ha | | ? ? m' b' ? p2 Om Ob]; subst; [lia |].
    destruct (orel_some _ _ _ Om Hm) as (u1 & E1 & V1). destruct (orel_some _ _ _ Ob Hb) as (u2 & E2 & V2).
    destruct (IHh (VClo h 0 (Vals [u1; u2] :: p1))) as (v' & H1 & H2).
    + eapply same_code; [apply (er_vals St forcing globals d p0 p1 [p; q] [u1; u2]); [exact He | repeat constructor; assumption] | exact Hs2 | exact Hr2].
    + exists v'. split; [apply E; eapply ev_has_meta; eassumption | exact H2].
  - intros scr h o e w v _ IHs Hm _ IHo p' H. heads H.
    destruct Hs as (Hs1 & _ & Hs2), Hr as (Hr1 & _ & Hr2).
    destruct (IHs _ (same_code _ _ _ _ He Hs1 Hr1)) as (w' & Hw & Hv & Hww). apply wrel_shape in Hww. destruct Hww as (Hmm & _ & _).
    destruct (IHo (VClo o 0 (Vals [w'] :: p1))) as (v' & H1 & H2).
    + eapply same_code; [apply (er_vals St forcing globals d p0 p1 [w] [w']); [exact He | repeat constructor; assumption] | exact Hs2 | exact Hr2].
    + exists v'. split; [apply E; eapply ev_no_meta; [exact Hw | congruence | exact H1] | exact H2].
  - intros scr body e w v _ IHs _ IHb p' H. heads H.
    + inversion N; subst. destruct (IHb _ V) as (v' & H1 & H2). eauto.
    + destruct Hs as (Hs1 & Hs2), Hr as (Hr1 & Hr2).
      destruct (IHs _ (same_code _ _ _ _ He Hs1 Hr1)) as (w' & Hw & _). destruct (IHb _ (same_code _ _ _ _ He Hs2 Hr2)) as (v' & H1 & H2).
      exists v'. split; [apply E; eapply ev_force; eassumption | exact H2].
  - intros i l r inner e a b v _ IHl _ IHr Hd p' H. heads H.
    + inversion Eq; subst. exists v. split; [eapply E; [apply IHl; exact Va | apply IHr; exact Vb | exact Hd] | eapply delivered_out; exact Hd].
    + destruct Hs as (Hs1 & Hs2 & _). exists v. split; [| eapply delivered_out; exact Hd].
      apply E. eapply ev_fused; [apply IHl | apply IHr | exact Hd]; eapply same_atom; eassumption.
  - intros p v _ IH Hm p' H. destruct (IH p' H) as (v' & Hv & Ho). exists v'. split; [| exact Ho].
    apply st_plain; [exact Hv |]. destruct (wrel_shape _ _ (proj2 Ho)) as (<- & _). exact Hm.
  - intros p m b e q v _ IH Hb _ IHq p' H. destruct (IH p' H) as (w' & Hw & _ & Hww). inversion Hww as [| | ? ? ? ? ? Ha | | ? ? m' b' ? p2 Om Ob]; subst; [lia |].
    destruct (orel_some _ _ _ Ob Hb) as (q' & Hq' & Hq). destruct (IHq _ Hq) as (v' & Hv & Ho). exists v'. split; [eapply st_meta; eassumption | exact Ho].
  - intros p args c e v _ IH Hlen _ IHb p' args' H Ha. destruct (IH p' H) as (w' & Hw & _ & Hww).
    inversion Hww as [| | ? c' ? ? e' Hpos Hbody | ? ? ? ? ? ? ? E1 E2 | ? ? ? ? ? ? ? ? E1 E2]; subst; [| exfalso; lia | exfalso; lia].
    destruct (IHb _ (Hbody args args' eq_refl Ha)) as (v' & Hv & Ho). exists v'. split; [| exact Ho].
    rewrite (forall2_len _ _ _ Ha) in *. eapply ap_saturated; eassumption.
  - intros p args f held v _ IH Ht Hlen _ IHa p' args' H Ha. destruct (IH p' H) as (w' & Hw & _ & Hww).
    pose proof (wrel_shape _ _ Hww) as (_ & Htk & _). inversion Hww as [| f1 f' h1 held' Htf Hf Hh | | |]; subst.
    destruct (IHa f' (held' ++ args') Hf (Forall2_app Hh Ha)) as (v' & Hv & Ho). exists v'. split; [| exact Ho].
    rewrite (forall2_len _ _ _ Ha) in *. eapply ap_completed; [exact Hw | congruence | exact Hlen | exact Hv].
  - intros p args w _ IH Hlt p' args' H Ha. destruct (IH p' H) as (w' & Hw & Hv & Hww).
    pose proof (wrel_shape _ _ Hww) as (_ & Htk & _). exists (VPap w' args'). split.
    + apply ap_partial; [exact Hw | rewrite <- (forall2_len _ _ _ Ha); lia].
    + split; [apply vr_pap | apply w_pap]; assumption.
  - intros p args w u v _ IH Hlt _ IH1 _ IH2 p' args' H Ha. destruct (IH p' H) as (w' & Hw & Hv & Hww).
    pose proof (wrel_shape _ _ Hww) as (_ & Htk & _).
    assert (Hfn : forall n, Forall2 vrel (firstn n args) (firstn n args')).
    { clear - Ha. induction Ha; intros [|n]; simpl; constructor; auto. }
    assert (Hsn : forall n, Forall2 vrel (skipn n args) (skipn n args')).
    { clear - Ha. induction Ha; intros [|n]; simpl; try constructor; auto. }
    destruct (IH1 w' _ Hv (Hfn (takes w))) as (u' & Hu & Huu & _). destruct (IH2 u' _ Huu (Hsn (takes w))) as (v' & Hv' & Ho).
    exists v'. split; [| exact Ho]. rewrite Htk in *. eapply ap_surplus; [exact Hw | rewrite <- (forall2_len _ _ _ Ha); lia | exact Hu | exact Hv'].
  - intros p args fields e m v _ IH Hm _ IHm p' args' H Ha. destruct (IH p' H) as (w' & Hw & Hv & Hww).
    inversion Hww as [| | ? ? ? ? ? Hpos | ? ? rs' ? e' Hf Hfs |]; subst; [lia |].
    assert (Hmm : vrel m m).
    { cbn in Hm. pose proof (orel_global (N.to_nat merge)) as Hg. rewrite Hm in Hg. exact Hg. }
    destruct (IHm m (args' ++ [VClo (SCons tag_block rs') 0 e']) Hmm) as (v' & Hv' & Ho).
    + apply Forall2_app; [exact Ha | constructor; [exact Hv | constructor]].
    + exists v'. split; [eapply ap_block; eassumption | exact Ho].
  - intros p n _ IH p' H. destruct (IH p' H) as (w' & Hw & _ & Hww). inversion Hww; subst. apply op_native. exact Hw.
  - intros p tag r rs e q n _ IH Hb Hx _ IHq p' H. destruct (IH p' H) as (w' & Hw & _ & Hww).
    inversion Hww as [| | ? ? ? ? ? Hpos | ? ? rs' ? e' Hf Hfs |]; subst; [lia |].
    inversion Hfs as [|? r' ? rs1 Hrr Hrest]; subst. destruct (orel_some _ _ _ Hrr Hx) as (q' & Hq' & Hqq).
    eapply op_box; [exact Hw | exact Hb | exact Hq' | apply IHq; exact Hqq].
  - intros ps' H. inversion H; subst. constructor.
  - intros p n ps ns _ IH _ IHs ps' H. inversion H as [|? p' ? ps1 Hp Hps]; subst. destruct (IH p' Hp) as (w' & Hw & _ & Hww).
    inversion Hww; subst. constructor; [exact Hw | apply IHs; exact Hps].
Qed.

(** ** Completeness, where nothing is forced *)
Hypothesis unforced : forcing = false.
Inductive moves : value -> value -> Prop :=
| mv_var r p v : variable p r = Some v -> moves (VClo (SAtom r) 0 p) v
| mv_let fs t p : moves (VClo (SLet false fs t) 0 p) (VClo t 0 (Vals (map (closure p) fs) :: p))
| mv_letrec fs t p : moves (VClo (SLet true fs t) 0 p) (VClo t 0 (Rec fs :: p)).
Inductive grel (l q : value) : Prop :=
| g_value x : whnf q = true -> evals l x -> out x q -> grel l q
| g_move q1 l1 : moves q q1 -> vrel l1 q1 -> (forall x, evals l1 x -> evals l x) -> grel l q
| g_app f rs eager p v g args : q = VClo (SApp f rs eager) 0 p -> variable p f = Some v -> vrel g v ->
    Forall2 vrel args (map (argument p) rs) -> (forall x, applies g args x -> evals l x) -> grel l q
| g_inline f rs eager p v c l1 : q = VClo (SApp f rs eager) 0 p -> variable p f = Some v ->
    strips v (VClo c (List.length rs) []) -> 0 < List.length rs ->
    vrel l1 (VClo c 0 [Vals (map (argument p) rs)]) -> (forall x, evals l1 x -> evals l x) -> grel l q
| g_fused i a b inner p a' b' : q = VClo (SFused i a b inner) 0 p ->
    vrel a' (VClo (SAtom a) 0 p) -> vrel b' (VClo (SAtom b) 0 p) ->
    (forall x y v, operand a' x -> operand b' y -> delivered (prim i [x; y]) = Some v -> evals l v) -> grel l q
| g_same c p p' d : q = VClo c 0 p' -> erel d p p' -> scoped d c -> regular c ->
    (forall x, evals (VClo c 0 p) x -> evals l x) -> whnf q = false -> grel l q.
Lemma grel_expand l1 l q : (forall x, evals l1 x -> evals l x) -> grel l1 q -> grel l q.
Proof.
  intros H [x W E O | q1 l2 M V E | f rs eager p v g args Eq Ev V A E | f rs eager p v c l2 Eq Ev S L V E | i a b inner p a' b' Eq Va Vb E | c p p' d Eq He Hs Hr E W].
  - eapply g_value; eauto.
  - eapply g_move; eauto.
  - eapply g_app; eauto.
  - eapply g_inline; eauto.
  - eapply g_fused; eauto.
  - eapply g_same; eauto.
Qed.
(** The second stage of some code, or the first if there is none. *)
Inductive settled (c : syn) (p : env) : value -> Prop :=
| se_let fs body : c = SLet false fs body -> settled c p (VClo body 0 (Vals (map (closure p) fs) :: p))
| se_now : (forall fs body, c <> SLet false fs body) -> settled c p (VClo c 0 p).
Lemma stage_settled c p q : stage c p q -> settled c p q \/ exists q1, moves q q1 /\ stage c p q1.
Proof.
  intros [|fs body ->]; [| left; econstructor; reflexivity].
  assert (D : (exists fs body, c = SLet false fs body) \/ forall fs body, c <> SLet false fs body).
  { destruct c as [| | | | | | [|] fs body | | | | | | |]; try (right; discriminate). left. eauto. }
  destruct D as [(fs & body & ->) | D]; [right | left; apply se_now; exact D].
  eexists. split; [apply mv_let | eapply st_let; reflexivity].
Qed.
Lemma settled_now c p q : (forall fs (body : syn), c <> SLet false fs body) -> settled c p q -> q = VClo c 0 p.
Proof. intros H1 H. inversion H as [fs body Ec | _]; subst; [destruct (H1 _ _ eq_refl) | reflexivity]. Qed.
Lemma settled_let fs body p q : settled (SLet false fs body) p q -> q = VClo body 0 (Vals (map (closure p) fs) :: p).
Proof. intros H. inversion H as [fs' body' Ec | Hn]; subst; [injection Ec as -> ->; reflexivity | destruct (Hn _ _ eq_refl)]. Qed.
Lemma settled_stage c p q : settled c p q -> stage c p q.
Proof. intros [fs body -> | _]; [eapply st_let; reflexivity | constructor]. Qed.

Lemma call_settled p' f ts q : settled (call_of f ts) p' q ->
  exists rs vs, q = VClo (SApp (arg 0) rs false) 0 (Vals vs :: p') /\ vs = VClo f 0 p' :: map (fun t => VClo t 0 p') ts /\
    map (argument (Vals vs :: p')) rs = map (fun t => VClo t 0 p') ts /\ List.length rs = List.length ts.
Proof.
  intros Hq. unfold call_of in Hq. apply settled_let in Hq. subst q.
  assert (Evs : map (closure p') (map thunk (f :: ts)) = VClo f 0 p' :: map (fun t => VClo t 0 p') ts).
  { cbn [map]. f_equal. rewrite map_map. reflexivity. }
  eexists _, _. split; [reflexivity |]. split; [exact Evs |]. rewrite Evs. split; [| rewrite map_length, seq_length; reflexivity].
  rewrite <- (map_length (fun t => VClo t 0 p') ts) at 1. apply args_values. reflexivity.
Qed.
Lemma left_let rec fs t p x : evals (VClo t 0 (scope_of rec fs p)) x -> evals (VClo (let_code rec fs [] t) 0 p) x.
Proof.
  destruct fs as [|f fs]; cbn [let_code scope_of forces]; [auto |]. destruct rec; intros H; [apply ev_letrec | apply ev_let]; exact H.
Qed.
Lemma not_forced idx : idx = [] \/ Is_true forcing -> idx = @nil nat.
Proof. rewrite unforced. intros [H|[]]. exact H. Qed.
Lemma intrinsic_strips G p' name ys n a c k : intrinsic_index St name = Ok n -> nth_error globals n = Some (FLambda (N.of_nat k) a, c) -> 0 < k ->
  strips (VClo (direct (sizes (native := native) G) (ENode (KIntrinsic name) ys)) 0 p') (VClo c k []).
Proof.
  intros Hn Hg Hk. assert (Ed : direct (sizes G) (ENode (KIntrinsic name) ys) = SAtom (RG (N.of_nat n))).
  { apply global_direct. cbn. rewrite Hn. reflexivity. }
  rewrite Ed. apply st_plain; [| destruct k; [lia | destruct c; reflexivity]].
  eapply ev_variable; [cbn; rewrite Nat2N.id, Hg; reflexivity |]. unfold closure. cbn. rewrite Nat2N.id. apply ev_function. exact Hk.
Qed.

Scheme reads_mind := Minimality for Relate.reads Sort Prop
  with freads_mind := Minimality for Relate.freads Sort Prop.
Combined Scheme reads_mutual from reads_mind, freads_mind.

Lemma core_grel :
  (forall G t e, reads G t e -> forall p p' q, crel G p p' -> supported e -> settled (direct (sizes G) e) p' q -> grel (VClo t 0 p) q) /\
  (forall G f e, Relate.freads St forcing G f e -> forall p p' q, crel G p p' -> supported e -> settled (direct (sizes G) e) p' q -> grel (closure p f) q).
Proof.
  apply reads_mutual.
  - intros G s b nm r E p p' q Hc Hs Hq.
    destruct (var_value _ _ _ globals_sound globals_there _ _ _ Hc _ _ _ E) as (v & v' & E1 & E2 & Hv).
    apply settled_now in Hq; [| discriminate]. subst q. cbn [Spec.direct].
    eapply g_move; [apply mv_var; unfold arg; cbn [Machine.Spec.variable]; rewrite Nat2N.id; exact E2 | exact Hv |].
    intros x Hx. eapply ev_variable; eassumption.
  - intros G e r Hg p p' q Hc Hs Hq. rewrite (global_direct _ _ _ _ Hg) in Hq. apply settled_now in Hq; [| discriminate]. subst q.
    destruct (globals_there _ _ Hg) as (k & f & -> & Hf).
    eapply g_move; [apply mv_var; cbn [Machine.Spec.variable]; rewrite Hf; reflexivity | eapply global_self; [exact globals_sound | exact Hf] |].
    intros x Hx. eapply ev_variable; [| exact Hx]. cbn [Machine.Spec.variable]. rewrite Hf. reflexivity.
  - intros G pl xs p p' q Hc Hs Hq. destruct (core_hrel G (boxed_literal St pl) (ENode (KLiteral pl) xs) (r_literal _ _ G pl xs) p p' q Hc Hs (settled_stage _ _ _ Hq)) as [y W E O | l' q1 N | r0 p0 v0 q1 Eq | c f rs eager p0 v0 g args C Eq | i a b inner p0 a' b' Eq | c p0 p1 d Eq _ _ _ _ W].
    + apply settled_now in Hq; [| destruct pl as [| | |[]| |], xs; discriminate]. subst q.
      assert (Wq : whnf (VClo (direct (sizes G) (ENode (KLiteral pl) xs)) 0 p') = true) by (destruct pl as [| | |[]| |], xs; reflexivity).
      assert (y = VClo (direct (sizes G) (ENode (KLiteral pl) xs)) 0 p') as ->.
      { destruct pl as [| | |[]| |], xs; inversion E; reflexivity. }
      eapply g_value; [exact Wq | apply evals_now; exact W | exact O].
    + exfalso. destruct pl as [| | |[]| |]; inversion N.
    + destruct pl as [| | |[]| |]; discriminate.
    + exfalso. inversion Eq; subst. destruct C as [C | (sm & C)]; destruct pl as [| | |[]| |]; discriminate.
    + destruct pl as [| | |[]| |]; discriminate.
    + destruct pl as [| | |[]| |]; discriminate.
  - intros G f rs eager x xs Hf Hrs p p' q Hc Hs Hq. rewrite direct_app in Hq.
    destruct (call_settled _ _ _ _ Hq) as (rs' & vs & -> & -> & Ha & _).
    pose proof (supported_parts _ _ Hs) as Hp. inversion Hp as [|? ? Hx Hxs]; subst.
    destruct (rreads_value _ _ _ globals_sound globals_there _ _ _ _ _ Hc Hf Hx) as (v & Ev & Hv).
    destruct (values_arguments _ _ _ (rreadss_values _ _ _ _ _ Hc Hrs Hxs)) as (Hargs & Hub).
    eapply g_app; [reflexivity | reflexivity | exact Hv | rewrite Ha, map_map; exact Hargs |].
    intros y Hy. eapply ev_apply; [exact Ev | unfold Machine.Spec.arguments; rewrite Hub, andb_false_r; reflexivity | exact Hy].
  - intros G smid f rs eager x xs Hf Hrs _ p p' q Hc Hs Hq. rewrite direct_app in Hq.
    destruct (call_settled _ _ _ _ Hq) as (rs' & vs & -> & -> & Ha & _).
    pose proof (supported_parts _ _ Hs) as Hp. inversion Hp as [|? ? Hx Hxs]; subst.
    destruct (rreads_value _ _ _ globals_sound globals_there _ _ _ _ _ Hc Hf Hx) as (v & Ev & Hv).
    destruct (values_arguments _ _ _ (rreadss_values _ _ _ _ _ Hc Hrs Hxs)) as (Hargs & Hub).
    eapply g_app; [reflexivity | reflexivity | exact Hv | rewrite Ha, map_map; exact Hargs |].
    intros y Hy. eapply ev_direct; [exact Ev | unfold Machine.Spec.arguments; rewrite Hub, andb_false_r; reflexivity | exact Hy].
  - intros G name ys xs n bif rs Hn Hb Hsup Hin Har Hnf Hrs p p' q Hc Hs Hq. rewrite direct_app in Hq.
    destruct (call_settled _ _ _ _ Hq) as (rs' & vs & -> & -> & Ha & Hl). rewrite map_length in Hl.
    pose proof (supported_parts _ _ Hs) as Hp. inversion Hp as [|? ? Hx Hxs]; subst.
    pose proof (rreadss_values _ _ _ _ _ Hc Hrs Hxs) as Hvs. pose proof (forall2_len _ _ _ Hvs) as Hlen. rewrite map_length in Hlen.
    destruct (inlined n bif Hb Hin) as (a & c & Hgl & Hcase).
    assert (c = i_wrapper bif) as ->.
    { destruct (i_fusible bif) eqn:Ef; cbn [andb] in Hcase; [| exact Hcase]. destruct (Nat.eqb_spec (i_arity bif) 2) as [E2|]; cbn [andb] in Hcase; [| exact Hcase].
      rewrite (Hnf eq_refl ltac:(congruence)) in Hcase. exact Hcase. }
    assert (Hsg : sound (FLambda (N.of_nat (i_arity bif)) a, i_wrapper bif)) by (rewrite Forall_forall in globals_sound; apply globals_sound; eapply nth_error_In; exact Hgl).
    destruct Hsg as (Hsc & Hrg). unfold params in Hsc. cbn in Hsc, Hrg. rewrite Nat2N.id in Hsc.
    assert (Hpos : 0 < List.length rs').
    { destruct Hs as (H2 & _). cbn in H2. lia. }
    eapply g_inline with (c := i_wrapper bif) (l1 := VClo (i_wrapper bif) 0 (Vals (map (closure p) (map (fun r => (FValue, SAtom r)) rs)) :: p));
      [reflexivity | reflexivity | eapply intrinsic_strips; [exact Hn | rewrite Hl, <- Hlen, <- Har; exact Hgl | exact Hpos] | exact Hpos | |].
    + rewrite Ha, map_map. eapply same_code with (d := List.length rs + 0); [| rewrite Nat.add_0_r, <- Har; exact Hsc | exact Hrg].
      rewrite map_map. cbn [closure fst snd]. rewrite <- (map_length (fun r => closure p (FValue, SAtom r)) rs).
      apply er_vals; [apply er_any |]. clear - Hvs. induction Hvs as [|r v' rs vs' (v & E & H) _ IH]; cbn; constructor; [| exact IH].
      unfold closure. cbn. eapply vr_left; eassumption.
    + intros x Hev. apply ev_let. exact Hev.
  - intros G name ys xs n bif a b Hn Hb Hsup Hin Har Hfu Hbody Hrs p p' q Hc Hs Hq. rewrite direct_app in Hq.
    destruct (call_settled _ _ _ _ Hq) as (rs' & vs & -> & -> & Ha & Hl). rewrite map_length in Hl.
    pose proof (supported_parts _ _ Hs) as Hp. inversion Hp as [|? ? Hx Hxs]; subst.
    pose proof (rreadss_values _ _ _ _ _ Hc Hrs Hxs) as Hvs. pose proof (forall2_len _ _ _ Hvs) as Hlen. rewrite map_length in Hlen. cbn in Hlen.
    destruct (inlined n bif Hb Hin) as (an & c & Hgl & Hcase). rewrite Hfu, Har, Hbody in Hcase. cbn in Hcase. destruct Hcase as (inner & ->).
    eapply g_inline with (c := SFused (u8 (N.of_nat n)) (RL 0) (RL 1) inner) (l1 := VClo (SFused (u8 (N.of_nat n)) a b (inline_code [a; b] (i_wrapper bif))) 0 p);
      [reflexivity | reflexivity | eapply intrinsic_strips; [exact Hn | rewrite Hl, <- Hlen, <- Har; exact Hgl | lia] | lia | | auto].
    rewrite Ha, map_map. inversion Hvs as [|? v1 ? l1 (va & Ea & Hva) H1 E1 E2]; subst. inversion H1 as [|? v2 ? l2 (vb & Eb & Hvb) H2 E3 E4]; subst.
    apply vr_fused; (eapply vr_left; [eassumption | eapply vr_right; [reflexivity | assumption]]).
  - intros G smid t e _ IH p p' q Hc Hs Hq. eapply grel_expand; [| eapply IH; eassumption]. intros x Hx. apply ev_annotated. exact Hx.
  - intros G rec fs idx t e Hi _ IH p p' q Hc Hs Hq. apply not_forced in Hi. subst idx.
    eapply grel_expand; [intros x Hx; apply left_let; exact Hx |]. eapply IH; [apply cr_syn; exact Hc | exact Hs | exact Hq].
  - intros G bs body ty refs fs idx t Hi Hbs Ht _ p p' q Hc Hs Hq. apply not_forced in Hi. subst idx.
    apply settled_now in Hq; [| discriminate]. subst q. destruct Hs as (Hs1 & Hs2).
    assert (Hse : Forall supported (map b_expr bs)).
    { clear - Hs1. induction bs as [|b bs IHb]; cbn in *; constructor; tauto. }
    pose proof (cr_let _ _ _ _ _ _ _ _ _ Hc Hse Hbs) as Hc1. pose proof (breads_length _ _ _ _ _ _ _ Hbs) as Hlen. rewrite map_length in Hlen.
    cbn [Spec.direct]. rewrite Hlen. rewrite map_map in Hc1.
    eapply g_move; [apply mv_letrec | | intros x Hx; apply left_let; exact Hx].
    apply (vr_core _ _ _ (LLet refs fs :: G) [] t body _ _ _ Hc1); auto. constructor.
  - intros G f inl ps body _ IH p p' q Hc Hs Hq. eapply grel_expand; [| eapply IH; eassumption].
    intros x Hx. apply ev_let. eapply ev_variable; [reflexivity | exact Hx].
  - intros G h tl x xs Hh Htl p p' q Hc Hs Hq. apply settled_let in Hq. subst q.
    destruct (core_hrel G (cons h tl) (ENode KList (x :: xs)) (r_cons _ _ _ _ _ _ _ Hh Htl) p p' _ Hc Hs (st_let _ _ _ _ eq_refl)) as [y W E O | l' q1 N | r0 p0 v0 q1 Eq | c f rs eager p0 v0 g args C Eq | i a b inner p0 a' b' Eq | c p0 p1 d Eq _ _ _ _ W];
      [| inversion N | discriminate | destruct C as [-> | (sm & ->)]; discriminate | discriminate | discriminate].
    inversion E; subst; [lia |]. eapply g_value; [reflexivity | apply ev_data | exact O].
  - intros G r keys xs Hpr p p' q Hc Hs Hq. assert (Eb : direct (sizes G) (ENode (KBlock keys) xs) = block_of (s_symbol St) (s_number St) ix_empty_list (combine keys (map (direct (sizes G)) xs))) by (destruct xs; reflexivity).
    rewrite Eb in Hq. apply settled_let in Hq. subst q.
    destruct (core_hrel G (block St r) (ENode (KBlock keys) xs) (r_block _ _ _ _ _ _ Hpr) p p' _ Hc Hs (st_let _ _ _ _ Eb)) as [y W E O | l' q1 N | r0 p0 v0 q1 Eq | c f rs eager p0 v0 g args C Eq | i a b inner p0 a' b' Eq | c p0 p1 d Eq _ _ _ _ W];
      [| inversion N | discriminate | destruct C as [-> | (sm & ->)]; discriminate | discriminate | discriminate].
    inversion E; subst; [lia |]. eapply g_value; [reflexivity | apply ev_data | exact O].
  - intros G m e rm re rest Hm He p p' q Hc Hs Hq. apply settled_let in Hq. subst q.
    destruct (core_hrel G (SMeta rm re) (ENode KMeta (e :: m :: rest)) (r_meta _ _ _ _ _ _ _ _ Hm He) p p' _ Hc Hs (st_let _ _ _ _ eq_refl)) as [y W E O | l' q1 N | r0 p0 v0 q1 Eq | c f rs eager p0 v0 g args C Eq | i a b inner p0 a' b' Eq | c p0 p1 d Eq _ _ _ _ W];
      [| inversion N | discriminate | destruct C as [-> | (sm & ->)]; discriminate | discriminate | discriminate].
    inversion E; subst; [lia |]. eapply g_value; [reflexivity | apply ev_meta | exact O].
  - intros G t fx pr x rest _ IH p p' q Hc Hs Hq. eapply IH; [exact Hc | eapply supported_operator; exact Hs | exact Hq].
  - intros G key x fallback smid o dft n k _ _ _ _ p p' q _ Hs. destruct Hs as (H & _). destruct H.
  - intros G k t e Hk _ IH p p' q Hc Hs Hq. unfold closure. cbn [fst snd].
    replace (N.to_nat (fk_arity k)) with 0 by (destruct Hk; subst; reflexivity). eapply IH; eassumption.
  - intros G a t inl ps body Ht _ p p' q Hc Hs Hq. unfold closure. cbn [fst snd fk_arity]. rewrite Nat2N.id. destruct Hs as (Hps & Hsb).
    apply settled_let in Hq. subst q. eapply g_move; [apply mv_var; reflexivity | | intros x Hx; exact Hx].
    unfold closure. cbn [fst snd fk_arity map]. rewrite Nat2N.id. eapply vr_fun; [destruct ps; [congruence | cbn; lia] | exact Hc | exact Ht | exact Hsb].
Qed.

Lemma data_head c rs p l q : q = VClo (SCons c rs) 0 p -> (exists y, evals q y /\ out l y) -> whnf l = true -> grel l q.
Proof.
  intros -> (y & Hy & Ho) W. inversion Hy; subst; [lia |]. eapply g_value; [reflexivity | apply evals_now; exact W | exact Ho].
Qed.
Lemma norm_right l q : vrel l q -> grel l q.
Proof.
  induction 1 as [n | f f' vs vs' Ht Hf IH Hv | c a p p' d He Hs Hr | tag rs rs' p p' Hf Hfs | m b m' b' p p' u u' v v' E1 E2 H1 _ E3 E4 H2 _
    | i x y z x' y' z' p p' H1 _ H2 _ | G idx t e p p' q Hc Hi Ht Hs Hq | G n t e p p' Hn Hc Ht Hs | G n t e p p' inl ps q Hn Hps Hc Ht Hs Hq
    | G r kvs p p' v q Hc Hp Hs Ev Hq | G r key x p p' q Hc Hr Hs Hq | r p v w E H IH | r p' v w E H _].
  - eapply g_value; [reflexivity | constructor | split; constructor].
  - eapply g_value; [reflexivity | constructor | split; constructor; assumption].
  - assert (Ww : whnf (VClo c a p) = whnf (VClo c a p')) by (destruct a, c; reflexivity).
    destruct (whnf (VClo c a p')) eqn:W.
    + eapply g_value; [exact W | apply evals_now; exact Ww | eapply whnf_same; eassumption].
    + destruct a as [|a]; [| destruct c; discriminate]. eapply g_same; [reflexivity | exact He | exact Hs | exact Hr | intros x Hx; exact Hx | exact W].
  - eapply g_value; [reflexivity | apply ev_data | split; [apply vr_data; assumption | apply w_data; [exact Hf | apply some_orel; exact Hfs]]].
  - eapply g_value; [reflexivity | apply ev_meta | split; [eapply vr_meta; eassumption |]]. apply w_meta; [rewrite E1, E2 | rewrite E3, E4]; assumption.
  - eapply g_fused; [reflexivity | exact H1 | exact H2 |]. intros a b v Ha Hb Hd. eapply ev_fused; eassumption.
  - apply not_forced in Hi. subst idx. cbn [forces]. destruct (stage_settled _ _ _ Hq) as [Hq' | (q1 & Hm & Hq1)].
    + eapply core_grel; eassumption.
    + eapply g_move; [exact Hm | | intros x Hx; exact Hx]. apply (vr_core _ _ _ G [] t e p p' q1); auto.
  - assert (Ho : out (VClo t n p) (VClo (direct (n :: sizes G) e) n p')).
    { destruct (whnf_head (VClo t n p) (VClo (direct (n :: sizes G) e) n p')) as (y & Hy & Ho).
      - destruct n; [lia | destruct t; reflexivity].
      - apply norm. eapply vr_fun; eassumption.
      - inversion Hy; subst; try lia. exact Ho. }
    eapply g_value; [| apply ev_function; exact Hn | exact Ho]. destruct n; [lia | destruct (direct (S n :: sizes G) e); reflexivity].
  - destruct (stage_settled _ _ _ Hq) as [Hq' | (q1 & Hm & Hq1)].
    + apply settled_let in Hq'. subst q. eapply g_move; [apply mv_var; reflexivity | | intros x Hx; exact Hx].
      unfold closure. cbn [fst snd fk_arity map]. rewrite Nat2N.id, <- Hps. eapply vr_fun; eassumption.
    + eapply g_move; [exact Hm | | intros x Hx; exact Hx]. eapply vr_lam; eassumption.
  - destruct (stage_settled _ _ _ Hq) as [Hq' | (q1 & Hm & Hq1)].
    + assert (Hv : vrel v q) by (eapply vr_pairs; eassumption).
      inversion Hp as [? E1 E2 E3 | ? n k kv tl m k' v1 key x kvs' Hsl Hk Ekv Hsl' Hk' Hr Hps]; subst.
      * cbn [map Spec.list_of] in Hq'. apply settled_now in Hq'; [| discriminate]. subst q.
        destruct (globals_there (ENode KList []) empty_list eq_refl) as (gi & gf & Ei & Hf). unfold empty_list, global in Ei. injection Ei as <-.
        unfold empty_list, global in Ev. cbn [Machine.Spec.variable] in Ev. rewrite Hf in Ev. cbn [option_map] in Ev.
        assert (v = closure [] gf) as -> by congruence.
        eapply g_move; [apply mv_var; cbn [Machine.Spec.variable]; rewrite Hf; reflexivity
          | eapply global_self; [exact globals_sound | exact Hf] | intros xx Hx; exact Hx].
      * rewrite local_variable in Ev. destruct (slot_value _ _ _ _ _ _ Hc _ _ _ Hsl) as (pp1 & Esl & _).
        assert (v = VClo (cons (local m) tl) 0 pp1) as ->.
        { rewrite Esl in Ev. unfold closure in Ev. cbn [fst snd] in Ev. rewrite Hk in Ev. cbn in Ev. congruence. }
        cbn [map Spec.list_of] in Hq'. apply settled_let in Hq'.
        eapply data_head; [exact Hq' | apply whnf_head; [reflexivity | apply norm; exact Hv] | reflexivity].
    + eapply g_move; [exact Hm | | intros x Hx; exact Hx]. eapply vr_pairs; eassumption.
  - destruct (stage_settled _ _ _ Hq) as [Hq' | (q1 & Hm & Hq1)].
    + pose proof (pair_head _ _ _ _ _ _ _ Hc Hr Hs Hq) as Hh. apply whnf_head in Hh; [| reflexivity]. apply settled_let in Hq'.
      eapply data_head; [exact Hq' | exact Hh | reflexivity].
    + eapply g_move; [exact Hm | | intros y Hy; exact Hy]. eapply vr_pair; eassumption.
  - eapply grel_expand; [| exact IH]. intros x Hx. eapply ev_variable; eassumption.
  - eapply g_move; [apply mv_var; exact E | exact H | intros x Hx; exact Hx].
Qed.
Lemma whnf_right l q : whnf q = true -> grel l q -> exists x, evals l x /\ out x q.
Proof.
  intros W [x _ E O | q1 l1 M V E | f rs eager p v g args Eq | f rs eager p v c l1 Eq | i a b inner p a' b' Eq | c p p' d _ _ _ _ _ W'];
    [eauto | inversion M; subst; discriminate | subst; discriminate | subst; discriminate | subst; discriminate | congruence].
Qed.
Ltac rheads H :=
  destruct (norm_right _ _ H) as [xv W E O | q1 l1 M V E | f0 rs0 eg0 p0 w0 g0 args0 Eq Ev V A E | f0 rs0 eg0 p0 w0 c0 l1 Eq Ev Sc Lp V E
    | i0 a0 b0 in0 p0 a1 b1 Eq Va Vb E | c0 p1 p0 d Eq He Hs Hr E W];
  [try discriminate | try (inversion M; fail) | try discriminate | try discriminate | try discriminate
  | inversion Eq; subst; cbn [scoped regular] in Hs, Hr; clear Eq W].
Ltac rvalue_case := intros; match goal with H : vrel ?l ?q |- _ => refine (whnf_right l q _ (norm_right l q H)) end.
Lemma out_right_data tag rs p y : out y (VClo (SCons tag rs) 0 p) -> exists rs' p', y = VClo (SCons tag rs') 0 p' /\
  has_fields tag (List.length rs') /\ Forall2 (fun r r' => orel (variable p' r) (variable p r')) rs' rs.
Proof. intros (_ & H). inversion H as [| | ? ? ? ? ? Ha | ? rs' ? p' ? Hf Hfs |]; subst; [lia | eauto 6]. Qed.
Lemma out_right_meta m b p y : out y (VClo (SMeta m b) 0 p) -> exists m' b' p', y = VClo (SMeta m' b') 0 p' /\
  orel (variable p' m') (variable p m) /\ orel (variable p' b') (variable p b).
Proof. intros (_ & H). inversion H as [| | ? ? ? ? ? Ha | | m' b' ? ? p' ? H1 H2]; subst; [lia | eauto 8]. Qed.

Theorem complete_evals :
  (forall p v, evals p v -> forall l, vrel l p -> exists x, evals l x /\ out x v) /\
  (forall p v, strips p v -> forall l, vrel l p -> exists x, strips l x /\ out x v) /\
  (forall p args v, applies p args v ->
     (forall l args0, vrel l p -> Forall2 vrel args0 args -> exists x, applies l args0 x /\ out x v) /\
     (forall c e, strips p (VClo c (List.length args) e) -> 0 < List.length args ->
        forall l, vrel l (VClo c 0 (Vals args :: e)) -> exists x, evals l x /\ out x v)) /\
  (forall p n, operand p n -> forall l, vrel l p -> operand l n) /\
  (forall ps ns, natives ps ns -> forall ls, Forall2 vrel ls ps -> natives ls ns).
Proof.
  apply eval_mutual.
  - rvalue_case. reflexivity.
  - rvalue_case. destruct a; [lia | destruct c; reflexivity].
  - rvalue_case. reflexivity.
  - rvalue_case. reflexivity.
  - rvalue_case. reflexivity.
  - intros r e p v Hx _ IH l H. rheads H.
    + inversion M as [? ? ? Ev | |]; subst. rewrite Hx in Ev. injection Ev as <-. destruct (IH _ V) as (x & H1 & H2). eauto.
    + destruct (orel_some_r _ _ _ (same_variable _ _ _ _ He Hs) Hx) as (q & Eq & Hq). destruct (IH _ Hq) as (x & H1 & H2).
      exists x. split; [apply E; eapply ev_variable; eassumption | exact H2].
  - intros scr bs fb e tag args e1 b vs v _ IHs Hb Hvs _ IHb l H. rheads H.
    destruct Hs as (Hs1 & Hs2 & _), Hr as (Hr1 & Hr2 & _).
    destruct (IHs _ (same_code _ _ _ _ He Hs1 Hr1)) as (w' & Hw & Hww). apply out_right_data in Hww. destruct Hww as (rs' & p2 & -> & Hf & Hfs).
    destruct (fields_related_r _ _ _ _ Hfs _ Hvs) as (vs' & Hvs' & Hv). pose proof (branch_in _ _ _ Hb) as Hin.
    destruct (IHb (VClo b 0 (bind vs' p1))) as (x & Hv' & Ho).
    + eapply same_code; [eapply bind_same; eassumption | rewrite (variables_len _ _ _ Hvs'); exact (all_in _ _ _ Hs2 Hin _ Hf) | exact (proj2 (all_in _ _ _ Hr2 Hin))].
    + exists x. split; [apply E; eapply ev_branch; eassumption | exact Ho].
  - intros scr bs f e w v _ IHs Hsel _ IHb l H. rheads H.
    destruct Hs as (Hs1 & _ & Hs2), Hr as (Hr1 & _ & Hr2).
    destruct (IHs _ (same_code _ _ _ _ He Hs1 Hr1)) as (w' & Hw & Hv & Hww). apply wrel_shape in Hww. destruct Hww as (_ & _ & Hsl).
    destruct (IHb (VClo f 0 (Vals [w'] :: p1))) as (x & Hv' & Ho).
    + eapply same_code; [apply (er_vals St forcing globals d p1 _ [w'] [w]); [exact He | constructor; [exact Hv | constructor]] | exact Hs2 | exact Hr2].
    + exists x. split; [apply E; eapply ev_fallback; [exact Hw | rewrite Hsl; exact Hsel | exact Hv'] | exact Ho].
  - intros f args eager e p vs v Hf Ha _ (IH & IHin) l H. rheads H.
    + inversion Eq; subst. rewrite Hf in Ev. injection Ev as <-. apply arguments_map in Ha. subst vs.
      destruct (IH _ _ V A) as (x & H1 & H2). eauto.
    + inversion Eq; subst. rewrite Hf in Ev. injection Ev as <-. apply arguments_map in Ha. subst vs.
      rewrite <- (map_length (argument p0) rs0) in Sc, Lp. destruct (IHin _ _ Sc Lp _ V) as (x & H1 & H2). eauto.
    + destruct Hs as (Hs1 & Hs2). destruct (orel_some_r _ _ _ (same_variable _ _ _ _ He Hs1) Hf) as (q & Eq & Hq).
      destruct (same_arguments _ _ _ _ He Hs2) as (U1 & U2 & A). apply arguments_map in Ha. subst vs.
      destruct (IH _ _ Hq A) as (x & H1 & H2). exists x. split; [apply E; eapply ev_apply; [exact Eq | unfold Machine.Spec.arguments; rewrite U1, andb_false_r; reflexivity | exact H1] | exact H2].
  - intros smid f args eager e p vs v Hf Ha _ (IH & _) l H. rheads H.
    destruct Hs as (Hs1 & Hs2). destruct (orel_some_r _ _ _ (same_variable _ _ _ _ He Hs1) Hf) as (q & Eq & Hq).
    destruct (same_arguments _ _ _ _ He Hs2) as (U1 & U2 & A). apply arguments_map in Ha. subst vs.
    destruct (IH _ _ Hq A) as (x & H1 & H2). exists x. split; [apply E; eapply ev_direct; [exact Eq | unfold Machine.Spec.arguments; rewrite U1, andb_false_r; reflexivity | exact H1] | exact H2].
  - intros i args e ps ns v Hps _ IH Hd l H. rheads H.
    destruct (fields_related_r _ _ _ _ (same_refs _ _ _ _ He Hs) _ Hps) as (ps' & Hps' & Hp). exists v.
    split; [apply E; eapply ev_primitive; [exact Hps' | apply IH; exact Hp | exact Hd] | eapply delivered_out; exact Hd].
  - intros fs body e v _ IH l H. rheads H.
    + inversion M; subst. destruct (IH _ V) as (x & H1 & H2). eauto.
    + destruct Hs as (Hs1 & Hs2), Hr as (Hr1 & Hr2).
      destruct (IH (VClo body 0 (Vals (map (closure p1) fs) :: p1))) as (x & H1 & H2).
      * eapply same_code; [apply er_vals; [exact He | eapply same_closures; eassumption] | rewrite map_length; exact Hs2 | exact Hr2].
      * exists x. split; [apply E; apply ev_let; exact H1 | exact H2].
  - intros fs body e v _ IH l H. rheads H.
    + inversion M; subst. destruct (IH _ V) as (x & H1 & H2). eauto.
    + destruct Hs as (Hs1 & Hs2), Hr as (Hr1 & Hr2).
      destruct (IH (VClo body 0 (Rec fs :: p1))) as (x & H1 & H2).
      * eapply same_code; [apply er_rec; [exact He | exact (all_and _ _ _ Hs1 Hr1)] | exact Hs2 | exact Hr2].
      * exists x. split; [apply E; apply ev_letrec; exact H1 | exact H2].
  - intros smid body e v _ IH l H. rheads H.
    destruct (IH _ (same_code _ _ _ _ He Hs Hr)) as (x & H1 & H2). exists x. split; [apply E; apply ev_annotated; exact H1 | exact H2].
  - intros scr h o e m b e1 p q v _ IHs Hm Hb _ IHh l H. rheads H.
    destruct Hs as (Hs1 & Hs2 & _), Hr as (Hr1 & Hr2 & _).
    destruct (IHs _ (same_code _ _ _ _ He Hs1 Hr1)) as (w' & Hw & Hww). apply out_right_meta in Hww. destruct Hww as (m' & b' & p2 & -> & Om & Ob).
    destruct (orel_some_r _ _ _ Om Hm) as (u1 & E1 & V1). destruct (orel_some_r _ _ _ Ob Hb) as (u2 & E2 & V2).
    destruct (IHh (VClo h 0 (Vals [u1; u2] :: p1))) as (x & H1 & H2).
    + eapply same_code; [apply (er_vals St forcing globals d p1 _ [u1; u2] [p; q]); [exact He | constructor; [exact V1 | constructor; [exact V2 | constructor]]] | exact Hs2 | exact Hr2].
    + exists x. split; [apply E; eapply ev_has_meta; eassumption | exact H2].
  - intros scr h o e w v _ IHs Hm _ IHo l H. rheads H.
    destruct Hs as (Hs1 & _ & Hs2), Hr as (Hr1 & _ & Hr2).
    destruct (IHs _ (same_code _ _ _ _ He Hs1 Hr1)) as (w' & Hw & Hv & Hww). apply wrel_shape in Hww. destruct Hww as (Hmm & _ & _).
    destruct (IHo (VClo o 0 (Vals [w'] :: p1))) as (x & H1 & H2).
    + eapply same_code; [apply (er_vals St forcing globals d p1 _ [w'] [w]); [exact He | constructor; [exact Hv | constructor]] | exact Hs2 | exact Hr2].
    + exists x. split; [apply E; eapply ev_no_meta; [exact Hw | congruence | exact H1] | exact H2].
  - intros scr body e w v _ IHs _ IHb l H. rheads H.
    destruct Hs as (Hs1 & Hs2), Hr as (Hr1 & Hr2).
    destruct (IHs _ (same_code _ _ _ _ He Hs1 Hr1)) as (w' & Hw & _). destruct (IHb _ (same_code _ _ _ _ He Hs2 Hr2)) as (x & H1 & H2).
    exists x. split; [apply E; eapply ev_force; eassumption | exact H2].
  - intros i la lb inner e a b v _ IHl _ IHr Hd l H. rheads H.
    + inversion Eq; subst. exists v. split; [eapply E; [apply IHl; exact Va | apply IHr; exact Vb | exact Hd] | eapply delivered_out; exact Hd].
    + destruct Hs as (Hs1 & Hs2 & _). exists v. split; [| eapply delivered_out; exact Hd].
      apply E. eapply ev_fused; [apply IHl | apply IHr | exact Hd]; eapply same_atom; eassumption.
  - intros p v _ IH Hm l H. destruct (IH l H) as (x & Hv & Ho). exists x. split; [| exact Ho].
    apply st_plain; [exact Hv |]. destruct (wrel_shape _ _ (proj2 Ho)) as (-> & _). exact Hm.
  - intros p m b e q v _ IH Hb _ IHq l H. destruct (IH l H) as (w' & Hw & Hww). apply out_right_meta in Hww. destruct Hww as (m' & b' & p2 & -> & _ & Ob).
    destruct (orel_some_r _ _ _ Ob Hb) as (q' & Hq' & Hq). destruct (IHq _ Hq) as (x & Hv & Ho). exists x. split; [eapply st_meta; eassumption | exact Ho].
  - intros p args c e v Hst IH Hlen _ IHb. split.
    + intros l args0 H Ha. destruct (IH l H) as (w' & Hw & _ & Hww).
      inversion Hww as [| | c' ? ? e' ? Hpos Hbody | ? ? ? ? ? ? ? E1 E2 | ? ? ? ? ? ? ? ? E1 E2]; subst; [| exfalso; lia | exfalso; lia].
      pose proof (forall2_len _ _ _ Ha) as Hl. destruct (IHb _ (Hbody args0 args Hl Ha)) as (x & Hv & Ho). exists x. split; [| exact Ho].
      rewrite <- Hl in *. eapply ap_saturated; eassumption.
    + intros c' e' Hst' _ l H. pose proof (strips_unique _ _ _ _ _ _ Hst Hst') as Eq. injection Eq as <- <-. exact (IHb _ H).
  - intros p args f held v Hst IH Ht Hlen _ (IHa & _). split.
    + intros l args0 H Ha. destruct (IH l H) as (w' & Hw & _ & Hww).
      pose proof (wrel_shape _ _ Hww) as (_ & Htk & _). inversion Hww as [| f' f1 held' h1 Htf Hf Hh | | |]; subst.
      destruct (IHa f' (held' ++ args0) Hf (Forall2_app Hh Ha)) as (x & Hv & Ho). exists x. split; [| exact Ho].
      rewrite <- (forall2_len _ _ _ Ha) in *. eapply ap_completed; [exact Hw | congruence | exact Hlen | exact Hv].
    + intros c' e' Hst' _ l H. pose proof (strips_unique _ _ _ _ _ _ Hst Hst') as Eq. discriminate.
  - intros p args w Hst IH Hlt. split.
    + intros l args0 H Ha. destruct (IH l H) as (w' & Hw & Hv & Hww).
      pose proof (wrel_shape _ _ Hww) as (_ & Htk & _). exists (VPap w' args0). split.
      * apply ap_partial; [exact Hw | rewrite (forall2_len _ _ _ Ha); lia].
      * split; [apply vr_pap | apply w_pap]; assumption.
    + intros c' e' Hst' _ l H. pose proof (strips_unique _ _ _ _ _ _ Hst Hst') as Eq. subst w. cbn in Hlt. lia.
  - intros p args w u v Hst IH Hlt _ (IH1 & _) _ (IH2 & _). split.
    + intros l args0 H Ha. destruct (IH l H) as (w' & Hw & Hv & Hww).
      pose proof (wrel_shape _ _ Hww) as (_ & Htk & _).
      assert (Hfn : forall n, Forall2 vrel (firstn n args0) (firstn n args)).
      { clear - Ha. induction Ha; intros [|n]; simpl; constructor; auto. }
      assert (Hsn : forall n, Forall2 vrel (skipn n args0) (skipn n args)).
      { clear - Ha. induction Ha; intros [|n]; simpl; try constructor; auto. }
      destruct (IH1 w' _ Hv (Hfn (takes w))) as (u' & Hu & Huu & _). destruct (IH2 u' _ Huu (Hsn (takes w))) as (x & Hv' & Ho).
      exists x. split; [| exact Ho]. rewrite <- Htk in *. eapply ap_surplus; [exact Hw | rewrite (forall2_len _ _ _ Ha); lia | exact Hu | exact Hv'].
    + intros c' e' Hst' _ l H. pose proof (strips_unique _ _ _ _ _ _ Hst Hst') as Eq. subst w. cbn in Hlt. lia.
  - intros p args fields e m v Hst IH Hm _ (IHm & _). split.
    + intros l args0 H Ha. destruct (IH l H) as (w' & Hw & Hww). pose proof (proj1 Hww) as Hv. apply out_right_data in Hww.
      destruct Hww as (rs' & e' & -> & Hf & Hfs).
      assert (Hmm : vrel m m).
      { cbn in Hm. pose proof (orel_global (N.to_nat merge)) as Hg. rewrite Hm in Hg. exact Hg. }
      destruct (IHm m (args0 ++ [VClo (SCons tag_block rs') 0 e']) Hmm) as (x & Hv' & Ho).
      * apply Forall2_app; [exact Ha | constructor; [exact Hv | constructor]].
      * exists x. split; [eapply ap_block; eassumption | exact Ho].
    + intros c' e' Hst' Hpos l H. pose proof (strips_unique _ _ _ _ _ _ Hst Hst') as Eq. inversion Eq; subst. lia.
  - intros p n _ IH l H. destruct (IH l H) as (w' & Hw & _ & Hww). inversion Hww; subst. apply op_native. exact Hw.
  - intros p tag r rs e q n _ IH Hb Hx _ IHq l H. destruct (IH l H) as (w' & Hw & Hww). apply out_right_data in Hww.
    destruct Hww as (rs' & e' & -> & Hf & Hfs).
    inversion Hfs as [|r' ? rs1 ? Hrr Hrest]; subst. destruct (orel_some_r _ _ _ Hrr Hx) as (q' & Hq' & Hqq).
    eapply op_box; [exact Hw | exact Hb | exact Hq' | apply IHq; exact Hqq].
  - intros ls H. inversion H; subst. constructor.
  - intros p n ps ns _ IH _ IHs ls H. inversion H as [|l ? ls1 ? Hp Hps]; subst. destruct (IH l Hp) as (w' & Hw & _ & Hww).
    inversion Hww; subst. constructor; [exact Hw | apply IHs; exact Hps].
Qed.
End Sound.
