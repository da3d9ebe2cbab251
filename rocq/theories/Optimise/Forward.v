(** Whatever a program evaluates to, the optimised program does. *)
From Coq Require Import List Bool Arith NArith Lia.
From Verif.Bytecode Require Import Model Spec.
From Verif.Machine Require Import Model Spec Name.
From Verif.Optimise Require Import Model Spec Relate.
Import ListNotations.
Open Scope nat_scope.

Section Forward.
Context {native : Type}.
Notation ref := (ref native).
Notation syn := (syn native).
Notation form := (form native).
Notation value := (value (native := native)).
Notation env := (env (native := native)).
Variable forcing : bool.
Variable prim : N -> list native -> prim_result (native := native).
Variable merge : N.
Variables globals globals' : list form.
Notation opt := (opt (native := native) forcing).
Notation cong := (cong (native := native) forcing).
Notation brel := (brel (native := native) forcing).
Notation frel := (frel (native := native) forcing).
Notation vrel := (vrel (native := native) forcing).
Notation erel := (erel (native := native) forcing).
Hypothesis prims : regular_operators prim.
Hypothesis globals_related : Forall2 (fun f f' => vrel (closure [] f) (closure [] f')) globals globals'.

Lemma lift0 (r : nat -> nat) : same r (lift 0 r).
Proof. intros i. unfold lift. simpl. rewrite Nat.add_0_r, Nat.sub_0_r. reflexivity. Qed.
Lemma same_trans r1 r2 r3 : same r1 r2 -> same r2 r3 -> same r1 r3.
Proof. intros H1 H2 i. rewrite H1. apply H2. Qed.
Lemma same_sym r1 r2 : same r1 r2 -> same r2 r1.
Proof. intros H i. symmetry. apply H. Qed.
Lemma vrel0 r d c c' e e' : erel r d e e' -> opt r d c c' -> vrel (VClo c 0 e) (VClo c' 0 e').
Proof. intros He Ho. eapply vr_clo; [exact He | apply lift0 | exact Ho]. Qed.
Lemma fields_unique tag n n' : has_fields tag n -> has_fields tag n' -> n = n'.
Proof. unfold has_fields. congruence. Qed.

(** ** The shapes of related values *)
Lemma clo0 c e v' : vrel (VClo c 0 e) v' ->
  (exists c' e' r d, v' = VClo c' 0 e' /\ erel r d e e' /\ opt r d c c') \/
  (exists i v, c = SAtom (RL i) /\ lookup e (N.to_nat i) = Some v /\ vrel v v').
Proof.
  intros H. inversion H as [|? c' ? ? e' r d r' He Hs Ho | | i ? v ? Hl Hv]; subst.
  - left. exists c', e', r', d. split; [reflexivity |]. split; [| exact Ho].
    eapply er_same; [exact He | eapply same_trans; [exact Hs | apply same_sym, lift0]].
  - right. eauto.
Qed.
Lemma data_shape tag xs e v' : vrel (VClo (SCons tag xs) 0 e) v' ->
  exists xs' e' r d, v' = VClo (SCons tag xs') 0 e' /\ erel r d e e' /\ Forall2 (rrel r d) xs xs' /\ has_fields tag (length xs).
Proof.
  intros H. apply clo0 in H. destruct H as [(c' & e' & r & d & -> & He & Ho) | (i & v & Hc & _)]; [| discriminate].
  inversion Ho as [? ? ? ? Hc | |]; subst. inversion Hc; subst. eauto 10.
Qed.
Lemma meta_shape m b e v' : vrel (VClo (SMeta m b) 0 e) v' ->
  exists m' b' e' r d, v' = VClo (SMeta m' b') 0 e' /\ erel r d e e' /\ rrel r d m m' /\ rrel r d b b'.
Proof.
  intros H. apply clo0 in H. destruct H as [(c' & e' & r & d & -> & He & Ho) | (i & v & Hc & _)]; [| discriminate].
  inversion Ho as [? ? ? ? Hc | |]; subst. inversion Hc; subst. eauto 10.
Qed.
Lemma fun_shape c a e v' : 0 < a -> vrel (VClo c a e) v' ->
  exists c' e' r d r', v' = VClo c' a e' /\ erel r d e e' /\ same r' (lift a r) /\ opt r' (a + d) c c'.
Proof. intros Ha H. inversion H; subst; [eauto 10 | lia]. Qed.
Lemma native_shape n v' : vrel (VNat n) v' -> v' = VNat n.
Proof. intros H. inversion H. reflexivity. Qed.
Lemma pap_shape f vs v' : vrel (VPap f vs) v' ->
  exists f' vs', v' = VPap f' vs' /\ takes f = takes f' /\ vrel f f' /\ Forall2 vrel vs vs'.
Proof. intros H. inversion H; subst. eauto 10. Qed.

Lemma whnf_cases (v : value) : whnf v = true ->
  (exists n, v = VNat n) \/ (exists f vs, v = VPap f vs) \/ (exists c a e, v = VClo c a e /\ 0 < a) \/
  (exists tag xs e, v = VClo (SCons tag xs) 0 e) \/ (exists m b e, v = VClo (SMeta m b) 0 e).
Proof.
  destruct v as [n|c a e|f vs]; intros H; [eauto | | eauto 6].
  destruct a as [|a]; [| right; right; left; exists c, (S a), e; split; [reflexivity | lia]].
  destruct c; try discriminate; eauto 10.
Qed.
Lemma shape v v' : whnf v = true -> vrel v v' -> whnf v' = true /\ is_meta v' = is_meta v /\ takes v' = takes v.
Proof.
  intros W H. destruct (whnf_cases v W) as [(n & ->) | [(f & vs & ->) | [(c & a & e & -> & Ha) | [(tag & xs & e & ->) | (m & b & e & ->)]]]].
  - apply native_shape in H. subst. auto.
  - apply pap_shape in H. destruct H as (f' & vs' & -> & Ht & _ & Hvs). cbn [whnf is_meta takes].
    rewrite Ht, (Forall2_length _ _ _ Hvs). auto.
  - destruct (fun_shape _ _ _ _ Ha H) as (c' & e' & r & d & r' & -> & _). destruct a as [|a]; [lia |].
    cbn. repeat split; try (destruct c'; reflexivity). destruct c, c'; reflexivity.
  - apply data_shape in H. destruct H as (xs' & e' & r & d & -> & _). auto.
  - apply meta_shape in H. destruct H as (m' & b' & e' & r & d & -> & _). auto.
Qed.

(** ** Variables *)
Lemma global_related i : match nth_error globals i, nth_error globals' i with
  | Some f, Some f' => vrel (closure [] f) (closure [] f')
  | None, None => True
  | _, _ => False
  end.
Proof.
  revert i. clear prims. induction globals_related as [|f f' l l' Hf H IH]; intros [|i]; simpl; trivial. apply (IH H).
Qed.
Lemma variable_related r d e e' x x' : erel r d e e' -> rrel r d x x' ->
  match variable globals e x, variable globals' e' x' with
  | Some v, Some v' => vrel v v'
  | None, None => match x with RL _ => False | _ => True end
  | _, _ => False
  end.
Proof.
  intros He Hx. destruct Hx as [i j Hi Hj | i | n]; cbn [variable].
  - destruct (erel_lookup _ _ _ _ _ He _ Hi) as (v & v' & E & E' & Hv). rewrite Hj, E, E'. exact Hv.
  - pose proof (global_related (N.to_nat i)) as H.
    destruct (nth_error globals (N.to_nat i)), (nth_error globals' (N.to_nat i)); cbn [option_map]; trivial.
  - apply vr_native.
Qed.
Lemma variable_forward r d e e' x x' v : erel r d e e' -> rrel r d x x' -> variable globals e x = Some v ->
  exists v', variable globals' e' x' = Some v' /\ vrel v v'.
Proof.
  intros He Hx E. pose proof (variable_related _ _ _ _ _ _ He Hx) as H. rewrite E in H.
  destruct (variable globals' e' x') as [v'|]; [eauto | destruct H].
Qed.
Lemma variable_backward r d e e' x x' v' : erel r d e e' -> rrel r d x x' -> variable globals' e' x' = Some v' ->
  exists v, variable globals e x = Some v /\ vrel v v'.
Proof.
  intros He Hx E. pose proof (variable_related _ _ _ _ _ _ He Hx) as H. rewrite E in H.
  destruct (variable globals e x) as [v|]; [eauto | destruct H].
Qed.
Lemma variables_forward r d e e' xs xs' : erel r d e e' -> Forall2 (rrel r d) xs xs' -> forall vs,
  variables globals e xs = Some vs -> exists vs', variables globals' e' xs' = Some vs' /\ Forall2 vrel vs vs'.
Proof.
  intros He Hxs. induction Hxs as [|x x' xs xs' Hx _ IH]; intros vs; simpl; [intros [= <-]; eauto |].
  destruct (variable globals e x) as [v|] eqn:E; [| discriminate].
  destruct (variables globals e xs) as [ws|]; [| discriminate]. intros [= <-].
  destruct (variable_forward _ _ _ _ _ _ _ He Hx E) as (v' & -> & Hv). destruct (IH ws eq_refl) as (ws' & -> & Hws). eauto.
Qed.
Lemma variables_backward r d e e' xs xs' : erel r d e e' -> Forall2 (rrel r d) xs xs' -> forall vs',
  variables globals' e' xs' = Some vs' -> exists vs, variables globals e xs = Some vs /\ Forall2 vrel vs vs'.
Proof.
  intros He Hxs. induction Hxs as [|x x' xs xs' Hx _ IH]; intros vs; simpl; [intros [= <-]; eauto |].
  destruct (variable globals' e' x') as [v|] eqn:E; [| discriminate].
  destruct (variables globals' e' xs') as [ws|]; [| discriminate]. intros [= <-].
  destruct (variable_backward _ _ _ _ _ _ _ He Hx E) as (v' & -> & Hv). destruct (IH ws eq_refl) as (ws' & -> & Hws). eauto.
Qed.
Lemma variables_length G e xs : forall vs, variables (native := native) G e xs = Some vs -> length vs = length xs.
Proof.
  induction xs as [|x xs IH]; intros vs; simpl; [intros [= <-]; reflexivity |].
  destruct (variable G e x); [| discriminate]. destruct (variables G e xs); [| discriminate].
  intros [= <-]. simpl. f_equal. auto.
Qed.
Lemma arguments_related r d e e' xs xs' eager : erel r d e e' -> Forall2 (rrel r d) xs xs' ->
  exists vs vs', arguments globals eager e xs = Some vs /\ arguments globals' eager e' xs' = Some vs' /\ Forall2 vrel vs vs'.
Proof.
  intros He Hxs. unfold arguments.
  assert (E : existsb (unbound_local e) xs = false /\ existsb (unbound_local e') xs' = false /\
              Forall2 vrel (map (argument globals e) xs) (map (argument globals' e') xs')).
  { induction Hxs as [|x x' xs xs' Hx _ (E1 & E2 & Hm)]; simpl; [auto |]. rewrite E1, E2, !orb_false_r.
    assert (H : unbound_local e x = false /\ unbound_local e' x' = false /\ vrel (argument globals e x) (argument globals' e' x')).
    { pose proof (variable_related _ _ _ _ _ _ He Hx) as H. unfold argument.
      inversion Hx as [i j Hi Hj | i | n]; subst; cbn [unbound_local].
      - cbn [variable] in *. destruct (lookup e (N.to_nat i)) as [v|], (lookup e' (N.to_nat j)) as [v'|]; try contradiction. auto.
      - split; [reflexivity |]. split; [reflexivity |].
        destruct (variable globals e (RG i)) as [v|], (variable globals' e' (RG i)) as [v'|]; try contradiction; [exact H |].
        eapply vrel0; [exact He | apply o_here, c_atom, rr_global].
      - split; [reflexivity |]. split; [reflexivity |]. exact H. }
    destruct H as (H1 & H2 & H3). auto. }
  destruct E as (E1 & E2 & Hm). rewrite E1, E2, !andb_false_r. eauto.
Qed.

Lemma closures_related r d e e' fs fs' : erel r d e e' -> frel r d fs fs' -> Forall2 vrel (map (closure e) fs) (map (closure e') fs').
Proof.
  intros He. revert fs'. induction fs as [|f fs IH]; intros fs' H; inversion H; subst; simpl; constructor; [| auto].
  unfold closure; cbn [fst snd]. eapply vr_clo; eassumption.
Qed.
Lemma bind_related r d e e' vs vs' r' : erel r d e e' -> Forall2 vrel vs vs' -> same r' (lift (length vs) r) ->
  erel r' (length vs + d) (bind vs e) (bind vs' e').
Proof.
  intros He Hvs Hs. destruct Hvs as [|v v' vs vs' Hv Hvs]; cbn [bind].
  - eapply er_same; [exact He | eapply same_trans; [exact Hs | apply same_sym, lift0]].
  - eapply er_vals; [exact He | constructor; assumption | exact Hs].
Qed.
Lemma one_related r d e e' v v' r' : erel r d e e' -> vrel v v' -> same r' (lift 1 r) ->
  erel r' (1 + d) (Vals [v] :: e) (Vals [v'] :: e').
Proof. intros He Hv Hs. apply (er_vals _ r d e e' [v] [v'] r' He); [repeat constructor; assumption | exact Hs]. Qed.
Lemma two_related r d e e' v v' w w' r' : erel r d e e' -> vrel v v' -> vrel w w' -> same r' (lift 2 r) ->
  erel r' (2 + d) (Vals [v; w] :: e) (Vals [v'; w'] :: e').
Proof. intros He Hv Hw Hs. apply (er_vals _ r d e e' [v; w] [v'; w'] r' He); [repeat constructor; assumption | exact Hs]. Qed.

(** ** Branches *)
Lemma find_snoc {A} (f : A -> bool) l x : find f (l ++ [x]) = match find f l with Some y => Some y | None => if f x then Some x else None end.
Proof. induction l as [|y l IH]; simpl; [reflexivity |]. destruct (f y); [reflexivity | exact IH]. Qed.
Lemma branch_for_cons {B} tag t (b : B) bs :
  branch_for tag ((t, b) :: bs) = match branch_for tag bs with Some x => Some x | None => if (t =? tag)%N then Some b else None end.
Proof.
  unfold branch_for. simpl. rewrite find_snoc. destruct (find _ (rev bs)); [reflexivity |]. cbn [fst]. destruct (t =? tag)%N; reflexivity.
Qed.
Lemma branches_related r d bs bs' : brel r d bs bs' -> forall tag,
  match branch_for tag bs, branch_for tag bs' with
  | Some b, Some b' => exists n r', has_fields tag n /\ same r' (lift n r) /\ opt r' (n + d) b b'
  | None, None => True
  | _, _ => False
  end.
Proof.
  revert bs'. induction bs as [|b bs IH]; intros bs' H tag; inversion H as [|? ? t n r' c c' ? bs1 Hf Hs Ho Hb]; subst; [exact I |].
  rewrite !branch_for_cons. specialize (IH bs1 Hb tag).
  destruct (branch_for tag bs), (branch_for tag bs1); try contradiction; [exact IH |].
  destruct (N.eqb_spec t tag) as [-> | _]; [eauto 6 | exact I].
Qed.
Lemma selects_related r d bs bs' w w' : brel r d bs bs' -> whnf w = true -> is_meta w = false -> vrel w w' ->
  (selects w bs = None <-> selects w' bs' = None).
Proof.
  intros Hb W M Hw.
  destruct (whnf_cases w W) as [(n & ->) | [(f & vs & ->) | [(c & a & e & -> & Ha) | [(tag & xs & e & ->) | (m & b & e & ->)]]]].
  - apply native_shape in Hw. subst. tauto.
  - apply pap_shape in Hw. destruct Hw as (f' & vs' & -> & _). tauto.
  - destruct (fun_shape _ _ _ _ Ha Hw) as (c' & e' & r1 & d1 & r2 & -> & _). destruct a as [|a]; [lia |].
    assert (forall c e bs, selects (VClo (native := native) c (S a) e) bs = None) as E by (intros x; destruct x; reflexivity). rewrite !E. tauto.
  - apply data_shape in Hw. destruct Hw as (xs' & e' & r1 & d1 & -> & _). cbn [selects].
    pose proof (branches_related _ _ _ _ Hb tag) as H.
    destruct (branch_for tag bs), (branch_for tag bs'); try contradiction; split; intros; congruence || reflexivity.
  - discriminate.
Qed.

Lemma Forall2_map_same {A B} (R : B -> B -> Prop) (f : A -> B) l : (forall a, R (f a) (f a)) -> Forall2 R (map f l) (map f l).
Proof. intros H. induction l; simpl; constructor; auto. Qed.
Lemma lrefs_related r n k d : (forall i, i < n + k -> r i = i) -> n + k <= d -> Forall2 (rrel (native := native) r d) (lrefs n k) (lrefs n k).
Proof.
  revert n. induction k as [|k IH]; intros n Hr Hd; cbn [lrefs].
  all: unfold lrefs in *; simpl; constructor.
  - apply rr_local; rewrite Nnat.Nat2N.id; [lia | symmetry; apply Hr; lia].
  - apply IH; [intros i Hi; apply Hr; lia | lia].
Qed.
Lemma delivered_self i ns v : delivered (prim i ns) = Some v -> vrel v v.
Proof.
  intros H. destruct (prim i ns) as [n|tag ms|] eqn:E; [injection H as <-; apply vr_native | | discriminate].
  injection H as <-. pose proof (prims _ _ _ _ E) as Hf.
  eapply vrel0 with (r := lift (length (map VNat ms)) (fun i => i)) (d := length (map VNat ms) + 0).
  - apply bind_related with (r := fun i => i); [apply er_nil | apply Forall2_map_same, vr_native | intros k; reflexivity].
  - apply o_here, c_cons.
    + assert (length (lrefs (native := native) 0 (length ms)) = length ms) as -> ; [| exact Hf].
      unfold lrefs. rewrite map_length, seq_length. reflexivity.
    + rewrite map_length. apply lrefs_related; [| lia]. intros k Hk. unfold lift.
      destruct (Nat.ltb_spec k (length ms)); lia.
Qed.

(** ** Evaluation *)
Notation evals := (evals prim merge globals).
Notation evals' := (Spec.evals prim merge globals').
Notation strips := (strips prim merge globals).
Notation strips' := (Spec.strips prim merge globals').

Ltac shaped H := apply clo0 in H; destruct H as [(?c' & ?e' & ?r & ?d & -> & ?He & ?Ho) | (?i & ?w & ?Hc & _)]; [| discriminate].
Ltac rel_of x n := match goal with R : Relate.opt _ _ _ x _ |- _ => rename R into n | R : rrel _ _ x _ |- _ => rename R into n
  | R : Forall2 (rrel _ _) x _ |- _ => rename R into n end.
Ltac opened H := inversion H as [? ? ? ? ?Hcong | |]; subst.

Theorem forward :
  (forall p v, evals p v -> forall p', vrel p p' -> exists v', evals' p' v' /\ vrel v v') /\
  (forall p v, strips p v -> forall p', vrel p p' -> exists v', strips' p' v' /\ vrel v v') /\
  (forall p args v, applies prim merge globals p args v -> forall p' args', vrel p p' -> Forall2 vrel args args' ->
     exists v', applies prim merge globals' p' args' v' /\ vrel v v') /\
  (forall p n, operand prim merge globals p n -> forall p', vrel p p' -> operand prim merge globals' p' n) /\
  (forall ps ns, natives prim merge globals ps ns -> forall ps', Forall2 vrel ps ps' -> natives prim merge globals' ps' ns).
Proof.
  apply eval_mutual.
  - intros n p' H. apply native_shape in H. subst. exists (VNat n). split; constructor.
  - intros c a e Ha p' H. destruct (fun_shape _ _ _ _ Ha H) as (c' & e' & r & d & r' & -> & _). eexists. split; [apply ev_function; exact Ha | exact H].
  - intros f args p' H. destruct (pap_shape _ _ _ H) as (f' & vs' & -> & _). eexists. split; [apply ev_partial | exact H].
  - intros tag args e p' H. destruct (data_shape _ _ _ _ H) as (xs' & e' & r & d & -> & _). eexists. split; [apply ev_data | exact H].
  - intros m b e p' H. destruct (meta_shape _ _ _ _ H) as (m' & b' & e' & r & d & -> & _). eexists. split; [apply ev_meta | exact H].
  - intros x e p v Hx _ IH p' H. apply clo0 in H. destruct H as [(c' & e' & r & d & -> & He & Ho) | (i & w & Hc & Hl & Hw)].
    + opened Ho. inversion Hcong; subst. rel_of x R1. destruct (variable_forward _ _ _ _ _ _ _ He R1 Hx) as (q & Hq & Hr).
      destruct (IH q Hr) as (v' & Hv & Hvv). exists v'. split; [eapply ev_variable; eassumption | exact Hvv].
    + injection Hc as ->. cbn [variable] in Hx. rewrite Hl in Hx. injection Hx as ->. apply IH. exact Hw.
  - intros scr bs fb e tag args e1 b vs v _ IHs Hb Hvs _ IHb p' H. shaped H. opened Ho.
    assert (Hgo : forall scr' bs' fb', opt r d scr scr' -> brel r d bs bs' ->
              exists v', evals' (VClo (SCase scr' bs' fb') 0 e') v' /\ vrel v v').
    { intros scr' bs' fb' Hscr Hbs. destruct (IHs _ (vrel0 _ _ _ _ _ _ He Hscr)) as (w' & Hw & Hww).
      apply data_shape in Hww. destruct Hww as (xs' & e2 & r2 & d2 & -> & He2 & Hxs & Hf).
      pose proof (branches_related _ _ _ _ Hbs tag) as Hbr. rewrite Hb in Hbr.
      destruct (branch_for tag bs') as [b'|] eqn:Eb'; [| destruct Hbr]. destruct Hbr as (n & r' & Hn & Hsr & Hob).
      destruct (variables_forward _ _ _ _ _ _ He2 Hxs _ Hvs) as (vs' & Hvs' & Hvv).
      pose proof (fields_unique _ _ _ Hn Hf) as ->. rewrite <- (variables_length _ _ _ _ Hvs) in *.
      destruct (IHb (VClo b' 0 (bind vs' e'))) as (v' & Hv' & Hr').
      - eapply vrel0; [eapply bind_related; eassumption | exact Hob].
      - exists v'. split; [eapply ev_branch; eassumption | exact Hr']. }
    inversion Hcong; subst; [eauto | eauto |]. rel_of scr R1.
    destruct (IHs _ (vrel0 _ _ _ _ _ _ He R1)) as (w' & Hw & Hww).
    pose proof Hww as Hd. apply data_shape in Hd. destruct Hd as (xs' & e2 & r2 & d2 & -> & He2 & Hxs & Hf).
    rewrite branch_for_cons in Hb. cbn in Hb. destruct (N.eqb_spec tag0 tag) as [-> | _]; [| discriminate]. injection Hb as ->.
    match goal with R : has_fields tag 0 |- _ => pose proof (fields_unique _ _ _ R Hf) as Hlen end. destruct args as [|? ?]; [| discriminate]. injection Hvs as <-. cbn [bind] in IHb.
    destruct (IHb (VClo b' 0 (Vals [VClo (SCons tag xs') 0 e2] :: e'))) as (v' & Hv' & Hr').
    + eapply vrel0; [eapply er_bump; eassumption | eassumption].
    + exists v'. split; [eapply ev_fallback; [exact Hw | reflexivity | exact Hv'] | exact Hr'].
  - intros scr bs f e w v Hs IHs Hsel _ IHf p' H. shaped H. opened Ho. inversion Hcong; subst. rel_of scr R1.
    destruct (IHs _ (vrel0 _ _ _ _ _ _ He R1)) as (w' & Hw & Hww). destruct (strips_whnf _ _ _ _ _ Hs) as [Wh Me].
    destruct (IHf (VClo f' 0 (Vals [w'] :: e'))) as (v' & Hv' & Hr').
    + eapply vrel0; [eapply one_related; eassumption | eassumption].
    + exists v'. split; [| exact Hr']. eapply ev_fallback; [exact Hw | | exact Hv'].
      refine (proj1 (selects_related _ _ _ _ _ _ _ Wh Me Hww) Hsel); eassumption.
  - intros f args eager e p vs v Hf Ha _ IH p' H. shaped H. opened Ho. inversion Hcong; subst. rel_of f R1. rel_of args R2.
    destruct (variable_forward _ _ _ _ _ _ _ He R1 Hf) as (q & Hq & Hr).
    destruct (arguments_related _ _ _ _ _ _ eager He R2) as (us & us' & E1 & E2 & Hus). rewrite E1 in Ha. injection Ha as ->.
    destruct (IH q us' Hr Hus) as (v' & Hv & Hvv). exists v'. split; [eapply ev_apply; eassumption | exact Hvv].
  - intros smid f args eager e p vs v Hf Ha _ IH p' H. shaped H. opened Ho. inversion Hcong; subst. rel_of f R1. rel_of args R2.
    destruct (variable_forward _ _ _ _ _ _ _ He R1 Hf) as (q & Hq & Hr).
    destruct (arguments_related _ _ _ _ _ _ eager He R2) as (us & us' & E1 & E2 & Hus). rewrite E1 in Ha. injection Ha as ->.
    destruct (IH q us' Hr Hus) as (v' & Hv & Hvv). exists v'. split; [eapply ev_direct; eassumption | exact Hvv].
  - intros i args e ps ns v Hps _ IH Hd p' H. shaped H. opened Ho. inversion Hcong; subst. rel_of args R1.
    destruct (variables_forward _ _ _ _ _ _ He R1 _ Hps) as (ps' & Hps' & Hr). exists v.
    split; [eapply ev_primitive; [exact Hps' | apply IH; exact Hr | exact Hd] | eapply delivered_self; exact Hd].
  - intros fs body e v _ IH p' H. shaped H. inversion Ho as [? ? ? ? Hcong | ? ? ? m r' ? body' Hm Hb Hs Hob |]; subst.
    + inversion Hcong; subst. destruct (IH (VClo body' 0 (Vals (map (closure e') fs') :: e'))) as (v' & Hv & Hvv).
      * eapply vrel0; [| eassumption]. rewrite <- (map_length (closure e) fs). eapply er_vals; [exact He | eapply closures_related; eassumption | rewrite map_length; assumption].
      * exists v'. split; [apply ev_let; exact Hv | exact Hvv].
    + apply IH. eapply vrel0; [eapply er_let; eassumption | exact Hob].
  - intros fs body e v _ IH p' H. shaped H. inversion Ho as [? ? ? ? Hcong | | ? ? ? m r' ? body' Hm Hb Hs Hob]; subst.
    + inversion Hcong; subst. destruct (IH (VClo body' 0 (Rec fs' :: e'))) as (v' & Hv & Hvv).
      * eapply vrel0; [eapply er_rec; eassumption | eassumption].
      * exists v'. split; [apply ev_letrec; exact Hv | exact Hvv].
    + apply IH. eapply vrel0; [eapply er_letrec; eassumption | exact Hob].
  - intros smid body e v _ IH p' H. shaped H. opened Ho. inversion Hcong; subst. rel_of body R1.
    destruct (IH _ (vrel0 _ _ _ _ _ _ He R1)) as (v' & Hv & Hvv). exists v'. split; [apply ev_annotated; exact Hv | exact Hvv].
  - intros scr h o e m b e1 p q v _ IHs Hm Hb _ IHh p' H. shaped H. opened Ho. inversion Hcong; subst. rel_of scr R1.
    destruct (IHs _ (vrel0 _ _ _ _ _ _ He R1)) as (w' & Hw & Hww).
    apply meta_shape in Hww. destruct Hww as (m' & b' & e2 & r2' & d2 & -> & He2 & Hmm & Hbb).
    destruct (variable_forward _ _ _ _ _ _ _ He2 Hmm Hm) as (p1 & Hp1 & Hpp).
    destruct (variable_forward _ _ _ _ _ _ _ He2 Hbb Hb) as (q1 & Hq1 & Hqq).
    destruct (IHh (VClo h' 0 (Vals [p1; q1] :: e'))) as (v' & Hv & Hvv).
    + eapply vrel0; [eapply two_related; eassumption | eassumption].
    + exists v'. split; [eapply ev_has_meta; eassumption | exact Hvv].
  - intros scr h o e w v Hs IHs Hm _ IHo p' H. shaped H. opened Ho. inversion Hcong; subst. rel_of scr R1.
    destruct (IHs _ (vrel0 _ _ _ _ _ _ He R1)) as (w' & Hw & Hww).
    destruct (shape _ _ (evals_whnf _ _ _ _ _ Hs) Hww) as (_ & Hm' & _).
    destruct (IHo (VClo o' 0 (Vals [w'] :: e'))) as (v' & Hv & Hvv).
    + eapply vrel0; [eapply one_related; eassumption | eassumption].
    + exists v'. split; [eapply ev_no_meta; [exact Hw | congruence | exact Hv] | exact Hvv].
  - intros scr body e w v _ IHs _ IHb p' H. shaped H. opened Ho. inversion Hcong; subst. rel_of scr R1.
    destruct (IHs _ (vrel0 _ _ _ _ _ _ He R1)) as (w' & Hw & _).
    rel_of body R2. destruct (IHb _ (vrel0 _ _ _ _ _ _ He R2)) as (v' & Hv & Hvv).
    exists v'. split; [eapply ev_force; eassumption | exact Hvv].
  - intros i l r0 inner e a b v _ IHl _ IHr Hd p' H. shaped H. opened Ho. inversion Hcong; subst. exists v. split.
    + eapply ev_fused; [| | exact Hd]; [apply IHl | apply IHr]; (eapply vrel0; [exact He | apply o_here, c_atom; assumption]).
    + eapply delivered_self; exact Hd.
  - intros p v Hv IH Hm p' H. destruct (IH p' H) as (v' & Hv' & Hvv). exists v'.
    destruct (shape _ _ (evals_whnf _ _ _ _ _ Hv) Hvv) as (_ & Hm' & _). split; [apply st_plain; [exact Hv' | congruence] | exact Hvv].
  - intros p m b e q v _ IH Hb _ IHq p' H. destruct (IH p' H) as (w' & Hw & Hww).
    apply meta_shape in Hww. destruct Hww as (m' & b' & e' & r & d & -> & He & _ & Hbb).
    destruct (variable_forward _ _ _ _ _ _ _ He Hbb Hb) as (q' & Hq' & Hqq).
    destruct (IHq q' Hqq) as (v' & Hv & Hvv). exists v'. split; [eapply st_meta; eassumption | exact Hvv].
  - intros p args c e v _ IH Hlen _ IHb p' args' H Hargs. destruct (IH p' H) as (w' & Hw & Hww).
    destruct (fun_shape _ _ _ _ Hlen Hww) as (c' & e' & r & d & r' & -> & He & Hs & Ho).
    destruct (IHb (VClo c' 0 (Vals args' :: e'))) as (v' & Hv & Hvv).
    + eapply vrel0; [eapply er_vals; eassumption | exact Ho].
    + exists v'. split; [| exact Hvv]. rewrite (Forall2_length _ _ _ Hargs) in *. eapply ap_saturated; eassumption.
  - intros p args f held v Hs IH Ht Hlen _ IHa p' args' H Hargs. destruct (IH p' H) as (w' & Hw & Hww).
    destruct (shape _ _ (proj1 (strips_whnf _ _ _ _ _ Hs)) Hww) as (_ & _ & Ht').
    apply pap_shape in Hww. destruct Hww as (f' & held' & -> & Hff & Hf & Hh).
    destruct (IHa f' (held' ++ args') Hf (Forall2_app Hh Hargs)) as (v' & Hv & Hvv). exists v'. split; [| exact Hvv].
    rewrite (Forall2_length _ _ _ Hargs) in *. eapply ap_completed; [exact Hw | congruence | exact Hlen | exact Hv].
  - intros p args w Hs IH Hlt p' args' H Hargs. destruct (IH p' H) as (w' & Hw & Hww).
    destruct (shape _ _ (proj1 (strips_whnf _ _ _ _ _ Hs)) Hww) as (_ & _ & Ht'). exists (VPap w' args'). split.
    + apply ap_partial; [exact Hw | rewrite <- (Forall2_length _ _ _ Hargs); lia].
    + apply vr_pap; [congruence | exact Hww | exact Hargs].
  - intros p args w u v Hs IH Hlt _ IH1 _ IH2 p' args' H Hargs. destruct (IH p' H) as (w' & Hw & Hww).
    destruct (shape _ _ (proj1 (strips_whnf _ _ _ _ _ Hs)) Hww) as (_ & _ & Ht').
    assert (Hfn : forall n, Forall2 vrel (firstn n args) (firstn n args')).
    { clear - Hargs. induction Hargs; intros [|n]; simpl; constructor; auto. }
    assert (Hsn : forall n, Forall2 vrel (skipn n args) (skipn n args')).
    { clear - Hargs. induction Hargs; intros [|n]; simpl; try constructor; auto. }
    destruct (IH1 w' _ Hww (Hfn (takes w))) as (u' & Hu & Huu). destruct (IH2 u' _ Huu (Hsn (takes w))) as (v' & Hv & Hvv).
    exists v'. split; [| exact Hvv]. rewrite <- Ht' in *.
    eapply ap_surplus; [exact Hw | rewrite <- (Forall2_length _ _ _ Hargs); lia | exact Hu | exact Hv].
  - intros p args fields e m v _ IH Hm _ IHm p' args' H Hargs. destruct (IH p' H) as (w' & Hw & Hww).
    pose proof Hww as Hd. apply data_shape in Hd. destruct Hd as (xs' & e' & r & d & -> & _).
    destruct (variable_forward (fun i => i) 0 [] [] (RG merge) (RG merge) m (er_nil _ _) (rr_global _ _ _) Hm) as (m' & Hm' & Hmm).
    destruct (IHm m' (args' ++ [VClo (SCons tag_block xs') 0 e']) Hmm) as (v' & Hv & Hvv).
    + apply Forall2_app; [exact Hargs | repeat constructor; exact Hww].
    + exists v'. split; [eapply ap_block; eassumption | exact Hvv].
  - intros p n _ IH p' H. destruct (IH p' H) as (w' & Hw & Hww). apply native_shape in Hww. subst. apply op_native. exact Hw.
  - intros p tag x xs e q n _ IH Hb Hx _ IHq p' H. destruct (IH p' H) as (w' & Hw & Hww).
    apply data_shape in Hww. destruct Hww as (xs' & e' & r & d & -> & He & Hxs & _).
    inversion Hxs as [|? x' ? xs1 Hxx Hr]; subst. destruct (variable_forward _ _ _ _ _ _ _ He Hxx Hx) as (q' & Hq' & Hqq).
    eapply op_box; [exact Hw | exact Hb | exact Hq' | apply IHq; exact Hqq].
  - intros ps' H. inversion H; subst. constructor.
  - intros p n ps ns _ IH _ IHs ps' H. inversion H as [|? p' ? ps1 Hp Hps]; subst. destruct (IH p' Hp) as (w' & Hw & Hww).
    apply native_shape in Hww. subst. constructor; [exact Hw | apply IHs; exact Hps].
Qed.

End Forward.
