(** Code and optimised code, related; environments and values that differ by it. *)
From Coq Require Import List Bool Arith NArith Lia.
From Verif.Bytecode Require Import Model Spec.
From Verif.Machine Require Import Model Spec.
From Verif.Optimise Require Import Model Spec.
Import ListNotations.
Open Scope nat_scope.

Lemma arity_fields tag n : arity tag = Some n <-> has_fields tag n.
Proof.
  unfold has_fields. destruct (Nat.lt_ge_cases (N.to_nat tag) 18) as [H|H].
  - rewrite <- (N2Nat.id tag) at 1. revert H. generalize (N.to_nat tag). intros k H.
    do 18 (destruct k as [|k]; [simpl; tauto |]). lia.
  - rewrite (proj2 (nth_error_None _ _)) by exact H. split; [| discriminate].
    destruct tag as [|p]; [simpl in H; lia |].
    do 5 (try (destruct p as [p|p|])); cbn [arity]; try discriminate; exfalso; compute in H; lia.
Qed.

Lemma Forall2_length {A B} (R : A -> B -> Prop) l l' : Forall2 R l l' -> length l = length l'.
Proof. induction 1; simpl; congruence. Qed.

Section Relate.
Context {native : Type}.
Notation ref := (ref native).
Notation syn := (syn native).
Notation form := (form native).
Notation value := (value (native := native)).
Notation env := (env (native := native)).
(** Whether cases that only check may have become cases that only force. *)
Variable forcing : bool.

Definition same (r r' : nat -> nat) : Prop := forall i, r i = r' i.
Definition lift (n : nat) (r : nat -> nat) (i : nat) : nat := if i <? n then i else r (i - n) + n.
Definition mapped (m : list nat) (r : nat -> nat) (i : nat) : nat :=
  match nth_error m i with Some j => r j | None => r (i - length m) end.

Inductive rrel (r : nat -> nat) (d : nat) : ref -> ref -> Prop :=
| rr_local i j : N.to_nat i < d -> N.to_nat j = r (N.to_nat i) -> rrel r d (RL i) (RL j)
| rr_global i : rrel r d (RG i) (RG i)
| rr_native n : rrel r d (RV n) (RV n).

Inductive opt : (nat -> nat) -> nat -> syn -> syn -> Prop :=
| o_here r d c c' : cong r d c c' -> opt r d c c'
| o_let r d fs m r' body body' :
    let_changes fs = Some m -> Forall (fun i => i < d) m -> same r' (mapped m r) ->
    opt r' (length fs + d) body body' -> opt r d (SLet false fs body) body'
| o_letrec r d fs m r' body body' :
    letrec_changes (length fs) fs = Some m -> Forall (fun i => i < d) m -> same r' (mapped m r) ->
    opt r' (length fs + d) body body' -> opt r d (SLet true fs body) body'
with cong : (nat -> nat) -> nat -> syn -> syn -> Prop :=
| c_atom r d x x' : rrel r d x x' -> cong r d (SAtom x) (SAtom x')
| c_case r d scr scr' bs bs' :
    opt r d scr scr' -> brel r d bs bs' -> cong r d (SCase scr bs None) (SCase scr' bs' None)
| c_fallback r d scr scr' bs bs' r' f f' :
    opt r d scr scr' -> brel r d bs bs' -> same r' (lift 1 r) -> opt r' (1 + d) f f' ->
    cong r d (SCase scr bs (Some f)) (SCase scr' bs' (Some f'))
| c_force r d scr scr' tag b r' b' :
    Is_true forcing -> opt r d scr scr' -> has_fields tag 0 -> same r' (fun i => r i + 1) -> opt r' d b b' ->
    cong r d (SCase scr [(tag, b)] None) (SCase scr' [] (Some b'))
| c_cons r d tag xs xs' :
    has_fields tag (length xs) -> Forall2 (rrel r d) xs xs' -> cong r d (SCons tag xs) (SCons tag xs')
| c_app r d f f' xs xs' eager :
    rrel r d f f' -> Forall2 (rrel r d) xs xs' -> cong r d (SApp f xs eager) (SApp f' xs' eager)
| c_direct r d smid f f' xs xs' eager :
    rrel r d f f' -> Forall2 (rrel r d) xs xs' -> cong r d (SDirectApp smid f xs eager) (SDirectApp smid f' xs' eager)
| c_bif r d i xs xs' : Forall2 (rrel r d) xs xs' -> cong r d (SBif i xs) (SBif i xs')
| c_let r d fs fs' r' body body' :
    frel r d fs fs' -> same r' (lift (length fs) r) -> opt r' (length fs + d) body body' ->
    cong r d (SLet false fs body) (SLet false fs' body')
| c_letrec r d fs fs' r' body body' :
    same r' (lift (length fs) r) -> frel r' (length fs + d) fs fs' -> opt r' (length fs + d) body body' ->
    cong r d (SLet true fs body) (SLet true fs' body')
| c_ann r d smid c c' : opt r d c c' -> cong r d (SAnn smid c) (SAnn smid c')
| c_meta r d m m' b b' : rrel r d m m' -> rrel r d b b' -> cong r d (SMeta m b) (SMeta m' b')
| c_demeta r d scr scr' r1 h h' r2 o o' :
    opt r d scr scr' -> same r1 (lift 2 r) -> opt r1 (2 + d) h h' -> same r2 (lift 1 r) -> opt r2 (1 + d) o o' ->
    cong r d (SDeMeta scr h o) (SDeMeta scr' h' o')
| c_seq r d a a' b b' : opt r d a a' -> opt r d b b' -> cong r d (SSeq a b) (SSeq a' b')
| c_fused r d i x x' y y' inner inner' :
    rrel r d x x' -> rrel r d y y' -> cong r d (SFused i x y inner) (SFused i x' y' inner')
with brel : (nat -> nat) -> nat -> list (N * syn) -> list (N * syn) -> Prop :=
| b_nil r d : brel r d [] []
| b_cons r d tag n r' b b' bs bs' :
    has_fields tag n -> same r' (lift n r) -> opt r' (n + d) b b' -> brel r d bs bs' ->
    brel r d ((tag, b) :: bs) ((tag, b') :: bs')
with frel : (nat -> nat) -> nat -> list form -> list form -> Prop :=
| f_nil r d : frel r d [] []
| f_cons r d k n r' c c' fs fs' :
    n = N.to_nat (fk_arity k) -> same r' (lift n r) -> opt r' (n + d) c c' -> frel r d fs fs' ->
    frel r d ((k, c) :: fs) ((k, c') :: fs').

Inductive vrel : value -> value -> Prop :=
| vr_native n : vrel (VNat n) (VNat n)
| vr_clo c c' a e e' r d r' :
    erel r d e e' -> same r' (lift a r) -> opt r' (a + d) c c' -> vrel (VClo c a e) (VClo c' a e')
| vr_pap f f' vs vs' : takes f = takes f' -> vrel f f' -> Forall2 vrel vs vs' -> vrel (VPap f vs) (VPap f' vs')
| vr_through i e v v' : lookup e (N.to_nat i) = Some v -> vrel v v' -> vrel (VClo (SAtom (RL i)) 0 e) v'
with erel : (nat -> nat) -> nat -> env -> env -> Prop :=
| er_nil r : erel r 0 [] []
| er_vals r d e e' vs vs' r' :
    erel r d e e' -> Forall2 vrel vs vs' -> same r' (lift (length vs) r) ->
    erel r' (length vs + d) (Vals vs :: e) (Vals vs' :: e')
| er_rec r d e e' fs fs' r' :
    erel r d e e' -> same r' (lift (length fs) r) -> frel r' (length fs + d) fs fs' ->
    erel r' (length fs + d) (Rec fs :: e) (Rec fs' :: e')
| er_let r d e e' fs m r' :
    erel r d e e' -> let_changes fs = Some m -> Forall (fun i => i < d) m -> same r' (mapped m r) ->
    erel r' (length fs + d) (Vals (map (closure e) fs) :: e) e'
| er_letrec r d e e' fs m r' :
    erel r d e e' -> letrec_changes (length fs) fs = Some m -> Forall (fun i => i < d) m -> same r' (mapped m r) ->
    erel r' (length fs + d) (Rec fs :: e) e'
| er_bump r d e e' w r' : erel r d e e' -> same r' (fun i => r i + 1) -> erel r' d e (Vals [w] :: e')
| er_same r d e e' r' : erel r d e e' -> same r' r -> erel r' d e e'.

(** ** What is bound is bound to related values *)

Lemma let_changes_nth (fs : list form) : forall m i f, let_changes fs = Some m -> nth_error fs i = Some f ->
  exists j, nth_error m i = Some j /\ local_atom f = Some j.
Proof.
  induction fs as [|g fs IH]; intros m i f; simpl; [destruct i; discriminate |].
  destruct (local_atom g) as [j|] eqn:E; [| discriminate]. destruct (let_changes fs) as [m'|]; [| discriminate].
  intros [= <-] Hf. destruct i as [|i]; simpl in *; [injection Hf as <-; eauto | eapply IH; eauto].
Qed.
Lemma letrec_changes_nth n (fs : list form) : forall m i f, letrec_changes n fs = Some m -> nth_error fs i = Some f ->
  exists j, nth_error m i = Some j /\ local_atom f = Some (n + j).
Proof.
  induction fs as [|g fs IH]; intros m i f; simpl; [destruct i; discriminate |].
  destruct (local_atom g) as [j|] eqn:E; [| discriminate]. destruct (letrec_changes n fs) as [m'|]; [| discriminate].
  destruct (Nat.ltb_spec j n); [discriminate |].
  intros [= <-] Hf. destruct i as [|i]; simpl in *.
  - injection Hf as <-. exists (j - n). split; [reflexivity | rewrite E; f_equal; lia].
  - eapply IH; eauto.
Qed.
Lemma let_changes_length (fs : list form) : forall m, let_changes fs = Some m -> length m = length fs.
Proof.
  induction fs as [|f fs IH]; simpl; intros m; [intros [= <-]; reflexivity |].
  destruct (local_atom f); [| discriminate]. destruct (let_changes fs) as [m'|]; [| discriminate].
  intros [= <-]. simpl. f_equal. apply IH. reflexivity.
Qed.
Lemma letrec_changes_length n (fs : list form) : forall m, letrec_changes n fs = Some m -> length m = length fs.
Proof.
  induction fs as [|f fs IH]; simpl; intros m; [intros [= <-]; reflexivity |].
  destruct (local_atom f) as [i|]; [| discriminate]. destruct (letrec_changes n fs) as [m'|]; [| discriminate].
  destruct (i <? n); [discriminate |]. intros [= <-]. simpl. f_equal. apply IH. reflexivity.
Qed.
Lemma local_atom_closure (e : env) (f : form) j : local_atom f = Some j ->
  exists i, N.to_nat i = j /\ closure e f = VClo (SAtom (RL i)) 0 e.
Proof.
  destruct f as [[n a| |] c]; simpl; try discriminate; destruct c as [x| | | | | | | | | | | | | ]; try discriminate;
    destruct x as [i|i|x]; try discriminate; intros [= <-]; exists i; split; reflexivity.
Qed.
Lemma frel_nth r d fs fs' : frel r d fs fs' -> forall i f, nth_error fs i = Some f ->
  exists c c' k r', f = (k, c) /\ nth_error fs' i = Some (k, c') /\
    same r' (lift (N.to_nat (fk_arity k)) r) /\ opt r' (N.to_nat (fk_arity k) + d) c c'.
Proof.
  revert fs'. induction fs as [|g fs IH]; intros fs' H i f Hf; [destruct i; discriminate |].
  inversion H as [|? ? k n r' c c' ? fs1 -> Hs Ho H' E1 E2]; subst. destruct i as [|i]; simpl in *.
  - injection Hf as <-. exists c, c', k, r'. repeat split; assumption.
  - exact (IH fs1 H' i f Hf).
Qed.
Lemma frel_length r d fs fs' : frel r d fs fs' -> length fs' = length fs.
Proof. revert fs'. induction fs as [|g fs IH]; intros fs' H; inversion H; subst; [reflexivity | simpl; f_equal; auto]. Qed.

Lemma erel_lookup r d e e' : erel r d e e' -> forall i, i < d ->
  exists v v', lookup e i = Some v /\ lookup e' (r i) = Some v' /\ vrel v v'.
Proof.
  induction 1 as [r | r d e e' vs vs' r' He IH Hvs Hs | r d e e' fs fs' r' He IH Hs Hf | r d e e' fs m r' He IH Hm Hb Hs
                  | r d e e' fs m r' He IH Hm Hb Hs | r d e e' w r' He IH Hs | r d e e' r' He IH Hs]; intros i Hi.
  - lia.
  - rewrite Hs. unfold lift. cbn [lookup]. rewrite <- (Forall2_length _ _ _ Hvs). destruct (Nat.ltb_spec i (length vs)) as [L|L].
    + destruct (nth_error vs i) as [v|] eqn:E; [| apply nth_error_None in E; lia].
      assert (Hx : exists v', nth_error vs' i = Some v' /\ vrel v v').
      { clear - Hvs E. revert i E. induction Hvs as [|a b l l' Hab _ IHl]; intros [|i] E; simpl in *; try discriminate.
        - injection E as <-. eauto.
        - apply IHl. exact E. }
      destruct Hx as (v' & E' & Hv). apply Nat.ltb_lt in L. rewrite L. eauto.
    + destruct (IH (i - length vs)) as (v & v' & E & E' & Hv); [lia |].
      assert (r (i - length vs) + length vs <? length vs = false) as -> by (apply Nat.ltb_ge; lia).
      replace (r (i - length vs) + length vs - length vs) with (r (i - length vs)) by lia. eauto.
  - rewrite Hs. unfold lift. cbn [lookup]. rewrite (frel_length _ _ _ _ Hf). destruct (Nat.ltb_spec i (length fs)) as [L|L].
    + destruct (nth_error fs i) as [f|] eqn:E; [| apply nth_error_None in E; lia].
      destruct (frel_nth _ _ _ _ Hf _ _ E) as (c & c' & k & r1 & -> & E' & Hs1 & Ho).
      apply Nat.ltb_lt in L. rewrite L, E'. cbn [option_map]. eexists _, _. split; [reflexivity |]. split; [reflexivity |].
      unfold closure. cbn [fst snd]. eapply vr_clo; [eapply er_rec; eassumption | exact Hs1 | exact Ho].
    + destruct (IH (i - length fs)) as (v & v' & E & E' & Hv); [lia |].
      assert (r (i - length fs) + length fs <? length fs = false) as -> by (apply Nat.ltb_ge; lia).
      replace (r (i - length fs) + length fs - length fs) with (r (i - length fs)) by lia. eauto.
  - rewrite Hs. unfold mapped. cbn [lookup]. rewrite map_length. rewrite (let_changes_length _ _ Hm).
    destruct (Nat.ltb_spec i (length fs)) as [L|L].
    + destruct (nth_error fs i) as [f|] eqn:E; [| apply nth_error_None in E; lia].
      destruct (let_changes_nth _ _ _ _ Hm E) as (j & Ej & Hj). rewrite Ej.
      destruct (local_atom_closure e f j Hj) as (k & Hk & Hc). rewrite nth_error_map, E. cbn [option_map]. rewrite Hc.
      destruct (IH j) as (v & v' & E1 & E2 & Hv).
      { rewrite Forall_forall in Hb. apply Hb. eapply nth_error_In; eauto. }
      eexists _, v'. split; [reflexivity |]. split; [exact E2 |]. eapply vr_through; [rewrite Hk; exact E1 | exact Hv].
    + assert (nth_error m i = None) as -> by (apply nth_error_None; rewrite (let_changes_length _ _ Hm); lia).
      apply IH. lia.
  - rewrite Hs. unfold mapped. cbn [lookup]. rewrite (letrec_changes_length _ _ _ Hm).
    destruct (Nat.ltb_spec i (length fs)) as [L|L].
    + destruct (nth_error fs i) as [f|] eqn:E; [| apply nth_error_None in E; lia].
      destruct (letrec_changes_nth _ _ _ _ _ Hm E) as (j & Ej & Hj). rewrite Ej.
      destruct (local_atom_closure (Rec fs :: e) f _ Hj) as (k & Hk & Hc). cbn [option_map]. rewrite Hc.
      destruct (IH j) as (v & v' & E1 & E2 & Hv).
      { rewrite Forall_forall in Hb. apply Hb. eapply nth_error_In; eauto. }
      eexists _, v'. split; [reflexivity |]. split; [exact E2 |]. eapply vr_through; [| exact Hv].
      rewrite Hk. cbn [lookup]. assert (length fs + j <? length fs = false) as -> by (apply Nat.ltb_ge; lia).
      replace (length fs + j - length fs) with j by lia. exact E1.
    + assert (nth_error m i = None) as -> by (apply nth_error_None; rewrite (letrec_changes_length _ _ _ Hm); lia).
      apply IH. lia.
  - destruct (IH i Hi) as (v & v' & E & E' & Hv). exists v, v'. split; [exact E |]. split; [| exact Hv].
    rewrite Hs. cbn [lookup length]. assert (r i + 1 <? 1 = false) as -> by (apply Nat.ltb_ge; lia).
    replace (r i + 1 - 1) with (r i) by lia. exact E'.
  - rewrite Hs. apply IH. exact Hi.
Qed.

End Relate.
