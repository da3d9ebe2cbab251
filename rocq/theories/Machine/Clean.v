(** Placeholders are overwritten: every placeholder in the heap has an update pending, as long as
    none has been copied. *)
From Coq Require Import List Bool Arith NArith Lia.
From Verif.Bytecode Require Import Model Spec.
From Verif.Machine Require Import Model Spec Name Rel Chase Sim.
Import ListNotations.
Open Scope nat_scope.

Section Clean.
Context {native : Type}.
Notation ref := (ref native).
Notation syn := (syn native).
Notation form := (form native).
Notation value := (value (native := native)).
Notation mval := (mval (native := native)).
Notation heap := (heap (native := native)).
Notation state := (state (native := native)).
Notation ghost := (ghost (native := native)).
Variable prim : N -> list native -> prim_result (native := native).
Variable is_symbol : native -> bool.
Variable symbols_equal : native -> native -> bool.
Variable merge : N.
Variable globals : list form.
Notation hp := (hp prim merge globals).
Notation rs := (rs prim merge globals).
Notation inv := (inv prim merge globals).
Notation step := (step prim is_symbol symbols_equal merge).
Notation copies_placeholder := (copies_placeholder prim is_symbol symbols_equal merge).

(** What a step does to the heap and to the pending updates. *)
Definition keeps (K K' : list (mcont (native := native))) : Prop := forall e i, In (KUpdate e i) K -> In (KUpdate e i) K'.
Inductive effect : state -> state -> Prop :=
| ef_same m K h m' K' : keeps K K' -> effect (mkState m K h) (mkState m' K' h)
| ef_alloc m K h m' K' vs : keeps K K' -> effect (mkState m K h) (mkState m' K' (h ++ [vs]))
| ef_enter m K h m' K' e i a j :
    keeps K K' -> In (KUpdate e i) K' -> ((exists c u, m = MClo c 0 u e) \/ e = globals_env) ->
    cell h e i = Some (a, j) -> effect (mkState m K h) (mkState m' K' (set_slot h a j (hole e)))
| ef_update m e i K h m' a j v :
    cell h e i = Some (a, j) -> ~ is_hole v -> evaluated v ->
    effect (mkState m (KUpdate e i :: K) h) (mkState m' K (set_slot h a j v)).

Lemma keeps_refl K : keeps K K.
Proof. intros e i H. exact H. Qed.
Lemma keeps_push K k K' : keeps K K' -> keeps K (k :: K').
Proof. intros H e i Hi. right. apply H, Hi. Qed.
Lemma keeps_pop K k : (forall e i, k <> KUpdate e i) -> keeps (k :: K) K.
Proof. intros H e i [Hi | Hi]; [destruct (H e i); exact Hi | exact Hi]. Qed.

Lemma put_some (h : heap) e i v h' : put h e i v = Some h' -> exists a j, cell h e i = Some (a, j) /\ h' = set_slot h a j v.
Proof.
  unfold put. destruct (cell h e i) as [[a j]|]; [| discriminate].
  destruct (j <? length (array h a)); [| discriminate]. intros [= <-]. eauto.
Qed.
Lemma enter_effect m K0 K h e i er s' : keeps K0 K -> ((exists c u, m = MClo c 0 u e) \/ e = globals_env) ->
  enter K h e i er = Next s' -> effect (mkState m K0 h) s'.
Proof.
  intros Hk He. unfold enter. destruct (get h e i) as [[n | c a [] e']|]; try discriminate.
  - intros [= <-]. apply ef_same, Hk.
  - destruct (put h e i (hole e)) as [h'|] eqn:Ep; [| discriminate]. intros [= <-].
    destruct (put_some _ _ _ _ _ Ep) as (a0 & j & Hc & ->).
    apply ef_enter with (i := i); [apply keeps_push, Hk | left; reflexivity | exact He | exact Hc].
  - intros [= <-]. apply ef_same, Hk.
Qed.
Lemma callable_effect m K0 K h e r s' : keeps K0 K -> (exists c u, m = MClo c 0 u e) \/ (exists i, r = RG i) ->
  enter_callable K h e r = Next s' -> effect (mkState m K0 h) s'.
Proof.
  intros Hk He. destruct r as [i|i|n]; cbn [enter_callable]; [| | discriminate].
  - apply enter_effect; [exact Hk |]. destruct He as [He | [k Hr]]; [left; exact He | discriminate].
  - apply enter_effect; [exact Hk | right; reflexivity].
Qed.
Lemma body_effect m K0 K h e r s' : keeps K0 K -> (exists c u, m = MClo c 0 u e) ->
  enter_meta_body K h e r = Next s' -> effect (mkState m K0 h) s'.
Proof.
  intros Hk He. destruct r as [i|i|n]; cbn [enter_meta_body].
  - apply enter_effect; [exact Hk | left; exact He].
  - apply enter_effect; [exact Hk | right; reflexivity].
  - intros [= <-]. apply ef_same, Hk.
Qed.
Lemma prim_effect m K0 K h i vs s' : keeps K0 K -> run_prim prim K h i vs = Next s' -> effect (mkState m K0 h) s'.
Proof.
  intros Hk. unfold run_prim. destruct (natives_from h vs) as [ns|]; [| discriminate].
  destruct (prim i ns) as [n | tag [|f fs] | ]; [| | | discriminate]; intros [= <-].
  - apply ef_same, Hk.
  - apply ef_same, Hk.
  - apply ef_alloc, Hk.
Qed.
Lemma update_effect m e i K h v s' : ~ is_hole v -> evaluated v -> update m K h e i v = Next s' ->
  effect (mkState m (KUpdate e i :: K) h) s'.
Proof.
  intros Hv Hev. unfold update. destruct (put h e i v) as [h'|] eqn:Ep; [| discriminate]. intros [= <-].
  destruct (put_some _ _ _ _ _ Ep) as (a & j & Hc & ->). apply ef_update; assumption.
Qed.
Lemma bind_effect m K0 K h vs e c s' : keeps K0 K -> bind_values K h vs e c = Next s' -> effect (mkState m K0 h) s'.
Proof. intros Hk [= <-]. apply ef_alloc, Hk. Qed.

Ltac kept := first [apply keeps_refl | apply keeps_push; kept | apply keeps_pop; intros; discriminate
                   | intros ?e ?i [?H | ?H]; [discriminate | first [assumption | right; assumption]] ].

Ltac destruct_evaluated := cbn [evaluated]; first [exact I | match goal with |- match ?c with _ => _ end => destruct c end; exact I].

Lemma native_effect m K h n s' : return_native prim m K h n = Next s' -> effect (mkState m K h) s'.
Proof.
  destruct K as [|[bs fb e | e i | ms | hd oe e | body e | key d | i r e | i f e] K]; cbn [return_native]; try discriminate.
  - destruct fb; [| discriminate]. apply bind_effect. kept.
  - apply update_effect; [intros [e0 H]; discriminate |]. destruct_evaluated.
  - apply bind_effect. kept.
  - intros [= <-]. apply ef_same. kept.
  - intros [= <-]. apply ef_same. kept.
  - apply prim_effect. kept.
Qed.
Lemma data_effect tag args u e K h s' :
  return_data prim is_symbol symbols_equal merge (MClo (SCons tag args) 0 u e) K h tag args e = Next s' ->
  effect (mkState (MClo (SCons tag args) 0 u e) K h) s'.
Proof.
  destruct K as [|[bs fb e' | e' i | ms | hd oe e' | body e' | key d | i r e' | i f e'] K]; cbn [return_data]; try discriminate.
  - destruct (match_branch tag bs) as [body|].
    + destruct args as [|r rest]; [intros [= <-]; apply ef_same; kept |].
      unfold env_from_data_args. match goal with |- context [match ?sh with Some f => Some (f :: e', h) | None => _ end] => destruct sh as [f|] end.
      * intros [= <-]. apply ef_same. kept.
      * destruct (resolve_refs h e (r :: rest)) as [vs|]; [| discriminate]. intros [= <-]. apply ef_alloc. kept.
    + destruct fb; [| discriminate]. apply bind_effect. kept.
  - apply update_effect; [intros [e0 H]; discriminate |]. destruct_evaluated.
  - destruct (tag =? tag_block)%N; [| discriminate]. apply callable_effect; [kept | right; eauto].
  - apply bind_effect. kept.
  - intros [= <-]. apply ef_same. kept.
  - destruct (tag =? tag_block)%N; [| discriminate]. intros [= <-]. apply ef_same. kept.
  - destruct (is_boxed tag).
    + destruct args as [|r0 rest]; [discriminate |]. destruct (resolve_ref h e r0); [| discriminate].
      intros [= <-]. apply ef_same. apply keeps_refl.
    + intros [= <-]. apply ef_same. kept.
  - destruct (is_boxed tag).
    + destruct args as [|r0 rest]; [discriminate |]. destruct (resolve_ref h e r0); [| discriminate].
      intros [= <-]. apply ef_same. apply keeps_refl.
    + apply prim_effect. kept.
Qed.
Lemma fun_effect c a u e K h s' : return_fun prim (MClo c (S a) u e) K h c (S a) e = Next s' ->
  effect (mkState (MClo c (S a) u e) K h) s'.
Proof.
  destruct K as [|[bs fb e' | e' i | ms | hd oe e' | body e' | key d | i r e' | i f e'] K]; cbn [return_fun]; try discriminate.
  - destruct fb; [| discriminate]. apply bind_effect. kept.
  - apply update_effect; [intros [e0 H]; discriminate |]. destruct_evaluated.
  - destruct (length ms ?= S a).
    + intros [= <-]. apply ef_alloc. kept.
    + unfold partially_apply. match goal with |- context [if ?b then _ else _] => destruct b end; [| discriminate]. intros [= <-]. apply ef_alloc. kept.
    + intros [= <-]. apply ef_alloc. kept.
  - apply bind_effect. kept.
  - intros [= <-]. apply ef_same. kept.
  - intros [= <-]. apply ef_same. kept.
  - apply prim_effect. kept.
Qed.
Lemma meta_effect mt b u e K h s' : return_meta (MClo (SMeta mt b) 0 u e) K h e mt b = Next s' ->
  effect (mkState (MClo (SMeta mt b) 0 u e) K h) s'.
Proof.
  destruct K as [|[bs fb e' | e' i | ms | hd oe e' | body e' | key d | i r e' | i f e'] K]; cbn [return_meta].
  - destruct (resolve_ref h e mt); [| discriminate]. apply body_effect; [kept | eauto].
  - apply body_effect; [apply keeps_refl | eauto].
  - apply update_effect; [intros [e0 H]; discriminate |]. destruct_evaluated.
  - apply body_effect; [apply keeps_refl | eauto].
  - destruct (resolve_ref h e mt); [| discriminate]. destruct (resolve_ref h e b); [| discriminate]. apply bind_effect. kept.
  - apply body_effect; [apply keeps_refl | eauto].
  - apply body_effect; [apply keeps_refl | eauto].
  - apply body_effect; [apply keeps_refl | eauto].
  - apply body_effect; [apply keeps_refl | eauto].
Qed.

Lemma step_effect s s' : step s = Next s' -> effect s s'.
Proof.
  destruct s as [[n | c [|a] u e] K h]; cbn [Model.step].
  - apply native_effect.
  - destruct c as [r | scr bs fb | tag args | f args eager | smid f args eager | i args | [] fs body | smid body
                | mt b | scr hd oe | scr body | smid ky ob df | i l r inner | ]; cbn [handle_op].
    + destruct r as [i|i|n]; [apply enter_effect; [kept | left; eauto] | apply enter_effect; [kept | right; reflexivity] |].
      apply native_effect.
    + intros [= <-]. apply ef_same. kept.
    + apply data_effect.
    + destruct (make_args h e eager args); [| discriminate]. apply callable_effect; [kept | left; eauto].
    + destruct (make_args h e eager args) as [vs|]; [| discriminate].
      assert (Hgen : match resolve_ref h e f with
         | None => Fail (ref_error f)
         | Some (MNat _) => Fail ENotCallable
         | Some (MClo _ _ true _) => enter_callable (KApply vs :: K) h e f
         | Some (MClo c a false e') =>
             if a =? length vs then saturate K h c e' vs
             else Next (mkState (MClo c a false e') (KApply vs :: K) h)
         end = Next s' -> effect (mkState (MClo (SDirectApp smid f args eager) 0 u e) K h) s').
      { destruct (resolve_ref h e f) as [[n | c a [] e']|]; try discriminate.
        - apply callable_effect; [kept | left; eauto].
        - destruct (a =? length vs); [intros [= <-]; apply ef_alloc; kept | intros [= <-]; apply ef_same; kept]. }
      unfold direct_app. destruct f; [exact Hgen | exact Hgen | discriminate].
    + destruct (resolve_refs h e args); [| discriminate]. apply prim_effect. kept.
    + intros [= <-]. apply ef_alloc. kept.
    + intros [= <-]. apply ef_alloc. kept.
    + intros [= <-]. apply ef_same. kept.
    + apply meta_effect.
    + intros [= <-]. apply ef_same. kept.
    + intros [= <-]. apply ef_same. kept.
    + unfold lookup_lit. destruct ky as [ | | k]; try discriminate. destruct (is_symbol k); [| discriminate].
      assert (Hgen : match resolve_ref h e ob with
               | None => Fail (ref_error ob)
               | Some (MNat _) => Fail ENotCallable
               | Some (MClo c a u e' as v) =>
                   if match c with SCons tag _ => (tag =? tag_block)%N | _ => false end
                   then Next (mkState (or_default (lookup_in_block is_symbol symbols_equal h v k) (clo (SAtom df) e)) K h)
                   else
                     let s := KLookup k (clo (SAtom df) e) :: K in
                     match ob with
                     | RL _ => enter_callable s h e ob
                     | _ => Next (mkState v s h)
                     end
               end = Next s' -> effect (mkState (MClo (SLookupLit smid (RV k) ob df) 0 u e) K h) s').
      { destruct (resolve_ref h e ob) as [[n | c a u' e']|]; try discriminate.
        destruct (match c with SCons tag _ => (tag =? tag_block)%N | _ => false end);
          [intros [= <-]; apply ef_same; kept |].
        cbv zeta. destruct ob; [apply callable_effect; [kept | left; eauto] | |]; intros [= <-]; apply ef_same; kept. }
      destruct ob; [exact Hgen | exact Hgen | discriminate].
    + intros [= <-]. apply ef_same. kept.
    + discriminate.
  - apply fun_effect.
Qed.

(** Stopping leaves the heap as it is. *)
Lemma step_stop s s' : step s = Stop s' -> s_stack s = [] /\ s_heap s' = s_heap s.
Proof.
  assert (Hen : forall K h e i er, enter (native := native) K h e i er <> Stop s').
  { intros. unfold enter. destruct (get h e i) as [[n | c a [] e']|]; try discriminate.
    destruct (put h e i (hole e)); discriminate. }
  assert (Hcl : forall K h e r, enter_callable (native := native) K h e r <> Stop s').
  { intros K h e [i|i|n]; [apply Hen | apply Hen | discriminate]. }
  assert (Hbd : forall K h e r, enter_meta_body (native := native) K h e r <> Stop s').
  { intros K h e [i|i|n]; [apply Hen | apply Hen | discriminate]. }
  assert (Hup : forall m K h e i v, update (native := native) m K h e i v <> Stop s').
  { intros. unfold update. destruct (put h e i v); discriminate. }
  assert (Hpr : forall K h i vs, run_prim prim K h i vs <> Stop s').
  { intros. unfold run_prim. destruct (natives_from h vs) as [ns|]; [| discriminate].
    destruct (prim i ns) as [n | tag [|f fs] | ]; discriminate. }
  assert (Hnat : forall m K h n, return_native prim m K h n = Stop s' -> K = [] /\ s_heap s' = h).
  { intros m K h n. destruct K as [|[bs fb e | e i | ms | hd oe e | body e | key d | i r e | i f e] K];
      cbn [return_native]; intros H; try discriminate H.
    - injection H as <-. split; reflexivity.
    - destruct fb; discriminate.
    - destruct (Hup _ _ _ _ _ _ H).
    - destruct (Hpr _ _ _ _ H). }
  destruct s as [[n | c [|a] u e] K h]; cbn [Model.step s_stack s_heap].
  - apply Hnat.
  - destruct c as [r | scr bs fb | tag args | f args eager | smid f args eager | i args | [] fs body | smid body
                | mt b | scr hd oe | scr body | smid ky ob df | i l r inner | ]; cbn [handle_op]; intros H; try discriminate H.
    + destruct r; [destruct (Hen _ _ _ _ _ H) | destruct (Hen _ _ _ _ _ H) | apply (Hnat _ _ _ _ H)].
    + destruct K as [|[bs fb e' | e' i | ms | hd oe e' | body e' | key d | i r e' | i f e'] K];
        cbn [return_data] in H; try discriminate H.
      * injection H as <-. split; reflexivity.
      * destruct (match_branch tag bs); [| destruct fb; discriminate]. destruct args; [discriminate |].
        destruct (env_from_data_args h e (r :: args) e') as [[? ?]|]; discriminate.
      * destruct (Hup _ _ _ _ _ _ H).
      * destruct (tag =? tag_block)%N; [destruct (Hcl _ _ _ _ H) | discriminate].
      * destruct (tag =? tag_block)%N; discriminate.
      * destruct (is_boxed tag); [| discriminate]. destruct args as [|r0 ?]; [discriminate |].
        destruct (resolve_ref h e r0); discriminate.
      * destruct (is_boxed tag); [| destruct (Hpr _ _ _ _ H)]. destruct args as [|r0 ?]; [discriminate |].
        destruct (resolve_ref h e r0); discriminate.
    + destruct (make_args h e eager args); [destruct (Hcl _ _ _ _ H) | discriminate].
    + destruct (make_args h e eager args) as [vs|]; [| discriminate].
      exfalso. revert H. unfold direct_app. destruct f as [i|i|n]; [| | discriminate].
      * destruct (resolve_ref h e (RL i)) as [[n | c a [] e']|]; try discriminate; [apply Hcl |].
        destruct (a =? length vs); discriminate.
      * destruct (resolve_ref h e (RG i)) as [[n | c a [] e']|]; try discriminate; [apply Hcl |].
        destruct (a =? length vs); discriminate.
    + destruct (resolve_refs h e args); [destruct (Hpr _ _ _ _ H) | discriminate].
    + exfalso. revert H. destruct K as [|[bs fb e' | e' i | ms | hd oe e' | body e' | key d | i r e' | i f e'] K];
        cbn [return_meta]; try apply Hbd.
      * destruct (resolve_ref h e mt); [apply Hbd | discriminate].
      * apply Hup.
      * destruct (resolve_ref h e mt); [destruct (resolve_ref h e b) |]; discriminate.
    + exfalso. revert H. unfold lookup_lit. destruct ky as [i|i|k]; try discriminate. destruct (is_symbol k); [| discriminate].
      destruct ob as [i|i|n]; [| | discriminate].
      * destruct (resolve_ref h e (RL i)) as [[n | c a u' e']|]; try discriminate.
        destruct (match c with SCons tag _ => (tag =? tag_block)%N | _ => false end); [discriminate | apply Hcl].
      * destruct (resolve_ref h e (RG i)) as [[n | c a u' e']|]; try discriminate.
        destruct (match c with SCons tag _ => (tag =? tag_block)%N | _ => false end); discriminate.
  - destruct K as [|[bs fb e' | e' i | ms | hd oe e' | body e' | key d | i r e' | i f e'] K]; cbn [return_fun];
      intros H; try discriminate H.
    + injection H as <-. split; reflexivity.
    + destruct fb; discriminate.
    + destruct (Hup _ _ _ _ _ _ H).
    + exfalso. revert H. destruct (length ms ?= S a); try discriminate. unfold partially_apply. match goal with |- context [if ?b then _ else _] => destruct b end; discriminate.
    + destruct (Hpr _ _ _ _ H).
Qed.

(** Every placeholder awaits an update, and no argument list holds one. *)
Definition tidy (G : ghost) (s : state) : Prop :=
  (forall a j e, slot (s_heap s) a j = Some (hole e) ->
     exists e' i pe, In (KUpdate e' i) (s_stack s) /\ den_env G e' pe /\ gcell G e' i = Some (a, j)) /\
  (forall args v, In (KApply args) (s_stack s) -> In v args -> ~ is_hole v).

Lemma tidy_grows G G' s : grows G G' -> tidy G s -> tidy G' s.
Proof.
  intros [X ->]. revert G. induction X as [|x X IH]; intros G H; [rewrite app_nil_r; exact H |].
  replace (G ++ x :: X) with ((G ++ [x]) ++ X) by (rewrite <- app_assoc; reflexivity).
  apply IH. destruct H as [H1 H2]. split; [| exact H2]. intros a j e Hs.
  destruct (H1 a j e Hs) as (e' & i & pe & Hin & Hd & Hc). exists e', i, pe.
  split; [exact Hin | split; [apply den_env_ext, Hd |]]. erewrite gcell_ext by eassumption. exact Hc.
Qed.

Lemma slot_set_same (h : heap) a j v w : slot (set_slot h a j v) a j = Some w -> w = v.
Proof.
  unfold slot, set_slot, array. destruct (Nat.lt_ge_cases a (length h)) as [Ha|Ha].
  - rewrite nth_set_at_same by assumption. generalize (nth a h []). intros l. revert j.
    induction l as [|x l IH]; intros [|j]; simpl; try discriminate; [intros [= ->]; reflexivity | apply IH].
  - rewrite nth_overflow by (rewrite set_at_length; assumption). destruct j; discriminate.
Qed.
Lemma slot_set_other (h : heap) a j v b k : (a, j) <> (b, k) -> slot (set_slot h a j v) b k = slot h b k.
Proof.
  intros Hne. unfold slot, set_slot, array. destruct (Nat.eq_dec a b) as [->|Hab].
  - destruct (Nat.lt_ge_cases b (length h)) as [Ha|Ha].
    + rewrite nth_set_at_same by assumption. assert (Hjk : j <> k) by congruence. clear - Hjk.
      generalize (nth b h []). intros l. revert j k Hjk.
      induction l as [|x l IH]; intros [|j] [|k] Hjk; simpl; try congruence; try reflexivity. apply IH. congruence.
    + rewrite !nth_overflow; [reflexivity | assumption | rewrite set_at_length; assumption].
  - rewrite nth_set_at_other by assumption. reflexivity.
Qed.

Lemma inv_heap G ib s S0 : inv G ib s S0 -> hp G (s_heap s).
Proof. intros H; inversion H; subst; assumption. Qed.
Lemma inv_env G ib s S0 c u e : inv G ib s S0 -> s_cur s = MClo c 0 u e -> c <> SBlackHole -> exists pe, den_env G e pe.
Proof.
  intros H Hm Hc. inversion H as [c0 ib0 m p K K' h Hh Hcur Hcd Hs | k n a b e0 pe f held args K K' h Hh Ha Hb Hna Hnb]; subst; cbn [s_cur] in Hm.
  - subst m. inversion Hcur as [m' p' Hd | e0 p' a j Hg Hsl | b r e0 pe p' He Hv Ho]; subst.
    + inversion Hd; subst; [eexists; eassumption | lia].
    + congruence.
    + eexists; eassumption.
  - injection Hm as _ _ <-. eexists. constructor; [split; [exact Hb | reflexivity] |].
    constructor; [split; [exact Ha | reflexivity] | eassumption].
Qed.

Lemma tidy_step G ib s S0 s' : inv G ib s S0 -> tidy G s -> step s = Next s' -> ~ copies_placeholder s -> tidy G s'.
Proof.
  intros Hi Ht Hs Hno. pose proof (inv_heap _ _ _ _ Hi) as Hh. pose proof (step_effect _ _ Hs) as He.
  split.
  2: { intros args v Hin Hv Hhole. apply Hno. exists s'. split; [exact Hs |]. right. exists args, v. auto. }
  intros a j e0 Hsl. destruct Ht as [Ht _].
  destruct He as [m K h m' K' Hk | m K h m' K' vs Hk | m K h m' K' e i a0 j0 Hk Hin Hor Hc | m e i K h m' a0 j0 v Hc Hv Hev];
    cbn [s_heap s_stack] in *.
  - destruct (Ht a j e0 Hsl) as (e' & i & pe & H1 & H2 & H3). exists e', i, pe. auto.
  - destruct (Nat.lt_ge_cases a (length h)) as [Ha|Ha].
    + destruct (Ht a j e0) as (e' & i & pe & H1 & H2 & H3).
      { unfold slot, array in Hsl |- *. rewrite app_nth1 in Hsl by assumption. exact Hsl. }
      exists e', i, pe. auto.
    + exfalso. apply Hno. eexists. split; [exact Hs |]. left. exists a, (hole e0). cbn [s_heap].
      split; [exact Ha | split; [eapply nth_error_In; exact Hsl | exists e0; reflexivity]].
  - destruct (Nat.eq_dec a0 a) as [-> | Hna]; [destruct (Nat.eq_dec j0 j) as [-> | Hnj] |].
    + rewrite (hp_cell prim merge globals G h e i Hh) in Hc.
      assert (exists pe, den_env G e pe) as [pe Hpe].
      { destruct Hor as [(c & u & ->) | ->]; [| eexists; eapply globals_den; exact Hh].
        eapply inv_env; [exact Hi | reflexivity |]. intros ->. discriminate Hs. }
      exists e, i, pe. auto.
    + destruct (Ht a j e0) as (e' & i' & pe & H1 & H2 & H3); [rewrite slot_set_other in Hsl by congruence; exact Hsl |].
      exists e', i', pe. auto.
    + destruct (Ht a j e0) as (e' & i' & pe & H1 & H2 & H3); [rewrite slot_set_other in Hsl by congruence; exact Hsl |].
      exists e', i', pe. auto.
  - assert (Hne : (a0, j0) <> (a, j)).
    { intros [= -> ->]. apply slot_set_same in Hsl. subst v. apply Hv. exists e0. reflexivity. }
    destruct (Ht a j e0) as (e' & i' & pe & H1 & H2 & H3); [rewrite slot_set_other in Hsl by assumption; exact Hsl |].
    destruct H1 as [H1 | H1]; [| exists e', i', pe; auto].
    injection H1 as <- <-. rewrite (hp_cell prim merge globals G h e i Hh) in Hc. congruence.
Qed.
(** * A slot's expression is evaluated at most once *)
Lemma slot_back s s' a j v : step s = Next s' -> a < length (s_heap s) -> slot (s_heap s') a j = Some v ->
  ~ evaluated v -> ~ is_hole v -> slot (s_heap s) a j = Some v.
Proof.
  intros Hs Ha Hsl Hne Hnh. pose proof (step_effect _ _ Hs) as He.
  destruct He as [m K h m' K' Hk | m K h m' K' vs Hk | m K h m' K' e i a0 j0 Hk Hin Hor Hc | m e i K h m' a0 j0 w Hc Hv Hev];
    cbn [s_heap] in *.
  - exact Hsl.
  - unfold slot, array in *. rewrite app_nth1 in Hsl by assumption. exact Hsl.
  - destruct (Nat.eq_dec a0 a) as [-> | Hna]; [destruct (Nat.eq_dec j0 j) as [-> | Hnj] |].
    + apply slot_set_same in Hsl. subst v. destruct Hnh. exists e. reflexivity.
    + rewrite slot_set_other in Hsl by congruence. exact Hsl.
    + rewrite slot_set_other in Hsl by congruence. exact Hsl.
  - destruct (Nat.eq_dec a0 a) as [-> | Hna]; [destruct (Nat.eq_dec j0 j) as [-> | Hnj] |].
    + apply slot_set_same in Hsl. subst v. contradiction.
    + rewrite slot_set_other in Hsl by congruence. exact Hsl.
    + rewrite slot_set_other in Hsl by congruence. exact Hsl.
Qed.
Lemma heap_length s s' : step s = Next s' -> length (s_heap s) <= length (s_heap s').
Proof.
  intros Hs. destruct (step_effect _ _ Hs); cbn [s_heap]; unfold set_slot; rewrite ?app_length, ?set_at_length; lia.
Qed.
Notation visits := (visits prim is_symbol symbols_equal merge).
Lemma slot_since s t : visits s t -> forall a j v, a < length (s_heap s) -> slot (s_heap t) a j = Some v ->
  ~ evaluated v -> ~ is_hole v -> slot (s_heap s) a j = Some v.
Proof.
  induction 1 as [s | s s1 t Hs Hv IH]; intros a j v Ha Hsl Hne Hnh; [exact Hsl |].
  eapply slot_back; try eassumption. eapply IH; try eassumption. pose proof (heap_length _ _ Hs). lia.
Qed.
Theorem begins_once s s' t a j v w : begins prim is_symbol symbols_equal merge s a j v -> step s = Next s' ->
  visits s' t -> ~ begins prim is_symbol symbols_equal merge t a j w.
Proof.
  intros (s1 & w1 & Hs1 & Hv & Hne & Hnh & Hw1 & Hh1) Hs Hvis (t1 & w2 & Ht1 & Hw & Hne2 & Hnh2 & _).
  assert (s1 = s') as -> by congruence.
  assert (Ha : a < length (s_heap s')).
  { destruct (Nat.lt_ge_cases a (length (s_heap s'))) as [H|H]; [exact H |].
    unfold slot, array in Hw1. rewrite nth_overflow in Hw1 by exact H. destruct j; discriminate. }
  pose proof (slot_since _ _ Hvis a j w Ha Hw Hne2 Hnh2) as Hback.
  assert (w = w1) by congruence. subst w1. contradiction.
Qed.
End Clean.
