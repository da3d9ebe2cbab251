(** Optimised code refers to what is in scope, and defines no more. *)
From Coq Require Import List Bool Arith NArith Lia.
From Verif.Bytecode Require Import Model Spec.
From Verif.Machine Require Import Model Spec.
From Verif.Optimise Require Import Model Spec Relate Applies.
Import ListNotations.
Open Scope nat_scope.

Section Scopes.
Context {native : Type}.
Notation ref := (ref native).
Notation syn := (syn native).
Notation form := (form native).

Definition into (T : list change) (d d' : nat) : Prop := forall i, i < d -> index T i < d'.
Lemma into_shifted n T d d' : into T d d' -> into (Shifted n :: T) (n + d) (n + d').
Proof. intros H i Hi. simpl. destruct (Nat.ltb_spec i n); [lia |]. specialize (H (i - n)). lia. Qed.
Lemma into_bumped T d d' : into T d d' -> into (Bumped 1 :: T) d (1 + d').
Proof. intros H i Hi. simpl. specialize (H i Hi). lia. Qed.
Lemma into_mapped m T d d' : Forall (fun i => i < d) m -> into T d d' -> into (Mapped m :: T) (length m + d) d'.
Proof.
  intros Hm H i Hi. simpl. destruct (nth_error m i) as [j|] eqn:E.
  - apply H. rewrite Forall_forall in Hm. apply Hm. eapply nth_error_In; exact E.
  - apply nth_error_None in E. apply H. lia.
Qed.
Lemma into_scope k T d d' : into T d d' -> into (in_scope k T) (N.to_nat (fk_arity k) + d) (N.to_nat (fk_arity k) + d').
Proof. destruct k; simpl; intros H; [apply into_shifted; exact H | exact H | exact H]. Qed.

Lemma bound_into T d d' (x : ref) : into T d d' -> bound d x -> bound d' (transform T x).
Proof. destruct x; simpl; intros H Hb; [| exact I | exact I]. rewrite Nat2N.id. apply H, Hb. Qed.
Lemma bounds_into T d d' (xs : list ref) : into T d d' -> bounds d xs -> bounds d' (map (transform T) xs).
Proof. intros H. induction 1; simpl; constructor; [eapply bound_into; eassumption | assumption]. Qed.

Lemma collect_all {A B} (f : A -> option B) (P : A -> Prop) (Q : B -> Prop) (l : list A) : forall l',
  Forall (fun a => forall b, P a -> f a = Some b -> Q b) l -> All P l -> collect f l = Some l' -> All Q l'.
Proof.
  induction l as [|a l IH]; intros l' H HP; cbn [collect]; [intros [= <-]; exact I |].
  destruct (f a) as [b|] eqn:E; [| discriminate]. destruct (collect f l) as [l1|]; [| discriminate]. intros [= <-].
  inversion H as [|? ? Ha Hl]; subst. destruct HP as [Pa Pl]. split; [apply Ha; auto | apply IH; auto].
Qed.
Lemma collect_length {A B} (f : A -> option B) (l : list A) : forall l', collect f l = Some l' -> length l' = length l.
Proof.
  induction l as [|a l IH]; intros l'; cbn [collect]; [intros [= <-]; reflexivity |].
  destruct (f a); [| discriminate]. destruct (collect f l); [| discriminate]. intros [= <-]. simpl. f_equal. apply IH. reflexivity.
Qed.


Theorem apply_scoped (t : syn) : forall T d d' t', into T d d' -> lookup_free t -> scoped d t -> undecided t ->
  apply T t = Some t' -> scoped d' t'.
Proof.
  induction t using syn_induct; intros T d d' t' I P S U; cbn [apply lookup_free scoped undecided] in *.
  - intros [= <-]. eapply bound_into; eassumption.
  - destruct P as (P1 & P2 & P3), S as (S1 & S2 & S3), U as (U0 & U1 & U2 & U3). rename H0 into Hfb.
    destruct (apply T t) as [scr'|] eqn:E; [| discriminate].
    pose proof (stays_undecided _ _ _ U1 U0 E) as Hc. apply (IHt T d d') in E; try assumption.
    match goal with |- (if ?b then _ else _) = _ -> _ => destruct b eqn:Ef end.
    + destruct bs as [|[tag b] [|]]; try discriminate. destruct fb; [discriminate |].
      destruct (arity tag) as [[|]|] eqn:Ea; try discriminate. clear Ef.
      destruct (apply (Bumped 1 :: T) b) as [b'|] eqn:Eb; simpl; [| discriminate]. intros [= <-].
      inversion H as [|? ? Hb _]; subst. split; [exact E |]. split; [exact Logic.I |].
      eapply (Hb (Bumped 1 :: T) d); [apply into_bumped; exact I | apply P2 | | apply U2 | exact Eb].
      apply (proj1 S2 0). apply arity_fields. exact Ea.
    + assert (Hre : match collect (fun b => match arity (fst b) with
                                      | Some n => option_map (pair (fst b)) (apply (Shifted n :: T) (snd b))
                                      | None => None
                                      end) bs,
                    match fb with Some f => option_map Some (apply (Shifted 1 :: T) f) | None => Some None end with
              | Some bs', Some fb' => Some (SCase scr' bs' fb')
              | _, _ => None
              end = Some t' -> scoped d' t').
      { destruct (collect _ bs) as [bs'|] eqn:Ebs; [| discriminate].
        assert (Hbs : All (fun b => forall n, has_fields (fst b) n -> scoped (n + d') (snd b)) bs').
        { eapply (collect_all _ (fun b => lookup_free (snd b) /\ undecided (snd b) /\
                                          forall n, has_fields (fst b) n -> scoped (n + d) (snd b))); [| | exact Ebs].
          - eapply Forall_impl; [| exact H]. intros [tag b]; cbn [fst snd]. intros Hb bb (A1 & A2 & A3).
            destruct (arity tag) as [n|] eqn:En; [| discriminate].
            destruct (apply (Shifted n :: T) b) as [b'|] eqn:Eb; [| discriminate]. intros [= <-]. cbn [fst snd].
            intros k Hk. apply arity_fields in Hk. rewrite En in Hk. injection Hk as <-. apply arity_fields in En.
            eapply (Hb (Shifted n :: T) (n + d)); [apply into_shifted; exact I | assumption | apply A3; exact En | assumption | exact Eb].
          - clear - P2 U2 S2. induction bs as [|b bs IH]; simpl in *; [exact Logic.I |]. tauto. }
        destruct fb as [f|].
        - destruct (apply (Shifted 1 :: T) f) as [f'|] eqn:Ef'; simpl; [| discriminate]. intros [= <-].
          split; [exact E |]. split; [exact Hbs |].
          eapply (Hfb f eq_refl (Shifted 1 :: T) (1 + d) (1 + d')); try eassumption. apply into_shifted; exact I.
        - intros [= <-]. split; [exact E |]. split; [exact Hbs | exact Logic.I]. }
      destruct scr'; try discriminate; exact Hre.
  - intros [= <-]. eapply bounds_into; eassumption.
  - intros [= <-]. split; [eapply bound_into | eapply bounds_into]; try eassumption; apply S.
  - intros [= <-]. split; [eapply bound_into | eapply bounds_into]; try eassumption; apply S.
  - intros [= <-]. eapply bounds_into; eassumption.
  - destruct P as (P1 & P2), S as (S1 & S2), U as (U1 & U2).
    destruct (if rec then letrec_changes (length bs) bs else let_changes bs) as [m|] eqn:Em.
    + assert (Hm : Forall (fun i => i < d) m /\ length m = length bs).
      { destruct rec; split; [eapply letrec_changes_bound | eapply letrec_changes_length | eapply let_changes_bound | eapply let_changes_length]; eassumption. }
      destruct Hm as [Hm Hl]. apply (IHt (Mapped m :: T) (length bs + d)); try assumption.
      rewrite <- Hl. apply into_mapped; assumption.
    + destruct (collect _ bs) as [fs'|] eqn:Ec; [| discriminate]. destruct (apply _ t) as [body'|] eqn:Eb; [| discriminate].
      intros [= <-]. cbn [scoped]. rewrite (collect_length _ _ _ Ec).
      assert (Ib : into (Shifted (length bs) :: T) (length bs + d) (length bs + d')) by (apply into_shifted; exact I).
      split; [| eapply IHt; eassumption].
      set (Tb := if rec then Shifted (length bs) :: T else T) in *.
      assert (It : into Tb (if rec then length bs + d else d) (if rec then length bs + d' else d')) by (destruct rec; assumption).
      eapply (collect_all _ (fun f => lookup_free (snd f) /\ undecided (snd f) /\
                               scoped (params f + (if rec then length bs + d else d)) (snd f))); [| | exact Ec].
      * eapply Forall_impl; [| exact H]. intros [k c]; cbn [fst snd]. intros Hb bb (A1 & A2 & A3).
        destruct (apply (in_scope k Tb) c) as [c'|] eqn:Ec'; [| discriminate]. intros [= <-]. cbn [snd params fst].
        eapply Hb; [apply into_scope; exact It | assumption | exact A3 | assumption | exact Ec'].
      * clear - P1 U1 S1. revert S1. generalize (if rec then length bs + d else d). intros k S1.
        induction bs as [|b bs IH]; simpl in *; [exact Logic.I |]. tauto.
  - destruct (apply T t) as [b|] eqn:E; cbn [option_map]; [intros [= <-] | discriminate]. exact (IHt _ _ _ _ I P S U E).
  - intros [= <-]. split; eapply bound_into; try eassumption; apply S.
  - destruct P as (P1 & P2 & P3), S as (S1 & S2 & S3), U as (U1 & U2 & U3).
    destruct (apply T t1) eqn:E1, (apply (Shifted 2 :: T) t2) eqn:E2, (apply (Shifted 1 :: T) t3) eqn:E3; try discriminate.
    intros [= <-]. split; [eapply IHt1; eassumption |]. split.
    + eapply (IHt2 _ (2 + d) (2 + d')); try eassumption. apply into_shifted; exact I.
    + eapply (IHt3 _ (1 + d) (1 + d')); try eassumption. apply into_shifted; exact I.
  - destruct P as (P1 & P2), S as (S1 & S2), U as (U1 & U2).
    destruct (apply T t1) eqn:E1, (apply T t2) eqn:E2; try discriminate.
    intros [= <-]. split; [eapply IHt1 | eapply IHt2]; eassumption.
  - destruct P.
  - destruct S as (S1 & S2 & S3). destruct (apply T t) eqn:E; simpl; [intros [= <-] | discriminate].
    split; [eapply bound_into; eassumption |]. split; [eapply bound_into; eassumption | eapply IHt; eassumption].
  - intros [= <-]. exact Logic.I.
Qed.

Lemma collect_sum {A B} (f : A -> option B) (m : A -> nat) (m' : B -> nat) (l : list A) : forall l',
  Forall (fun a => forall b, f a = Some b -> m' b <= m a) l -> collect f l = Some l' ->
  list_sum (map m' l') <= list_sum (map m l).
Proof.
  induction l as [|a l IH]; intros l' H; cbn [collect]; [intros [= <-]; reflexivity |].
  destruct (f a) as [b|] eqn:E; [| discriminate]. destruct (collect f l) as [l1|]; [| discriminate]. intros [= <-].
  inversion H as [|? ? Ha Hl]; subst. simpl. pose proof (Ha b E). pose proof (IH l1 Hl eq_refl). lia.
Qed.

Lemma all_forall {A} (g : A -> syn) (l : list A) :
  Forall (fun a => forall T t', undecided (g a) -> apply T (g a) = Some t' -> definitions t' <= definitions (g a)) l ->
  All (fun a => undecided (g a)) l ->
  Forall (fun a => forall T t', apply T (g a) = Some t' -> definitions t' <= definitions (g a)) l.
Proof. induction 1; simpl; intros; constructor; intuition. eauto. Qed.

Theorem apply_definitions (t : syn) : forall T t', undecided t -> apply T t = Some t' -> definitions t' <= definitions t.
Proof.
  induction t using syn_induct; intros T t' U; cbn [apply undecided] in *; try (intros [= <-]; reflexivity).
  - destruct U as (U0 & U1 & U2 & U3). rename H0 into Hfb.
    destruct (apply T t) as [scr'|] eqn:E; [| discriminate].
    pose proof (stays_undecided _ _ _ U1 U0 E) as Hc. apply (IHt T) in E; try assumption.
    apply (all_forall snd _ H) in U2. clear H.
    match goal with |- (if ?b then _ else _) = _ -> _ => destruct b eqn:Ef end.
    + destruct bs as [|[tag b] [|]]; try discriminate. destruct fb; [discriminate |].
      destruct (apply (Bumped 1 :: T) b) as [b'|] eqn:Eb; simpl; [| discriminate]. intros [= <-].
      inversion U2 as [|? ? Hb _]; subst. apply Hb in Eb. simpl in *. lia.
    + assert (Hre : match collect (fun b => match arity (fst b) with
                                      | Some n => option_map (pair (fst b)) (apply (Shifted n :: T) (snd b))
                                      | None => None
                                      end) bs,
                    match fb with Some f => option_map Some (apply (Shifted 1 :: T) f) | None => Some None end with
              | Some bs', Some fb' => Some (SCase scr' bs' fb')
              | _, _ => None
              end = Some t' -> definitions t' <= definitions (SCase t bs fb)).
      { destruct (collect _ bs) as [bs'|] eqn:Ebs; [| discriminate].
        apply (collect_sum _ (fun b => definitions (snd b)) (fun b => definitions (snd b))) in Ebs.
        - destruct fb as [f|].
          + destruct (apply (Shifted 1 :: T) f) as [f'|] eqn:Ef'; simpl; [| discriminate]. intros [= <-].
            apply (Hfb f eq_refl) in Ef'; [| exact U3]. cbn [definitions]. lia.
          + intros [= <-]. cbn [definitions]. lia.
        - eapply Forall_impl; [| exact U2]. intros [tag b] Hb bb; cbn [fst snd]. destruct (arity tag); [| discriminate].
          destruct (apply _ b) eqn:Eb; [| discriminate]. intros [= <-]. eapply Hb, Eb. }
      destruct scr'; try discriminate; exact Hre.
  - destruct U as (U1 & U2). destruct (if rec then letrec_changes (length bs) bs else let_changes bs) as [m|] eqn:Em.
    + intros E. apply IHt in E; [| exact U2]. cbn [definitions]. lia.
    + destruct (collect _ bs) as [fs'|] eqn:Ec; [| discriminate]. destruct (apply _ t) as [body'|] eqn:Eb; [| discriminate].
      intros [= <-]. cbn [definitions]. rewrite (collect_length _ _ _ Ec). apply IHt in Eb; [| exact U2].
      apply (collect_sum _ (fun b => definitions (snd b)) (fun b => definitions (snd b))) in Ec; [lia |].
      apply (all_forall snd _ H) in U1. eapply Forall_impl; [| exact U1]. intros [k c] Hc bb; cbn [fst snd].
      destruct (apply _ c) eqn:Eb'; [| discriminate]. intros [= <-]. eapply Hc, Eb'.
  - destruct (apply T t) as [b|] eqn:E; cbn [option_map]; [intros [= <-] | discriminate]. exact (IHt _ _ U E).
  - destruct U as (U1 & U2 & U3).
    destruct (apply T t1) eqn:E1, (apply (Shifted 2 :: T) t2) eqn:E2, (apply (Shifted 1 :: T) t3) eqn:E3; try discriminate.
    intros [= <-]. apply IHt1 in E1; [| exact U1]. apply IHt2 in E2; [| exact U2]. apply IHt3 in E3; [| exact U3]. simpl. lia.
  - destruct U as (U1 & U2). destruct (apply T t1) eqn:E1, (apply T t2) eqn:E2; try discriminate.
    intros [= <-]. apply IHt1 in E1; [| exact U1]. apply IHt2 in E2; [| exact U2]. simpl. lia.
  - destruct (apply T t) as [b|] eqn:E; cbn [option_map]; [intros [= <-] | discriminate]. exact (IHt _ _ U E).
Qed.
End Scopes.
