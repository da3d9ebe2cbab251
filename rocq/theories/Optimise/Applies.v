(** What the optimiser makes of code is related to the code. *)
From Coq Require Import List Bool Arith NArith Lia.
From Verif.Bytecode Require Import Model Spec.
From Verif.Machine Require Import Model Spec.
From Verif.Optimise Require Import Model Spec Relate.
Import ListNotations.
Open Scope nat_scope.

Section Applies.
Context {native : Type}.
Notation ref := (ref native).
Notation syn := (syn native).
Notation form := (form native).

Fixpoint syn_induct (P : syn -> Prop)
  (Hatom : forall r, P (SAtom r))
  (Hcase : forall scr bs fb, P scr -> Forall (fun b => P (snd b)) bs -> (forall f, fb = Some f -> P f) -> P (SCase scr bs fb))
  (Hcons : forall tag args, P (SCons tag args))
  (Happ : forall c args e, P (SApp c args e))
  (Hdapp : forall s c args e, P (SDirectApp s c args e))
  (Hbif : forall i args, P (SBif i args))
  (Hlet : forall rec bs body, Forall (fun b => P (snd b)) bs -> P body -> P (SLet rec bs body))
  (Hann : forall s body, P body -> P (SAnn s body))
  (Hmeta : forall m b, P (SMeta m b))
  (Hdemeta : forall a b c, P a -> P b -> P c -> P (SDeMeta a b c))
  (Hseq : forall a b, P a -> P b -> P (SSeq a b))
  (Hlookup : forall s k o other, P (SLookupLit s k o other))
  (Hfused : forall id l r inner, P inner -> P (SFused id l r inner))
  (Hbh : P SBlackHole) (t : syn) {struct t} : P t.
Proof.
  pose (IH := syn_induct P Hatom Hcase Hcons Happ Hdapp Hbif Hlet Hann Hmeta Hdemeta Hseq Hlookup Hfused Hbh).
  destruct t.
  - apply Hatom.
  - apply Hcase.
    + apply IH.
    + induction branches as [|b bs IHb]; constructor; [apply IH|exact IHb].
    + destruct fallback as [f|]; [|discriminate]. pose proof (IH f) as Hf. intros f' E. injection E as <-. exact Hf.
  - apply Hcons.
  - apply Happ.
  - apply Hdapp.
  - apply Hbif.
  - apply Hlet; [| apply IH]. induction bindings as [|b bs IHb]; constructor; [apply IH|exact IHb].
  - apply Hann, IH.
  - apply Hmeta.
  - apply Hdemeta; apply IH.
  - apply Hseq; apply IH.
  - apply Hlookup.
  - apply Hfused, IH.
  - apply Hbh.
Qed.

(** ** Indices *)
Lemma index_shifted n T : same (index (Shifted n :: T)) (lift n (index T)).
Proof. intros i. reflexivity. Qed.
Lemma index_mapped m T : same (index (Mapped m :: T)) (mapped m (index T)).
Proof. intros i. reflexivity. Qed.
Lemma index_bumped T : same (index (Bumped 1 :: T)) (fun i => index T i + 1).
Proof. intros i. reflexivity. Qed.
Lemma in_scope_lift k T : same (index (in_scope k T)) (lift (N.to_nat (fk_arity k)) (index T)).
Proof. destruct k; intros i; simpl; unfold lift; simpl; try reflexivity; rewrite Nat.sub_0_r, Nat.add_0_r; reflexivity. Qed.

Lemma transform_rel T d (x : ref) : bound d x -> rrel (index T) d x (transform T x).
Proof. destruct x as [i|i|n]; simpl; intros H; constructor; [exact H | lia]. Qed.
Lemma transform_rels T d (xs : list ref) : bounds d xs -> Forall2 (rrel (index T) d) xs (map (transform T) xs).
Proof. induction 1; simpl; constructor; [apply transform_rel; assumption | assumption]. Qed.

Lemma local_atom_bound (f : form) i d : local_atom f = Some i -> scoped (params f + d) (snd f) -> i < d.
Proof. destruct f as [k t]; destruct k, t as [r| | | | | | | | | | | | |]; simpl; try discriminate; destruct r; simpl; try discriminate; intros [= <-]; auto. Qed.
Lemma let_changes_bound d (fs : list form) : forall m, let_changes fs = Some m ->
  All (fun f => scoped (params f + d) (snd f)) fs -> Forall (fun i => i < d) m.
Proof.
  induction fs as [|f fs IH]; simpl; intros m; [intros [= <-] _; constructor |].
  destruct (local_atom f) as [i|] eqn:E; [| discriminate]. destruct (let_changes fs) as [m'|]; [| discriminate].
  intros [= <-] [H1 H2]. constructor; [eapply local_atom_bound; eassumption | apply IH; auto].
Qed.
Lemma letrec_changes_bound n d (fs : list form) : forall m, letrec_changes n fs = Some m ->
  All (fun f => scoped (params f + (n + d)) (snd f)) fs -> Forall (fun i => i < d) m.
Proof.
  induction fs as [|f fs IH]; simpl; intros m; [intros [= <-] _; constructor |].
  destruct (local_atom f) as [i|] eqn:E; [| discriminate]. destruct (letrec_changes n fs) as [m'|]; [| discriminate].
  destruct (Nat.ltb_spec i n); [discriminate |].
  intros [= <-] [H1 H2]. constructor; [apply (local_atom_bound _ _ (n + d)) in E; [lia | exact H1] | apply IH; auto].
Qed.

(** ** Results are not constructors unless they were *)
Definition is_cons (t : syn) : bool := match t with SCons _ _ => true | _ => false end.
Lemma stays_undecided (t : syn) : forall T t', undecided t -> constructs t = false -> apply T t = Some t' -> is_cons t' = false.
Proof.
  induction t using syn_induct; intros T t' U C; cbn [apply undecided constructs] in *.
  - intros [= <-]. reflexivity.
  - destruct U as (Cs & Us & _ & _). destruct (apply T t) as [scr'|] eqn:E; [| discriminate].
    pose proof (IHt _ _ Us Cs E) as Hc.
    assert (Hre : forall o1 o2, match o1, o2 with Some bs', Some fb' => Some (SCase scr' bs' fb') | _, _ => None end = Some t' ->
      is_cons t' = false) by (intros [?|] [?|]; try discriminate; intros [= <-]; reflexivity).
    assert (Hf : forall o, option_map (fun b' => SCase scr' [] (Some b')) o = Some t' -> is_cons t' = false)
      by (intros [?|]; simpl; try discriminate; intros [= <-]; reflexivity).
    destruct scr'; try discriminate; (match goal with |- (if ?b then _ else _) = _ -> _ => destruct b end; [| apply Hre]);
      (destruct bs as [|[tag b] bs]; [discriminate | apply Hf]).
  - discriminate.
  - intros [= <-]. reflexivity.
  - intros [= <-]. reflexivity.
  - intros [= <-]. reflexivity.
  - destruct U as [_ Ub]. destruct (if rec then _ else _) as [m|]; [apply IHt; assumption |].
    destruct (collect _ _); [| discriminate]. destruct (apply _ t); [| discriminate]. intros [= <-]. reflexivity.
  - destruct (apply T t); simpl; [intros [= <-]; reflexivity | discriminate].
  - intros [= <-]. reflexivity.
  - destruct (apply T t1), (apply (Shifted 2 :: T) t2), (apply (Shifted 1 :: T) t3); try discriminate. intros [= <-]. reflexivity.
  - destruct (apply T t1), (apply T t2); try discriminate. intros [= <-]. reflexivity.
  - intros [= <-]. reflexivity.
  - destruct (apply T t); simpl; [intros [= <-]; reflexivity | discriminate].
  - intros [= <-]. reflexivity.
Qed.

(** ** What is related *)
Lemma collect_branches forcing T d (bs : list (N * syn)) :
  Forall (fun b => forall n b', has_fields (fst b) n -> apply (Shifted n :: T) (snd b) = Some b' ->
                   opt forcing (index (Shifted n :: T)) (n + d) (snd b) b') bs ->
  forall bs', collect (fun b => match arity (fst b) with
                                | Some n => option_map (pair (fst b)) (apply (Shifted n :: T) (snd b))
                                | None => None
                                end) bs = Some bs' -> brel forcing (index T) d bs bs'.
Proof.
  induction 1 as [|[tag b] bs H _ IH]; cbn [collect fst snd]; intros bs'; [intros [= <-]; constructor |].
  destruct (arity tag) as [n|] eqn:Ea; [| discriminate]. apply arity_fields in Ea.
  destruct (apply (Shifted n :: T) b) as [b'|] eqn:E; simpl; [| discriminate].
  destruct (collect _ bs) as [bs1|]; [| discriminate]. intros [= <-].
  eapply b_cons; [exact Ea | apply index_shifted | apply (H n b' Ea E) | apply IH; reflexivity].
Qed.
Lemma collect_forms forcing T d (fs : list form) :
  Forall (fun f => forall c', apply (in_scope (fst f) T) (snd f) = Some c' ->
                   opt forcing (index (in_scope (fst f) T)) (params f + d) (snd f) c') fs ->
  forall fs', collect (fun f => option_map (pair (fst f)) (apply (in_scope (fst f) T) (snd f))) fs = Some fs' ->
  frel forcing (index T) d fs fs'.
Proof.
  induction 1 as [|[k c] fs H _ IH]; cbn [collect fst snd]; intros fs'; [intros [= <-]; constructor |].
  cbn [fst snd] in H. destruct (apply (in_scope k T) c) as [c'|] eqn:E; simpl; [| discriminate].
  destruct (collect _ fs) as [fs1|]; [| discriminate]. intros [= <-].
  eapply f_cons; [reflexivity | apply in_scope_lift | apply (H c' eq_refl) | apply IH; reflexivity].
Qed.

Lemma all_and {A} (P Q R : A -> Prop) (l : list A) : Forall (fun a => P a -> Q a -> R a) l -> All P l -> All Q l -> Forall R l.
Proof. induction 1; simpl; intros; constructor; intuition. Qed.

Lemma no_checks (forcing : bool) (bs : list (N * syn)) fb : Is_true forcing \/ ~ checks_only bs fb ->
  forall tag b, bs = [(tag, b)] -> fb = None -> arity tag = Some 0 -> Is_true forcing.
Proof. intros [H|H] tag b E1 E2 E3; [exact H |]. destruct H. exists tag, b. apply arity_fields in E3. auto. Qed.

Lemma weaken (forcing : bool) (P Q : Prop) : (P -> Q) -> Is_true forcing \/ P -> Is_true forcing \/ Q.
Proof. tauto. Qed.

Lemma All_weaken {A} (forcing : bool) (P : A -> Prop) l : Is_true forcing \/ All P l -> All (fun a => Is_true forcing \/ P a) l.
Proof. induction l; simpl; intuition. Qed.

Lemma all4 {A} (P1 P2 P3 P4 P5 R : A -> Prop) (l : list A) : Forall (fun a => P1 a -> P2 a -> P3 a -> P4 a -> P5 a -> R a) l ->
  All P1 l -> All P2 l -> All P3 l -> All P4 l -> All P5 l -> Forall R l.
Proof. induction 1; simpl; intros; constructor; intuition. Qed.

Theorem apply_related forcing (t : syn) : forall T d t', plain t -> scoped d t -> regular t -> undecided t -> Is_true forcing \/ unchecked t ->
  apply T t = Some t' -> opt forcing (index T) d t t'.
Proof.
  induction t using syn_induct; intros T d t' P S R U K; cbn [apply plain scoped regular undecided unchecked] in *.
  - intros [= <-]. apply o_here, c_atom, transform_rel, S.
  - destruct P as (P1 & P2 & P3), S as (S1 & S2 & S3), R as (R1 & R2 & R3), U as (U0 & U1 & U2 & U3).
    assert (K0 : Is_true forcing \/ ~ checks_only bs fb) by tauto.
    assert (K1 : Is_true forcing \/ unchecked t) by tauto.
    assert (K2 : Is_true forcing \/ All (fun b => unchecked (snd b)) bs) by tauto.
    assert (K3 : Is_true forcing \/ match fb with Some f => unchecked f | None => True end) by tauto.
    destruct (apply T t) as [scr'|] eqn:E; [| discriminate].
    pose proof (stays_undecided _ _ _ U1 U0 E) as Hc. apply (IHt T d) in E; try assumption.
    apply All_weaken in K2. rename H0 into Hfb.
    match goal with |- (if ?b then _ else _) = _ -> _ => destruct b eqn:Ef end.
    + destruct bs as [|[tag b] [|]]; try discriminate. destruct fb; [discriminate |].
      destruct (arity tag) as [[|]|] eqn:Ea; try discriminate. clear Ef.
      destruct (apply (Bumped 1 :: T) b) as [b'|] eqn:Eb; simpl; [| discriminate]. intros [= <-].
      inversion H as [|? ? Hb _]; subst. simpl in *.
      apply o_here. eapply c_force; [eapply no_checks; eauto | exact E | apply arity_fields; exact Ea | apply index_bumped |].
      apply Hb; [tauto | | tauto | tauto | tauto | exact Eb].
      apply (proj1 S2 0). apply arity_fields. exact Ea.
    + assert (Hre : match collect (fun b => match arity (fst b) with
                                      | Some n => option_map (pair (fst b)) (apply (Shifted n :: T) (snd b))
                                      | None => None
                                      end) bs,
                    match fb with Some f => option_map Some (apply (Shifted 1 :: T) f) | None => Some None end with
              | Some bs', Some fb' => Some (SCase scr' bs' fb')
              | _, _ => None
              end = Some t' -> opt forcing (index T) d (SCase t bs fb) t').
      { destruct (collect _ bs) as [bs'|] eqn:Ebs; [| discriminate].
        assert (Hbs : brel forcing (index T) d bs bs').
        { eapply collect_branches; [| exact Ebs].
          eapply (all4 (fun b => plain (snd b)) (fun b => forall n, has_fields (fst b) n -> scoped (n + d) (snd b))
                    (fun b => (exists n, has_fields (fst b) n) /\ regular (snd b)) (fun b => undecided (snd b))
                    (fun b => Is_true forcing \/ unchecked (snd b))); try assumption.
          eapply Forall_impl; [| exact H]. intros [tag b]; cbn [fst snd]. intros Hb A1 A2 [_ A3] A4 A5 n b' Hn Hap.
          apply (Hb (Shifted n :: T)); auto. }
        destruct fb as [f|].
        - destruct (apply (Shifted 1 :: T) f) as [f'|] eqn:Ef'; simpl; [| discriminate]. intros [= <-].
          apply o_here. eapply c_fallback; [exact E | exact Hbs | apply (index_shifted 1) |].
          apply (Hfb f eq_refl); try assumption.
        - intros [= <-]. apply o_here, c_case; assumption. }
      destruct scr'; try discriminate; exact Hre.
  - intros [= <-]. apply o_here, c_cons; [exact R | apply transform_rels, S].
  - intros [= <-]. apply o_here, c_app; [apply transform_rel, S | apply transform_rels, S].
  - intros [= <-]. apply o_here, c_direct; [apply transform_rel, S | apply transform_rels, S].
  - intros [= <-]. apply o_here, c_bif, transform_rels, S.
  - destruct P as (P1 & P2), S as (S1 & S2), R as (R1 & R2), U as (U1 & U2).
    assert (K1 : Is_true forcing \/ All (fun b => unchecked (snd b)) bs) by tauto.
    assert (K2 : Is_true forcing \/ unchecked t) by tauto. apply All_weaken in K1. clear K.
    destruct rec.
    + destruct (letrec_changes (length bs) bs) as [m|] eqn:Em.
      * intros E. eapply o_letrec; [exact Em | eapply letrec_changes_bound; eassumption | apply index_mapped |]. apply IHt; assumption.
      * destruct (collect _ bs) as [fs'|] eqn:Ec; [| discriminate]. destruct (apply _ t) as [body'|] eqn:Eb; [| discriminate].
        intros [= <-]. apply o_here. eapply c_letrec; [apply index_shifted | | apply IHt; assumption].
        eapply collect_forms; [| exact Ec].
        eapply (all4 (fun b => plain (snd b)) (fun f => scoped (params f + (length bs + d)) (snd f))
                    (fun b => regular (snd b)) (fun b => undecided (snd b))
                    (fun b => Is_true forcing \/ unchecked (snd b))); try assumption.
        eapply Forall_impl; [| exact H]. intros [k c]; cbn [fst snd]. intros Hb A1 A2 A3 A4 A5 c' Hap. apply Hb; auto.
    + destruct (let_changes bs) as [m|] eqn:Em.
      * intros E. eapply o_let; [exact Em | eapply let_changes_bound; eassumption | apply index_mapped |]. apply IHt; assumption.
      * destruct (collect _ bs) as [fs'|] eqn:Ec; [| discriminate]. destruct (apply _ t) as [body'|] eqn:Eb; [| discriminate].
        intros [= <-]. apply o_here. eapply c_let; [| apply index_shifted | apply IHt; assumption].
        eapply collect_forms; [| exact Ec].
        eapply (all4 (fun b => plain (snd b)) (fun f => scoped (params f + d) (snd f))
                    (fun b => regular (snd b)) (fun b => undecided (snd b))
                    (fun b => Is_true forcing \/ unchecked (snd b))); try assumption.
        eapply Forall_impl; [| exact H]. intros [k c]; cbn [fst snd]. intros Hb A1 A2 A3 A4 A5 c' Hap. apply Hb; auto.
  - destruct (apply T t) eqn:E; simpl; [intros [= <-] | discriminate]. apply o_here, c_ann, IHt; assumption.
  - intros [= <-]. apply o_here, c_meta; apply transform_rel, S.
  - destruct (apply T t1) eqn:E1, (apply (Shifted 2 :: T) t2) eqn:E2, (apply (Shifted 1 :: T) t3) eqn:E3; try discriminate.
    intros [= <-]. apply o_here. eapply c_demeta; [apply IHt1 | apply index_shifted | apply IHt2 | apply index_shifted | apply IHt3]; try assumption; tauto.
  - destruct (apply T t1) eqn:E1, (apply T t2) eqn:E2; try discriminate.
    intros [= <-]. apply o_here. apply c_seq; [apply IHt1 | apply IHt2]; try assumption; tauto.
  - destruct P.
  - destruct (apply T t) eqn:E; simpl; [intros [= <-] | discriminate]. apply o_here, c_fused; apply transform_rel, S.
  - destruct P.
Qed.

(** ** Code left as it is *)
Lemma lift_id n r : same r (fun i => i) -> same (fun i => i) (lift n r).
Proof. intros H i. unfold lift. rewrite H. destruct (Nat.ltb_spec i n); lia. Qed.
Lemma rrel_self d (x : ref) : bound d x -> rrel (fun i => i) d x x.
Proof. destruct x; simpl; intros H; constructor; auto. Qed.
Lemma rrels_self d (xs : list ref) : bounds d xs -> Forall2 (rrel (fun i => i) d) xs xs.
Proof. induction 1; constructor; [apply rrel_self; assumption | assumption]. Qed.
Theorem left_alone forcing (t : syn) : forall d, plain t -> scoped d t -> regular t -> opt forcing (fun i => i) d t t.
Proof.
  assert (L : forall n, same (fun i => i) (lift n (fun i => i))) by (intros n; apply lift_id; intros i; reflexivity).
  induction t using syn_induct; intros d P S R; cbn [plain scoped regular] in *; apply o_here.
  - apply c_atom, rrel_self, S.
  - destruct P as (P1 & P2 & P3), S as (S1 & S2 & S3), R as (R1 & R2 & R3).
    assert (Hbs : brel forcing (fun i => i) d bs bs).
    { clear - H P2 S2 R2 L. induction H as [|[tag b] bs Hb _ IH]; [constructor |]. simpl in *.
      destruct R2 as [[[n Hn] R0] R2]. eapply b_cons; [exact Hn | apply L | apply Hb; intuition | apply IH; tauto]. }
    destruct fb as [f|].
    + eapply c_fallback; [apply IHt; assumption | exact Hbs | apply L | apply (H0 f eq_refl); assumption].
    + apply c_case; [apply IHt; assumption | exact Hbs].
  - apply c_cons; [exact R | apply rrels_self, S].
  - apply c_app; [apply rrel_self, S | apply rrels_self, S].
  - apply c_direct; [apply rrel_self, S | apply rrels_self, S].
  - apply c_bif, rrels_self, S.
  - destruct P as (P1 & P2), S as (S1 & S2), R as (R1 & R2).
    assert (Hfs : forall d', All (fun f => scoped (params f + d') (snd f)) bs -> frel forcing (fun i => i) d' bs bs).
    { clear - H P1 R1 L. intros d'. induction H as [|[k c] bs Hb _ IH]; [constructor |]. simpl in *. intros S1.
      eapply f_cons; [reflexivity | apply L | apply Hb; try tauto; apply S1 | apply IH; tauto]. }
    destruct rec.
    + eapply c_letrec; [apply L | apply Hfs, S1 | apply IHt; assumption].
    + eapply c_let; [apply Hfs, S1 | apply L | apply IHt; assumption].
  - apply c_ann, IHt; assumption.
  - apply c_meta; apply rrel_self, S.
  - eapply c_demeta; [apply IHt1 | apply L | apply IHt2 | apply L | apply IHt3]; tauto.
  - apply c_seq; [apply IHt1 | apply IHt2]; tauto.
  - destruct P.
  - apply c_fused; apply rrel_self, S.
  - destruct P.
Qed.

(** ** The optimiser ends without panicking *)
Lemma collect_total {A B} (f : A -> option B) l : Forall (fun a => exists b, f a = Some b) l -> exists l', collect f l = Some l'.
Proof.
  induction 1 as [|a l [b Hb] _ [l' IH]]; [exists []; reflexivity |]. exists (b :: l'). cbn [collect]. rewrite Hb, IH. reflexivity.
Qed.
Theorem apply_total (t : syn) : forall T, regular t -> exists t', apply T t = Some t'.
Proof.
  induction t using syn_induct; intros T R; cbn [apply regular] in *; try (eexists; reflexivity).
  - destruct R as (R1 & R2 & R3). destruct (IHt T R1) as (scr' & ->). rename H0 into Hfb.
    assert (Hb : forall tag b, In (tag, b) bs -> forall T, exists b', apply T b = Some b').
    { intros tag b Hin T0. clear - H R2 Hin. induction H as [|[t1 b1] bs Hb1 _ IH]; simpl in *; [tauto |].
      destruct R2 as [[_ Rb] R2]. destruct Hin as [E|Hin]; [injection E as <- <-; apply Hb1; exact Rb | apply IH; auto]. }
    match goal with |- exists _, (if ?b then _ else _) = _ => destruct b eqn:Ef end.
    + destruct bs as [|[tag b] bs]; [discriminate |]. destruct (Hb tag b (or_introl eq_refl) (Bumped 1 :: T)) as (b' & ->).
      eexists. reflexivity.
    + clear Ef.
      assert (Hre : exists t', match collect (fun b => match arity (fst b) with
                                      | Some n => option_map (pair (fst b)) (apply (Shifted n :: T) (snd b))
                                      | None => None
                                      end) bs,
                    match fb with Some f => option_map Some (apply (Shifted 1 :: T) f) | None => Some None end with
              | Some bs', Some fb' => Some (SCase scr' bs' fb')
              | _, _ => None
              end = Some t').
      { destruct (collect_total (fun b => match arity (fst b) with
                                      | Some n => option_map (pair (fst b)) (apply (Shifted n :: T) (snd b))
                                      | None => None
                                      end) bs) as (bs' & ->).
        - apply Forall_forall. intros [tag b] Hin.
          assert (Hn : exists n, has_fields tag n).
          { clear - R2 Hin. induction bs as [|b1 bs IH]; simpl in *; [tauto |]. destruct R2 as [[Hn _] R2].
            destruct Hin as [-> |Hin]; [exact Hn | apply IH; assumption]. }
          destruct Hn as [n Hn]. cbn [fst snd]. rewrite (proj2 (arity_fields tag n) Hn).
          destruct (Hb tag b Hin (Shifted n :: T)) as (b' & ->). eexists. reflexivity.
        - destruct fb as [f|]; [| eexists; reflexivity]. destruct (Hfb f eq_refl (Shifted 1 :: T) R3) as (f' & ->).
          eexists. reflexivity. }
      destruct scr'; try exact Hre.
      match goal with |- exists _, match ?k bs with _ => _ end = _ => set (known := k) end.
      assert (Hk : forall o, known bs = Some o -> exists b', o = Some b').
      { clear Hre R2 H. induction bs as [|[t1 b1] bs IH]; intros o; [discriminate |]. cbn. destruct (t1 =? tag)%N.
        - intros [= <-]. destruct args as [|x args]; [apply (Hb t1 b1); left; reflexivity |].
          destruct (let_changes _) as [m|]; [apply (Hb t1 b1); left; reflexivity |].
          destruct (Hb t1 b1 (or_introl eq_refl) (Shifted (length (x :: args)) :: T)) as (b' & ->). eexists. reflexivity.
        - apply IH. intros tag0 b Hin. apply (Hb tag0 b). right. exact Hin. }
      destruct (known bs) as [o|]; [destruct (Hk o eq_refl) as (b' & ->); eexists; reflexivity |].
      destruct fb as [f|]; [| exact Hre]. destruct (Hfb f eq_refl (Shifted 1 :: T) R3) as (f' & ->). eexists. reflexivity.
  - destruct R as (R1 & R2). destruct (if rec then _ else _) as [m|]; [apply IHt; exact R2 |].
    match goal with |- context [collect ?f bs] => destruct (collect_total f bs) as (fs' & ->) end.
    + generalize (if rec then Shifted (length bs) :: T else T). intros T0. clear IHt.
      induction H as [|[k c] fs Hc _ IH]; simpl in *; [constructor |]. constructor; [| apply IH, R1]. cbn [fst snd].
      destruct (Hc (in_scope k T0) (proj1 R1)) as (c' & ->). eexists. reflexivity.
    + destruct (IHt (Shifted (length bs) :: T) R2) as (body' & ->). eexists. reflexivity.
  - destruct (IHt T R) as (t' & ->). eexists. reflexivity.
  - destruct R as (R1 & R2 & R3). destruct (IHt1 T R1) as (? & ->), (IHt2 (Shifted 2 :: T) R2) as (? & ->), (IHt3 (Shifted 1 :: T) R3) as (? & ->).
    eexists. reflexivity.
  - destruct R as (R1 & R2). destruct (IHt1 T R1) as (? & ->), (IHt2 T R2) as (? & ->). eexists. reflexivity.
  - destruct (IHt T R) as (t' & ->). eexists. reflexivity.
Qed.
End Applies.
