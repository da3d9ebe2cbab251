(** Nested imports bind what their files may refer to. *)
From Coq Require Import List Bool Arith Lia.
From Verif.Imports Require Import Model Spec.
Import ListNotations.

(** * Scopes *)

Definition bound (s : scope) (n : nat) : Prop := exists fr w, In fr s /\ In (n, w) fr.

(** The scope of the innermost body. *)
Fixpoint under (s : scope) (c : core) : scope :=
  match c with
  | LetIn bs b => under (map fst bs :: s) b
  | _ => s
  end.
Definition unders (s : scope) (cs : list core) : scope := fold_left under cs s.

Lemma bound_mono : forall c s n, bound s n -> bound (under s c) n.
Proof.
  fix IH 1. intros c s n H. destruct c; simpl; auto.
  apply IH. destruct H as (fr & w & H1 & H2). exists fr, w. split; [right; exact H1 | exact H2].
Qed.

Lemma bounds_mono : forall cs s n, bound s n -> bound (unders s cs) n.
Proof. induction cs as [|c cs IH]; simpl; intros s n H; [exact H | apply IH, bound_mono, H]. Qed.

Lemma under_rebody : forall c new s, under s (rebody c new) = under (under s c) new.
Proof. fix IH 1. intros c new s. destruct c; simpl; auto. Qed.

Lemma places_rebody : forall c new s p,
  In p (places s (rebody c new)) -> In p (places s c) \/ In p (places (under s c) new).
Proof.
  fix IH 1. intros c new s p H. destruct c as [f refs | n | bs b]; simpl in *; auto.
  apply in_app_or in H. destruct H as [H | H].
  - left. apply in_or_app. left. exact H.
  - apply IH in H. destruct H as [H | H]; [left; apply in_or_app; right; exact H | right; exact H].
Qed.

Lemma places_new : forall c new s p,
  In p (places (under s c) new) -> In p (places s (rebody c new)).
Proof.
  fix IH 1. intros c new s p H. destruct c as [f refs | n | bs b]; simpl in *; auto.
  apply in_or_app. right. apply IH, H.
Qed.

Lemma under_embed : forall cs c s, under s (embed cs c) = under (unders s cs) c.
Proof.
  induction cs as [|d cs IH]; simpl; intros c s; [reflexivity|].
  change (fold_right rebody c cs) with (embed cs c). rewrite under_rebody, IH. reflexivity.
Qed.

Lemma places_embed : forall cs c s p, In p (places s (embed cs c)) ->
  (exists a d b, cs = a ++ d :: b /\ In p (places (unders s a) d)) \/ In p (places (unders s cs) c).
Proof.
  induction cs as [|d cs IH]; simpl; intros c s p H; [right; exact H|].
  change (fold_right rebody c cs) with (embed cs c) in H. apply places_rebody in H.
  destruct H as [H | H].
  - left. exists [], d, cs. split; [reflexivity | exact H].
  - apply IH in H. destruct H as [(a & d' & b & E & H) | H]; [|right; exact H].
    left. exists (d :: a), d', b. split; [rewrite E; reflexivity | exact H].
Qed.

Lemma places_embed_new : forall cs c s p, In p (places (unders s cs) c) -> In p (places s (embed cs c)).
Proof.
  induction cs as [|d cs IH]; simpl; intros c s p H; [exact H|].
  change (fold_right rebody c cs) with (embed cs c). apply places_new, IH, H.
Qed.

(** * The guard *)

Lemma opt_eqb_eq : forall a b, opt_eqb a b = true -> a = b.
Proof.
  intros [x|] [y|] H; simpl in H; try discriminate; [apply Nat.eqb_eq in H; subst|]; reflexivity.
Qed.
Lemma seen_in : forall k l, seen k l = true -> In k l.
Proof.
  intros [f o] l H. unfold seen in H. apply existsb_exists in H. destruct H as ([f' o'] & H1 & H2).
  simpl in H2. apply andb_true_iff in H2. destruct H2 as [H2 H3].
  apply Nat.eqb_eq in H2. apply opt_eqb_eq in H3. subst. exact H1.
Qed.
Lemma first_name_in : forall f l n, first_name f l = Some n -> In (f, n) l.
Proof.
  induction l as [|[g m] l IH]; simpl; intros n H; [discriminate|].
  destruct (f =? g) eqn:E; [|right; apply IH, H].
  apply Nat.eqb_eq in E. injection H as H. subst. left. reflexivity.
Qed.

Definition either_seen (g : guard) (k : nat * option nat) : Prop :=
  In k (seen_direct g) \/ In k (seen_nested g).

Section Project.
Variable files : nat -> source.
Variable rank : nat -> nat.
Hypothesis ranked : forall f g, imports files f g -> rank g < rank f.
(** Below some rank, declarations have no imports of their own. *)
Variable top : nat.
Hypothesis unit_only : forall f d, rank f < top -> In d (udecls (files f)) -> dimports d = [].
Hypothesis distinct : no_clash files.

Definition good (s : scope) : Prop :=
  forall n, bound s n -> exists w, resolve s n = Some w /\ stands_for files n w.

Definition ok (s : scope) (c : core) : Prop :=
  forall s' f refs, In (s', f, refs) (places s c) -> forall r, In r refs -> offers files f r ->
    exists w, resolve s' r = Some w /\ stands_for files r w.

(** What the guard has noted is bound, as far as files of less than a rank go:
    the others are still being translated. *)
Definition kept (R : nat) (g : guard) (s : scope) : Prop :=
  (forall f n, either_seen g (f, None) -> rank f < R -> offers files f n -> bound s n) /\
  (forall f n, either_seen g (f, Some n) -> bound s n) /\
  (forall f n, In (f, n) (first_direct g) -> bound s n /\ stands_for files n (Namespace f)).

Lemma kept_mono : forall R g s s', kept R g s -> (forall n, bound s n -> bound s' n) -> kept R g s'.
Proof.
  intros R g s s' (K1 & K2 & K3) H. split; [|split].
  - intros f n S L O. apply H. eapply K1; eassumption.
  - intros f n S. apply H. eapply K2; eassumption.
  - intros f n F. destruct (K3 f n F) as [B T]. split; [apply H, B | exact T].
Qed.

(** Deep inside named imports the guard does not change. *)
Definition steady (tr : translator) : Prop :=
  forall level depth g f c g', rank f < top -> 1 < level -> 0 < depth ->
    tr level depth g f = Some (c, g') -> g' = g.

Lemma import_steady : forall tr level depth g i oc g', steady tr -> rank (what i) < top -> 1 < level -> 0 < depth ->
  translate_import tr level depth g i = Some (oc, g') -> g' = g.
Proof.
  intros tr level depth g i oc g' ST RI L D H. unfold translate_import in H.
  replace (1 <? level) with true in H by (symmetry; apply Nat.ltb_lt; exact L).
  replace (depth =? 0) with false in H by (symmetry; apply Nat.eqb_neq; lia).
  destruct (seen _ _ || _); [injection H as _ H; symmetry; exact H|].
  destruct (as_name i).
  - destruct (tr _ _ _ _) as [[c g2]|] eqn:E; [|discriminate]. injection H as _ H. subst g2.
    eapply ST; [| | |exact E]; lia.
  - destruct (tr _ _ _ _) as [[c g2]|] eqn:E; [|discriminate]. injection H as _ H. subst g2.
    eapply ST; [| | |exact E]; lia.
Qed.

Lemma imports_steady : forall tr level depth is g cs g', steady tr ->
  (forall i, In i is -> rank (what i) < top) -> 1 < level -> 0 < depth ->
  translate_imports tr level depth g is = Some (cs, g') -> g' = g.
Proof.
  intros tr level depth. induction is as [|i is IH]; simpl; intros g cs g' ST RI L D H.
  - injection H as _ H. symmetry. exact H.
  - destruct (translate_import _ _ _ _ _) as [[oc g1]|] eqn:E; [|discriminate].
    destruct (translate_imports _ _ _ _ _) as [[cs2 g2]|] eqn:E2; [|discriminate].
    injection H as _ H. subst g2. apply import_steady in E; auto. apply IH in E2; auto. congruence.
Qed.

Lemma decls_plain : forall tr level depth f ds g bs g',
  (forall d, In d ds -> dimports d = []) ->
  translate_decls tr level depth g f ds = Some (bs, g') ->
  g' = g /\ bs = map (fun d => (dname d, Declared f, Refers f (drefs d))) ds.
Proof.
  intros tr level depth f. induction ds as [|d ds IH]; simpl; intros g bs g' U H.
  - injection H as H1 H2. subst. split; reflexivity.
  - rewrite (U d) in H by (left; reflexivity). simpl in H.
    destruct (translate_decls _ _ _ _ _ _) as [[bs2 g2]|] eqn:E; [|discriminate].
    injection H as H1 H2. subst. apply IH in E; [|intros d' I'; apply U; right; exact I'].
    destruct E as [-> ->]. split; reflexivity.
Qed.

Lemma unit_steady : forall fuel, steady (unit_core files fuel).
Proof.
  induction fuel as [|k IH]; intros level depth g f c g' RF L D H; simpl in H; [discriminate|].
  destruct (translate_imports _ _ _ _ _) as [[cs g1]|] eqn:E; [|discriminate].
  destruct (translate_decls _ _ _ _ _ _) as [[bs g2]|] eqn:E2; [|discriminate].
  injection H as _ H. subst g2. apply imports_steady in E; auto.
  - apply decls_plain in E2; [|intros d D'; eapply unit_only; eauto]. destruct E2. congruence.
  - intros i I_. assert (rank (what i) < rank f); [|lia].
    apply ranked. exists (as_name i). left. destruct i. exact I_.
Qed.

(** What a translation of a file achieves. *)
Definition sound (tr : translator) : Prop :=
  forall level depth g f c g' s, rank f < top -> 0 < level -> tr level depth g f = Some (c, g') ->
    1 < level \/ depth = 0 -> kept (rank f) g s -> good s ->
    ok s c /\ good (under s c) /\ (forall n, offers files f n -> bound (under s c) n) /\
    kept (rank f) g' (under s c) /\
    (forall k, either_seen g' k -> either_seen g k \/ rank (fst k) < rank f).

Lemma good_frame : forall n w s, good s -> stands_for files n w -> (forall m, w <> SameAs m) ->
  good ([(n, w)] :: s).
Proof.
  intros n w s G T N m B. simpl. destruct (m =? n) eqn:E.
  - apply Nat.eqb_eq in E. subst m. exists w. split; [|exact T].
    destruct w; auto. exfalso. eapply N. reflexivity.
  - apply G. destruct B as (fr & v & [B1 | B1] & B2).
    + subst fr. destruct B2 as [B2 | []]. injection B2 as B2 _. apply Nat.eqb_neq in E. congruence.
    + exists fr, v. split; assumption.
Qed.

Lemma good_alias : forall m n h s, good s -> bound s n -> stands_for files n (Namespace h) ->
  stands_for files m (Namespace h) -> good ([(m, SameAs n)] :: s).
Proof.
  intros m n h s G B T1 T2 k K. simpl. destruct (k =? m) eqn:E.
  - apply Nat.eqb_eq in E. subst k. destruct (G n B) as (w & R & T). exists w. split; [exact R|].
    rewrite (distinct n w (Namespace h) T T1). exact T2.
  - apply G. destruct K as (fr & v & [B1 | B1] & B2).
    + subst fr. destruct B2 as [B2 | []]. injection B2 as B2 _. apply Nat.eqb_neq in E. congruence.
    + exists fr, v. split; assumption.
Qed.

Lemma good_top : forall n w s, bound ([(n, w)] :: s) n.
Proof. intros n w s. exists [(n, w)], w. split; left; reflexivity. Qed.
Lemma bound_cons : forall fr s n, bound s n -> bound (fr :: s) n.
Proof. intros fr s n (fr' & w & B1 & B2). exists fr', w. split; [right; exact B1 | exact B2]. Qed.

(** One import. *)
Lemma import_sound : forall tr level depth g i oc g' s f, sound tr -> steady tr -> rank f <= top ->
  0 < level -> 1 < level \/ depth = 0 ->
  In i (uimports (files f)) ->
  translate_import tr level depth g i = Some (oc, g') ->
  kept (rank f) g s -> good s ->
  let s' := match oc with Some c => under s c | None => s end in
  (forall c, oc = Some c -> ok s c) /\ good s' /\
  (forall n, import_offers files i n -> bound s' n) /\
  kept (rank f) g' s' /\
  (forall k, either_seen g' k -> either_seen g k \/ rank (fst k) < rank f).
Proof.
  intros tr level depth g i oc g' s f SO ST RF L LD I_ H K G.
  assert (RK : rank (what i) < rank f).
  { apply ranked. exists (as_name i). left. destruct i. exact I_. }
  assert (TN : forall n, as_name i = Some n -> stands_for files n (Namespace (what i))).
  { intros n E. right. exists f, (what i). split; [reflexivity|]. left. destruct i. simpl in *. subst. exact I_. }
  unfold translate_import in H.
  set (is_nested := 1 <? level) in *.
  (* the alias *)
  destruct (if is_nested then None else
     match first_name (what i) (first_direct g), as_name i with
     | Some n, Some m => if n =? m then None else Some (m, n) | _, _ => None end)
    as [[m n]|] eqn:AL.
  { injection H as H1 H2. subst oc g'. simpl.
    destruct is_nested; [discriminate|].
    destruct (first_name (what i) (first_direct g)) as [n'|] eqn:F; [|discriminate].
    destruct (as_name i) as [m'|] eqn:A; [|discriminate].
    destruct (n' =? m'); [discriminate|]. injection AL as E1 E2. subst m' n'.
    apply first_name_in in F. destruct K as (K1 & K2 & K3). destruct (K3 _ _ F) as [B T].
    assert (G' : good ([(m, SameAs n)] :: s)) by (eapply good_alias; eauto).
    split; [|split; [|split; [|split]]].
    - intros c E. injection E as E. subst c. intros s' f' refs P r Rr O. simpl in P.
      destruct P as [P | []]. injection P as P1 P2 P3. subst.
      destruct Rr as [-> | []]. apply G', good_top.
    - exact G'.
    - intros k O. unfold import_offers in O. rewrite A in O. subst k. apply good_top.
    - apply kept_mono with s; [split; [|split]; assumption | intros k; apply bound_cons].
    - intros k S. left. exact S. }
  clear AL.
  (* already seen *)
  destruct (seen (what i, as_name i) (seen_nested g) ||
            (is_nested && seen (what i, as_name i) (seen_direct g))) eqn:SE.
  { injection H as H1 H2. subst oc g'. simpl.
    assert (ES : either_seen g (what i, as_name i)).
    { apply orb_true_iff in SE. destruct SE as [SE | SE].
      - right. apply seen_in, SE.
      - apply andb_true_iff in SE. left. apply seen_in, SE. }
    split; [discriminate|]. split; [exact G|]. split; [|split; [exact K | intros k S; left; exact S]].
    intros n O. unfold import_offers in O. destruct K as (K1 & K2 & K3).
    destruct (as_name i) as [m|] eqn:A; [subst n; eapply K2, ES | eapply K1; eauto]. }
  clear SE.
  match type of H with context [match as_name i with None => match tr _ _ ?gg _ with _ => _ end | _ => _ end] =>
    set (g1 := gg) in * end.
  assert (G1 : forall k, either_seen g1 k -> either_seen g k \/ k = (what i, as_name i)).
  { intros k S. unfold g1 in S. destruct is_nested.
    - destruct (depth =? 0); [|left; exact S].
      destruct S as [S | [S | S]]; simpl in S; [left; left; exact S | right; symmetry; exact S | left; right; exact S].
    - destruct S as [[S | S] | S]; simpl in S; [right; symmetry; exact S | left; left; exact S | left; right; exact S]. }
  assert (F1 : forall h n, In (h, n) (first_direct g1) ->
             In (h, n) (first_direct g) \/ (h = what i /\ as_name i = Some n)).
  { intros h n F. unfold g1 in F. destruct is_nested; [destruct (depth =? 0); left; exact F|].
    simpl in F. destruct (as_name i) as [m|]; [|left; exact F].
    destruct (first_name _ _); [left; exact F|].
    destruct F as [F | F]; [injection F as <- <-; right; split; reflexivity | left; exact F]. }
  clearbody g1.
  destruct K as (K1 & K2 & K3).
  destruct (as_name i) as [n|] eqn:A.
  - (* under a name *)
    destruct (tr (S level) (S depth) g1 (what i)) as [[c g2]|] eqn:E; [|discriminate].
    injection H as H1 H2. subst oc g2. cbn zeta. simpl under.
    assert (g' = g1) as -> by (eapply ST; [| | |exact E]; lia).
    set (s1 := [(n, Namespace (what i))] :: s).
    assert (Gs1 : good s1) by (apply good_frame; [exact G | apply TN; reflexivity | discriminate]).
    assert (KK : kept (rank f) g1 s1).
    { split; [|split].
      - intros h m S Lh O. destruct (G1 _ S) as [S' | S']; [|discriminate].
        apply bound_cons. eapply K1; eauto.
      - intros h m S. destruct (G1 _ S) as [S' | S'].
        + apply bound_cons. eapply K2; eauto.
        + injection S' as _ ->. apply good_top.
      - intros h m F. destruct (F1 _ _ F) as [F' | (-> & F')].
        + destruct (K3 _ _ F') as [B T]. split; [apply bound_cons, B | exact T].
        + injection F' as ->. split; [apply good_top | apply TN; reflexivity]. }
    destruct (SO (S level) (S depth) g1 (what i) c g1 s1) as (O1 & _); auto; try lia.
    { destruct KK as (A1 & A2 & A3). split; [|split; assumption].
      intros h m S Lh. apply A1; [exact S | lia]. }
    split; [|split; [|split; [|split]]].
    + intros c' Ec. injection Ec as <-. intros s' f' refs P r Rr O. simpl in P.
      rewrite app_nil_r in P. apply in_app_or in P. destruct P as [P | [P | []]].
      * eapply O1; eauto.
      * injection P as P1 P2 P3. subst. destruct Rr as [-> | []]. apply Gs1, good_top.
    + exact Gs1.
    + intros m O. unfold import_offers in O. rewrite A in O. subst m. apply good_top.
    + exact KK.
    + intros k S. destruct (G1 _ S) as [S' | ->]; [left; exact S' | right; exact RK].
  - (* without *)
    destruct (tr (S level) depth g1 (what i)) as [[c g2]|] eqn:E; [|discriminate].
    injection H as H1 H2. subst oc g2. cbn zeta.
    assert (KK : kept (rank (what i)) g1 s).
    { split; [|split].
      - intros h m S Lh O. destruct (G1 _ S) as [S' | S'].
        + eapply K1; eauto. lia.
        + injection S' as ->. lia.
      - intros h m S. destruct (G1 _ S) as [S' | S']; [eapply K2; eauto | discriminate].
      - intros h m F. destruct (F1 _ _ F) as [F' | (_ & F')]; [apply K3, F' | discriminate]. }
    destruct (SO (S level) depth g1 (what i) c g' s) as (O1 & O2 & O3 & O4 & O5); auto; try lia.
    split; [|split; [|split; [|split]]].
    + intros c' Ec. injection Ec as <-. exact O1.
    + exact O2.
    + intros m O. unfold import_offers in O. rewrite A in O. apply O3, O.
    + destruct O4 as (A1 & A2 & A3). split; [|split; assumption].
      intros h m S Lh O. destruct (Nat.eq_dec h (what i)) as [-> | NE]; [apply O3, O|].
      destruct (O5 _ S) as [S' | S']; simpl in *.
      * destruct (G1 _ S') as [S'' | S'']; [|congruence].
        apply bound_mono. eapply K1; eauto.
      * eapply A1; eauto.
    + intros k S. destruct (O5 _ S) as [S' | S']; [|right; lia].
      destruct (G1 _ S') as [S'' | ->]; [left; exact S'' | right; exact RK].
Qed.

(** All the imports of a file. *)
Lemma imports_sound : forall tr level depth f, sound tr -> steady tr -> rank f <= top ->
  0 < level -> 1 < level \/ depth = 0 ->
  forall is, (forall i, In i is -> In i (uimports (files f))) ->
  forall g cs g' s, translate_imports tr level depth g is = Some (cs, g') ->
  kept (rank f) g s -> good s ->
  (forall a d b, cs = a ++ d :: b -> ok (unders s a) d) /\ good (unders s cs) /\
  (forall i n, In i is -> import_offers files i n -> bound (unders s cs) n) /\
  kept (rank f) g' (unders s cs) /\
  (forall k, either_seen g' k -> either_seen g k \/ rank (fst k) < rank f).
Proof.
  intros tr level depth f SO ST RF L LD. induction is as [|i is IH]; simpl; intros SUB g cs g' s H K G.
  - injection H as H1 H2. subst. split; [|split; [exact G | split; [|split; [exact K|]]]].
    + intros a d b E. destruct a; discriminate.
    + intros i n [].
    + intros k S. left. exact S.
  - destruct (translate_import _ _ _ _ _) as [[oc g1]|] eqn:E; [|discriminate].
    destruct (translate_imports _ _ _ _ _) as [[cs2 g2]|] eqn:E2; [|discriminate].
    injection H as H1 H2. subst g2.
    destruct (import_sound tr level depth g i oc g1 s f) as (O1 & O2 & O3 & O4 & O5); auto.
    apply IH with (s := match oc with Some c => under s c | None => s end) in E2; auto.
    destruct E2 as (P1 & P2 & P3 & P4 & P5).
    assert (EU : unders s cs = unders (match oc with Some c => under s c | None => s end) cs2)
      by (subst cs; destruct oc; reflexivity).
    rewrite EU. split; [|split; [exact P2 | split; [|split; [exact P4|]]]].
    + intros a d b EC. subst cs. destruct oc as [c|].
      * destruct a as [|a0 a]; simpl in EC.
        -- injection EC as EC1 EC2. subst. apply O1. reflexivity.
        -- injection EC as EC1 EC2. subst a0. simpl. eapply P1, EC2.
      * eapply P1, EC.
    + intros j n [<- | J] O; [apply bounds_mono, O3, O | eapply P3; eauto].
    + intros k S. destruct (P5 _ S) as [S' | S']; [apply O5, S' | right; exact S'].
Qed.

Lemma frame_in : forall ds f n w, In (n, w) (map fst (map (fun d => (dname d, Declared f, Refers f (drefs d))) ds)) ->
  w = Declared f /\ exists d, In d ds /\ dname d = n.
Proof.
  intros ds f n w H. rewrite map_map in H. apply in_map_iff in H. destruct H as (d & E & D).
  simpl in E. injection E as <- <-. split; [reflexivity | exists d; split; [exact D | reflexivity]].
Qed.

Lemma bound_in_some : forall fr n w, bound_in n fr = Some w -> In (n, w) fr.
Proof.
  induction fr as [|[m v] fr IH]; simpl; intros n w H; [discriminate|].
  destruct (n =? m) eqn:E; [|right; apply IH, H].
  apply Nat.eqb_eq in E. injection H as H. subst. left. reflexivity.
Qed.
Lemma bound_in_none : forall fr n w, bound_in n fr = None -> ~ In (n, w) fr.
Proof.
  induction fr as [|[m v] fr IH]; simpl; intros n w H; [tauto|].
  destruct (n =? m) eqn:E; [discriminate|].
  intros [K | K]; [injection K as -> ->; rewrite Nat.eqb_refl in E; discriminate | exact (IH _ _ H K)].
Qed.

Lemma good_decls : forall f s, good s ->
  good (map fst (map (fun d => (dname d, Declared f, Refers f (drefs d))) (udecls (files f))) :: s).
Proof.
  intros f s G n B. cbn [resolve]. destruct (bound_in n _) as [w|] eqn:E.
  - apply bound_in_some, frame_in in E. destruct E as [-> D]. exists (Declared f).
    split; [reflexivity|]. left. exists f. split; [reflexivity | exact D].
  - apply G. destruct B as (fr & w & [<- | B1] & B2).
    + exfalso. eapply bound_in_none; eauto.
    + exists fr, w. split; assumption.
Qed.

Lemma unit_sound : forall fuel, sound (unit_core files fuel).
Proof.
  induction fuel as [|k IH]; intros level depth g f c g' s RF L H LD K G; simpl in H; [discriminate|].
  destruct (translate_imports _ _ _ _ _) as [[cs g1]|] eqn:E; [|discriminate].
  destruct (translate_decls _ _ _ _ _ _) as [[bs g2]|] eqn:E2; [|discriminate].
  injection H as H1 H2. subst c g2.
  apply decls_plain in E2; [|intros d D'; eapply unit_only; eauto]. destruct E2 as [-> ->].
  eapply imports_sound with (s := s) (f := f) in E; eauto using unit_steady, Nat.lt_le_incl.
  destruct E as (P1 & P2 & P3 & P4 & P5).
  set (bs := map (fun d => (dname d, Declared f, Refers f (drefs d))) (udecls (files f))) in *.
  assert (EU : under s (embed cs (LetIn bs (Refers f (map dname (udecls (files f)))))) =
               map fst bs :: unders s cs) by (rewrite under_embed; reflexivity).
  rewrite EU.
  assert (G' : good (map fst bs :: unders s cs)) by (apply good_decls, P2).
  assert (OF : forall n, offers files f n -> bound (map fst bs :: unders s cs) n).
  { intros n O. inversion O as [f' n' D | f' h n' I_ O' | f' h n' I_]; subst.
    - destruct D as (d & D1 & D2). exists (map fst bs), (Declared f). split; [left; reflexivity|].
      unfold bs. rewrite map_map. apply in_map_iff. exists d. simpl. rewrite D2. split; [reflexivity | exact D1].
    - apply bound_cons. apply (P3 (Import None h)); assumption.
    - apply bound_cons. apply (P3 (Import (Some n) h)); [assumption | reflexivity]. }
  split; [|split; [exact G' | split; [exact OF | split; [|exact P5]]]].
  - intros s' f' refs P r Rr O. apply places_embed in P. destruct P as [(a & d & b & EC & P) | P].
    + eapply P1; eauto.
    + cbn [places] in P. apply in_app_or in P. destruct P as [P | [P | []]].
      * apply in_flat_map in P. destruct P as (b0 & B1 & B2). unfold bs in B1.
        apply in_map_iff in B1. destruct B1 as (d & <- & D). simpl in B2. destruct B2 as [B2 | []].
        injection B2 as <- <- <-. apply G', OF, O.
      * injection P as <- <- <-. apply G', OF, O.
  - eapply kept_mono; [exact P4 | intros n; apply bound_cons].
Qed.

(** Nothing seen yet, nothing bound yet. *)
Lemma kept_start : forall R, kept R no_imports_seen [].
Proof.
  intros R. split; [|split].
  - intros f n [[] | []].
  - intros f n [[] | []].
  - intros f n [].
Qed.
Lemma good_start : good [].
Proof. intros n (fr & w & [] & _). Qed.

Lemma translated : forall fuel main c, rank main < top -> translate_unit files fuel main = Some c -> ok [] c.
Proof.
  intros fuel main c RM H. unfold translate_unit in H.
  destruct (unit_core files fuel 1 0 no_imports_seen main) as [[c' g]|] eqn:E; [|discriminate].
  injection H as ->.
  destruct (unit_sound fuel 1 0 no_imports_seen main c g []) as (O & _);
    auto using kept_start, good_start.
Qed.

(** * Declarations of the main file with imports of their own *)

(** A file that imports nothing. *)
Definition leaf (f : nat) : Prop :=
  uimports (files f) = [] /\ forall d, In d (udecls (files f)) -> dimports d = [].

Lemma leaf_core : forall fuel level depth g f c g', leaf f ->
  unit_core files fuel level depth g f = Some (c, g') ->
  g' = g /\ c = LetIn (map (fun d => (dname d, Declared f, Refers f (drefs d))) (udecls (files f)))
                 (Refers f (map dname (udecls (files f)))).
Proof.
  intros fuel level depth g f c g' [L1 L2] H. destruct fuel as [|k]; [discriminate|]. simpl in H.
  rewrite L1 in H. simpl in H.
  destruct (translate_decls _ _ _ _ _ _) as [[bs g2]|] eqn:E2; [|discriminate].
  injection H as <- <-. apply decls_plain in E2; [|exact L2]. destruct E2 as [-> ->].
  split; reflexivity.
Qed.

Lemma leaf_offers : forall f n, leaf f -> offers files f n -> declares files f n.
Proof.
  intros f n [L1 _] O. inversion O as [f' n' D | f' h n' I_ O' | f' h n' I_]; subst; [exact D | |];
    rewrite L1 in I_; destruct I_.
Qed.

(** The guard while declarations are translated: what it holds from inside
    imported files is bound; names it holds for files are theirs. *)
Definition held (g : guard) (s : scope) : Prop :=
  (forall f n, In (f, None) (seen_nested g) -> leaf f -> offers files f n -> bound s n) /\
  (forall f n, In (f, Some n) (seen_nested g) -> bound s n) /\
  (forall f n, In (f, n) (first_direct g) -> stands_for files n (Namespace f)).

Hypothesis one_name : forall n m f,
  stands_for files n (Namespace f) -> stands_for files m (Namespace f) -> n = m.

Lemma leaf_import : forall fuel g i oc g' s, leaf (what i) ->
  (forall n, as_name i = Some n -> stands_for files n (Namespace (what i))) ->
  translate_import (unit_core files fuel) 1 0 g i = Some (oc, g') -> held g s -> good s ->
  let s' := match oc with Some c => under s c | None => s end in
  good s' /\ (forall n, import_offers files i n -> bound s' n) /\ held g' s'.
Proof.
  intros fuel g i oc g' s LF TN H (H1 & H2 & H3) G. unfold translate_import in H.
  change (1 <? 1) with false in H. cbv iota in H. rewrite andb_false_l, orb_false_r in H.
  assert (NA : match first_name (what i) (first_direct g), as_name i with
     | Some n, Some m => if n =? m then None else Some (m, n) | _, _ => None end = None).
  { destruct (first_name (what i) (first_direct g)) as [n|] eqn:F; [|reflexivity].
    destruct (as_name i) as [m|] eqn:A; [|reflexivity].
    apply first_name_in, H3 in F. rewrite (one_name n m (what i) F (TN m eq_refl)), Nat.eqb_refl. reflexivity. }
  rewrite NA in H. clear NA.
  destruct (seen (what i, as_name i) (seen_nested g)) eqn:SE.
  { injection H as <- <-. simpl. split; [exact G | split; [|split; [exact H1 | split; [exact H2 | exact H3]]]].
    intros n O. unfold import_offers in O. apply seen_in in SE. destruct (as_name i) as [m|] eqn:A.
    - subst n. eapply H2, SE.
    - eapply H1; eauto. }
  match type of H with context [match as_name i with None => match unit_core _ _ _ _ ?gg _ with _ => _ end | _ => _ end] =>
    set (g1 := gg) in * end.
  assert (N1 : seen_nested g1 = seen_nested g) by reflexivity.
  assert (F1 : forall f n, In (f, n) (first_direct g1) -> stands_for files n (Namespace f)).
  { intros f n F. unfold g1 in F. simpl in F. destruct (as_name i) as [m|]; [|apply H3, F].
    destruct (first_name _ _); [apply H3, F|].
    destruct F as [F | F]; [injection F as <- <-; apply TN; reflexivity | apply H3, F]. }
  clearbody g1.
  assert (MO : forall s', (forall n, bound s n -> bound s' n) -> held g1 s').
  { intros s' M. split; [|split; [|exact F1]]; rewrite N1; intros; apply M; eauto. }
  destruct (as_name i) as [n|] eqn:A.
  - destruct (unit_core _ _ _ _ _ _) as [[c g2]|] eqn:E; [|discriminate].
    injection H as <- <-. apply leaf_core in E; [|exact LF]. destruct E as [-> _]. simpl.
    split; [|split].
    + apply good_frame; [exact G | apply TN; reflexivity | discriminate].
    + intros m O. unfold import_offers in O. rewrite A in O. subst m. apply good_top.
    + apply MO. intros m. apply bound_cons.
  - destruct (unit_core _ _ _ _ _ _) as [[c g2]|] eqn:E; [|discriminate].
    injection H as <- <-. apply leaf_core in E; [|exact LF]. destruct E as [-> ->]. cbn zeta. cbn [under].
    split; [|split].
    + apply good_decls, G.
    + intros m O. unfold import_offers in O. rewrite A in O. apply leaf_offers in O; [|exact LF].
      destruct O as (d & D1 & D2). eexists. exists (Declared (what i)). split; [left; reflexivity|].
      rewrite map_map. apply in_map_iff. exists d. simpl. rewrite D2. split; [reflexivity | exact D1].
    + apply MO. intros m. apply bound_cons.
Qed.

Lemma leaf_imports : forall fuel is g cs g' s,
  (forall i, In i is -> leaf (what i)) ->
  (forall i n, In i is -> as_name i = Some n -> stands_for files n (Namespace (what i))) ->
  translate_imports (unit_core files fuel) 1 0 g is = Some (cs, g') -> held g s -> good s ->
  good (unders s cs) /\ (forall i n, In i is -> import_offers files i n -> bound (unders s cs) n) /\
  held g' (unders s cs).
Proof.
  intros fuel. induction is as [|i is IH]; simpl; intros g cs g' s LF TN H HE G.
  - injection H as <- <-. split; [exact G | split; [intros i n [] | exact HE]].
  - destruct (translate_import _ _ _ _ _) as [[oc g1]|] eqn:E; [|discriminate].
    destruct (translate_imports _ _ _ _ _) as [[cs2 g2]|] eqn:E2; [|discriminate].
    injection H as H1 H2. subst g2.
    apply leaf_import with (s := s) in E; auto. destruct E as (P1 & P2 & P3).
    apply IH with (s := match oc with Some c => under s c | None => s end) in E2; auto.
    destruct E2 as (Q1 & Q2 & Q3).
    assert (EU : unders s cs = unders (match oc with Some c => under s c | None => s end) cs2)
      by (subst cs; destruct oc; reflexivity).
    rewrite EU. split; [exact Q1 | split; [|exact Q3]].
    intros j n [<- | J] O; [apply bounds_mono, P2, O | eapply Q2; eauto].
Qed.

Lemma held_nested : forall g s s', held g s -> (forall f n, In (f, n) (first_direct g) -> stands_for files n (Namespace f)) ->
  (forall n, bound s n -> bound s' n) -> held g s'.
Proof.
  intros g s s' (H1 & H2 & _) F M. split; [|split; [|exact F]]; intros; apply M; eauto.
Qed.

(** The guard after a declaration's imports still holds only what was bound
    before them. *)
Lemma leaf_nested : forall fuel is g cs g', (forall i, In i is -> leaf (what i)) ->
  translate_imports (unit_core files fuel) 1 0 g is = Some (cs, g') -> seen_nested g' = seen_nested g.
Proof.
  intros fuel. induction is as [|i is IH]; simpl; intros g cs g' LF H.
  - injection H as _ <-. reflexivity.
  - destruct (translate_import _ _ _ _ _) as [[oc g1]|] eqn:E; [|discriminate].
    destruct (translate_imports _ _ _ _ _) as [[cs2 g2]|] eqn:E2; [|discriminate].
    injection H as H1 H2. subst g2. apply IH in E2; [|auto]. rewrite E2. clear -E LF.
    unfold translate_import in E. change (1 <? 1) with false in E. cbv iota in E.
    match type of E with match ?a with _ => _ end = _ => destruct a as [[m n]|] end;
      [injection E as _ <-; reflexivity|].
    destruct (seen _ _ || _); [injection E as _ <-; reflexivity|].
    destruct (as_name i).
    + match type of E with match ?a with _ => _ end = _ => destruct a as [[c g2]|] eqn:U end; [|discriminate].
      injection E as _ <-. apply leaf_core in U; [|auto]. destruct U as [-> _]. reflexivity.
    + match type of E with match ?a with _ => _ end = _ => destruct a as [[c g2]|] eqn:U end; [|discriminate].
      injection E as _ <-. apply leaf_core in U; [|auto]. destruct U as [-> _]. reflexivity.
Qed.

Lemma leaf_decls : forall fuel f ds g bs g' s0 s,
  (forall d i, In d ds -> In i (dimports d) -> leaf (what i)) ->
  (forall d i n, In d ds -> In i (dimports d) -> as_name i = Some n -> stands_for files n (Namespace (what i))) ->
  translate_decls (unit_core files fuel) 1 0 g f ds = Some (bs, g') ->
  held g s0 -> good s -> (forall n, bound s0 n -> bound s n) ->
  map fst bs = map (fun d => (dname d, Declared f)) ds /\
  (forall d, In d ds -> exists cs, In (dname d, Declared f, embed cs (Refers f (drefs d))) bs /\
     good (unders s cs) /\
     (forall i n, In i (dimports d) -> import_offers files i n -> bound (unders s cs) n)).
Proof.
  intros fuel f. induction ds as [|d ds IH]; simpl; intros g bs g' s0 s LF TN H HE G M.
  - injection H as <- <-. split; [reflexivity | intros d []].
  - destruct (translate_imports _ _ _ _ _) as [[cs g1]|] eqn:E; [|discriminate].
    destruct (translate_decls _ _ _ _ _ _) as [[bs2 g2]|] eqn:E2; [|discriminate].
    injection H as <- <-.
    assert (LD : forall i, In i (dimports d) -> leaf (what i)) by (intros i I_; eapply LF; eauto).
    pose proof (leaf_nested _ _ _ _ _ LD E) as NE.
    assert (HS : held g s) by (eapply held_nested; [exact HE | apply HE | exact M]).
    eapply leaf_imports with (s := s) in E; eauto. destruct E as (P1 & P2 & P3).
    eapply IH with (s0 := s0) (s := s) in E2; eauto.
    + destruct E2 as [Q1 Q2]. split; [simpl; rewrite Q1; reflexivity|].
      intros e [<- | D].
      * exists cs. split; [left; reflexivity | split; assumption].
      * destruct (Q2 e D) as (cs' & R1 & R2 & R3). exists cs'. split; [right; exact R1 | split; assumption].
    + destruct HE as (A1 & A2 & A3). destruct P3 as (_ & _ & B3).
      split; [|split; [|exact B3]]; rewrite NE; assumption.
Qed.

Lemma scoped : forall fuel main c, rank main <= top ->
  (forall d i, In d (udecls (files main)) -> In i (dimports d) -> leaf (what i)) ->
  translate_unit files fuel main = Some c ->
  forall d, In d (udecls (files main)) ->
  exists s, In (s, main, drefs d) (places [] c) /\
    forall r, offers files main r \/ (exists i, In i (dimports d) /\ import_offers files i r) ->
      exists w, resolve s r = Some w /\ stands_for files r w.
Proof.
  intros fuel main c RM LF H d D. unfold translate_unit in H.
  destruct (unit_core files fuel 1 0 no_imports_seen main) as [[c' g]|] eqn:E; [|discriminate].
  injection H as ->. destruct fuel as [|k]; [discriminate|]. simpl in E.
  destruct (translate_imports _ _ _ _ _) as [[cs g1]|] eqn:E1; [|discriminate].
  destruct (translate_decls _ _ _ _ _ _) as [[bs g2]|] eqn:E2; [|discriminate].
  injection E as <- _.
  apply imports_sound with (s := []) (f := main) in E1;
    eauto using unit_sound, unit_steady, kept_start, good_start.
  destruct E1 as (_ & P2 & P3 & P4 & P5).
  assert (HE : held g1 (unders [] cs)).
  { destruct P4 as (K1 & K2 & K3). split; [|split].
    - intros f n S _ O. eapply K1; [right; exact S | | exact O].
      destruct (P5 (f, None)) as [[[] | []] | R]; [right; exact S | exact R].
    - intros f n S. eapply K2. right. exact S.
    - intros f n F. apply K3, F. }
  set (fr := map (fun d => (dname d, Declared main)) (udecls (files main))).
  assert (GF : good (fr :: unders [] cs)).
  { pose proof (good_decls main (unders [] cs) P2) as GD. rewrite map_map in GD. exact GD. }
  eapply leaf_decls with (s0 := unders [] cs) (s := fr :: unders [] cs) in E2; eauto.
  2: { intros e i n De I_ A. right. exists main, (what i). split; [reflexivity|]. right. exists e.
       split; [exact De|]. destruct i. simpl in *. subst. exact I_. }
  2: { intros n. apply bound_cons. }
  destruct E2 as [Q1 Q2]. destruct (Q2 d D) as (cs' & R1 & R2 & R3).
  exists (unders (fr :: unders [] cs) cs'). split.
  - apply places_embed_new. cbn [places]. rewrite Q1. fold fr. apply in_or_app. left.
    apply in_flat_map. eexists. split; [exact R1|]. cbn [snd]. apply places_embed_new. left. reflexivity.
  - intros r [O | (i & I_ & O)]; apply R2; [|eapply R3; eauto].
    apply bounds_mono. inversion O as [f' n' D' | f' h n' I_ O' | f' h n' I_]; subst.
    + destruct D' as (e & D1 & D2). exists fr, (Declared main). split; [left; reflexivity|].
      apply in_map_iff. exists e. rewrite D2. split; [reflexivity | exact D1].
    + apply bound_cons. apply (P3 (Import None h)); assumption.
    + apply bound_cons. apply (P3 (Import (Some r) h)); [assumption | reflexivity].
Qed.

End Project.

(** * Translation ends, and the file's own values are there *)

Section Ends.
Variable files : nat -> source.
Variable rank : nat -> nat.
Hypothesis ranked : forall f g, imports files f g -> rank g < rank f.

Lemma import_ends : forall tr level depth g i R,
  (forall level depth g f, rank f < R -> tr level depth g f <> None) -> rank (what i) < R ->
  translate_import tr level depth g i <> None.
Proof.
  intros tr level depth g i R T L H. unfold translate_import in H.
  match type of H with match ?a with _ => _ end = _ => destruct a as [[m n]|] end; [discriminate|].
  destruct (seen _ _ || _); [discriminate|].
  destruct (as_name i).
  - match type of H with match ?a with _ => _ end = _ => destruct a as [[c g2]|] eqn:E end; [discriminate|].
    eapply T; eauto.
  - match type of H with match ?a with _ => _ end = _ => destruct a as [[c g2]|] eqn:E end; [discriminate|].
    eapply T; eauto.
Qed.

Lemma imports_end : forall tr level depth R is g,
  (forall level depth g f, rank f < R -> tr level depth g f <> None) ->
  (forall i, In i is -> rank (what i) < R) ->
  translate_imports tr level depth g is <> None.
Proof.
  intros tr level depth R. induction is as [|i is IH]; simpl; intros g T L H; [discriminate|].
  destruct (translate_import _ _ _ _ _) as [[oc g1]|] eqn:E.
  - destruct (translate_imports _ _ _ _ _) as [[cs g2]|] eqn:E2; [discriminate|].
    eapply IH; eauto.
  - eapply import_ends with (R := R); eauto.
Qed.

Lemma decls_end : forall tr level depth R f ds g,
  (forall level depth g f, rank f < R -> tr level depth g f <> None) ->
  (forall d i, In d ds -> In i (dimports d) -> rank (what i) < R) ->
  translate_decls tr level depth g f ds <> None.
Proof.
  intros tr level depth R f. induction ds as [|d ds IH]; simpl; intros g T L H; [discriminate|].
  destruct (translate_imports _ _ _ _ _) as [[cs g1]|] eqn:E.
  - destruct (translate_decls _ _ _ _ _ _) as [[bs g2]|] eqn:E2; [discriminate|].
    eapply IH; eauto.
  - eapply imports_end with (R := R); eauto.
Qed.

Lemma unit_ends : forall fuel level depth g f, rank f < fuel -> unit_core files fuel level depth g f <> None.
Proof.
  induction fuel as [|k IH]; intros level depth g f L H; [lia|]. simpl in H.
  assert (T : forall level depth g h, rank h < rank f -> unit_core files k level depth g h <> None)
    by (intros; apply IH; lia).
  destruct (translate_imports _ _ _ _ _) as [[cs g1]|] eqn:E.
  - destruct (translate_decls _ _ _ _ _ _) as [[bs g2]|] eqn:E2; [discriminate|].
    eapply decls_end with (R := rank f); [exact T | | exact E2].
    intros d i D I_. apply ranked. exists (as_name i). right. exists d. split; [exact D|]. destruct i. exact I_.
  - eapply imports_end with (R := rank f); [exact T | | exact E].
    intros i I_. apply ranked. exists (as_name i). left. destruct i. exact I_.
Qed.
End Ends.

Lemma decls_there : forall tr level depth f ds g bs g' d,
  translate_decls tr level depth g f ds = Some (bs, g') -> In d ds ->
  exists cs, In (dname d, Declared f, embed cs (Refers f (drefs d))) bs.
Proof.
  intros tr level depth f. induction ds as [|e ds IH]; simpl; intros g bs g' d H D; [destruct D|].
  destruct (translate_imports _ _ _ _ _) as [[cs g1]|] eqn:E; [|discriminate].
  destruct (translate_decls _ _ _ _ _ _) as [[bs2 g2]|] eqn:E2; [|discriminate].
  injection H as <- <-. destruct D as [<- | D].
  - exists cs. left. reflexivity.
  - destruct (IH _ _ _ _ E2 D) as (cs' & I_). exists cs'. right. exact I_.
Qed.

Lemma all_there : forall files fuel main c d, translate_unit files fuel main = Some c ->
  In d (udecls (files main)) -> exists s, In (s, main, drefs d) (places [] c).
Proof.
  intros files fuel main c d H D. unfold translate_unit in H.
  destruct (unit_core files fuel 1 0 no_imports_seen main) as [[c' g]|] eqn:E; [|discriminate].
  injection H as ->. destruct fuel as [|k]; [discriminate|]. simpl in E.
  destruct (translate_imports _ _ _ _ _) as [[cs g1]|] eqn:E1; [|discriminate].
  destruct (translate_decls _ _ _ _ _ _) as [[bs g2]|] eqn:E2; [|discriminate].
  injection E as <- _. destruct (decls_there _ _ _ _ _ _ _ _ _ E2 D) as (cs' & B).
  eexists. apply places_embed_new. cbn [places]. apply in_or_app. left.
  apply in_flat_map. eexists. split; [exact B|]. cbn [snd]. apply places_embed_new. left. reflexivity.
Qed.
