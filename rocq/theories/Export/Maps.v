(** * Equality of documents, and the maps of the serialisers *)

From Coq Require Import String List NArith ZArith Bool Ascii Lia Sorting.Sorted.
From Verif Require Import Export.Model Export.Spec.
Import ListNotations.
Open Scope list_scope.

(** ** Documents *)

Section TreeInd.
Variable P : tree -> Prop.
Hypothesis HL : forall t s, P (Leaf t s).
Hypothesis HS : forall t l, Forall P l -> P (Seq t l).
Hypothesis HM : forall t l, Forall (fun e => P (fst e) /\ P (snd e)) l -> P (Map t l).

Fixpoint tree_ind' (t : tree) : P t :=
  match t with
  | Leaf g s => HL g s
  | Seq g l => HS g l ((fix go l := match l return Forall P l with
                                    | [] => Forall_nil _
                                    | x :: r => Forall_cons x (tree_ind' x) (go r)
                                    end) l)
  | Map g l => HM g l ((fix go l := match l return Forall (fun e => P (fst e) /\ P (snd e)) l with
                                    | [] => Forall_nil _
                                    | (k, x) :: r => Forall_cons (k, x) (conj (tree_ind' k) (tree_ind' x)) (go r)
                                    end) l)
  end.
End TreeInd.

Lemma tag_eqb_iff a b : tag_eqb a b = true <-> a = b.
Proof.
  destruct a, b; cbn; rewrite ?String.eqb_eq; split; intros H; try congruence; try discriminate; reflexivity.
Qed.

Lemma scalar_eqb_iff a b : scalar_eqb a b = true <-> a = b.
Proof.
  destruct a, b; cbn; rewrite ?String.eqb_eq, ?Z.eqb_eq, ?N.eqb_eq, ?Bool.eqb_true_iff;
    split; intros H; try congruence; try discriminate; reflexivity.
Qed.

Lemma tree_eqb_iff a : forall b, tree_eqb a b = true <-> a = b.
Proof.
  induction a as [t s|t l IH|t l IH] using tree_ind'; intros [t' s'|t' l'|t' l']; cbn [tree_eqb];
    try (split; intros H; discriminate).
  - rewrite andb_true_iff, tag_eqb_iff, scalar_eqb_iff. split; [intros [-> ->]|intros H; injection H as -> ->]; auto.
  - rewrite andb_true_iff, tag_eqb_iff.
    assert (E : forall r r', Forall (fun a => forall b, tree_eqb a b = true <-> a = b) r ->
      (fix go (l l' : list tree) := match l, l' with
        | [], [] => true
        | x :: r, y :: r' => tree_eqb x y && go r r'
        | _, _ => false end) r r' = true <-> r = r').
    { intros r. induction r as [|x r IHr]; intros [|y r'] F; try (split; intros H; (discriminate || reflexivity)).
      inversion F as [|? ? Fx Fr]; subst. rewrite andb_true_iff, Fx, IHr by assumption.
      split; [intros [-> ->]|intros H; injection H as -> ->]; auto. }
    rewrite (E l l' IH). split; [intros [-> ->]|intros H; injection H as -> ->]; auto.
  - rewrite andb_true_iff, tag_eqb_iff.
    assert (E : forall r r', Forall (fun e : tree * tree => (forall b, tree_eqb (fst e) b = true <-> fst e = b) /\
                                                 (forall b, tree_eqb (snd e) b = true <-> snd e = b)) r ->
      (fix go (l l' : list (tree * tree)) := match l, l' with
        | [], [] => true
        | (k, x) :: r, (k', y) :: r' => tree_eqb k k' && tree_eqb x y && go r r'
        | _, _ => false end) r r' = true <-> r = r').
    { intros r. induction r as [|[k x] r IHr]; intros [|[k' y] r'] F; try (split; intros H; (discriminate || reflexivity)).
      inversion F as [|? ? [Fk Fx] Fr]; subst. cbn [fst snd] in Fk, Fx.
      rewrite !andb_true_iff, Fk, Fx, IHr by assumption.
      split; [intros [[-> ->] ->]|intros H; injection H as -> -> ->]; auto. }
    rewrite (E l l' IH). split; [intros [-> ->]|intros H; injection H as -> ->]; auto.
Qed.

Lemma tree_eqb_refl a : tree_eqb a a = true.
Proof. now apply tree_eqb_iff. Qed.

Lemma tree_eqb_neq a b : tree_eqb a b = false <-> a <> b.
Proof.
  rewrite <- (tree_eqb_iff a b). destruct (tree_eqb a b); split; intros H; congruence.
Qed.

Lemma tree_dec (a b : tree) : {a = b} + {a <> b}.
Proof.
  destruct (tree_eqb a b) eqn:E; [left; now apply tree_eqb_iff|right; now apply tree_eqb_neq].
Qed.

(** ** Order of strings *)

Lemma ascii_compare_trans a b c : Ascii.compare a b = Lt -> Ascii.compare b c = Lt -> Ascii.compare a c = Lt.
Proof. unfold Ascii.compare. rewrite !N.compare_lt_iff. lia. Qed.

Lemma string_compare_refl a : String.compare a a = Eq.
Proof.
  induction a as [|x a IH]; cbn; [reflexivity|]. unfold Ascii.compare. now rewrite N.compare_refl.
Qed.

Lemma string_lt_trans a : forall b c,
  String.compare a b = Lt -> String.compare b c = Lt -> String.compare a c = Lt.
Proof.
  induction a as [|x a IH]; intros [|y b] [|z c]; cbn; try discriminate; auto.
  destruct (Ascii.compare x y) eqn:E1, (Ascii.compare y z) eqn:E2; try discriminate; intros H1 H2.
  - apply Ascii.compare_eq_iff in E1. subst. rewrite E2. now apply (IH b).
  - apply Ascii.compare_eq_iff in E1. subst. now rewrite E2.
  - apply Ascii.compare_eq_iff in E2. subst. now rewrite E1.
  - now rewrite (ascii_compare_trans _ _ _ E1 E2).
Qed.

(** ** Last entries *)

Lemma last_for_nil k t : ~ last_for k t [].
Proof. intros (a & b & E & _). now destruct a. Qed.

Lemma last_for_snoc k t ps k' t' : last_for k t (ps ++ [(k', t')]) <->
  (k = k' /\ t = t') \/ (k <> k' /\ last_for k t ps).
Proof.
  split.
  - intros (a & b & E & N). destruct b as [|e b] using rev_ind.
    + apply app_inj_tail in E. destruct E as [_ E]. injection E as -> ->. now left.
    + clear IHb. rewrite app_comm_cons, app_assoc in E. apply app_inj_tail in E. destruct E as [E Ee]. subst e.
      rewrite map_app, in_app_iff in N. right. split.
      * intros ->. apply N. right. now left.
      * exists a, b. split; [exact E|]. intros I. apply N. now left.
  - intros [[-> ->]|[N (a & b & -> & M)]].
    + exists ps, []. split; [reflexivity|]. intros [].
    + exists a, (b ++ [(k', t')]). split; [now rewrite <- app_assoc|].
      rewrite map_app, in_app_iff. intros [I|[<-|[]]]; auto.
Qed.

Lemma last_for_nodup ps : NoDup (map fst ps) -> forall k t, last_for k t ps <-> In (k, t) ps.
Proof.
  intros N k t. split.
  - intros (a & b & -> & _). apply in_or_app. right. now left.
  - intros I. apply in_split in I. destruct I as (a & b & ->). exists a, b. split; [reflexivity|].
    rewrite map_app in N. apply NoDup_remove_2 in N. intros J. apply N, in_or_app. now right.
Qed.

(** ** Insertion *)

Definition keeps (m m' : list (tree * tree)) (k x : tree) : Prop :=
  forall k' t, In (k', t) m' <-> (k' = k /\ t = x) \/ (k' <> k /\ In (k', t) m).

Lemma in_fst (k t : tree) m : In (k, t) m -> In k (map fst m).
Proof. intros I. apply in_map_iff. now exists (k, t). Qed.

Lemma fst_in (k : tree) m : In k (map (@fst tree tree) m) -> exists t, In (k, t) m.
Proof. intros I. apply in_map_iff in I. destruct I as ([k' t] & <- & I). now exists t. Qed.

Lemma in_place_keeps k x m : NoDup (map fst m) ->
  NoDup (map fst (insert_in_place k x m)) /\ keeps m (insert_in_place k x m) k x.
Proof.
  unfold keeps. induction m as [|[k' x'] m IH]; cbn [insert_in_place map fst]; intros N.
  - split; [constructor; [intros []|constructor]|]. intros k' t. cbn. split.
    + intros [E|[]]. injection E as <- <-. now left.
    + intros [[-> ->]|[_ []]]. now left.
  - apply NoDup_cons_iff in N. destruct N as [F N]. destruct (tree_eqb k k') eqn:E.
    + apply tree_eqb_iff in E. subst k'. split; [cbn; now constructor|]. intros k' t. cbn. split.
      * intros [E|I]; [injection E as <- <-; now left|]. right. split; [|now right].
        intros ->. apply F. now apply in_fst in I.
      * intros [[-> ->]|[D [E|I]]]; [now left|injection E as <- <-; congruence|now right].
    + apply tree_eqb_neq in E. destruct (IH N) as [N' K]. split.
      * cbn. constructor; [|exact N']. intros I. apply fst_in in I. destruct I as (t & I).
        apply K in I. destruct I as [[-> _]|[_ I]]; [now elim E|]. apply F. now apply in_fst in I.
      * intros k0 t. cbn [In]. rewrite K. split.
        -- intros [H|[H|[D I]]]; [injection H as <- <-; right; split; [congruence|now left]|now left|].
           right. split; [exact D|now right].
        -- intros [H|[D [H|I]]]; [right; now left|now left|right; right; now split].
Qed.

Lemma in_place_fresh k x m : ~ In k (map fst m) -> insert_in_place k x m = m ++ [(k, x)].
Proof.
  induction m as [|[k' x'] m IH]; cbn [insert_in_place map fst In app]; intros N; [reflexivity|].
  destruct (tree_eqb k k') eqn:E; [apply tree_eqb_iff in E; subst; elim N; now left|].
  rewrite IH; [reflexivity|]. intros I. apply N. now right.
Qed.

Lemma nodup_filter (p : tree * tree -> bool) m : NoDup (map fst m) -> NoDup (map fst (filter p m)).
Proof.
  induction m as [|e m IH]; cbn; intros N; [constructor|]. apply NoDup_cons_iff in N. destruct N as [F N].
  destruct (p e); [|auto]. cbn. constructor; [|auto]. intros I. apply F.
  apply in_map_iff in I. destruct I as (e' & <- & I). apply filter_In in I. apply in_map, I.
Qed.

Lemma at_end_keeps k x m : NoDup (map fst m) ->
  NoDup (map fst (insert_at_end k x m)) /\ keeps m (insert_at_end k x m) k x.
Proof.
  unfold keeps, insert_at_end. intros N. split.
  - rewrite map_app. apply NoDup_app_remove_l with (l := []) || idtac.
    apply (NoDup_Add (a := k) (l := map fst (filter (fun e => negb (tree_eqb k (fst e))) m))).
    + cbn [map fst]. pose proof (Add_app k (map fst (filter (fun e => negb (tree_eqb k (fst e))) m)) []) as A.
      now rewrite app_nil_r in A.
    + split; [now apply nodup_filter|]. intros I. apply in_map_iff in I. destruct I as (e & E & I).
      apply filter_In in I. destruct I as [_ I]. rewrite E, tree_eqb_refl in I. discriminate I.
  - intros k' t. rewrite in_app_iff, filter_In. cbn [In fst]. split.
    + intros [[I E]|[E|[]]]; [|injection E as <- <-; now left].
      right. split; [|exact I]. intros ->. rewrite tree_eqb_refl in E. discriminate E.
    + intros [[-> ->]|[D I]]; [right; now left|]. left. split; [exact I|].
      apply negb_true_iff, tree_eqb_neq. congruence.
Qed.

Lemma at_end_fresh k x m : ~ In k (map fst m) -> insert_at_end k x m = m ++ [(k, x)].
Proof.
  intros N. unfold insert_at_end. f_equal. induction m as [|[k' x'] m IH]; [reflexivity|].
  cbn [filter fst]. cbn [map fst In] in N. destruct (tree_eqb k k') eqn:E.
  - apply tree_eqb_iff in E. subst. elim N. now left.
  - cbn. rewrite IH; [reflexivity|]. intros I. apply N. now right.
Qed.

Definition is_text (t : tree) : Prop := exists s, t = Leaf None (SText s).

Definition below (a b : tree * tree) : Prop := String.compare (text_of (fst a)) (text_of (fst b)) = Lt.

Lemma ltb_lt a b : String.ltb a b = true <-> String.compare a b = Lt.
Proof. unfold String.ltb. destruct (String.compare a b); split; congruence. Qed.

Lemma sorted_keeps k x m : is_text k -> Forall (fun e => is_text (fst e)) m -> StronglySorted below m ->
  Forall (fun e => is_text (fst e)) (insert_sorted k x m) /\
  StronglySorted below (insert_sorted k x m) /\ keeps m (insert_sorted k x m) k x.
Proof.
  intros Tk. unfold keeps. induction m as [|[k' x'] m IH]; cbn [insert_sorted]; intros T S.
  - split; [now repeat constructor|]. split; [repeat constructor|]. intros k' t. cbn. split.
    + intros [E|[]]. injection E as <- <-. now left.
    + intros [[-> ->]|[_ []]]. now left.
  - inversion T as [|? ? Tk' T']; subst. inversion S as [|? ? S' B]; subst. cbn [fst] in Tk'.
    assert (Out : forall t, String.compare (text_of k) (text_of k') = Lt -> ~ In (k, t) ((k', x') :: m)).
    { intros t L [E|I].
      - injection E as -> ->. assert (R : String.compare (text_of k) (text_of k) = Eq) by apply string_compare_refl.
        congruence.
      - rewrite Forall_forall in B. apply B in I. unfold below in I. cbn [fst] in I.
        pose proof (string_lt_trans _ _ _ L I) as R.
        assert (R' : String.compare (text_of k) (text_of k) = Eq) by apply string_compare_refl.
        congruence. }
    destruct (tree_eqb k k') eqn:E.
    + apply tree_eqb_iff in E. subst k'. split; [constructor; assumption|]. split.
      * constructor; [exact S'|]. exact B.
      * intros k' t. cbn [In]. split.
        -- intros [E|I]; [injection E as <- <-; now left|]. right. split; [|now right]. intros ->.
           rewrite Forall_forall in B. apply B in I. unfold below in I. cbn [fst] in I.
           assert (R : String.compare (text_of k) (text_of k) = Eq) by apply string_compare_refl. congruence.
        -- intros [[-> ->]|[D [E|I]]]; [now left|injection E as <- <-; congruence|now right].
    + apply tree_eqb_neq in E. destruct (String.ltb (text_of k) (text_of k')) eqn:L.
      * apply ltb_lt in L. split; [constructor; assumption|]. split.
        -- constructor; [exact S|]. constructor; [exact L|]. eapply Forall_impl; [|exact B].
           intros e He. unfold below in *. cbn [fst] in *. now apply (string_lt_trans _ (text_of k')).
        -- intros k0 t. cbn [In]. split.
           ++ intros [H|H]; [injection H as <- <-; now left|]. right. split; [|exact H].
              intros ->. now apply (Out t L).
           ++ intros [[-> ->]|[_ H]]; [now left|now right].
      * destruct (IH T' S') as (T2 & S2 & K). split; [constructor; assumption|]. split.
        -- constructor; [exact S2|]. apply Forall_forall. intros [k0 t0] I. apply K in I.
           destruct I as [[-> ->]|[_ I]].
           ++ unfold below. cbn [fst]. destruct Tk as [s ->], Tk' as [s' ->]. cbn [text_of] in *.
              rewrite String.compare_antisym. unfold String.ltb in L.
              destruct (String.compare s s') eqn:C; [|discriminate L|reflexivity].
              apply String.compare_eq_iff in C. subst. now elim E.
           ++ rewrite Forall_forall in B. exact (B _ I).
        -- intros k0 t. cbn [In]. rewrite K. split.
           ++ intros [H|[H|[D I]]]; [injection H as <- <-; right; split; [congruence|now left]|now left|].
              right. split; [exact D|now right].
           ++ intros [H|[D [H|I]]]; [right; now left|now left|right; right; now split].
Qed.

Lemma sorted_nodup m : StronglySorted below m -> NoDup (map fst m).
Proof.
  induction 1 as [|e m S IH F]; [constructor|]. cbn. constructor; [|exact IH].
  intros I. apply in_map_iff in I. destruct I as (e' & E & I). rewrite Forall_forall in F. apply F in I.
  unfold below in I. rewrite E in I.
  assert (R : String.compare (text_of (fst e)) (text_of (fst e)) = Eq) by apply string_compare_refl. congruence.
Qed.

(** ** Collecting *)

(** The entries that [from_pairs] makes. *)
Definition collected (f : format) (ps : list (tree * tree)) : list (tree * tree) :=
  match from_pairs f None ps with Map _ l => l | _ => [] end.

Lemma from_pairs_eq f t ps : from_pairs f t ps = Map (keep_tag f t) (collected f ps).
Proof. reflexivity. Qed.

Lemma arranged_collected f ps : (f = Json -> Forall (fun e => is_text (fst e)) ps) ->
  arranged f ps (collected f ps).
Proof.
  intros T. destruct f; unfold collected; cbn [from_pairs keep_tag].
  - specialize (T eq_refl).
    assert (A : Forall (fun e => is_text (fst e)) (fold_left (fun m e => insert_sorted (fst e) (snd e) m) ps []) /\
      StronglySorted below (fold_left (fun m e => insert_sorted (fst e) (snd e) m) ps []) /\
      forall k t, In (k, t) (fold_left (fun m e => insert_sorted (fst e) (snd e) m) ps []) <-> last_for k t ps).
    { induction ps as [|[k x] ps IH] using rev_ind.
      - cbn. split; [constructor|]. split; [constructor|]. intros k t. split; [intros []|]. intros H. now apply last_for_nil in H.
      - apply Forall_app in T. destruct T as [T Tk]. inversion Tk as [|? ? Tk' _]; subst. cbn [fst] in Tk'.
        destruct (IH T) as (A & B & C). rewrite fold_left_app. cbn [fold_left fst snd].
        destruct (sorted_keeps k x _ Tk' A B) as (A' & B' & K). split; [exact A'|]. split; [exact B'|].
        intros k' t. rewrite (K k' t), C, last_for_snoc. reflexivity. }
    destruct A as (_ & B & C). split; intros; try congruence.
    + now apply sorted_nodup.
    + apply C.
    + exact B.
  - assert (A : NoDup (map fst (fold_left (fun m e => insert_at_end (fst e) (snd e) m) ps [])) /\
      (forall k t, In (k, t) (fold_left (fun m e => insert_at_end (fst e) (snd e) m) ps []) <-> last_for k t ps) /\
      (NoDup (map fst ps) -> fold_left (fun m e => insert_at_end (fst e) (snd e) m) ps [] = ps)).
    { clear T. induction ps as [|[k x] ps IH] using rev_ind.
      - cbn. split; [constructor|]. split; [|reflexivity]. intros k t. split; [intros []|]. intros H. now apply last_for_nil in H.
      - destruct IH as (A & C & O). rewrite fold_left_app. cbn [fold_left fst snd].
        destruct (at_end_keeps k x _ A) as (A' & K). split; [exact A'|]. split.
        + intros k' t. rewrite (K k' t), C, last_for_snoc. reflexivity.
        + rewrite map_app. intros N. pose proof (NoDup_remove_1 _ _ _ N) as N1. pose proof (NoDup_remove_2 _ _ _ N) as N2.
          rewrite app_nil_r in N1, N2. rewrite (O N1). now apply at_end_fresh. }
    destruct A as (A & C & O). split; intros; try congruence; auto.
  - assert (A : NoDup (map fst (fold_left (fun m e => insert_in_place (fst e) (snd e) m) ps [])) /\
      (forall k t, In (k, t) (fold_left (fun m e => insert_in_place (fst e) (snd e) m) ps []) <-> last_for k t ps) /\
      (NoDup (map fst ps) -> fold_left (fun m e => insert_in_place (fst e) (snd e) m) ps [] = ps)).
    { clear T. induction ps as [|[k x] ps IH] using rev_ind.
      - cbn. split; [constructor|]. split; [|reflexivity]. intros k t. split; [intros []|]. intros H. now apply last_for_nil in H.
      - destruct IH as (A & C & O). rewrite fold_left_app. cbn [fold_left fst snd].
        destruct (in_place_keeps k x _ A) as (A' & K). split; [exact A'|]. split.
        + intros k' t. rewrite (K k' t), C, last_for_snoc. reflexivity.
        + rewrite map_app. intros N. pose proof (NoDup_remove_1 _ _ _ N) as N1. pose proof (NoDup_remove_2 _ _ _ N) as N2.
          rewrite app_nil_r in N1, N2. rewrite (O N1). now apply in_place_fresh. }
    destruct A as (A & C & O). split; intros; try congruence; auto.
  - split; intros; congruence.
Qed.
