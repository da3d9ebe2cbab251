(** Lemmas about queries, rewriting and structural matching. *)
From Coq Require Import ZArith List Bool Lia.
From Verif Require Import Numbers.Model Blocks.Model Blocks.Spec Blocks.Proofs Blocks.Equal Updates.Model Updates.Spec Updates.Proofs Updates.Query Updates.QSpec.
From Verif Require Prelude.Model Prelude.Proofs.
Import ListNotations.

(** Down through entries of blocks. *)
Inductive below : value -> list key -> value -> Prop :=
| below_here v : below v [] v
| below_entry v es k x f p w : is_block v es -> In (k, x, f) es -> below x p w -> below v (k :: p) w.

Lemma desc_pairs_eq path v : desc_pairs path v =
  match strip v with
  | Blk es => (path, v) :: flat_map (fun e => desc_pairs (path ++ [e_key e]) (e_val e)) es
  | _ => []
  end.
Proof.
  set (under := fix under (u : value) : list found :=
     match u with
     | Met _ u => under u
     | Blk es =>
         (path, v) ::
         (fix go (es : list entry) : list found :=
            match es with
            | [] => []
            | (ck, cv, _) :: es => desc_pairs (path ++ [ck]) cv ++ go es
            end) es
     | _ => []
     end).
  assert (G : forall u, under u = match strip u with
    | Blk es => (path, v) :: flat_map (fun e => desc_pairs (path ++ [e_key e]) (e_val e)) es
    | _ => []
    end).
  { induction u as [a|xs _|es _ _|m u IH] using value_ind2; try reflexivity.
    - cbn [under strip]. f_equal. induction es as [|[[k x] f] es IH]; [reflexivity|]. cbn [flat_map]. rewrite <- IH. reflexivity.
    - exact IH. }
  transitivity (under v); [|apply G]. destruct v; reflexivity.
Qed.
Lemma strip_ind (P : value -> Prop) :
  (forall v, (forall xs, strip v = Lst xs -> forall x, In x xs -> P x) -> (forall es, strip v = Blk es -> forall e, In e es -> P (e_val e)) -> P v) ->
  forall v, P v.
Proof.
  intros H v. assert (G : forall w, strip w = strip v -> P w); [|auto].
  induction v as [a|xs IH|es IH _|m v IH] using value_ind2; intros w S; cbn [strip] in S; [apply H..|exact (IH w S)].
  - intros xs S'. congruence.
  - intros es S'. congruence.
  - intros ys S' x Hx. assert (ys = xs) as -> by congruence. now apply (IH x Hx).
  - intros es S'. congruence.
  - intros xs S'. congruence.
  - intros ys S' e He. assert (ys = es) as -> by congruence. now apply (IH e He).
Qed.
Lemma in_desc v : forall path p u, In (p, u) (desc_pairs path v) <-> exists q, p = path ++ q /\ below v q u /\ a_block u.
Proof.
  induction v as [v _ IH] using strip_ind. intros path p u. rewrite desc_pairs_eq. split.
  - destruct (strip v) as [| |es|] eqn:S; try (intros []; fail). intros [E|H].
    + injection E as <- <-. exists []. rewrite app_nil_r. repeat split; [constructor|exists es; exact S].
    + apply in_flat_map in H. destruct H as (e & He & H). apply (IH es eq_refl e He) in H. destruct H as (q & -> & B & A).
      exists (e_key e :: q). rewrite <- app_assoc. repeat split; auto. destruct e as [[k x] f]. eapply below_entry; eauto.
  - intros (q & -> & B & A). destruct B as [v|v es k x f q w B Hin B'].
    + destruct A as (es & A). unfold is_block in A. rewrite A. left. now rewrite app_nil_r.
    + unfold is_block in B. rewrite B. right. apply in_flat_map. exists (k, x, f). split; [exact Hin|].
      apply (IH es B (k, x, f) Hin). exists q. rewrite <- app_assoc. auto.
Qed.

(** What a list of segments selects. *)
Fixpoint reads (s : list segment) (v : value) (p : list key) (w : value) : Prop :=
  match s with
  | [] => p = [] /\ w = v
  | Deep :: s => exists q u r, p = q ++ r /\ below v q u /\ a_block u /\ reads s u r w
  | Any :: s => exists es k x f r, is_block v es /\ In (k, x, f) es /\ p = k :: r /\ reads s x r w
  | Named k :: s => exists x r, lookup k v = Some x /\ p = k :: r /\ reads s x r w
  end.
Lemma in_apply pairs s p w : In (p, w) (apply_segment pairs s) <-> exists p0 v q, In (p0, v) pairs /\ p = p0 ++ q /\ reads [s] v q w.
Proof.
  destruct s as [| |k]; cbn [apply_segment]; rewrite Prelude.Proofs.mapcat_std, in_flat_map; split.
  - intros ([p0 v] & Hin & H). cbn [fst snd] in H. apply in_desc in H. destruct H as (q & -> & B & A). exists p0, v, q. repeat split; auto.
    exists q, w, []. rewrite app_nil_r. repeat split; auto.
  - intros (p0 & v & q & Hin & -> & q' & u & r & -> & B & A & -> & ->). exists (p0, v). split; [exact Hin|]. apply in_desc. exists q'. rewrite app_nil_r. auto.
  - intros ([p0 v] & Hin & H). unfold expand_star in H. cbn [fst snd] in H. destruct (strip v) as [| |es|] eqn:S; try destruct H.
    rewrite Prelude.Proofs.map_std in H. apply in_map_iff in H. destruct H as ([[k x] f] & E & He). injection E as <- <-.
    exists p0, v, [k]. repeat split; auto. exists es, k, x, f, []. repeat split; auto.
  - intros (p0 & v & q & Hin & -> & es & k & x & f & r & B & He & -> & -> & ->). exists (p0, v). split; [exact Hin|].
    unfold expand_star. cbn [fst snd]. rewrite B, Prelude.Proofs.map_std. apply in_map_iff. exists (k, x, f). auto.
  - intros ([p0 v] & Hin & H). unfold match_sym in H. cbn [fst snd] in H. destruct (strip v) as [| |es|] eqn:S; try destruct H.
    destruct (find_first k es) as [x|] eqn:F; [|destruct H]. destruct H as [E|[]]. injection E as <- <-.
    exists p0, v, [k]. repeat split; auto. exists x, []. repeat split. unfold lookup. now rewrite S.
  - intros (p0 & v & q & Hin & -> & x & r & L & -> & -> & ->). exists (p0, v). split; [exact Hin|]. unfold match_sym. cbn [fst snd].
    unfold lookup in L. destruct (strip v) as [| |es|]; try discriminate. rewrite L. now left.
Qed.
Lemma reads_cons s ss v p w : reads (s :: ss) v p w <-> exists q u r, p = q ++ r /\ reads [s] v q u /\ reads ss u r w.
Proof.
  destruct s as [| |k]; cbn [reads]; split.
  - intros (q & u & r & -> & B & A & R). exists q, u, r. repeat split; auto. exists q, u, []. rewrite app_nil_r. auto.
  - intros (q & u & r & -> & (q' & u' & r' & -> & B & A & -> & ->) & R). exists q', u', r. rewrite app_nil_r. auto.
  - intros (es & k & x & f & r & B & H & -> & R). exists [k], x, r. repeat split; auto. exists es, k, x, f, []. auto.
  - intros (q & u & r & -> & (es & k & x & f & r' & B & H & -> & -> & ->) & R). exists es, k, x, f, r. auto.
  - intros (x & r & L & -> & R). exists [k], x, r. repeat split; auto. exists x, []. auto.
  - intros (q & u & r & -> & (x & r' & L & -> & -> & ->) & R). exists x, r. auto.
Qed.
Lemma in_fold ss : forall pairs p w, In (p, w) (Prelude.Model.foldl apply_segment pairs ss) <->
  exists p0 v q, In (p0, v) pairs /\ p = p0 ++ q /\ reads ss v q w.
Proof.
  induction ss as [|s ss IH]; intros pairs p w; cbn [Prelude.Model.foldl].
  - split.
    + intro H. exists p, w, []. rewrite app_nil_r. cbn. auto.
    + intros (p0 & v & q & H & -> & -> & ->). now rewrite app_nil_r.
  - rewrite IH. split.
    + intros (p1 & u & r & H & -> & R). apply in_apply in H. destruct H as (p0 & v & q & H & -> & R'). exists p0, v, (q ++ r).
      rewrite app_assoc. repeat split; auto. apply reads_cons. exists q, u, r. auto.
    + intros (p0 & v & q & H & -> & R). apply reads_cons in R. destruct R as (q' & u & r & -> & R' & R). exists (p0 ++ q'), u, r.
      rewrite app_assoc. repeat split; auto. apply in_apply. exists p0, v, q'. auto.
Qed.
Lemma in_query s b p w : In (p, w) (query_fold s b) <-> reads (norm s) b p w.
Proof.
  unfold query_fold. rewrite in_fold. split.
  - intros (p0 & v & q & [E|[]] & -> & R). injection E as <- <-. exact R.
  - intro R. exists [], b, p. repeat split; auto. now left.
Qed.

(** In tidy values. *)
Lemma entry_tidy es k x f v : tidy v -> is_block v es -> In (k, x, f) es -> lookup k v = Some x /\ tidy x.
Proof.
  intros T B H. destruct (tidy_block v es T B) as [N D]. assert (F : find_first k es = Some x) by (eapply find_first_unique; eauto).
  split; [unfold lookup; now rewrite B|eauto].
Qed.
Lemma below_path v q u : tidy v -> (below v q u <-> at_path q v = Some u).
Proof.
  intro T. split.
  - induction 1 as [v|v es k x f p w B H B' IH]; [reflexivity|]. destruct (entry_tidy es k x f v T B H) as [L Tx]. cbn [at_path]. rewrite L. auto.
  - revert v T. induction q as [|k q IH]; intros v T H; cbn [at_path] in H; [injection H as <-; constructor|].
    destruct (lookup k v) as [x|] eqn:L; [|discriminate]. assert (Tx : tidy x) by (eapply tidy_lookup; eauto).
    unfold lookup in L. destruct (strip v) as [| |es|] eqn:S; try discriminate. apply find_first_in in L. destruct L as ([[k' x'] f] & He & Ek & Ev).
    cbn in Ek, Ev. subst k' x'. eapply below_entry; eauto.
Qed.
Lemma tidy_path q : forall v u, tidy v -> at_path q v = Some u -> tidy u.
Proof.
  induction q as [|k q IH]; intros v u T H; cbn [at_path] in H; [now injection H as <-|]. destruct (lookup k v) as [x|] eqn:L; [|discriminate].
  eapply IH; [|exact H]. eapply tidy_lookup; eauto.
Qed.
Lemma path_app q r v : at_path (q ++ r) v = match at_path q v with Some u => at_path r u | None => None end.
Proof. revert v. induction q as [|k q IH]; intro v; [reflexivity|]. cbn [app at_path]. destruct (lookup k v); auto. Qed.
Lemma path_block k r u w : at_path (k :: r) u = Some w -> a_block u.
Proof. cbn [at_path]. unfold lookup, a_block, is_block. destruct (strip u); try discriminate. eauto. Qed.
Lemma ends_cons s t ss : ends_deep (s :: t :: ss) <-> ends_deep (t :: ss).
Proof.
  unfold ends_deep. split.
  - intros ([|x s'] & E); [discriminate|]. cbn in E. injection E as -> E. eauto.
  - intros (s' & ->). exists (s :: s'). reflexivity.
Qed.
Lemma ends_one s : ends_deep [s] <-> s = Deep.
Proof.
  unfold ends_deep. split; [|intros ->; now exists []]. intros ([|x s'] & E); cbn in E; [congruence|]. injection E as _ E. now destruct s'.
Qed.
Lemma reads_path ss : forall v p w, tidy v -> (reads ss v p w <-> fits ss p /\ at_path p v = Some w /\ (ends_deep ss -> a_block w)).
Proof.
  induction ss as [|s ss IH]; intros v p w T.
  - split.
    + intros [-> ->]. repeat split; [constructor|]. intros ([|x s'] & E); discriminate.
    + intros (F & P & _). inversion F; subst. cbn in P. injection P as <-. split; reflexivity.
  - assert (E : ends_deep (s :: ss) <-> (ss = [] /\ s = Deep) \/ (ss <> [] /\ ends_deep ss)).
    { destruct ss as [|t ss]; [rewrite ends_one; intuition congruence|]. rewrite ends_cons. intuition congruence. }
    assert (Z : ends_deep ss -> ss <> []) by (intros ([|x s'] & ->); discriminate).
    destruct s as [| |k]; cbn [reads]; split.
    + intros (q & u & r & -> & B & A & R). apply (below_path v q u T) in B. apply IH in R; [|eapply tidy_path; eauto]. destruct R as (F & P & D).
      repeat split; [now constructor|rewrite path_app, B; exact P|]. intro X. apply E in X. destruct X as [[-> _]|[_ X]]; [|auto].
      inversion F; subst. cbn in P. now injection P as <-.
    + intros (F & P & D). inversion F as [| | |ss' q r F']; subst. rewrite path_app in P. destruct (at_path q v) as [u|] eqn:Q; [|discriminate].
      exists q, u, r. repeat split; [now apply below_path| |apply IH; [eapply tidy_path; eauto|repeat split; auto]].
      2:{ intro X. apply D, E. right. auto. }
      (* u is a block: the path goes on, or ends here with [**] *)
      destruct r as [|k r]; [|eapply path_block; eauto]. cbn in P. injection P as <-. apply D, E.
      assert (forall ss, fits ss [] -> ss = [] \/ ends_deep ss) as N.
      { clear. induction ss as [|s ss IH]; intro F; [now left|right]. inversion F as [| | |ss' q r F' X Y]; subst. apply app_eq_nil in Y. destruct Y as [-> ->].
        destruct (IH F') as [->|G]; [now apply ends_one|]. destruct ss as [|t ss]; [now apply ends_one|now apply ends_cons]. }
      destruct (N ss F') as [->|G]; [now left|right; auto].
    + intros (es & k & x & f & r & B & H & -> & R). destruct (entry_tidy es k x f v T B H) as [L Tx]. apply IH in R; [|exact Tx]. destruct R as (F & P & D).
      repeat split; [now constructor|cbn [at_path]; now rewrite L|]. intro X. apply E in X. destruct X as [[_ X]|[_ X]]; [discriminate|auto].
    + intros (F & P & D). inversion F as [| |k ss' r F'|]; subst. cbn [at_path] in P. destruct (lookup k v) as [x|] eqn:L; [|discriminate].
      assert (Tx : tidy x) by (eapply tidy_lookup; eauto).
      pose proof L as L'. unfold lookup in L'. destruct (strip v) as [| |es|] eqn:S; try discriminate. apply find_first_in in L'. destruct L' as ([[k' x'] f] & He & Ek & Ev).
      cbn in Ek, Ev. subst k' x'. exists es, k, x, f, r. repeat split; auto. apply IH; [exact Tx|]. repeat split; auto. intro X. apply D, E. right. auto.
    + intros (x & r & L & -> & R). apply IH in R; [|eapply tidy_lookup; eauto]. destruct R as (F & P & D).
      repeat split; [now constructor|cbn [at_path]; now rewrite L|]. intro X. apply E in X. destruct X as [[_ X]|[_ X]]; [discriminate|auto].
    + intros (F & P & D). inversion F as [|k' ss' r F'| |]; subst. cbn [at_path] in P. destruct (lookup k v) as [x|] eqn:L; [|discriminate].
      exists x, r. repeat split; auto. apply IH; [eapply tidy_lookup; eauto|]. repeat split; auto. intro X. apply D, E. right. auto.
Qed.

(** No path twice. *)
Lemma nodup_flat {A B} (f : A -> list B) l : NoDup l -> (forall x, In x l -> NoDup (f x)) ->
  (forall x y b, In x l -> In y l -> In b (f x) -> In b (f y) -> x = y) -> NoDup (flat_map f l).
Proof.
  intro N. induction N as [|x l Nx N IH]; intros F D; cbn [flat_map]; [constructor|].
  assert (X : forall l1 l2 : list B, NoDup l1 -> NoDup l2 -> (forall b, In b l1 -> ~ In b l2) -> NoDup (l1 ++ l2)).
  { clear. induction l1 as [|b l1 IH]; intros l2 N1 N2 D; [exact N2|]. inversion N1; subst. cbn [app]. constructor.
    - rewrite in_app_iff. intros [H|H]; [contradiction|]. apply (D b); [now left|exact H].
    - apply IH; auto. intros c Hc. apply D. now right. }
  apply X.
  - apply F. now left.
  - apply IH; [intros y Hy; apply F; now right|]. intros y z b Hy Hz. apply D; now right.
  - intros b H H'. apply in_flat_map in H'. destruct H' as (y & Hy & Hb). assert (x = y) as <- by (eapply D; eauto; [now left|now right]). contradiction.
Qed.
Lemma map_flat_map {A B C} (g : B -> C) (f : A -> list B) l : map g (flat_map f l) = flat_map (fun x => map g (f x)) l.
Proof. induction l as [|x l IH]; [reflexivity|]. cbn [flat_map]. now rewrite map_app, IH. Qed.
Lemma nodup_fst {A B} (l : list (A * B)) : NoDup (map fst l) -> NoDup l.
Proof. apply NoDup_map_inv. Qed.
Lemma fst_inj {A B} (l : list (A * B)) x y : NoDup (map fst l) -> In x l -> In y l -> fst x = fst y -> x = y.
Proof.
  induction l as [|z l IH]; intros N Hx Hy E; [destruct Hx|]. cbn [map] in N. inversion N; subst. destruct Hx as [->|Hx], Hy as [->|Hy]; auto.
  - exfalso. apply H1. rewrite E. now apply in_map.
  - exfalso. apply H1. rewrite <- E. now apply in_map.
Qed.
Lemma desc_nodup v : tidy v -> forall path, NoDup (map fst (desc_pairs path v)).
Proof.
  induction v as [v _ IH] using strip_ind. intros T path. rewrite desc_pairs_eq. destruct (strip v) as [| |es|] eqn:S; [apply NoDup_nil|apply NoDup_nil| |apply NoDup_nil]. cbn [map fst]. apply NoDup_cons.
  - (* the path itself is not below *)
    intro H. apply in_map_iff in H. destruct H as ([p u] & E & H). cbn in E. subst p. apply in_flat_map in H. destruct H as (e & He & H).
    apply in_desc in H. destruct H as (q & E & _). rewrite <- app_assoc in E. cbn in E. rewrite <- (app_nil_r path) in E at 1. apply app_inv_head in E. discriminate.
  - rewrite map_flat_map. destruct (tidy_block v es T S) as [N _]. apply nodup_flat.
    + unfold keys in N. now apply NoDup_map_inv in N.
    + intros [[k x] f] He. apply (IH es eq_refl _ He). exact (proj2 (entry_tidy es k x f v T S He)).
    + intros x y b Hx Hy H H'. apply in_map_iff in H, H'. destruct H as ([p u] & <- & H), H' as ([p' u'] & E' & H'). cbn in E'. subst p'.
      apply in_desc in H, H'. destruct H as (q & E & _), H' as (q' & E' & _). cbn [fst] in *. rewrite E in E'. rewrite <- !app_assoc in E'. apply app_inv_head in E'. cbn in E'. injection E' as Ek _.
      clear - N Hx Hy Ek. induction es as [|e es IH]; [destruct Hx|]. unfold keys in N. cbn [map] in N. inversion N; subst.
      destruct Hx as [->|Hx], Hy as [->|Hy]; auto.
      * exfalso. apply H1. rewrite Ek. now apply in_map.
      * exfalso. apply H1. rewrite <- Ek. now apply in_map.
Qed.
Lemma step_nodup pairs s : s <> Deep -> NoDup (map fst pairs) -> (forall p v, In (p, v) pairs -> tidy v) ->
  NoDup (map fst (apply_segment pairs s)) /\ forall p v, In (p, v) (apply_segment pairs s) -> tidy v.
Proof.
  intros Ns N T. split.
  - assert (G : forall f : found -> list found, (forall pv, In pv pairs -> NoDup (map fst (f pv))) ->
      (forall pv r, In r (f pv) -> exists k, fst r = fst pv ++ [k]) -> NoDup (map fst (flat_map f pairs))).
    { intros f F P. rewrite map_flat_map. apply nodup_flat; [now apply nodup_fst|auto|].
      intros x y b Hx Hy H H'. apply in_map_iff in H, H'. destruct H as (r & <- & H), H' as (r' & E & H').
      destruct (P _ _ H) as (k & K), (P _ _ H') as (k' & K'). rewrite K, K' in E. apply app_inj_tail in E. destruct E as [E _]. symmetry in E. eapply fst_inj; eauto. }
    destruct s as [| |k]; [congruence| |]; cbn [apply_segment]; rewrite Prelude.Proofs.mapcat_std; apply G.
    + intros [p v] H. unfold expand_star. cbn [fst snd]. destruct (strip v) as [| |es|] eqn:S; try constructor. rewrite Prelude.Proofs.map_std, map_map. cbn [fst].
      destruct (tidy_block v es (T p v H) S) as [Nk _]. unfold keys in Nk. rewrite <- map_map with (g := fun k => p ++ [k]).
      apply FinFun.Injective_map_NoDup; [|exact Nk]. intros a b E. apply app_inj_tail in E. tauto.
    + intros [p v] r H. unfold expand_star in H. cbn [fst snd] in *. destruct (strip v) as [| |es|]; try destruct H. rewrite Prelude.Proofs.map_std in H.
      apply in_map_iff in H. destruct H as (e & <- & _). eexists. reflexivity.
    + intros [p v] H. unfold match_sym. cbn [fst snd]. destruct (strip v) as [| |es|]; try constructor. destruct (find_first k es); repeat constructor. intros [].
    + intros [p v] r H. unfold match_sym in H. cbn [fst snd] in *. destruct (strip v) as [| |es|]; try destruct H. destruct (find_first k es); [|destruct H].
      destruct H as [<-|[]]. eexists. reflexivity.
  - intros p w H. apply in_apply in H. destruct H as (p0 & v & q & H & -> & R). apply reads_path in R; [|eauto]. destruct R as (_ & P & _).
    eapply tidy_path; eauto.
Qed.
Lemma steps_nodup ss : ~ In Deep ss -> forall pairs, NoDup (map fst pairs) -> (forall p v, In (p, v) pairs -> tidy v) ->
  NoDup (map fst (Prelude.Model.foldl apply_segment pairs ss)).
Proof.
  induction ss as [|s ss IH]; intros N pairs P T; cbn [Prelude.Model.foldl]; [exact P|].
  destruct (step_nodup pairs s) as [P' T']; auto; [intros ->; apply N; now left|]. apply IH; auto. intro H. apply N. now right.
Qed.

(** Finding a key and the query that is just the key. *)
Lemma listless_strip v : listless v -> listless (strip v).
Proof. induction 1; cbn [strip]; auto; now constructor. Qed.
Lemma find_query k v : listless v -> forall path, deep_find_paths k path v = flat_map (match_sym k) (desc_pairs path v).
Proof.
  induction v as [a|xs _|es IH _|m v IH] using value_ind2; intros L path; inversion L as [|es' Hes E|m' v' L' E]; subst.
  - reflexivity.
  - rewrite desc_pairs_eq. cbn [strip flat_map deep_find_paths]. unfold match_sym at 1. cbn [fst snd strip]. apply (f_equal2 (@app _)); [reflexivity|].
    clear L. induction es as [|[[ck cv] f] es IHes]; [reflexivity|]. cbn [flat_map]. rewrite flat_map_app.
    rewrite IHes; [|intros e He; apply IH; now right|intros j y g Hg; eapply Hes; right; exact Hg]. apply (f_equal2 (@app _)); [|reflexivity].
    apply (IH (ck, cv, f)); [now left|]. eapply Hes. now left.
  - cbn [deep_find_paths]. rewrite (IH L' path). rewrite !desc_pairs_eq. cbn [strip]. destruct (strip v) as [| |es|] eqn:S; try reflexivity.
Qed.

(** Rewriting. *)
Lemma transform_eq rule v : transform rule v =
  match rule v with
  | Some w => w
  | None =>
      match strip v with
      | Blk es => Blk (map (fun e => (e_key e, transform rule (e_val e), Some [])) es)
      | Lst xs => Lst (map (transform rule) xs)
      | _ => v
      end
  end.
Proof.
  set (under := fix under (u : value) : value :=
         match u with
         | Met _ u => under u
         | Blk es =>
             Blk ((fix go (es : list entry) : list entry :=
                     match es with
                     | [] => []
                     | (k, x, _) :: es => (k, transform rule x, Some []) :: go es
                     end) es)
         | Lst xs =>
             Lst ((fix go (xs : list value) : list value :=
                     match xs with [] => [] | x :: xs => transform rule x :: go xs end) xs)
         | Atom _ => v
         end).
  assert (G : forall u, under u = match strip u with
      | Blk es => Blk (map (fun e => (e_key e, transform rule (e_val e), Some [])) es)
      | Lst xs => Lst (map (transform rule) xs)
      | _ => v
      end).
  { induction u as [a|xs _|es _ _|m u IH] using value_ind2; try reflexivity.
    - cbn [under strip]. f_equal. induction es as [|[[k x] f] es IH]; [reflexivity|]. cbn [map]. rewrite <- IH. reflexivity.
    - exact IH. }
  transitivity (match rule v with Some w => w | None => under v end); [|now rewrite G]. destruct v; reflexivity.
Qed.
Lemma find_transformed rule k es : find_first k (map (fun e => (e_key e, transform rule (e_val e), Some [])) es) = option_map (transform rule) (find_first k es).
Proof.
  induction es as [|e es IH]; [reflexivity|]. cbn [map find_first]. change (e_key (e_key e, transform rule (e_val e), Some [])) with (e_key e).
  destruct (N.eqb (e_key e) k); [reflexivity|exact IH].
Qed.
Lemma step_transformed rule s v : rule v = None -> take_step s (transform rule v) = option_map (transform rule) (take_step s v).
Proof.
  intro R. rewrite transform_eq, R. unfold take_step. destruct s as [k|n]; destruct (strip v) as [a|xs|es|m u] eqn:S; cbn [strip option_map]; try (rewrite S; reflexivity); try reflexivity.
  - apply find_transformed.
  - apply nth_error_map.
Qed.
Lemma follow_transformed rule p : forall v, untouched_above rule p v -> follow p (transform rule v) = option_map (transform rule) (follow p v).
Proof.
  induction p as [|s p IH]; intros v U; [reflexivity|]. cbn [follow].
  assert (R : rule v = None) by (apply (U [] (s :: p) v); [reflexivity|discriminate|reflexivity]).
  rewrite (step_transformed rule s v R). destruct (take_step s v) as [w|] eqn:W; [|reflexivity]. cbn [option_map]. apply IH.
  intros q r u -> Hr Hu. apply (U (s :: q) r u); auto. cbn [follow]. now rewrite W.
Qed.

(** Matching. *)
Section Patterns.
Variable P : pattern -> Prop.
Hypothesis HA : forall a, P (Exactly a).
Hypothesis HE : forall ps, (forall p, In p ps -> P p) -> P (Each ps).
Hypothesis HH : forall fs, (forall k p, In (k, p) fs -> P p) -> P (Having fs).
Hypothesis HT : forall f, P (Test f).
Fixpoint pattern_ind2 (p : pattern) : P p.
Proof.
  destruct p as [a|ps|fs|f]; [apply HA| | |apply HT].
  - apply HE. induction ps as [|q ps IH]; intros p H; [destruct H|]. destruct H as [E|H]; [rewrite <- E; apply pattern_ind2|]. exact (IH p H).
  - apply HH. induction fs as [|[j q] fs IH]; intros k p H; [destruct H|]. destruct H as [E|H]; [injection E as _ E; rewrite <- E; apply pattern_ind2|]. exact (IH k p H).
Defined.
End Patterns.
Lemma matches_each ps xs : Nat.eqb (length xs) (length ps) &&
  (fix go (ps : list pattern) (xs : list value) : bool :=
             match ps, xs with
             | p :: ps, x :: xs => matches p x && go ps xs
             | _, _ => true
             end) ps xs = true <-> Forall2 (fun p x => matches p x = true) ps xs.
Proof.
  revert xs. induction ps as [|p ps IH]; intros [|x xs].
  - split; [constructor|reflexivity].
  - split; [discriminate|]. intro H. inversion H.
  - split; [discriminate|]. intro H. inversion H.
  - cbn [length Nat.eqb]. split.
    + intro H. apply andb_true_iff in H. destruct H as [H1 H2]. apply andb_true_iff in H2. destruct H2 as [H2 H3].
      constructor; [exact H2|]. apply IH. now rewrite H1, H3.
    + intro H. inversion H as [|? ? ? ? H1 H2]; subst. apply IH in H2. apply andb_true_iff in H2. destruct H2 as [H2 H3]. now rewrite H2, H1, H3.
Qed.
Lemma matches_having fs es :
  (fix go (fs : list (key * pattern)) : bool :=
             match fs with
             | [] => true
             | (k, q) :: fs => (match find_first k es with Some x => matches q x | None => false end) && go fs
             end) fs = true <-> forall k q, In (k, q) fs -> exists x, find_first k es = Some x /\ matches q x = true.
Proof.
  induction fs as [|[k q] fs IH].
  - split; [intros _ k q []|reflexivity].
  - rewrite andb_true_iff, IH. split.
    + intros [H1 H2] k' q' [E|H]; [injection E as <- <-|auto]. destruct (find_first k es) as [x|]; [eauto|discriminate].
    + intro H. split; [|intros k' q' H'; apply H; now right]. destruct (H k q) as (x & -> & M); [now left|exact M].
Qed.
Lemma matches_conforms p : forall t, matches p t = true <-> conforms p t.
Proof.
  induction p as [a|ps IH|fs IH|f] using pattern_ind2; intro t.
  - cbn [matches]. rewrite val_eq_body. cbn [strip]. split.
    + destruct (strip t) as [b| | |] eqn:S; cbn [body_eq]; try discriminate. intro H. econstructor; eauto.
    + intro H. inversion H as [? ? b S E| | |]; subst. rewrite S. exact E.
  - cbn [matches]. split.
    + destruct (strip t) as [|xs| |] eqn:S; try discriminate. intro H. apply matches_each in H. econstructor; [exact S|]. clear S.
      revert IH. induction H as [|p x ps xs M H IHH]; intro IH; constructor; [apply IH; [now left|exact M]|]. apply IHH. intros q Hq. apply IH. now right.
    + intro H. inversion H as [|? ? xs S E| |]; subst. rewrite S. apply matches_each. clear - E IH.
      induction ps as [|p ps IHp] in xs, E, IH |- *; inversion E; subst; constructor; [apply IH; [now left|assumption]|].
      apply IHp; auto. intros q Hq. apply IH. now right.
  - cbn [matches]. split.
    + destruct (strip t) as [| |es|] eqn:S; try discriminate. intro H. pose proof (proj1 (matches_having fs es) H) as M. econstructor; [exact S|]. clear H.
      induction fs as [|[k q] fs IHf]; [constructor|]. destruct (M k q) as (x & F & Mx); [now left|]. econstructor.
      * unfold lookup. rewrite S. exact F.
      * apply (IH k q); [now left|exact Mx].
      * apply IHf; [intros k' q' H; eapply IH; right; exact H|]. intros k' q' H. apply M. now right.
    + intro H. inversion H as [| |? ? es S E|]; subst. unfold is_block in S. rewrite S. apply matches_having. clear - E IH S.
      induction fs as [|[k q] fs IHf]; intros k' q' H; [destruct H|]. inversion E as [|? ? ? ? x L C E']; subst. destruct H as [X|H].
      * injection X as <- <-. unfold lookup in L. rewrite S in L. exists x. split; [exact L|]. apply (IH k q); [now left|exact C].
      * apply IHf; auto. intros k'' q'' H'. eapply IH. right. exact H'.
  - cbn [matches]. split; [now constructor|]. intro H. now inversion H.
Qed.
Lemma fields_all fs t : fields_conform fs t <-> forall k p, In (k, p) fs -> exists x, lookup k t = Some x /\ conforms p x.
Proof.
  split.
  - induction 1 as [t|k p fs t x L C F IH]; intros k' p' H; [destruct H|]. destruct H as [E|H]; [injection E as <- <-; eauto|auto].
  - induction fs as [|[k p] fs IH]; intro H; [constructor|]. destruct (H k p) as (x & L & C); [now left|]. econstructor; eauto. apply IH. intros k' p' H'. apply H. now right.
Qed.
Lemma exact_conforms v : tidy_all v -> all_proper v -> conforms (exact v) v.
Proof.
  intros T N. assert (G : forall w, strip w = strip v -> conforms (exact v) w); [|auto].
  induction v as [a|xs IH|es IH _|m v IH] using value_ind2; intros w S; cbn [exact strip] in *; inversion T as [|xs' Tx|es' Nd Te|m' v' Tv]; subst.
  - econstructor; [exact S|]. apply atom_eq_refl. now apply numbers_of_atom.
  - econstructor; [exact S|]. assert (M : forall ys, (forall y, In y ys -> In y xs) ->
      each_conforms ((fix go (xs : list value) := match xs with [] => [] | x :: xs => exact x :: go xs end) ys) ys); [|apply M; auto].
    induction ys as [|y ys IHy]; intro H; constructor; [|apply IHy; intros z Hz; apply H; now right].
    assert (Hy : In y xs) by (apply H; now left). apply IH; auto. eapply numbers_item; eauto.
  - econstructor; [exact S|]. apply fields_all. intros k p H.
    assert (M : forall ys, In (k, p) ((fix go (es : list entry) := match es with [] => [] | (k, x, _) :: es => (k, exact x) :: go es end) ys) -> exists x f, In (k, x, f) ys /\ p = exact x).
    { induction ys as [|[[k' x'] f'] ys IHy]; intro H'; [destruct H'|]. destruct H' as [E|H']; [injection E as <- <-; exists x', f'; split; [now left|reflexivity]|].
      destruct (IHy H') as (x & f & H1 & H2). exists x, f. split; [now right|exact H2]. }
    destruct (M es H) as (x & f & Hin & ->). exists x. split.
    + unfold lookup. rewrite S. eapply find_first_unique; eauto.
    + exact (IH (k, x, f) Hin (Te (k, x, f) Hin) (proj1 (numbers_entry _ _ _ N Hin)) x eq_refl).
  - apply IH; auto. apply (proj2 (numbers_strip _ v)). exact (proj1 (numbers_strip _ (Met m v)) N).
Qed.
