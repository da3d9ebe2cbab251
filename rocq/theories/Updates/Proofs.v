(** Lemmas about updating and searching nested blocks. *)
From Coq Require Import ZArith List Bool Permutation Sorting.Sorted Lia.
From Verif Require Import Numbers.Model Blocks.Model Blocks.Spec Blocks.Proofs Updates.Model Updates.Spec.
From Verif Require Prelude.Model Prelude.Spec Prelude.Proofs Prelude.Props.
Import ListNotations.

Ltac std := rewrite ?Prelude.Proofs.map_std, ?Prelude.Proofs.append_std, ?Prelude.Proofs.reverse_std, ?Prelude.Proofs.filter_std in *.

Definition find_el (k : key) (es : list element) : option value :=
  option_map el_val (find (fun e => N.eqb (el_key e) k) es).
Lemma find_el_cons k e es : find_el k (e :: es) = if N.eqb (el_key e) k then Some (el_val e) else find_el k es.
Proof. unfold find_el. cbn [find]. destruct (N.eqb (el_key e) k); reflexivity. Qed.
Lemma find_el_app k es es' : find_el k (es ++ es') = match find_el k es with Some v => Some v | None => find_el k es' end.
Proof. induction es as [|e es IH]; [reflexivity|]. cbn [app]. rewrite !find_el_cons. destruct (N.eqb (el_key e) k); auto. Qed.
Lemma find_el_none k es : find_el k es = None <-> ~ In k (map el_key es).
Proof.
  induction es as [|e es IH]; [split; [intros _ []|reflexivity]|]. rewrite find_el_cons. cbn [map In].
  destruct (N.eqb_spec (el_key e) k); [split; [discriminate|tauto]|]. rewrite IH. tauto.
Qed.
Lemma block_lookup k es : lookup k (block es) = find_el k es.
Proof.
  unfold lookup, block. cbn [strip]. std. induction es as [|e es IH]; [reflexivity|]. rewrite find_el_cons. cbn [map find_first e_key e_val fst snd].
  now rewrite IH.
Qed.
Lemma elements_block es : elements (block es) = Some es.
Proof.
  unfold elements, block. cbn [strip]. std. rewrite map_map. apply (f_equal (@Some _)). transitivity (map (fun x : element => x) es); [|apply map_id]. apply map_ext. intros [[k v] m]. reflexivity.
Qed.
Lemma elements_some b es : elements b = Some es -> exists xs, is_block b xs /\ map el_key es = keys xs /\ forall k, lookup k b = find_el k es.
Proof.
  unfold elements, is_block. destruct (strip b) as [| |xs|] eqn:S; try discriminate. intros [= <-]. std. exists xs. split; [reflexivity|]. split.
  - rewrite map_map. reflexivity.
  - intro k. unfold lookup. rewrite S. induction xs as [|x xs IH] in S |- *; [reflexivity|]. cbn [map]. rewrite find_el_cons. cbn [find_first].
    assert (IH' : find_first k xs = find_el k (map (fun e : entry => (e_key e, e_val e, match snd e with Some more => more | None => [] end)) xs)).
    { clear. induction xs as [|x xs IH]; [reflexivity|]. cbn [map find_first]. rewrite find_el_cons, IH. reflexivity. }
    rewrite IH'. reflexivity.
Qed.
Lemma elements_is_block b xs : is_block b xs -> exists es, elements b = Some es.
Proof. unfold is_block, elements. intros ->. eauto. Qed.
Lemma elements_none b : elements b = None <-> ~ a_block b.
Proof.
  unfold a_block, is_block, elements. destruct (strip b) as [| |xs|]; (split; [intros _ (es & [=])|reflexivity]) || (split; [discriminate|]).
  intro H. exfalso. apply H. eauto.
Qed.
Lemma keys_of_std b : keys_of b = option_map (map el_key) (elements b).
Proof. unfold keys_of. destruct (elements b); cbn; std; reflexivity. Qed.
Lemma keys_of_block b xs : is_block b xs -> keys_of b = Some (keys xs).
Proof.
  intro H. rewrite keys_of_std. destruct (elements_is_block b xs H) as (es & E). rewrite E. destruct (elements_some b es E) as (xs' & H' & K & _).
  cbn. rewrite K. unfold is_block in *. congruence.
Qed.

(** [each] with a function that keeps keys. *)
Lemma each_keys (g : element -> option element) es es' : (forall e e', g e = Some e' -> el_key e' = el_key e) ->
  Prelude.Model.each g es = Some es' -> map el_key es' = map el_key es.
Proof.
  intro K. revert es'. induction es as [|e es IH]; intros es'; cbn [Prelude.Model.each]; [now intros [= <-]|].
  destruct (g e) as [e'|] eqn:E; [|discriminate]. destruct (Prelude.Model.each g es) as [t|]; [|discriminate]. intros [= <-].
  cbn [map]. rewrite (K _ _ E). f_equal. now apply IH.
Qed.
Lemma each_find (g : element -> option element) es es' : (forall e e', g e = Some e' -> el_key e' = el_key e) ->
  Prelude.Model.each g es = Some es' -> forall k,
  match find (fun e => N.eqb (el_key e) k) es with
  | Some e => exists e', g e = Some e' /\ find_el k es' = Some (el_val e')
  | None => find_el k es' = None
  end.
Proof.
  intro K. revert es'. induction es as [|e es IH]; intros es' H k; cbn [Prelude.Model.each] in H.
  - injection H as <-. reflexivity.
  - destruct (g e) as [e'|] eqn:E; [|discriminate]. destruct (Prelude.Model.each g es) as [t|]; [|discriminate]. injection H as <-.
    cbn [find]. rewrite find_el_cons, (K _ _ E). destruct (N.eqb (el_key e) k); [eauto|]. now apply IH.
Qed.
Lemma each_total {X Y} (g : X -> option Y) xs : (forall x, In x xs -> exists y, g x = Some y) -> exists ys, Prelude.Model.each g xs = Some ys.
Proof.
  induction xs as [|x xs IH]; intro H; cbn [Prelude.Model.each]; [eauto|]. destruct (H x) as (y & ->); [now left|].
  destruct IH as (ys & ->); [auto using in_cons|]. eauto.
Qed.
Lemma each_fails {X Y} (g : X -> option Y) xs x : In x xs -> g x = None -> Prelude.Model.each g xs = None.
Proof.
  induction xs as [|y xs IH]; intros H N; [destruct H|]. cbn [Prelude.Model.each]. destruct H as [->|H]; [now rewrite N|].
  rewrite IH by assumption. now destruct (g y).
Qed.

Definition up (k : key) (f : value -> option value) (e : element) : option element :=
  option_map (fun v => (el_key e, v, [])) (if N.eqb (el_key e) k then f (el_val e) else Some (el_val e)).
Lemma up_key k f e e' : up k f e = Some e' -> el_key e' = el_key e.
Proof. unfold up. destruct (if N.eqb (el_key e) k then _ else _); cbn; [|discriminate]. now intros [= <-]. Qed.
Lemma update_value_cases k f b b' : update_value k f b = Some b' ->
  keys_of b' = keys_of b /\ (forall j, j <> k -> lookup j b' = lookup j b)
  /\ match lookup k b with Some v => exists w, f v = Some w /\ lookup k b' = Some w | None => lookup k b' = None end.
Proof.
  unfold update_value. destruct (elements b) as [es|] eqn:E; [|discriminate]. change (Prelude.Model.each _ es) with (Prelude.Model.each (up k f) es).
  destruct (Prelude.Model.each (up k f) es) as [es'|] eqn:F; [|discriminate]. intros [= <-].
  destruct (elements_some b es E) as (xs & Hb & Kb & Lb). repeat split.
  - rewrite !keys_of_std, elements_block, E. cbn. f_equal. exact (each_keys _ _ _ (up_key k f) F).
  - intros j Hj. rewrite block_lookup, Lb. pose proof (each_find _ _ _ (up_key k f) F j) as G. unfold find_el at 2.
    destruct (find (fun e => N.eqb (el_key e) j) es) as [e|] eqn:Fe; cbn [option_map]; [|exact G].
    destruct G as (e' & U & ->). apply find_some in Fe. destruct Fe as [_ Fe]. apply N.eqb_eq in Fe. unfold up in U.
    destruct (N.eqb_spec (el_key e) k); [congruence|]. cbn in U. injection U as <-. reflexivity.
  - rewrite block_lookup, Lb. pose proof (each_find _ _ _ (up_key k f) F k) as G. unfold find_el at 1.
    destruct (find (fun e => N.eqb (el_key e) k) es) as [e|] eqn:Fe; cbn [option_map]; [|exact G].
    destruct G as (e' & U & ->). apply find_some in Fe. destruct Fe as [_ Fe]. unfold up in U. rewrite Fe in U.
    destruct (f (el_val e)) as [w|]; [|discriminate]. cbn in U. injection U as <-. exists w. auto.
Qed.
Lemma update_value_block k f b b' : update_value k f b = Some b' -> a_block b.
Proof.
  intro H. destruct (elements b) as [es|] eqn:E.
  - destruct (elements_some b es E) as (xs & Hb & _). exists xs. exact Hb.
  - unfold update_value in H. rewrite E in H. discriminate.
Qed.
Lemma in_elements_tidy b es e : tidy b -> elements b = Some es -> In e es -> lookup (el_key e) b = Some (el_val e).
Proof.
  unfold elements. intros T H Hin. destruct (strip b) as [| |xs|] eqn:S; try discriminate. injection H as <-. std.
  apply in_map_iff in Hin. destruct Hin as (x & <- & Hx). unfold lookup. rewrite S. cbn [el_key el_val fst snd].
  destruct (tidy_block _ _ T S) as [N _]. destruct x as [[k v] f]. cbn. eapply find_first_unique; eauto.
Qed.
Lemma update_value_total k f b : tidy b -> a_block b -> (forall v, lookup k b = Some v -> exists w, f v = Some w) -> exists b', update_value k f b = Some b'.
Proof.
  intros T (xs & Hb) F. unfold update_value. destruct (elements_is_block b xs Hb) as (es & E). rewrite E.
  destruct (each_total (up k f) es) as (ys & Y).
  - intros e He. unfold up. destruct (N.eqb_spec (el_key e) k) as [Ek|]; [|cbn; eauto].
    destruct (F (el_val e)) as (w & ->); [|cbn; eauto]. rewrite <- Ek. eapply in_elements_tidy; eauto.
  - change (Prelude.Model.each _ es) with (Prelude.Model.each (up k f) es). rewrite Y. cbn. eauto.
Qed.
Lemma in_find k es v : find_el k es = Some v -> exists e, In e es /\ el_key e = k /\ el_val e = v.
Proof.
  unfold find_el. destruct (find (fun e => N.eqb (el_key e) k) es) as [e|] eqn:F; [|discriminate]. cbn. intros [= <-].
  apply find_some in F. destruct F as [Hin He]. apply N.eqb_eq in He. eauto.
Qed.
Lemma update_value_fails k f b v : lookup k b = Some v -> f v = None -> update_value k f b = None.
Proof.
  intros L F. unfold update_value. destruct (elements b) as [es|] eqn:E; [|reflexivity].
  destruct (elements_some b es E) as (xs & _ & _ & Lb). rewrite Lb in L. apply in_find in L. destruct L as (e & He & Ke & Ve).
  rewrite (each_fails _ es e); auto. rewrite Ke, N.eqb_refl, Ve, F. reflexivity.
Qed.

(** Updating along a path. *)
Lemma update_path ks f : forall b b', update ks f b = Some b' ->
  (forall v, at_path ks b = Some v -> exists w, f v = Some w /\ at_path ks b' = Some w)
  /\ (at_path ks b = None -> at_path ks b' = None)
  /\ (forall q, part ks q -> at_path q b' = at_path q b).
Proof.
  induction ks as [|k ks IH]; intros b b' H; cbn [update Prelude.Model.foldr at_path] in *.
  - repeat split; [|discriminate|intros q P; inversion P]. intros v [= <-]. unfold update in H. cbn in H. eauto.
  - unfold update in H. cbn [Prelude.Model.foldr] in H. apply update_value_cases in H. destruct H as (_ & O & C). split; [|split].
    + intros v Hv. destruct (lookup k b) as [x|]; [|discriminate]. destruct C as (w & Hf & ->). exact (proj1 (IH x w Hf) v Hv).
    + intro Hn. destruct (lookup k b) as [x|]; [|now rewrite C]. destruct C as (w & Hf & ->). exact (proj1 (proj2 (IH x w Hf)) Hn).
    + intros q P. inversion P as [a c p q' Hne|a p q' P']; subst; cbn [at_path].
      * rewrite O by congruence. reflexivity.
      * destruct (lookup k b) as [x|]; [|now rewrite C]. destruct C as (w & Hf & ->). exact (proj2 (proj2 (IH x w Hf)) q' P').
Qed.
Lemma block_dec v : a_block v \/ ~ a_block v.
Proof. unfold a_block, is_block. destruct (strip v); try (right; intros (es & [=]); fail). left. eauto. Qed.
Lemma update_total ks f : (forall v, exists w, f v = Some w) -> forall b, tidy b -> ~ blocked b ks -> exists b', update ks f b = Some b'.
Proof.
  intro F. induction ks as [|k ks IH]; intros b T NB; unfold update; cbn [Prelude.Model.foldr]; [apply F|].
  destruct (block_dec b) as [B|B]; [|exfalso; apply NB; now constructor].
  apply update_value_total; auto. intros v Hv. apply IH; [eapply tidy_lookup; eauto|].
  intro X. apply NB. destruct B as (es & B). eapply blocked_below; eauto. apply find_first_given. unfold lookup in Hv. now rewrite B in Hv.
Qed.
Lemma update_blocked ks f : forall b, blocked b ks -> update ks f b = None.
Proof.
  intros b B. induction B as [v k p NB|v es k w p Hb G B IH]; unfold update; cbn [Prelude.Model.foldr].
  - destruct (update_value k _ v) eqn:U; [|reflexivity]. apply update_value_block in U. contradiction.
  - eapply update_value_fails; [|exact IH]. apply find_first_given in G. unfold lookup. now rewrite Hb.
Qed.

(** Updating or adding. *)
Definition upk (k : key) (f : value -> option value) (e : element) : option element :=
  if N.eqb k (el_key e) then option_map (fun v => (k, v, [])) (f (el_val e)) else Some e.
Lemma uvo_acc k f es : forall done pending,
  Prelude.Model.foldl (fun (st : option (list element * list element)) (el : element) =>
    match st with
    | None => None
    | Some (done, pending) =>
        if N.eqb k (el_key el) then option_map (fun v => ((k, v, []) :: done, [])) (f (el_val el))
        else Some (el :: done, pending)
    end) (Some (done, pending)) es
  = match Prelude.Model.each (upk k f) es with
    | Some es' => Some (rev es' ++ done, if existsb (fun e => N.eqb k (el_key e)) es then [] else pending)
    | None => None
    end.
Proof.
  induction es as [|e es IH]; intros done pending; cbn [Prelude.Model.foldl Prelude.Model.each existsb rev]; [reflexivity|]. unfold upk at 1.
  destruct (N.eqb k (el_key e)) eqn:K.
  - destruct (f (el_val e)) as [v|]; cbn [option_map orb].
    + rewrite IH. destruct (Prelude.Model.each _ es) as [t|]; [|reflexivity]. cbn [rev]. rewrite <- app_assoc. cbn [app].
      now destruct (existsb (fun e => N.eqb k (el_key e)) es).
    + clear. induction es; auto.
  - rewrite IH. destruct (Prelude.Model.each _ es) as [t|]; [|reflexivity]. cbn [rev orb]. now rewrite <- app_assoc.
Qed.
Lemma upk_key k f e e' : upk k f e = Some e' -> el_key e' = el_key e.
Proof.
  unfold upk. destruct (N.eqb_spec k (el_key e)) as [->|]; [|congruence]. destruct (f (el_val e)); cbn; [|discriminate]. now intros [= <-].
Qed.
Lemma uvo_std k f d b : update_value_or k f d b =
  match elements b with
  | Some es => match Prelude.Model.each (upk k f) es with
               | Some es' => Some (block (es' ++ if existsb (fun e => N.eqb k (el_key e)) es then [] else [(k, d, [])]))
               | None => None
               end
  | None => None
  end.
Proof.
  unfold update_value_or. destruct (elements b) as [es|]; [|reflexivity]. rewrite uvo_acc.
  destruct (Prelude.Model.each (upk k f) es) as [es'|]; [|reflexivity]. std. rewrite app_nil_r, rev_app_distr, rev_involutive.
  now destruct (existsb (fun e => N.eqb k (el_key e)) es).
Qed.
Lemma existsb_keys k es : existsb (fun e => N.eqb k (el_key e)) es = true <-> In k (map el_key es).
Proof.
  rewrite existsb_exists, in_map_iff. split.
  - intros (e & He & E). apply N.eqb_eq in E. exists e. auto.
  - intros (e & E & He). exists e. split; [exact He|]. now apply N.eqb_eq.
Qed.
Lemma uvo_cases k f d b b' : update_value_or k f d b = Some b' ->
  (forall j, j <> k -> lookup j b' = lookup j b)
  /\ match lookup k b with Some v => exists w, f v = Some w /\ lookup k b' = Some w | None => lookup k b' = Some d end
  /\ exists ks, keys_of b = Some ks /\ keys_of b' = Some (match lookup k b with Some _ => ks | None => ks ++ [k] end).
Proof.
  rewrite uvo_std. destruct (elements b) as [es|] eqn:E; [|discriminate].
  destruct (Prelude.Model.each (upk k f) es) as [es'|] eqn:F; [|discriminate]. intros [= <-].
  destruct (elements_some b es E) as (xs & Hb & Kb & Lb).
  assert (Ks : map el_key es' = map el_key es) by exact (each_keys _ _ _ (upk_key k f) F).
  assert (Lk : lookup k b = None <-> existsb (fun e => N.eqb k (el_key e)) es = false).
  { rewrite Lb, find_el_none. rewrite <- not_true_iff_false, existsb_keys. tauto. }
  repeat split.
  - intros j Hj. rewrite block_lookup, Lb, find_el_app. pose proof (each_find _ _ _ (upk_key k f) F j) as G. unfold find_el at 3.
    destruct (find (fun e => N.eqb (el_key e) j) es) as [e|] eqn:Fe; cbn [option_map].
    + destruct G as (e' & U & ->). apply find_some in Fe. destruct Fe as [_ Fe]. apply N.eqb_eq in Fe. unfold upk in U.
      destruct (N.eqb_spec k (el_key e)); [congruence|]. injection U as <-. reflexivity.
    + rewrite G. destruct (existsb _ es); [reflexivity|]. rewrite find_el_cons. cbn [el_key fst]. destruct (N.eqb_spec k j); [congruence|reflexivity].
  - rewrite block_lookup, find_el_app. pose proof (each_find _ _ _ (upk_key k f) F k) as G. rewrite Lb. unfold find_el at 1.
    destruct (find (fun e => N.eqb (el_key e) k) es) as [e|] eqn:Fe; cbn [option_map].
    + destruct G as (e' & U & ->). apply find_some in Fe. destruct Fe as [_ Fe]. apply N.eqb_eq in Fe. unfold upk in U.
      rewrite Fe, N.eqb_refl in U. destruct (f (el_val e)) as [w|]; [|discriminate]. injection U as <-. exists w. auto.
    + assert (Hn : lookup k b = None) by (rewrite Lb; unfold find_el; now rewrite Fe).
      rewrite G, (proj1 Lk Hn), find_el_cons. cbn [el_key fst]. now rewrite N.eqb_refl.
  - exists (map el_key es). rewrite !keys_of_std, elements_block, E. cbn. split; [reflexivity|]. rewrite map_app, Ks.
    destruct (lookup k b) as [v|] eqn:L.
    + destruct (existsb _ es) eqn:X; [cbn; now rewrite app_nil_r|]. discriminate (proj2 Lk eq_refl).
    + rewrite (proj1 Lk eq_refl). reflexivity.
Qed.
Lemma uvo_block k f d b b' : update_value_or k f d b = Some b' -> a_block b.
Proof.
  rewrite uvo_std. destruct (elements b) as [es|] eqn:E; [|discriminate]. intros _. destruct (elements_some b es E) as (xs & Hb & _). exists xs. exact Hb.
Qed.
Lemma uvo_total k f d b : tidy b -> a_block b -> (forall v, lookup k b = Some v -> exists w, f v = Some w) -> exists b', update_value_or k f d b = Some b'.
Proof.
  intros T (xs & Hb) F. rewrite uvo_std. destruct (elements_is_block b xs Hb) as (es & E). rewrite E.
  destruct (each_total (upk k f) es) as (ys & ->); [|eauto].
  intros e He. unfold upk. destruct (N.eqb_spec k (el_key e)) as [Ek|]; [|eauto].
  destruct (F (el_val e)) as (w & ->); [|cbn; eauto]. rewrite Ek. eapply in_elements_tidy; eauto.
Qed.
Lemma uvo_const k v d b : a_block b -> exists b', update_value_or k (fun _ => Some v) d b = Some b'.
Proof.
  intros (xs & Hb). rewrite uvo_std. destruct (elements_is_block b xs Hb) as (es & E). rewrite E.
  destruct (each_total (upk k (fun _ => Some v)) es) as (ys & ->); [|eauto].
  intros e He. unfold upk. destruct (N.eqb k (el_key e)); cbn; eauto.
Qed.
Lemma uvo_fails k f d b v : lookup k b = Some v -> f v = None -> update_value_or k f d b = None.
Proof.
  intros L F. rewrite uvo_std. destruct (elements b) as [es|] eqn:E; [|reflexivity].
  destruct (elements_some b es E) as (xs & _ & _ & Lb). rewrite Lb in L. apply in_find in L. destruct L as (e & He & Ke & Ve).
  rewrite (each_fails _ es e); auto. unfold upk. rewrite Ke, N.eqb_refl, Ve, F. reflexivity.
Qed.
Lemma tongue_path ks v : at_path ks (tongue ks v) = Some v.
Proof.
  induction ks as [|k ks IH]; [reflexivity|]. cbn [at_path]. unfold tongue. cbn [Prelude.Model.foldr].
  rewrite block_lookup, find_el_cons. cbn [el_key el_val fst snd]. rewrite N.eqb_refl. exact IH.
Qed.
Lemma tongue_part ks v q : part ks q -> at_path q (tongue ks v) = None.
Proof.
  induction 1 as [a b p q Hne|k p q P IH]; cbn [at_path]; unfold tongue; cbn [Prelude.Model.foldr];
  rewrite block_lookup, find_el_cons; cbn [el_key el_val fst snd].
  - destruct (N.eqb_spec a b); [congruence|]. reflexivity.
  - rewrite N.eqb_refl. exact IH.
Qed.

(** Merging at a path, for any way to merge. *)
Section At.
Variable m : value -> value -> option value.
Fixpoint at_gen (ks : list key) (v : value) (b : value) : option value :=
  match ks with [] => m b v | k :: ks => update_value_or k (at_gen ks v) (tongue ks v) b end.
Lemma at_gen_path ks v : forall b b', at_gen ks v b = Some b' ->
  (forall x, at_path ks b = Some x -> exists w, m x v = Some w /\ at_path ks b' = Some w)
  /\ (at_path ks b = None -> at_path ks b' = Some v)
  /\ (forall q, part ks q -> at_path q b' = at_path q b).
Proof.
  induction ks as [|k ks IH]; intros b b' H; cbn [at_gen at_path] in *.
  - repeat split; [|discriminate|intros q P; inversion P]. intros x [= <-]. eauto.
  - apply uvo_cases in H. destruct H as (O & C & _). split; [|split].
    + intros x Hx. destruct (lookup k b) as [y|]; [|discriminate]. destruct C as (w & Hf & ->). exact (proj1 (IH y w Hf) x Hx).
    + intro Hn. destruct (lookup k b) as [y|]; [|rewrite C; apply tongue_path]. destruct C as (w & Hf & ->). exact (proj1 (proj2 (IH y w Hf)) Hn).
    + intros q P. inversion P as [a c p q' Hne|a p q' P']; subst; cbn [at_path].
      * rewrite O by congruence. reflexivity.
      * destruct (lookup k b) as [y|]; [|rewrite C; now apply tongue_part]. destruct C as (w & Hf & ->). exact (proj2 (proj2 (IH y w Hf)) q' P').
Qed.
Lemma at_gen_blocked ks v b : blocked b ks -> at_gen ks v b = None.
Proof.
  intro B. induction B as [x k p NB|x es k w p Hb G B IH]; cbn [at_gen].
  - destruct (update_value_or k _ _ x) eqn:U; [|reflexivity]. apply uvo_block in U. contradiction.
  - eapply uvo_fails; [|exact IH]. apply find_first_given in G. unfold lookup. now rewrite Hb.
Qed.
Lemma at_gen_total ks v : forall b, tidy b -> ~ blocked b ks ->
  (forall x, at_path ks b = Some x -> exists w, m x v = Some w) -> exists b', at_gen ks v b = Some b'.
Proof.
  induction ks as [|k ks IH]; intros b T NB M; cbn [at_gen]; [apply M; reflexivity|].
  destruct (block_dec b) as [B|B]; [|exfalso; apply NB; now constructor].
  apply uvo_total; auto. intros x Hx. apply IH.
  - eapply tidy_lookup; eauto.
  - intro X. apply NB. destruct B as (es & B). eapply blocked_below; eauto. apply find_first_given. unfold lookup in Hx. now rewrite B in Hx.
  - intros y Hy. apply M. cbn [at_path]. now rewrite Hx.
Qed.
End At.
Lemma merge_at_gen ks v : forall b, merge_at ks v b = at_gen merge ks v b.
Proof.
  induction ks as [|k ks IH]; intro b; cbn [merge_at at_gen]; [reflexivity|].
  rewrite !uvo_std. destruct (elements b) as [es|]; [|reflexivity].
  replace (Prelude.Model.each (upk k (at_gen merge ks v)) es) with (Prelude.Model.each (upk k (merge_at ks v)) es); [reflexivity|].
  induction es as [|e es IHe]; [reflexivity|]. cbn [Prelude.Model.each]. rewrite IHe. unfold upk. now rewrite IH.
Qed.
Lemma deep_merge_at_gen ks v : forall b, deep_merge_at ks v b = at_gen (fun b v => Some (deep_merge b v)) ks v b.
Proof.
  induction ks as [|k ks IH]; intro b; cbn [deep_merge_at at_gen]; [reflexivity|].
  rewrite !uvo_std. destruct (elements b) as [es|]; [|reflexivity].
  replace (Prelude.Model.each (upk k (at_gen (fun b v => Some (deep_merge b v)) ks v)) es) with (Prelude.Model.each (upk k (deep_merge_at ks v)) es); [reflexivity|].
  induction es as [|e es IHe]; [reflexivity|]. cbn [Prelude.Model.each]. rewrite IHe. unfold upk. now rewrite IH.
Qed.

(** Selecting. *)
Lemma find_el_filter p es k : find_el k (filter (fun e => p (el_key e)) es) = if p k then find_el k es else None.
Proof.
  induction es as [|e es IH]; cbn [filter]; [now destruct (p k)|]. destruct (p (el_key e)) eqn:P.
  - rewrite !find_el_cons. destruct (N.eqb_spec (el_key e) k) as [<-|]; [now rewrite P|exact IH].
  - rewrite IH, find_el_cons. destruct (N.eqb_spec (el_key e) k) as [<-|]; [now rewrite P|reflexivity].
Qed.
Lemma keys_filter p es : map el_key (filter (fun e => p (el_key e)) es) = filter p (map el_key es).
Proof. induction es as [|e es IH]; [reflexivity|]. cbn [filter map]. destruct (p (el_key e)); cbn [map]; now rewrite IH. Qed.

(** Sorting by key. *)
Lemma find_filter {A} (p : A -> bool) l : find p l = hd_error (filter p l).
Proof. induction l as [|x l IH]; [reflexivity|]. cbn [find filter]. destruct (p x); auto. Qed.

(** The last block that has a key. *)
Lemma first_of_fun b ks o o' : first_of b ks o -> first_of b ks o' -> o = o'.
Proof.
  intros H. revert o'. induction H as [|k ks v L|k ks o L F IH]; intros o' H'; inversion H'; subst; try congruence. auto.
Qed.

(** Searching. *)
Lemma leads_met m v p w : leads v p w -> leads (Met m v) p w \/ (p = [] /\ v = w).
Proof.
  intro H. inversion H as [u|u es k x f q w' B Hin L|u xs x q w' S Hin L]; subst; [auto| |].
  - left. eapply leads_block; eauto.
  - left. eapply leads_list; eauto.
Qed.
Lemma in_nested_blocks k path es y :
  In y ((fix go (es : list entry) : list (list key * value) :=
            match es with
            | [] => []
            | (ck, cv, _) :: es => deep_find_paths k (path ++ [ck]) cv ++ go es
            end) es) <-> exists ck cv f, In (ck, cv, f) es /\ In y (deep_find_paths k (path ++ [ck]) cv).
Proof.
  induction es as [|[[ck cv] f] es IH].
  - split; [intros []|]. intros (? & ? & ? & [] & _).
  - rewrite in_app_iff, IH. split.
    + intros [H|(ck' & cv' & f' & Hin & H)]; [exists ck, cv, f|exists ck', cv', f']; split; auto; [now left|now right].
    + intros (ck' & cv' & f' & [E|Hin] & H); [injection E as -> -> ->; now left|right; eauto].
Qed.
Lemma in_nested_list k path xs y :
  In y ((fix go (xs : list value) : list (list key * value) :=
         match xs with [] => [] | x :: xs => deep_find_paths k path x ++ go xs end) xs)
  <-> exists x, In x xs /\ In y (deep_find_paths k path x).
Proof.
  induction xs as [|x xs IH].
  - split; [intros []|]. intros (? & [] & _).
  - rewrite in_app_iff, IH. split.
    + intros [H|(x' & Hin & H)]; [exists x|exists x']; split; auto; [now left|now right].
    + intros (x' & [->|Hin] & H); [now left|right; eauto].
Qed.
Lemma found_sound k v : forall path p x, In (p, x) (deep_find_paths k path v) ->
  exists q b es, p = path ++ q ++ [k] /\ leads v q b /\ is_block b es /\ find_first k es = Some x.
Proof.
  induction v as [a|xs IH|es IH _|m v IH] using value_ind2; intros path p x H.
  - destruct H.
  - cbn [deep_find_paths] in H. apply in_nested_list in H. destruct H as (y & Hy & H).
    destruct (IH y Hy path p x H) as (q & b & es & -> & L & B & F). exists q, b, es. repeat split; auto. eapply leads_list; eauto. reflexivity.
  - cbn [deep_find_paths] in H. apply in_app_or in H. destruct H as [H|H].
    + destruct (find_first k es) as [y|] eqn:F; [|destruct H]. destruct H as [H|[]]. injection H as <- <-.
      exists [], (Blk es), es. repeat split; auto. constructor.
    + apply in_nested_blocks in H. destruct H as (ck & cv & f & Hin & H).
      destruct (IH (ck, cv, f) Hin (path ++ [ck]) p x H) as (q & b & es' & -> & L & B & F).
      exists (ck :: q), b, es'. rewrite <- app_assoc. repeat split; auto. eapply leads_block; eauto. reflexivity.
  - cbn [deep_find_paths] in H. destruct (IH path p x H) as (q & b & es & -> & L & B & F).
    destruct (leads_met m _ _ _ L) as [L'|[-> ->]].
    + exists q, b, es. auto.
    + exists [], (Met m b), es. repeat split; auto. constructor.
Qed.
Lemma found_complete k v q b : leads v q b -> forall es x path, is_block b es -> find_first k es = Some x ->
  In (path ++ q ++ [k], x) (deep_find_paths k path v).
Proof.
  induction 1 as [v|v vs ck cv f q w B Hin L IH|v xs y q w S Hin L IH]; intros es x path Hb F.
  - unfold is_block in Hb. cbn [app]. induction v as [a|xs _|es' _ _|m v IHv] using value_ind2; cbn [strip] in Hb; try discriminate.
    + injection Hb as ->. cbn [deep_find_paths]. rewrite F. now left.
    + cbn [deep_find_paths]. auto.
  - unfold is_block in B. induction v as [a|xs _|es' _ _|m v IHu] using value_ind2; cbn [strip] in B; try discriminate.
    + injection B as ->. cbn [deep_find_paths]. apply in_or_app. right. apply in_nested_blocks. exists ck, cv, f. split; [exact Hin|].
      pose proof (IH es x (path ++ [ck]) Hb F) as G. now rewrite <- app_assoc in G.
    + cbn [deep_find_paths]. auto.
  - induction v as [a|xs' _|es' _ _|m v IHu] using value_ind2; cbn [strip] in S; try discriminate.
    + injection S as ->. cbn [deep_find_paths]. apply in_nested_list. exists y. split; [exact Hin|]. eapply IH; eauto.
    + cbn [deep_find_paths]. auto.
Qed.
