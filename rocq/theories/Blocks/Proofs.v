From Coq Require Import ZArith List Bool Lia.
From Verif Require Import Numbers.Model Numbers.Spec Blocks.Model Blocks.Spec.
Import ListNotations.

Local Arguments e_key : simpl never.
Local Arguments e_val : simpl never.

(** * Lists of entries *)

Lemma keys_app es es' : keys (es ++ es') = keys es ++ keys es'.
Proof. apply map_app. Qed.

Lemma find_first_given es k v : find_first k es = Some v <-> first_given es k v.
Proof.
  induction es as [|[[k' w] f] es IH]; simpl.
  - split; [discriminate|]. intros (b & a & f & H & _). destruct b; discriminate.
  - unfold e_key, e_val; simpl. destruct (N.eqb_spec k' k) as [->|Hne].
    + split.
      * intros [= ->]. exists [], es, f. split; [reflexivity|]. intros [].
      * intros (b & a & f' & H & Hn). destruct b as [|x b]; simpl in H.
        -- injection H as -> _ _. reflexivity.
        -- injection H as <- _. exfalso. apply Hn. left. reflexivity.
    + rewrite IH. split.
      * intros (b & a & f' & -> & Hn). exists ((k', w, f) :: b), a, f'. split; [reflexivity|].
        intros [H|H]; [exact (Hne H)|exact (Hn H)].
      * intros (b & a & f' & H & Hn). destruct b as [|x b]; simpl in H.
        -- injection H as H _ _ _. contradiction.
        -- injection H as <- ->. exists b, a, f'. split; [reflexivity|]. intros H. apply Hn. right. exact H.
Qed.

Lemma find_first_none es k : find_first k es = None <-> ~ In k (keys es).
Proof.
  induction es as [|e es IH]; simpl.
  - split; [intros _ []|reflexivity].
  - destruct (N.eqb_spec (e_key e) k) as [->|Hne].
    + split; [discriminate|]. intros H. exfalso. apply H. left. reflexivity.
    + rewrite IH. tauto.
Qed.

Lemma find_first_some es k : In k (keys es) <-> exists v, find_first k es = Some v.
Proof.
  destruct (find_first k es) as [v|] eqn:E.
  - split; [intros _; exists v; reflexivity|]. intros _. destruct (in_dec N.eq_dec k (keys es)) as [H|H]; [exact H|].
    apply find_first_none in H. congruence.
  - apply find_first_none in E. split; [contradiction|]. intros (v & H). discriminate.
Qed.

Lemma find_first_in es k v : find_first k es = Some v -> exists e, In e es /\ e_key e = k /\ e_val e = v.
Proof.
  intros H. apply find_first_given in H. destruct H as (b & a & f & -> & _).
  exists (k, v, f). split; [apply in_or_app; right; left; reflexivity|]. split; reflexivity.
Qed.

Lemma find_first_app es es' k :
  find_first k (es ++ es') = match find_first k es with Some v => Some v | None => find_first k es' end.
Proof.
  induction es as [|e es IH]; simpl; [reflexivity|]. destruct (N.eqb (e_key e) k); [reflexivity|exact IH].
Qed.

Lemma find_first_unique es k v f : NoDup (keys es) -> In (k, v, f) es -> find_first k es = Some v.
Proof.
  induction es as [|e es IH]; simpl; intros Hn Hin; [contradiction|].
  inversion Hn as [|? ? Hnin Hn']; subst. destruct Hin as [->|Hin].
  - unfold e_key, e_val; simpl. rewrite N.eqb_refl. reflexivity.
  - destruct (N.eqb_spec (e_key e) k) as [E|Hne]; [|exact (IH Hn' Hin)].
    exfalso. apply Hnin. rewrite E. change k with (e_key (k, v, f)). apply in_map. exact Hin.
Qed.

(** The last entry with a key. *)
Definition find_last (k : key) (es : list entry) : option value := find_first k (rev es).

Lemma keys_rev es : keys (rev es) = rev (keys es).
Proof. apply map_rev. Qed.

Lemma find_last_given es k v : find_last k es = Some v <-> last_given es k v.
Proof.
  unfold find_last. rewrite find_first_given. split.
  - intros (b & a & f & H & Hn). exists (rev a), (rev b), f. split.
    + rewrite <- (rev_involutive es), H, rev_app_distr. simpl. rewrite <- app_assoc. reflexivity.
    + rewrite keys_rev. intros Hin. apply in_rev in Hin. exact (Hn Hin).
  - intros (b & a & f & -> & Hn). exists (rev a), (rev b), f. split.
    + rewrite rev_app_distr. simpl. rewrite <- app_assoc. reflexivity.
    + rewrite keys_rev. intros Hin. apply in_rev in Hin. exact (Hn Hin).
Qed.

Lemma find_last_app es es' k :
  find_last k (es ++ es') = match find_last k es' with Some v => Some v | None => find_last k es end.
Proof. unfold find_last. rewrite rev_app_distr. apply find_first_app. Qed.

Lemma find_last_unique es k : NoDup (keys es) -> find_last k es = find_first k es.
Proof.
  intros Hn. destruct (find_first k es) as [v|] eqn:E.
  - apply find_first_given in E. destruct E as (b & a & f & Ees & _). apply find_last_given. rewrite Ees in Hn |- *.
    exists b, a, f. split; [reflexivity|].
    rewrite keys_app in Hn. simpl in Hn. apply NoDup_remove_2 in Hn. intros H. apply Hn. apply in_or_app. right. exact H.
  - unfold find_last. apply find_first_none. apply find_first_none in E. rewrite keys_rev. intros H. apply in_rev in H. contradiction.
Qed.

(** * Inserting *)

Lemma insert_keys e es : keys (insert e es) = keys es ++ (if in_dec N.eq_dec (e_key e) (keys es) then [] else [e_key e]).
Proof.
  induction es as [|x es IH]; simpl; [reflexivity|].
  destruct (N.eqb_spec (e_key x) (e_key e)) as [E|Hne]; simpl.
  - destruct (N.eq_dec (e_key x) (e_key e)) as [He|]; [|contradiction]. rewrite app_nil_r, E. reflexivity.
  - rewrite IH. destruct (N.eq_dec (e_key x) (e_key e)) as [|He]; [contradiction|].
    destruct (in_dec N.eq_dec (e_key e) (keys es)); reflexivity.
Qed.

Lemma insert_find k e es : find_first k (insert e es) = if N.eqb (e_key e) k then Some (e_val e) else find_first k es.
Proof.
  induction es as [|x es IH]; simpl; [reflexivity|].
  destruct (N.eqb_spec (e_key x) (e_key e)) as [E|Hne]; simpl.
  - rewrite E. destruct (N.eqb (e_key e) k); reflexivity.
  - rewrite IH. destruct (N.eqb_spec (e_key x) k) as [<-|]; [|reflexivity].
    destruct (N.eqb_spec (e_key e) (e_key x)) as [E|]; [congruence|reflexivity].
Qed.

Lemma insert_nodup e es : NoDup (keys es) -> NoDup (keys (insert e es)).
Proof.
  intros H. rewrite insert_keys. destruct (in_dec N.eq_dec (e_key e) (keys es)) as [|Hn]; [rewrite app_nil_r; exact H|].
  apply NoDup_rev in H. rewrite <- (rev_involutive (keys es ++ [e_key e])). apply NoDup_rev.
  rewrite rev_app_distr. simpl. constructor; [|exact H]. intros Hin. apply in_rev in Hin. contradiction.
Qed.

Definition inserts (acc es : list entry) : list entry := fold_left (fun acc e => insert e acc) es acc.

Lemma inserts_app acc es es' : inserts acc (es ++ es') = inserts (inserts acc es) es'.
Proof. apply fold_left_app. Qed.

Lemma first_appearances_ext seen seen' ks : (forall k, In k seen <-> In k seen') -> first_appearances seen ks = first_appearances seen' ks.
Proof.
  revert seen seen'. induction ks as [|k ks IH]; intros seen seen' H; simpl; [reflexivity|].
  destruct (in_dec N.eq_dec k seen) as [Hi|Hn]; destruct (in_dec N.eq_dec k seen') as [Hi'|Hn'].
  - apply IH. exact H.
  - exfalso. apply Hn', H, Hi.
  - exfalso. apply Hn, H, Hi'.
  - f_equal. apply IH. intros k'. simpl. rewrite H. tauto.
Qed.

Lemma inserts_keys es : forall acc, keys (inserts acc es) = keys acc ++ first_appearances (keys acc) (keys es).
Proof.
  induction es as [|e es IH]; intros acc; simpl; [rewrite app_nil_r; reflexivity|].
  change (inserts acc (e :: es)) with (inserts (insert e acc) es). rewrite IH, insert_keys.
  destruct (in_dec N.eq_dec (e_key e) (keys acc)) as [Hi|Hn].
  - rewrite app_nil_r. reflexivity.
  - rewrite <- app_assoc. simpl. f_equal. f_equal. apply first_appearances_ext. intros k. rewrite in_app_iff. simpl. tauto.
Qed.

Lemma inserts_find k es : forall acc, find_first k (inserts acc es) = match find_last k es with Some v => Some v | None => find_first k acc end.
Proof.
  induction es as [|e es IH]; intros acc; simpl; [reflexivity|].
  change (inserts acc (e :: es)) with (inserts (insert e acc) es).
  change (e :: es) with ([e] ++ es). rewrite find_last_app, IH, insert_find.
  destruct (find_last k es); [reflexivity|]. unfold find_last. simpl. destruct (N.eqb (e_key e) k); reflexivity.
Qed.

Lemma inserts_nodup es : forall acc, NoDup (keys acc) -> NoDup (keys (inserts acc es)).
Proof. induction es as [|e es IH]; intros acc H; simpl; [exact H|]. apply IH, insert_nodup, H. Qed.

Lemma insert_new e es : ~ In (e_key e) (keys es) -> insert e es = es ++ [e].
Proof.
  induction es as [|x es IH]; intros H; simpl; [reflexivity|].
  destruct (N.eqb_spec (e_key x) (e_key e)) as [E|Hne].
  - exfalso. apply H. left. exact E.
  - rewrite IH; [reflexivity|]. intros Hin. apply H. right. exact Hin.
Qed.

Lemma inserts_new es : forall acc, NoDup (keys (acc ++ es)) -> inserts acc es = acc ++ es.
Proof.
  induction es as [|e es IH]; intros acc H; simpl; [rewrite app_nil_r; reflexivity|].
  change (inserts acc (e :: es)) with (inserts (insert e acc) es).
  rewrite insert_new.
  - rewrite IH; [rewrite <- app_assoc; reflexivity|]. rewrite <- app_assoc. exact H.
  - rewrite keys_app in H. simpl in H. apply NoDup_remove_2 in H. intros Hin. apply H. apply in_or_app. left. exact Hin.
Qed.

Lemma insert_all_same es : NoDup (keys es) -> insert_all es = es.
Proof. intros H. apply (inserts_new es []). exact H. Qed.


(** The entry itself, and lists determined by their keys and entries. *)
Definition pick (k : key) (es : list entry) : option entry := find (fun e => N.eqb (e_key e) k) es.

Lemma pick_find k es : find_first k es = option_map e_val (pick k es).
Proof. induction es as [|e es IH]; simpl; [reflexivity|]. destruct (N.eqb (e_key e) k); [reflexivity|exact IH]. Qed.

Lemma pick_none k es : pick k es = None <-> ~ In k (keys es).
Proof. rewrite <- find_first_none, pick_find. destruct (pick k es); simpl; split; congruence. Qed.

Lemma pick_app es es' k : pick k (es ++ es') = match pick k es with Some v => Some v | None => pick k es' end.
Proof. induction es as [|e es IH]; simpl; [reflexivity|]. destruct (N.eqb (e_key e) k); [reflexivity|exact IH]. Qed.

Lemma by_picks es : forall es', NoDup (keys es) -> keys es = keys es' -> (forall k, pick k es = pick k es') -> es = es'.
Proof.
  induction es as [|e es IH]; intros [|e' es'] Hn Hk Hp; try discriminate; [reflexivity|].
  simpl in Hk, Hn. injection Hk as He Hk. inversion Hn as [|? ? Hnin Hn']; subst.
  pose proof (Hp (e_key e)) as H. simpl in H. rewrite N.eqb_refl, <- He, N.eqb_refl in H. injection H as <-.
  f_equal. apply IH; [exact Hn'|exact Hk|]. intros k. specialize (Hp k). simpl in Hp.
  destruct (N.eqb_spec (e_key e) k) as [E|_]; [|exact Hp]. rewrite <- E.
  rewrite (proj2 (pick_none (e_key e) es) Hnin). rewrite Hk in Hnin. rewrite (proj2 (pick_none (e_key e) es') Hnin). reflexivity.
Qed.

Lemma insert_pick k e es : pick k (insert e es) = if N.eqb (e_key e) k then Some e else pick k es.
Proof.
  induction es as [|x es IH]; simpl; [reflexivity|].
  destruct (N.eqb_spec (e_key x) (e_key e)) as [E|Hne]; simpl.
  - rewrite E. destruct (N.eqb (e_key e) k); reflexivity.
  - rewrite IH. destruct (N.eqb_spec (e_key x) k) as [<-|]; [|reflexivity].
    destruct (N.eqb_spec (e_key e) (e_key x)) as [E|]; [congruence|reflexivity].
Qed.

Definition pick_last (k : key) (es : list entry) : option entry := pick k (rev es).

Lemma pick_last_app es es' k : pick_last k (es ++ es') = match pick_last k es' with Some v => Some v | None => pick_last k es end.
Proof. unfold pick_last. rewrite rev_app_distr. apply pick_app. Qed.

Lemma inserts_pick k es : forall acc, pick k (inserts acc es) = match pick_last k es with Some v => Some v | None => pick k acc end.
Proof.
  induction es as [|e es IH]; intros acc; simpl; [reflexivity|].
  change (inserts acc (e :: es)) with (inserts (insert e acc) es).
  change (e :: es) with ([e] ++ es). rewrite pick_last_app, IH, insert_pick.
  destruct (pick_last k es); [reflexivity|]. unfold pick_last. simpl. destruct (N.eqb (e_key e) k); reflexivity.
Qed.

Lemma insert_all_nodup es : NoDup (keys (insert_all es)).
Proof. apply (inserts_nodup es []). constructor. Qed.
Lemma insert_all_keys es : keys (insert_all es) = first_appearances [] (keys es).
Proof. exact (inserts_keys es []). Qed.
Lemma insert_all_pick k es : pick k (insert_all es) = pick_last k es.
Proof. change (insert_all es) with (inserts [] es). rewrite (inserts_pick k es []). destruct (pick_last k es); reflexivity. Qed.
Lemma insert_all_find k es : find_first k (insert_all es) = find_last k es.
Proof. change (insert_all es) with (inserts [] es). rewrite (inserts_find k es []). destruct (find_last k es); reflexivity. Qed.

Lemma pick_last_unique es k : NoDup (keys es) -> pick_last k es = pick k es.
Proof. intros H. rewrite <- insert_all_pick, insert_all_same by exact H. reflexivity. Qed.

Lemma first_appearances_app ks : forall seen ks',
  first_appearances seen (ks ++ ks') = first_appearances seen ks ++ first_appearances (ks ++ seen) ks'.
Proof.
  induction ks as [|k ks IH]; intros seen ks'; simpl; [reflexivity|].
  destruct (in_dec N.eq_dec k seen) as [Hi|Hn].
  - rewrite IH. f_equal. apply first_appearances_ext. intros x. simpl. rewrite in_app_iff.
    split; [tauto|]. intros [<-|H]; tauto.
  - simpl. f_equal. rewrite IH. f_equal. apply first_appearances_ext. intros x. simpl. rewrite !in_app_iff. simpl. tauto.
Qed.

Lemma first_appearances_in ks : forall seen k, In k (first_appearances seen ks) <-> In k ks /\ ~ In k seen.
Proof.
  induction ks as [|x ks IH]; intros seen k; simpl; [tauto|].
  destruct (in_dec N.eq_dec x seen) as [Hi|Hn].
  - rewrite IH. split; [tauto|]. intros [[->|H] H']; [contradiction|tauto].
  - simpl. rewrite IH. simpl. split.
    + intros [->|[H H']]; tauto.
    + intros [[->|H] H']; [left; reflexivity|]. destruct (N.eq_dec x k) as [->|Hne]; [left; reflexivity|]. right. tauto.
Qed.

Lemma first_appearances_twice ks : forall seen seen', (forall k, In k seen' -> In k seen) ->
  first_appearances seen (first_appearances seen' ks) = first_appearances seen ks.
Proof.
  induction ks as [|k ks IH]; intros seen seen' H; simpl; [reflexivity|].
  destruct (in_dec N.eq_dec k seen') as [Hi'|Hn']; simpl.
  - destruct (in_dec N.eq_dec k seen) as [He|Hn]; [apply IH, H|]. exfalso. exact (Hn (H k Hi')).
  - destruct (in_dec N.eq_dec k seen) as [Hi|Hn].
    + apply IH. intros x [<-|Hx]; [exact Hi|exact (H x Hx)].
    + f_equal. apply IH. intros x [<-|Hx]; [left; reflexivity|right; exact (H x Hx)].
Qed.

Lemma insert_all_left ls rs : insert_all (insert_all ls ++ rs) = insert_all (ls ++ rs).
Proof.
  apply by_picks; [apply insert_all_nodup| |].
  - rewrite !insert_all_keys, !keys_app, insert_all_keys, !first_appearances_app.
    rewrite first_appearances_twice by (intros k H; exact H). f_equal. apply first_appearances_ext.
    intros k. rewrite !app_nil_r, first_appearances_in. simpl. tauto.
  - intros k. rewrite !insert_all_pick, !pick_last_app. destruct (pick_last k rs); [reflexivity|].
    rewrite pick_last_unique by apply insert_all_nodup. apply insert_all_pick.
Qed.

Lemma insert_all_right ls rs : insert_all (ls ++ insert_all rs) = insert_all (ls ++ rs).
Proof.
  apply by_picks; [apply insert_all_nodup| |].
  - rewrite !insert_all_keys, !keys_app, insert_all_keys, !first_appearances_app.
    f_equal. apply first_appearances_twice. intros k [].
  - intros k. rewrite !insert_all_pick, !pick_last_app.
    rewrite pick_last_unique by apply insert_all_nodup. rewrite insert_all_pick. reflexivity.
Qed.

(** * MERGEWITH *)

Lemma combine_keys f k v es : keys (combine f k v es) = keys es ++ (if in_dec N.eq_dec k (keys es) then [] else [k]).
Proof.
  induction es as [|x es IH]; simpl; [reflexivity|].
  destruct (N.eqb_spec (e_key x) k) as [E|Hne]; simpl.
  - destruct (N.eq_dec (e_key x) k) as [He|]; [|contradiction]. rewrite app_nil_r, E. reflexivity.
  - rewrite IH. destruct (N.eq_dec (e_key x) k) as [|He]; [contradiction|].
    destruct (in_dec N.eq_dec k (keys es)); reflexivity.
Qed.

Lemma combine_find k f k' v es : find_first k (combine f k' v es) =
  if N.eqb k' k then Some (match find_first k' es with Some ov => f ov | None => v end) else find_first k es.
Proof.
  induction es as [|x es IH]; simpl; [reflexivity|].
  destruct (N.eqb_spec (e_key x) k') as [E|Hne]; simpl.
  - unfold e_key at 1; simpl. rewrite E. destruct (N.eqb k' k); reflexivity.
  - rewrite IH. destruct (N.eqb_spec (e_key x) k) as [<-|]; [|reflexivity].
    destruct (N.eqb_spec k' (e_key x)) as [E|]; [congruence|reflexivity].
Qed.

Definition combines (f : value -> value -> value) (acc rs : list entry) : list entry :=
  fold_left (fun acc e => combine (fun ov => f ov (e_val e)) (e_key e) (e_val e) acc) rs acc.

Lemma combines_keys f rs : forall acc, keys (combines f acc rs) = keys acc ++ first_appearances (keys acc) (keys rs).
Proof.
  induction rs as [|e es IH]; intros acc; simpl; [rewrite app_nil_r; reflexivity|].
  rewrite IH, combine_keys.
  destruct (in_dec N.eq_dec (e_key e) (keys acc)) as [Hi|Hn].
  - rewrite app_nil_r. reflexivity.
  - rewrite <- app_assoc. simpl. f_equal. f_equal. apply first_appearances_ext. intros k. rewrite in_app_iff. simpl. tauto.
Qed.

Lemma combines_find f k rs : NoDup (keys rs) -> forall acc, find_first k (combines f acc rs) =
  match find_first k rs with
  | Some nv => Some (match find_first k acc with Some ov => f ov nv | None => nv end)
  | None => find_first k acc
  end.
Proof.
  induction rs as [|e es IH]; intros Hn acc; simpl; [reflexivity|].
  inversion Hn as [|? ? Hnin Hn']; subst. rewrite (IH Hn'), combine_find.
  destruct (N.eqb_spec (e_key e) k) as [<-|Hne]; [|reflexivity].
  apply find_first_none in Hnin. rewrite Hnin. reflexivity.
Qed.

Lemma first_appearances_nodup ks : forall seen, NoDup (first_appearances seen ks).
Proof.
  induction ks as [|k ks IH]; intros seen; simpl; [constructor|].
  destruct (in_dec N.eq_dec k seen); [apply IH|]. constructor; [|apply IH].
  rewrite first_appearances_in. simpl. tauto.
Qed.

Lemma combines_nodup f rs acc : NoDup (keys acc) -> NoDup (keys (combines f acc rs)).
Proof.
  intros H. rewrite combines_keys. 
  assert (Hd : forall k, In k (keys acc) -> ~ In k (first_appearances (keys acc) (keys rs))) by (intros k Hk; rewrite first_appearances_in; tauto).
  pose proof (first_appearances_nodup (keys rs) (keys acc)) as Hf. revert Hd Hf. generalize (first_appearances (keys acc) (keys rs)) as l.
  induction (keys acc) as [|x ks IH]; intros l Hd Hf; simpl; [exact Hf|].
  inversion H as [|? ? Hx Hks]; subst. constructor.
  - rewrite in_app_iff. intros [Hi|Hi]; [contradiction|]. exact (Hd x (or_introl eq_refl) Hi).
  - apply IH; [exact Hks| |exact Hf]. intros k Hk. apply Hd. right. exact Hk.
Qed.

Lemma keys_as_pair es : keys (map as_pair es) = keys es.
Proof. unfold keys. rewrite map_map. reflexivity. Qed.
Lemma find_as_pair k es : find_first k (map as_pair es) = find_first k es.
Proof.
  induction es as [|e es IH]; simpl; [reflexivity|]. change (e_key (as_pair e)) with (e_key e).
  destruct (N.eqb (e_key e) k); [reflexivity|exact IH].
Qed.

(** The entries of MERGEWITH on two lists of entries. *)
Definition combined (f : value -> value -> value) (ls rs : list entry) : list entry :=
  combines f (insert_all (map as_pair ls)) rs.

Lemma combined_nodup f ls rs : NoDup (keys (combined f ls rs)).
Proof. apply combines_nodup, insert_all_nodup. Qed.

Lemma combined_keys f ls rs : keys (combined f ls rs) = first_appearances [] (keys ls ++ keys rs).
Proof.
  unfold combined. rewrite combines_keys, insert_all_keys, keys_as_pair, first_appearances_app. f_equal.
  apply first_appearances_ext. intros k. rewrite first_appearances_in, app_nil_r. simpl. tauto.
Qed.

Lemma combined_find f k ls rs : NoDup (keys ls) -> NoDup (keys rs) -> find_first k (combined f ls rs) =
  match find_first k ls, find_first k rs with
  | Some ov, Some nv => Some (f ov nv)
  | Some ov, None => Some ov
  | None, o => o
  end.
Proof.
  intros Hl Hr. unfold combined. rewrite combines_find by exact Hr. rewrite insert_all_same by (rewrite keys_as_pair; exact Hl).
  rewrite find_as_pair. destruct (find_first k ls); destruct (find_first k rs); reflexivity.
Qed.

(** * DEEPMERGE *)

Lemma strip_strip v : strip (strip v) = strip v.
Proof. induction v; simpl; auto. Qed.

Lemma strip_not_met v m w : strip v <> Met m w.
Proof. induction v; simpl; try discriminate. exact IHv2. Qed.

Lemma deep_core_not_block l r : (forall ls, strip l <> Blk ls) -> deep_core l r = r.
Proof. intros H. destruct r; simpl; destruct (strip l); try reflexivity; exfalso; eapply H; reflexivity. Qed.

Lemma deep_core_blk l ls rs : strip l = Blk ls -> deep_core l (Blk rs) = Blk (combined deep_merge ls rs).
Proof.
  intros H. simpl. rewrite H. f_equal. unfold combined, combines. generalize (insert_all (map as_pair ls)) as acc.
  induction rs as [|[[k nv] f] rs IH]; intros acc; [reflexivity|]. simpl. rewrite IH. reflexivity.
Qed.

Lemma deep_core_strip l ls r : strip l = Blk ls -> deep_core l r = match strip r with Blk rs => Blk (combined deep_merge ls rs) | v => v end.
Proof.
  intros H. induction r as [a|xs|rs|m IHm r IHr]; try (simpl; rewrite H; reflexivity).
  - apply deep_core_blk. exact H.
  - simpl. rewrite H. exact IHr.
Qed.

Definition core_of (v : value) : value := match v with Met _ b => b | _ => v end.
Lemma strip_core v : strip (core_of v) = strip v.
Proof. destruct v; reflexivity. Qed.

Lemma deep_merge_core l r : strip (deep_merge l r) = strip (deep_core (core_of l) (core_of r)).
Proof. destruct l; destruct r; reflexivity. Qed.

(** What DEEPMERGE gives, without its metadata. *)
Lemma strip_deep_merge l r : strip (deep_merge l r) =
  match strip l, strip r with Blk ls, Blk rs => Blk (combined deep_merge ls rs) | _, v => v end.
Proof.
  rewrite deep_merge_core. rewrite <- (strip_core l), <- (strip_core r). generalize (core_of l) as l', (core_of r) as r'.
  clear l r. intros l r. destruct (strip l) eqn:E; try (rewrite deep_core_not_block by (intros ls; rewrite E; discriminate); reflexivity).
  - rewrite (deep_core_strip l es r E). destruct (strip r) eqn:Er; try reflexivity. destruct (strip_not_met _ _ _ Er).
Qed.

(** * Values *)

Definition more_of (e : entry) : list value := match snd e with Some more => more | None => [] end.

Lemma value_ind2 (P : value -> Prop) :
  (forall a, P (Atom a)) ->
  (forall xs, (forall x, In x xs -> P x) -> P (Lst xs)) ->
  (forall es, (forall e, In e es -> P (e_val e)) -> (forall e x, In e es -> In x (more_of e) -> P x) -> P (Blk es)) ->
  (forall m v, P v -> P (Met m v)) ->
  forall v, P v.
Proof.
  intros Ha Hl Hb Hm. fix IH 1. intros [a|xs|es|m v].
  - apply Ha.
  - apply Hl. induction xs as [|x xs IHxs]; intros y H; [destruct H|]. destruct H as [E|H]; [rewrite <- E; apply IH|]. exact (IHxs _ H).
  - apply Hb.
    + induction es as [|[[k v] f] es IHes]; intros e H; [destruct H|]. destruct H as [E|H]; [rewrite <- E; apply IH|]. exact (IHes _ H).
    + induction es as [|[[k v] f] es IHes]; intros e x H; [destruct H|]. destruct H as [E|H]; [|exact (IHes _ _ H)].
      rewrite <- E. clear E. unfold more_of. simpl.
      destruct f as [more|]; [|intros H; destruct H].
      induction more as [|y more IHm]; intros H; [destruct H|]. destruct H as [E'|H]; [rewrite <- E'; apply IH|]. exact (IHm H).
  - apply Hm, IH.
Qed.

Scheme alike_mut := Induction for alike Sort Prop
with entries_alike_mut := Induction for entries_alike Sort Prop.

Lemma alike_refl v : alike v v.
Proof.
  induction v as [a|xs _|es IH _|m v IH] using value_ind2; try constructor.
  - induction es as [|[[k v] f] es IHes]; constructor.
    + apply (IH (k, v, f)). left. reflexivity.
    + apply IHes. intros e He. apply IH. right. exact He.
  - constructor. exact IH.
Qed.

Lemma alike_strip v w : alike (strip v) (strip w) -> alike v w.
Proof.
  induction v as [a|xs _|es _ _|m v IHv] using value_ind2; intros H; [| | |apply alike_left, IHv, H];
    (induction w as [a'|xs' _|es' _ _|m' w IHw] using value_ind2; [exact H|exact H|exact H|apply alike_right, IHw, H]).
Qed.

Lemma strip_alike v w : alike v w -> alike (strip v) (strip w).
Proof.
  intros H. induction H using alike_mut with (P0 := fun es es' _ => entries_alike es es'); simpl; try constructor; try assumption.
Qed.

Lemma entries_by_find es : forall es', NoDup (keys es) -> keys es = keys es' ->
  (forall k v w, find_first k es = Some v -> find_first k es' = Some w -> alike v w) -> entries_alike es es'.
Proof.
  induction es as [|[[k v] f] es IH]; intros [|[[k' w] f'] es'] Hn Hk Hf; try discriminate; [constructor|].
  simpl in Hk, Hn. injection Hk as Ek Hk. change (k = k') in Ek. subst k'. inversion Hn as [|? ? Hnin Hn']; subst. change (e_key (k, v, f)) with k in Hnin.
  constructor.
  - apply (Hf k); simpl; unfold e_key, e_val; simpl; rewrite N.eqb_refl; reflexivity.
  - apply IH; [exact Hn'|exact Hk|]. intros x a b Ha Hb. apply (Hf x); simpl; unfold e_key; simpl.
    + destruct (N.eqb_spec k x) as [<-|]; [|exact Ha]. exfalso. apply Hnin. apply find_first_some. exists a. exact Ha.
    + destruct (N.eqb_spec k x) as [<-|]; [|exact Hb]. exfalso. apply Hnin. apply find_first_some. exists a. exact Ha.
Qed.

Lemma tidy_strip v : tidy v <-> tidy (strip v).
Proof.
  induction v; simpl; try tauto. rewrite <- IHv2. split; [intros H; inversion H; assumption|apply tidy_met].
Qed.

Lemma tidy_block v es : tidy v -> strip v = Blk es -> NoDup (keys es) /\ (forall k w, find_first k es = Some w -> tidy w).
Proof.
  intros H E. apply tidy_strip in H. rewrite E in H. inversion H as [| |? Hn Ht|]; subst. split; [exact Hn|].
  intros k w Hf. destruct (find_first_in _ _ _ Hf) as (e & He & _ & <-). apply Ht. exact He.
Qed.

Lemma tidy_entries es : NoDup (keys es) -> (forall k w, find_first k es = Some w -> tidy w) -> tidy (Blk es).
Proof.
  intros Hn H. constructor; [exact Hn|]. intros [[k v] f] Hin. apply (H k). apply (find_first_unique es k v f Hn Hin).
Qed.

Lemma tidy_deep r : forall l, tidy l -> tidy r -> tidy (deep_merge l r).
Proof.
  induction r as [a|xs _|rs IH _|m r IH] using value_ind2; intros l Hl Hr; apply tidy_strip; rewrite strip_deep_merge; simpl.
  - destruct (strip l); constructor.
  - destruct (strip l); constructor.
  - destruct (strip l) as [| |ls|] eqn:E; try exact Hr.
    destruct (tidy_block l ls Hl E) as [Hnl Htl]. destruct (tidy_block _ rs Hr eq_refl) as [Hnr Htr].
    apply tidy_entries; [apply combined_nodup|]. intros k w. rewrite combined_find by assumption.
    destruct (find_first k ls) as [ov|] eqn:El; destruct (find_first k rs) as [nv|] eqn:Er; intros [= <-]; eauto.
    destruct (find_first_in _ _ _ Er) as (e & He & _ & <-). apply IH; eauto.
  - inversion Hr; subst. assert (H : tidy (deep_merge l r)) by (apply IH; assumption).
    apply tidy_strip in H. rewrite strip_deep_merge in H. exact H.
Qed.

(** * Paths through DEEPMERGE *)

Lemma lookup_deep k l r : tidy l -> tidy r -> (lookup k r <> None \/ a_block r) ->
  lookup k (deep_merge l r) =
  match lookup k l, lookup k r with
  | Some a, Some b => Some (deep_merge a b)
  | Some a, None => Some a
  | None, o => o
  end.
Proof.
  intros Hl Hr Hb.
  assert (exists rs, strip r = Blk rs) as [rs Er].
  { destruct Hb as [Hb|Hb]; [|exact Hb]. unfold lookup in Hb. destruct (strip r); try contradiction. eexists; reflexivity. }
  destruct (tidy_block r rs Hr Er) as [Hnr _].
  unfold lookup. rewrite strip_deep_merge, Er.
  destruct (strip l) as [| |ls|] eqn:El; try (destruct (find_first k rs); reflexivity).
  destruct (tidy_block l ls Hl El) as [Hnl _]. apply combined_find; assumption.
Qed.

Lemma tidy_lookup k v w : tidy v -> lookup k v = Some w -> tidy w.
Proof.
  unfold lookup. intros Ht H. destruct (strip v) eqn:E; try discriminate. destruct (tidy_block v es Ht E) as [_ Hf]. exact (Hf k w H).
Qed.

Lemma path_both p : forall l r a b, tidy l -> tidy r -> at_path p l = Some a -> at_path p r = Some b ->
  at_path p (deep_merge l r) = Some (deep_merge a b).
Proof.
  induction p as [|k p IH]; simpl; intros l r a b Hl Hr Ha Hb; [congruence|].
  destruct (lookup k l) as [l'|] eqn:El; [|discriminate]. destruct (lookup k r) as [r'|] eqn:Er; [|discriminate].
  rewrite lookup_deep; [|assumption|assumption|left; congruence]. rewrite El, Er.
  apply IH; [apply (tidy_lookup k l)|apply (tidy_lookup k r)| |]; assumption.
Qed.

Lemma path_right p : forall l r b, tidy l -> tidy r -> at_path p l = None -> at_path p r = Some b ->
  at_path p (deep_merge l r) = Some b.
Proof.
  induction p as [|k p IH]; simpl; intros l r b Hl Hr Ha Hb; [discriminate|].
  destruct (lookup k r) as [r'|] eqn:Er; [|discriminate].
  rewrite lookup_deep; [|assumption|assumption|left; congruence]. rewrite Er.
  destruct (lookup k l) as [l'|] eqn:El; [|exact Hb].
  apply IH; [apply (tidy_lookup k l)|apply (tidy_lookup k r)| |]; assumption.
Qed.

Lemma lookup_given k v es w : is_block v es -> first_given es k w -> lookup k v = Some w.
Proof. intros Hb Hg. unfold lookup. rewrite Hb. apply find_first_given. exact Hg. Qed.

Lemma at_path_strip k p v w : strip v = strip w -> at_path (k :: p) v = at_path (k :: p) w.
Proof. intros E. simpl. unfold lookup. rewrite E. reflexivity. Qed.

Lemma path_silent r p : silent r p -> forall l, tidy l -> tidy r -> at_path p (deep_merge l r) = at_path p l.
Proof.
  induction 1 as [v es k p Hb Hn|v es k w p Hb Hg Hs IH]; intros l Hl Hr; simpl.
  - rewrite lookup_deep; [|assumption|assumption|right; exists es; exact Hb].
    assert (E : lookup k v = None) by (unfold lookup; rewrite Hb; apply find_first_none; exact Hn).
    rewrite E. destruct (lookup k l); reflexivity.
  - pose proof (lookup_given k v es w Hb Hg) as E.
    rewrite lookup_deep; [|assumption|assumption|left; congruence]. rewrite E.
    assert (Hw : tidy w) by (apply (tidy_lookup k v); assumption).
    destruct (lookup k l) as [l'|] eqn:El.
    + apply IH; [apply (tidy_lookup k l); assumption|exact Hw].
    + specialize (IH (Atom Unit) (tidy_atom Unit) Hw).
      destruct p as [|k' p]; [inversion Hs|]. rewrite (at_path_strip k' p _ w) in IH by (rewrite strip_deep_merge; reflexivity).
      rewrite IH. reflexivity.
Qed.

Lemma path_blocked r p : blocked r p -> forall l, tidy l -> tidy r -> at_path p (deep_merge l r) = None.
Proof.
  induction 1 as [v k p Hb|v es k w p Hb Hg Hs IH]; intros l Hl Hr; simpl.
  - assert (E : lookup k (deep_merge l v) = None); [|rewrite E; reflexivity].
    unfold lookup. rewrite strip_deep_merge. unfold a_block, is_block in Hb.
    destruct (strip l); destruct (strip v) eqn:Ev; try reflexivity; exfalso; apply Hb; eexists; reflexivity.
  - pose proof (lookup_given k v es w Hb Hg) as E.
    rewrite lookup_deep; [|assumption|assumption|left; congruence]. rewrite E.
    assert (Hw : tidy w) by (apply (tidy_lookup k v); assumption).
    destruct (lookup k l) as [l'|] eqn:El.
    + apply IH; [apply (tidy_lookup k l); assumption|exact Hw].
    + specialize (IH (Atom Unit) (tidy_atom Unit) Hw).
      destruct p as [|k' p]; [inversion Hs|]. rewrite (at_path_strip k' p _ w) in IH by (rewrite strip_deep_merge; reflexivity).
      rewrite IH. reflexivity.
Qed.

Lemma block_or_not v : a_block v \/ ~ a_block v.
Proof.
  unfold a_block, is_block. destruct (strip v); [right|right|left|right]; try (intros [es H]; discriminate). eexists; reflexivity.
Qed.

Lemma silent_none r p : silent r p -> at_path p r = None.
Proof.
  induction 1 as [v es k p Hb Hn|v es k w p Hb Hg Hs IH]; simpl.
  - unfold lookup. rewrite Hb. apply find_first_none in Hn. rewrite Hn. reflexivity.
  - rewrite (lookup_given k v es w Hb Hg). exact IH.
Qed.

Lemma blocked_none r p : blocked r p -> at_path p r = None.
Proof.
  induction 1 as [v k p Hb|v es k w p Hb Hg Hs IH]; simpl.
  - unfold lookup. destruct (strip v) eqn:E; try reflexivity. exfalso. apply Hb. eexists. exact E.
  - rewrite (lookup_given k v es w Hb Hg). exact IH.
Qed.

Lemma path_cases p : forall r, at_path p r = None -> silent r p \/ blocked r p.
Proof.
  induction p as [|k p IH]; intros r; simpl; [discriminate|].
  destruct (block_or_not r) as [[es Hb]|Hb]; [|intros _; right; apply blocked_here; exact Hb].
  unfold lookup. rewrite Hb. destruct (find_first k es) as [w|] eqn:E.
  - intros H. apply find_first_given in E. destruct (IH w H) as [H'|H']; [left; eapply silent_below; eauto|right; eapply blocked_below; eauto].
  - intros _. left. eapply silent_here; [exact Hb|]. apply find_first_none. exact E.
Qed.

(** * Laws of DEEPMERGE *)

Lemma find_keys_same es es' k : keys es = keys es' -> find_first k es = None -> find_first k es' = None.
Proof. intros H Hn. apply find_first_none. rewrite <- H. apply find_first_none. exact Hn. Qed.

Lemma first_appearances_assoc a b c :
  first_appearances [] (first_appearances [] (a ++ b) ++ c) = first_appearances [] (a ++ first_appearances [] (b ++ c)).
Proof.
  transitivity (first_appearances [] (a ++ b ++ c)).
  - rewrite app_assoc, (first_appearances_app (first_appearances [] (a ++ b))), (first_appearances_app (a ++ b) [] c).
    rewrite first_appearances_twice by (intros k []). f_equal. apply first_appearances_ext.
    intros k. rewrite !app_nil_r, first_appearances_in. simpl. tauto.
  - rewrite !(first_appearances_app a). f_equal. symmetry. apply first_appearances_twice. intros k [].
Qed.

Lemma deep_assoc c : forall a b, tidy a -> tidy b -> tidy c -> compatible a b c ->
  alike (deep_merge (deep_merge a b) c) (deep_merge a (deep_merge b c)).
Proof.
  induction c as [x|xs _|cs IH _|m c IH] using value_ind2; intros a b Ha Hb Hc Hcomp; apply alike_strip; rewrite !strip_deep_merge.
  - simpl. destruct (strip a); destruct (strip b); constructor.
  - simpl. destruct (strip a); destruct (strip b); constructor.
  - simpl (strip (Blk cs)).
    destruct (block_or_not a) as [[as_ Ea]|Hna].
    + destruct (block_or_not b) as [[bs Eb]|Hnb].
      * unfold is_block in *. rewrite Ea, Eb. apply alike_blk.
        destruct (tidy_block a as_ Ha Ea) as [Na Ta]. destruct (tidy_block b bs Hb Eb) as [Nb Tb].
        destruct (tidy_block _ cs Hc eq_refl) as [Nc Tc].
        apply entries_by_find; [apply combined_nodup| |].
        -- rewrite !combined_keys. apply first_appearances_assoc.
        -- intros k v w. rewrite !combined_find; try assumption; try apply combined_nodup.
           destruct (find_first k as_) as [av|] eqn:Fa; destruct (find_first k bs) as [bv|] eqn:Fb;
             destruct (find_first k cs) as [cv|] eqn:Fc; intros [= <-] [= <-]; try apply alike_refl.
           destruct (find_first_in _ _ _ Fc) as (e & He & _ & Ev). subst cv. apply IH; eauto.
           intros p x y z Hx Hy Hz. apply (Hcomp (k :: p)); simpl; unfold lookup.
           ++ rewrite Ea, Fa. exact Hx.
           ++ rewrite Eb, Fb. exact Hy.
           ++ simpl. rewrite Fc. exact Hz.
      * exfalso. apply Hnb. apply (Hcomp [] a b (Blk cs) eq_refl eq_refl eq_refl); [exists as_; exact Ea|exists cs; reflexivity].
    + assert (E : forall x, match strip a with Blk ls => Blk (combined deep_merge ls x) | _ => Blk x end = Blk x).
      { intros x. destruct (strip a) eqn:E; try reflexivity. exfalso. apply Hna. exists es. exact E. }
      destruct (block_or_not b) as [[bs Eb]|Hnb]; unfold is_block in *.
      * rewrite Eb. rewrite !E. apply alike_refl.
      * assert (Eb : strip b = Blk [] -> False) by (intros Eb; apply Hnb; exists []; exact Eb).
        destruct (strip a) eqn:Ea; destruct (strip b) eqn:Ebb; try apply alike_refl; exfalso;
          try (apply Hna; eexists; exact Ea); try (apply Hnb; eexists; exact Ebb).
  - simpl (strip (Met m c)). inversion Hc; subst.
    assert (H : alike (deep_merge (deep_merge a b) c) (deep_merge a (deep_merge b c))).
    { apply IH; try assumption. intros [|k p] x y z Hx Hy Hz Bx Bz.
      - injection Hz as <-. apply (Hcomp [] x y (Met m c) Hx Hy eq_refl Bx Bz).
      - apply (Hcomp (k :: p) x y z Hx Hy); [|exact Bx|exact Bz]. rewrite <- Hz. apply at_path_strip. reflexivity. }
    apply strip_alike in H. rewrite !strip_deep_merge in H. exact H.
Qed.

Lemma deep_self v : tidy v -> alike (deep_merge v v) v.
Proof.
  induction v as [x|xs _|es IH _|m v IH] using value_ind2; intros Ht; apply alike_strip; rewrite strip_deep_merge.
  - simpl. constructor.
  - simpl. constructor.
  - simpl. destruct (tidy_block _ es Ht eq_refl) as [Hn Hf]. apply alike_blk.
    assert (Hk : first_appearances [] (keys es ++ keys es) = keys es).
    { rewrite <- insert_all_same at 3 by exact Hn. rewrite insert_all_keys, first_appearances_app.
      rewrite <- app_nil_r. f_equal. rewrite app_nil_r. pose proof (first_appearances_in (keys es) (keys es)) as H.
      destruct (first_appearances (keys es) (keys es)) as [|k ks]; [reflexivity|]. destruct (proj1 (H k) (or_introl eq_refl)). contradiction. }
    apply entries_by_find; [apply combined_nodup|rewrite combined_keys; exact Hk|].
    intros k v w. rewrite combined_find by assumption. destruct (find_first k es) as [u|] eqn:Fu; [|discriminate].
    intros [= <-] [= <-]. destruct (find_first_in _ _ _ Fu) as (e & He & _ & Ev). subst u. apply IH; eauto.
  - inversion Ht; subst. assert (H : alike (deep_merge v v) v) by (apply IH; assumption).
    apply strip_alike in H. rewrite strip_deep_merge in H. exact H.
Qed.

Lemma deep_empty_left v : tidy v -> alike (deep_merge (Blk []) v) v.
Proof.
  intros Ht. apply alike_strip. rewrite strip_deep_merge. simpl. destruct (strip v) eqn:E; try apply alike_refl.
  destruct (tidy_block v es Ht E) as [Hn _]. apply alike_blk.
  assert (Hk : keys (combined deep_merge [] es) = keys es).
  { rewrite combined_keys. simpl. rewrite <- insert_all_keys, insert_all_same by exact Hn. reflexivity. }
  apply entries_by_find; [apply combined_nodup|exact Hk|].
  intros k x y. rewrite combined_find by (try assumption; constructor). simpl. intros H1 H2. rewrite H1 in H2. injection H2 as ->. apply alike_refl.
Qed.

Lemma deep_empty_right v : tidy v -> a_block v -> alike (deep_merge v (Blk [])) v.
Proof.
  intros Ht [es E]. apply alike_strip. rewrite strip_deep_merge. unfold is_block in E. rewrite E. simpl.
  destruct (tidy_block v es Ht E) as [Hn _]. apply alike_blk.
  assert (Hk : keys (combined deep_merge es []) = keys es).
  { rewrite combined_keys. simpl. rewrite app_nil_r, <- insert_all_keys, insert_all_same by exact Hn. reflexivity. }
  apply entries_by_find; [apply combined_nodup|exact Hk|].
  intros k x y. rewrite combined_find by (try assumption; constructor). simpl. intros H1 H2. rewrite H2 in H1. injection H1 as ->. apply alike_refl.
Qed.
