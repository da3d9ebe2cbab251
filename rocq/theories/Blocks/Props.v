(** C57: merging blocks; C58: deep merging; C59: equality; C60: metadata. *)
From Coq Require Import ZArith List Bool Lia.
From Verif Require Import Numbers.Model Numbers.Spec Numbers.Props Blocks.Model Blocks.Spec Blocks.Proofs Blocks.Equal.
Import ListNotations.

Local Arguments e_key : simpl never.
Local Arguments e_val : simpl never.

Definition or_else {A} (a b : option A) : option A := match a with Some x => Some x | None => b end.

Lemma merge_blocks l r ls rs : is_block l ls -> is_block r rs ->
  merge l r = Some (match or_else (outer_meta r) (outer_meta l) with
                    | Some m => Met m (Blk (insert_all (ls ++ rs)))
                    | None => Blk (insert_all (ls ++ rs))
                    end).
Proof.
  unfold is_block. intros Hl Hr. unfold merge, merge_core, with_meta.
  destruct l; destruct r; simpl in *; try discriminate;
    repeat match goal with H : Blk _ = Blk _ |- _ => injection H as -> end; rewrite ?Hl, ?Hr; reflexivity.
Qed.

Lemma strip_choice o v : strip (match o with Some m => Met m v | None => v end) = strip v.
Proof. destruct o; reflexivity. Qed.

(** * C57: merging *)

(** Merging two blocks gives a block: each key once, in order of first
    appearance, with the value of the last entry that has the key, those of
    the right operand coming after those of the left.  Anything else is an
    error. *)
Theorem C57_merge l r ls rs : is_block l ls -> is_block r rs ->
  exists m ms, merge l r = Some m /\ is_block m ms /\ keys ms = first_appearances [] (keys ls ++ keys rs) /\
    (forall k v, lookup k m = Some v <-> last_given (ls ++ rs) k v) /\
    (forall e, In e ms -> In e ls \/ In e rs).
Proof.
  intros Hl Hr. rewrite (merge_blocks l r ls rs Hl Hr). eexists _, (insert_all (ls ++ rs)). split; [reflexivity|].
  assert (Hs : forall o, strip (match o with Some m => Met m (Blk (insert_all (ls ++ rs))) | None => Blk (insert_all (ls ++ rs)) end) = Blk (insert_all (ls ++ rs)))
    by (intros o; apply strip_choice).
  split; [apply Hs|]. split; [rewrite insert_all_keys, keys_app; reflexivity|]. split.
  - intros k v. unfold lookup. rewrite Hs, insert_all_find. apply find_last_given.
  - intros e He. apply in_app_or. unfold insert_all in He. revert He.
    assert (H : forall es acc, In e (fold_left (fun acc e => insert e acc) es acc) -> In e es \/ In e acc).
    { induction es as [|x es IH]; simpl; [auto|]. intros acc He. destruct (IH _ He) as [H|H]; [auto|].
      assert (H' : e = x \/ In e acc).
      { clear - H. induction acc as [|y acc IH]; simpl in *; [destruct H as [H|[]]; auto|].
        destruct (N.eqb (e_key y) (e_key x)); simpl in H; destruct H as [H|H]; auto. destruct (IH H); auto. }
      destruct H' as [->|H']; auto. }
    intros He. destruct (H _ _ He) as [H'|[]]. exact H'.
Qed.

Theorem C57_not_blocks l r : ~ a_block l \/ ~ a_block r -> merge l r = None.
Proof.
  unfold a_block, is_block. intros H. unfold merge, merge_core, with_meta.
  assert (E : forall x y, (~ (exists es, strip x = Blk es) \/ ~ (exists es, strip y = Blk es)) ->
    match strip x, strip y with Blk ls, Blk rs => Some (Blk (insert_all (ls ++ rs))) | _, _ => None end = None).
  { intros x y [Hx|Hy].
    - destruct (strip x) eqn:Ex; try reflexivity. exfalso. apply Hx. eexists; reflexivity.
    - destruct (strip x); try reflexivity. destruct (strip y) eqn:Ey; try reflexivity. exfalso. apply Hy. eexists; reflexivity. }
  destruct l; destruct r; simpl in H; rewrite E by exact H; reflexivity.
Qed.

(** The right operand overrides, where the operands have each key once. *)
Theorem C57_override l r ls rs m k : is_block l ls -> is_block r rs -> NoDup (keys ls) -> NoDup (keys rs) -> merge l r = Some m ->
  lookup k m = match lookup k r with Some v => Some v | None => lookup k l end.
Proof.
  intros Hl Hr Nl Nr. rewrite (merge_blocks l r ls rs Hl Hr). intros [= <-]. unfold lookup. rewrite strip_choice, Hl, Hr. simpl.
  rewrite insert_all_find, find_last_app, !find_last_unique by assumption. reflexivity.
Qed.

(** Merging is associative, on all blocks, metadata included. *)
Theorem C57_associative a b c ab x : merge a b = Some ab -> merge ab c = Some x -> exists bc, merge b c = Some bc /\ merge a bc = Some x.
Proof.
  intros Hab Hx.
  destruct (block_or_not a) as [[as_ Ha]|Ha]; [|rewrite C57_not_blocks in Hab by tauto; discriminate].
  destruct (block_or_not b) as [[bs Hb]|Hb]; [|rewrite C57_not_blocks in Hab by tauto; discriminate].
  destruct (block_or_not c) as [[cs Hc]|Hc]; [|rewrite C57_not_blocks in Hx by tauto; discriminate].
  rewrite (merge_blocks a b as_ bs Ha Hb) in Hab. injection Hab as <-.
  rewrite (merge_blocks b c bs cs Hb Hc). eexists. split; [reflexivity|].
  rewrite (merge_blocks _ c (insert_all (as_ ++ bs)) cs) in Hx by (try assumption; unfold is_block; rewrite strip_choice; reflexivity).
  rewrite (merge_blocks a _ as_ (insert_all (bs ++ cs))) by (try assumption; unfold is_block; rewrite strip_choice; reflexivity).
  rewrite <- Hx. rewrite insert_all_left, insert_all_right, app_assoc.
  destruct (outer_meta a) eqn:Ea; destruct (outer_meta b) eqn:Eb; destruct (outer_meta c) eqn:Ec; simpl; rewrite ?Ec, ?Ea; reflexivity.
Qed.

(** The empty block is neutral, and merging with itself changes nothing, for a
    block that has each key once. *)
Theorem C57_identity v es : is_block v es -> NoDup (keys es) ->
  exists a b c, merge v (Blk []) = Some a /\ is_block a es /\ merge (Blk []) v = Some b /\ is_block b es /\
    merge v v = Some c /\ is_block c es /\ outer_meta a = outer_meta v /\ outer_meta b = outer_meta v /\ outer_meta c = outer_meta v.
Proof.
  intros H Hn. rewrite (merge_blocks v (Blk []) es [] H eq_refl), (merge_blocks (Blk []) v [] es eq_refl H), (merge_blocks v v es es H H).
  rewrite app_nil_r. change ([] ++ es) with es. rewrite (insert_all_same es Hn).
  assert (Hd : insert_all (es ++ es) = es).
  { apply by_picks; [apply insert_all_nodup| |].
    - rewrite insert_all_keys, keys_app, first_appearances_app, <- insert_all_keys, (insert_all_same es Hn).
      rewrite <- app_nil_r. f_equal. rewrite app_nil_r. pose proof (first_appearances_in (keys es) (keys es)) as Hi.
      destruct (first_appearances (keys es) (keys es)) as [|k ks]; [reflexivity|]. destruct (proj1 (Hi k) (or_introl eq_refl)). contradiction.
    - intros k. rewrite insert_all_pick, pick_last_app, pick_last_unique by exact Hn. destruct (pick k es); reflexivity. }
  rewrite Hd. simpl. eexists _, _, _. repeat split; unfold is_block; rewrite ?strip_choice; try reflexivity; destruct v; reflexivity.
Qed.

(** The metadata of the right operand wins, as a whole. *)
Theorem C57_metadata l r m : merge l r = Some m -> outer_meta m = or_else (outer_meta r) (outer_meta l).
Proof.
  intros H.
  destruct (block_or_not l) as [[ls Hl]|Hl]; [|rewrite C57_not_blocks in H by tauto; discriminate].
  destruct (block_or_not r) as [[rs Hr]|Hr]; [|rewrite C57_not_blocks in H by tauto; discriminate].
  rewrite (merge_blocks l r ls rs Hl Hr) in H. injection H as <-. destruct (or_else (outer_meta r) (outer_meta l)); reflexivity.
Qed.

(** Merging with a function: where both have the key, the function of the two
    values. *)
Theorem C57_merge_with f l r ls rs : is_block l ls -> is_block r rs -> NoDup (keys ls) -> NoDup (keys rs) ->
  exists ms, merge_with f l r = Some (Blk ms) /\ keys ms = first_appearances [] (keys ls ++ keys rs) /\
    forall k, lookup k (Blk ms) = match lookup k l, lookup k r with
                                  | Some a, Some b => Some (f a b)
                                  | Some a, None => Some a
                                  | None, o => o
                                  end.
Proof.
  intros Hl Hr Nl Nr. unfold merge_with, lookup. rewrite Hl, Hr. exists (combined f ls rs). split; [reflexivity|].
  split; [apply combined_keys|]. intros k. simpl. apply combined_find; assumption.
Qed.

(** With a key given twice, a lookup finds the first and a merge keeps the
    last: merging with the empty block changes what is looked up. *)
Theorem C57_duplicates_refuted : exists v m, a_block v /\ merge (Blk []) v = Some m /\
  lookup 1%N v = Some (Atom (Boolean true)) /\ lookup 1%N m = Some (Atom (Boolean false)).
Proof.
  exists (Blk [(1%N, Atom (Boolean true), None); (1%N, Atom (Boolean false), None)]). eexists. split; [eexists; reflexivity|]. repeat split.
Qed.

Definition num (n : Z) : value := Atom (Num (PosInt n)).
Example C57_example :
  let l := Met (num 7) (Blk [(1%N, num 1, None); (2%N, num 2, None)]) in
  let r := Blk [(3%N, num 3, None); (1%N, num 4, Some [])] in
  is_block l [(1%N, num 1, None); (2%N, num 2, None)] /\ NoDup (keys [(1%N, num 1, None); (2%N, num 2, None)]) /\
  merge l r = Some (Met (num 7) (Blk [(1%N, num 4, Some []); (2%N, num 2, None); (3%N, num 3, None)])).
Proof. split; [reflexivity|]. split; [|reflexivity]. repeat constructor; simpl; intuition discriminate. Qed.

(** * C58: deep merging *)

(** The recursion of the model is DEEPMERGE handing itself to MERGEWITH
    (block.rs 1296-1301): two blocks. *)
Theorem C58_unfold ls rs : merge_with deep_merge (Blk ls) (Blk rs) = Some (deep_merge (Blk ls) (Blk rs)).
Proof. change (deep_merge (Blk ls) (Blk rs)) with (deep_core (Blk ls) (Blk rs)). rewrite (deep_core_blk (Blk ls) ls rs eq_refl). reflexivity. Qed.

(** What a path finds in a deep merge, in every case. *)
Theorem C58_path l r p : tidy l -> tidy r ->
  (forall a b, at_path p l = Some a -> at_path p r = Some b -> at_path p (deep_merge l r) = Some (deep_merge a b)) /\
  (forall b, at_path p l = None -> at_path p r = Some b -> at_path p (deep_merge l r) = Some b) /\
  (silent r p -> at_path p (deep_merge l r) = at_path p l) /\
  (blocked r p -> at_path p (deep_merge l r) = None).
Proof.
  intros Hl Hr. repeat split; intros.
  - apply path_both; assumption.
  - apply path_right; assumption.
  - apply path_silent; assumption.
  - apply path_blocked; assumption.
Qed.
Theorem C58_path_cases p r : at_path p r = None <-> silent r p \/ blocked r p.
Proof. split; [apply path_cases|]. intros [H|H]; [apply silent_none|apply blocked_none]; exact H. Qed.

(** Where the two meet: anything that is not two blocks gives the right one;
    two blocks give a block with the keys of both. *)
Theorem C58_meet a b : (~ a_block a \/ ~ a_block b -> strip (deep_merge a b) = strip b) /\
  (forall xs ys, is_block a xs -> is_block b ys -> exists zs, is_block (deep_merge a b) zs /\ keys zs = first_appearances [] (keys xs ++ keys ys)) /\
  outer_meta (deep_merge a b) = or_else (outer_meta b) (outer_meta a).
Proof.
  split; [|split].
  - intros H. rewrite strip_deep_merge. unfold a_block, is_block in H.
    destruct (strip a); try reflexivity. destruct (strip b); try reflexivity. exfalso. destruct H as [H|H]; apply H; eexists; reflexivity.
  - unfold is_block. intros xs ys Ha Hb. rewrite strip_deep_merge, Ha, Hb. eexists. split; [reflexivity|]. apply combined_keys.
  - assert (H : forall x y, outer_meta y = None -> outer_meta (deep_core x y) = None).
    { intros x y Hy. destruct (block_or_not x) as [[es E]|E].
      - destruct y; try discriminate; simpl; unfold is_block in E; rewrite E; reflexivity.
      - rewrite deep_core_not_block; [exact Hy|]. intros es Ex. apply E. exists es. exact Ex. }
    destruct a; destruct b; simpl; try reflexivity; apply H; reflexivity.
Qed.

(** A deep merge of values that have each key once has each key once. *)
Theorem C58_tidy l r : tidy l -> tidy r -> tidy (deep_merge l r).
Proof. intros Hl Hr. apply tidy_deep; assumption. Qed.

(** Deep merging is idempotent and has the empty block as its unit; it is
    associative where the middle operand has no scalar in the place of a block
    of both others. *)
Theorem C58_idempotent v : tidy v -> alike (deep_merge v v) v.
Proof. apply deep_self. Qed.
Theorem C58_unit v : tidy v -> alike (deep_merge (Blk []) v) v /\ (a_block v -> alike (deep_merge v (Blk [])) v).
Proof. intros H. split; [apply deep_empty_left; exact H|]. intros Hb. apply deep_empty_right; assumption. Qed.
Theorem C58_associative a b c : tidy a -> tidy b -> tidy c -> compatible a b c ->
  alike (deep_merge (deep_merge a b) c) (deep_merge a (deep_merge b c)).
Proof. intros. apply deep_assoc; assumption. Qed.

(** In general it is not: a scalar in the middle cuts off what is to its left
    only if it meets it first. *)
Theorem C58_associative_refuted : exists a b c, tidy a /\ tidy b /\ tidy c /\
  at_path [1%N; 2%N] (deep_merge (deep_merge a b) c) = None /\
  at_path [1%N; 2%N] (deep_merge a (deep_merge b c)) = Some (num 1).
Proof.
  exists (Blk [(1%N, Blk [(2%N, num 1, None)], None)]), (Blk [(1%N, num 5, None)]), (Blk [(1%N, Blk [(3%N, num 2, None)], None)]).
  split; [|split; [|split; [|split; reflexivity]]]; repeat (constructor; simpl; intros; intuition (subst; auto)).
Qed.

(** A value that replaces another carries the metadata of the one replaced. *)
Theorem C58_replaced_metadata_refuted : exists l r, tidy l /\ tidy r /\ outer_meta r = None /\ ~ a_block r /\
  deep_merge l r = Met (num 9) r.
Proof.
  exists (Met (num 9) (num 1)), (num 2). repeat split; try (repeat constructor). intros [es H]. discriminate.
Qed.

Example C58_example :
  let l := Blk [(1%N, Blk [(2%N, num 1, None); (3%N, num 2, None)], None); (4%N, num 3, None)] in
  let r := Blk [(4%N, num 6, None); (1%N, Blk [(3%N, num 4, None); (5%N, num 5, None)], None)] in
  tidy l /\ tidy r /\ compatible l r l /\ silent r [1%N; 2%N] /\ blocked r [4%N; 1%N] /\
  deep_merge l r = Blk [(1%N, Blk [(2%N, num 1, None); (3%N, num 4, None); (5%N, num 5, None)], None); (4%N, num 6, None)].
Proof.
  intros l r. split; [|split; [|split; [|split; [|split; [|reflexivity]]]]].
  - repeat (constructor; simpl; intros; intuition (subst; simpl; auto; try discriminate)).
  - repeat (constructor; simpl; intros; intuition (subst; simpl; auto; try discriminate)).
  - intros [|k p] x y z Hx Hy Hz Bx Bz; simpl in Hx, Hy, Hz.
    + injection Hy as <-. eexists. reflexivity.
    + unfold lookup in Hx, Hy, Hz. simpl in Hx, Hy, Hz. unfold e_key, e_val in *. simpl in *.
      destruct k as [|[[p0|p0|]|[[p0|p0|]|[p0|p0|]|]|]]; simpl in *; try discriminate.
      * destruct p as [|k' p]; simpl in *; [injection Hx as <-; destruct Bx as [es E]; discriminate|].
        unfold lookup in Hx; simpl in Hx; discriminate.
      * destruct p as [|k' p]; simpl in *; [injection Hy as <-; eexists; reflexivity|].
        destruct (lookup k' (Blk [(2%N, num 1, None); (3%N, num 2, None)])) as [w|] eqn:E; [|discriminate].
        assert (Hw : w = num 1 \/ w = num 2).
        { unfold lookup in E. cbn [strip] in E. destruct (find_first_in _ _ _ E) as (e & [<-|[<-|[]]] & _ & <-); [left|right]; reflexivity. }
        destruct p as [|k'' p]; simpl in Hx.
        -- injection Hx as <-. destruct Bx as [es Eb]. destruct Hw as [-> | ->]; discriminate.
        -- destruct Hw as [-> | ->]; discriminate.
  - eapply silent_below with (w := Blk [(3%N, num 4, None); (5%N, num 5, None)]); [reflexivity| |eapply silent_here; [reflexivity|]].
    + exists [(4%N, num 6, None)], [], None. split; [reflexivity|]. simpl. intuition discriminate.
    + simpl. intuition discriminate.
  - eapply blocked_below with (w := num 6); [reflexivity| |apply blocked_here].
    + exists [], [(1%N, Blk [(3%N, num 4, None); (5%N, num 5, None)], None)], None. split; [reflexivity|]. intros [].
    + intros [es E]. discriminate.
Qed.

(** * C59: equality *)

(** Equality holds of a value and itself, and does not depend on the order of
    its operands. *)
Theorem C59_reflexive v : all_proper v -> val_eq v v = true.
Proof. apply val_eq_refl. Qed.
Theorem C59_symmetric v w : all_proper v -> all_proper w -> val_eq v w = val_eq w v.
Proof. apply val_eq_sym. Qed.

(** It is transitive where all numbers are integers, or all are exact as
    doubles, and no entry of a block has more than a key and a value. *)
Theorem C59_transitive x y z : all_proper x -> all_proper y -> all_proper z ->
  (numbers whole x /\ numbers whole y /\ numbers whole z) \/ (numbers faithful x /\ numbers faithful y /\ numbers faithful z) ->
  short_entries x -> short_entries y -> short_entries z -> val_eq x y = true -> val_eq y z = true -> val_eq x z = true.
Proof.
  intros Hx Hy Hz [(Px & Py & Pz)|(Px & Py & Pz)].
  - apply (val_eq_trans whole); try assumption. intros a b [i Hi] [j Hj]. left. eauto.
  - apply (val_eq_trans faithful); try assumption. intros a b Ha Hb. right. auto.
Qed.

(** In general it is not, for two reasons: numbers compared as doubles, and
    pairs compared with longer key-value lists. *)
Theorem C59_transitive_refuted :
  (exists x y z, all_proper x /\ all_proper y /\ all_proper z /\ short_entries x /\ short_entries y /\ short_entries z /\
     val_eq x y = true /\ val_eq y z = true /\ val_eq x z = false) /\
  (exists x y z, all_proper x /\ all_proper y /\ all_proper z /\ numbers whole x /\ numbers whole y /\ numbers whole z /\
     val_eq x y = true /\ val_eq y z = true /\ val_eq x z = false).
Proof.
  split.
  - destruct C47_equal_transitive_refuted as (x & y & z & Hx & Hy & Hz & H1 & H2 & H3).
    exists (Atom (Num x)), (Atom (Num y)), (Atom (Num z)). repeat split; try (constructor; assumption); try assumption; constructor.
  - assert (W : forall n, (0 <= n < 100)%Z -> numbers proper (num n) /\ numbers whole (num n))
      by (intros n Hn; split; constructor; exists n; constructor; lia).
    assert (B : forall n f, (0 <= n < 100)%Z -> (forall more x, f = Some more -> In x more -> exists k, (0 <= k < 100)%Z /\ x = num k) ->
        numbers proper (Blk [(1%N, num n, f)]) /\ numbers whole (Blk [(1%N, num n, f)])).
    { intros n f Hn Hf. split; constructor.
      - intros k v f' [[= <- <- _]|[]]. apply W. exact Hn.
      - intros k v more x [[= <- <- Ef]|[]] Hx. destruct (Hf more x Ef Hx) as (j & Hj & ->). apply W. exact Hj.
      - intros k v f' [[= <- <- _]|[]]. apply W. exact Hn.
      - intros k v more x [[= <- <- Ef]|[]] Hx. destruct (Hf more x Ef Hx) as (j & Hj & ->). apply W. exact Hj. }
    exists (Blk [(1%N, num 2, Some [num 3])]), (Blk [(1%N, num 2, None)]), (Blk [(1%N, num 2, Some [num 4])]).
    destruct (B 2%Z (Some [num 3])) as [A1 A2]; [lia|intros more x [= <-] [<-|[]]; exists 3%Z; split; [lia|reflexivity]|].
    destruct (B 2%Z None) as [B1 B2]; [lia|discriminate|].
    destruct (B 2%Z (Some [num 4])) as [D1 D2]; [lia|intros more x [= <-] [<-|[]]; exists 4%Z; split; [lia|reflexivity]|].
    repeat split; assumption.
Qed.

(** Equal values cannot be told apart by looking keys up along a path; equal
    blocks have the same keys in the same order. *)
Theorem C59_lookup p : forall v w, val_eq v w = true ->
  (forall a, at_path p v = Some a -> exists b, at_path p w = Some b /\ val_eq a b = true) /\
  (at_path p v = None -> at_path p w = None) /\
  (forall es, is_block v es -> exists es', is_block w es' /\ keys es = keys es').
Proof.
  assert (L : forall k v w, val_eq v w = true -> both (fun x y => val_eq x y = true) (lookup k v) (lookup k w)).
  { intros k v w H. unfold lookup. destruct (equal_shape' _ _ H) as [(xs & ys & Ex & Ey & Hxy)|[Hx Hy]].
    - rewrite Ex, Ey. apply equal_find. exact Hxy.
    - destruct (strip v); destruct (strip w); try exact I; exfalso; first [eapply Hx; reflexivity|eapply Hy; reflexivity]. }
  induction p as [|k p IH]; intros v w H; (split; [|split]); simpl; try discriminate.
  - intros a [= <-]. exists w. auto.
  - intros es E. destruct (equal_shape _ _ _ H E) as (es' & E' & He). exists es'. split; [exact E'|]. apply equal_keys. exact He.
  - intros a Ha. specialize (L k v w H). destruct (lookup k v) as [v'|]; [|discriminate]. destruct (lookup k w) as [w'|]; [|contradiction].
    exact (proj1 (IH v' w' L) a Ha).
  - intros Ha. specialize (L k v w H). destruct (lookup k v) as [v'|]; destruct (lookup k w) as [w'|]; try contradiction; [|reflexivity].
    exact (proj1 (proj2 (IH v' w' L)) Ha).
  - intros es E. destruct (equal_shape _ _ _ H E) as (es' & E' & He). exists es'. split; [exact E'|]. apply equal_keys. exact He.
Qed.

(** Merging equal blocks gives equal blocks, and so does deep merging. *)
Theorem C59_merge l l' r r' m : val_eq l l' = true -> val_eq r r' = true -> merge l r = Some m ->
  exists m', merge l' r' = Some m' /\ val_eq m m' = true.
Proof.
  intros Hl Hr Hm.
  destruct (block_or_not l) as [[ls El]|E]; [|rewrite C57_not_blocks in Hm by tauto; discriminate].
  destruct (block_or_not r) as [[rs Er]|E]; [|rewrite C57_not_blocks in Hm by tauto; discriminate].
  destruct (equal_shape _ _ _ Hl El) as (ls' & El' & Hls). destruct (equal_shape _ _ _ Hr Er) as (rs' & Er' & Hrs).
  rewrite (merge_blocks l r ls rs El Er) in Hm. injection Hm as <-. rewrite (merge_blocks l' r' ls' rs' El' Er').
  eexists. split; [reflexivity|]. rewrite val_eq_body, !strip_choice. simpl.
  apply (equal_inserts _ _ [] []); [apply list_eq_app; assumption|reflexivity].
Qed.
Theorem C59_deep_merge l l' r r' : val_eq l l' = true -> val_eq r r' = true -> val_eq (deep_merge l r) (deep_merge l' r') = true.
Proof. intros. apply equal_deep; assumption. Qed.

(** Metadata does not matter to equality, nor does the form of an entry; the
    order of the entries of a block does. *)
Theorem C59_metadata m v w : val_eq (Met m v) w = val_eq v w /\ val_eq v (Met m w) = val_eq v w.
Proof. split; rewrite !val_eq_body; reflexivity. Qed.
Theorem C59_same_data v w : alike v w -> all_proper v -> short_entries v -> short_entries w -> val_eq v w = true.
Proof. apply alike_equal. Qed.
Theorem C59_order_refuted : exists l r m n, merge l r = Some m /\ merge r l = Some n /\ (forall k, lookup k m = lookup k n) /\ val_eq m n = false.
Proof.
  exists (Blk [(1%N, num 1, None)]), (Blk [(2%N, num 2, None)]). eexists _, _. split; [reflexivity|]. split; [reflexivity|]. split; [|reflexivity].
  intros k. change ((if N.eqb 1%N k then Some (num 1) else if N.eqb 2%N k then Some (num 2) else None) =
    (if N.eqb 2%N k then Some (num 2) else if N.eqb 1%N k then Some (num 1) else None)).
  destruct (N.eqb_spec 1%N k) as [<-|]; [reflexivity|]. destruct (N.eqb_spec 2%N k) as [<-|]; reflexivity.
Qed.

(** Different kinds of value are different. *)
Example C59_example : val_eq (Atom (Str [97%N])) (Atom (Sym 97%N)) = false /\ val_eq (Lst []) (Blk []) = false /\
  val_eq (Lst [num 1; Met (num 2) (Lst [num 3])]) (Lst [num 1; Lst [num 3]]) = true /\
  val_eq (Blk [(1%N, num 1, None)]) (Blk [(1%N, num 1, Some [])]) = true /\
  all_proper (Lst [num 1; Lst [num 3]]) /\ numbers whole (num 1) /\ short_entries (Blk [(1%N, num 1, Some [])]).
Proof.
  repeat split.
  - constructor. intros x [<-|[<-|[]]]; constructor; [eexists; constructor; lia|]. intros x [<-|[]]. constructor. eexists; constructor; lia.
  - constructor. eexists. constructor. lia.
  - constructor. intros k v f [[= <- <- <-]|[]]. split; [constructor|auto].
Qed.

(** * C60: metadata *)

Lemma meta_layers v : forall ns, above_opaque (layers v) ns -> (forall m, In m ns -> distinct_layer m) ->
  (ns = [] /\ layers v <> [] /\ exists o, meta v = Some o /\ ~ a_block o) \/
  (exists m es, meta v = Some m /\ is_block m es /\ NoDup (keys es) /\ forall k w, find_first k es = Some w <-> layer_gives ns k w).
Proof.
  induction v as [a|xs _|es _ _|m v IH] using value_ind2; intros ns Ha Hd; simpl in *;
    try (right; inversion Ha; subst; exists (Blk []), []; repeat split; [constructor|discriminate|intros H; inversion H]).
  inversion Ha as [|? ? Hnb|? ? ns' Hb Ha']; subst.
  - left. split; [reflexivity|]. split; [discriminate|]. exists (strip m). unfold a_block, is_block in *. rewrite strip_strip.
    destruct (strip m) eqn:E; try (split; [reflexivity|exact Hnb]). exfalso. apply Hnb. eexists; reflexivity.
  - right. destruct Hb as [es Eb]. pose proof Eb as Eb'. unfold is_block in Eb. rewrite Eb.
    assert (Nm : NoDup (keys es)) by (apply (Hd m (or_introl eq_refl)); exact Eb').
    destruct (IH ns' Ha' (fun x Hx => Hd x (or_intror Hx))) as [(-> & _ & o & Ho & Hno)|(i & is_ & Hi & Ei & Ni & Hg)].
    + rewrite Ho. assert (E : match strip o with Blk _ => merge o m | _ => Some m end = Some m).
      { unfold a_block, is_block in Hno. destruct (strip o) eqn:E; try reflexivity. exfalso. apply Hno. eexists; reflexivity. }
      rewrite E. exists m, es. repeat split; try assumption.
      * intros H. eapply gives_here; [exact Eb'|]. apply find_first_given. exact H.
      * intros H. inversion H as [? ? es' ? ? Eb2 Hg|? ? es' ? ? Eb2 Hn Hg]; subst; [|inversion Hg].
        unfold is_block in Eb2. rewrite Eb in Eb2. injection Eb2 as <-. apply find_first_given. exact Hg.
    + rewrite Hi. pose proof Ei as Ei'. unfold is_block in Ei. rewrite Ei. rewrite (merge_blocks i m is_ es Ei' Eb').
      eexists _, (insert_all (is_ ++ es)). split; [reflexivity|]. split; [unfold is_block; rewrite strip_choice; reflexivity|].
      split; [apply insert_all_nodup|]. intros k w. rewrite insert_all_find, find_last_app, !find_last_unique by assumption.
      destruct (find_first k es) as [u|] eqn:Eu.
      * split.
        -- intros [= <-]. eapply gives_here; [exact Eb'|]. apply find_first_given. exact Eu.
        -- intros H. inversion H as [? ? es' ? ? Eb2 Hg'|? ? es' ? ? Eb2 Hn Hg']; subst; unfold is_block in Eb2; rewrite Eb in Eb2; injection Eb2 as <-.
           ++ apply find_first_given in Hg'. congruence.
           ++ exfalso. apply Hn. apply find_first_some. eexists; exact Eu.
      * rewrite Hg. split.
        -- intros H. eapply gives_below; [exact Eb'|apply find_first_none; exact Eu|exact H].
        -- intros H. inversion H as [? ? es' ? ? Eb2 Hg'|? ? es' ? ? Eb2 Hn Hg']; subst; [|exact Hg'].
           unfold is_block in Eb2; rewrite Eb in Eb2; injection Eb2 as <-. apply find_first_given in Hg'. congruence.
Qed.

(** Reading metadata never fails. *)
Theorem C60_total v : exists m, meta v = Some m.
Proof.
  induction v as [a|xs _|es _ _|m v [i Hi]] using value_ind2; simpl; try (eexists; reflexivity).
  destruct (strip m) eqn:E; try (eexists; reflexivity). rewrite Hi. destruct (strip i) eqn:Ei; try (eexists; reflexivity).
  rewrite (merge_blocks i m _ _ Ei E). eexists; reflexivity.
Qed.

(** The block layers above the first layer that is not a block are combined:
    for each key the outermost layer that has it counts. *)
Theorem C60_layers v ns : above_opaque (layers v) ns -> ns <> [] -> (forall m, In m ns -> distinct_layer m) ->
  exists m, meta v = Some m /\ a_block m /\ forall k w, lookup k m = Some w <-> layer_gives ns k w.
Proof.
  intros Ha Hne Hd. destruct (meta_layers v ns Ha Hd) as [(-> & _)|(m & es & Hm & Hb & _ & Hg)]; [contradiction|].
  exists m. split; [exact Hm|]. split; [exists es; exact Hb|]. intros k w. unfold lookup. rewrite Hb. apply Hg.
Qed.
Theorem C60_layers_exist v : exists ns, above_opaque (layers v) ns.
Proof.
  induction (layers v) as [|m ms [ns IH]]; [exists []; constructor|].
  destruct (block_or_not m) as [H|H]; [exists (m :: ns)|exists []]; constructor; assumption.
Qed.

(** A value without metadata has the empty block; an outermost layer that is
    not a block is reported alone. *)
Theorem C60_none v : layers v = [] -> meta v = Some (Blk []) /\ raw_meta v = Blk [].
Proof. destruct v; try discriminate; auto. Qed.
Theorem C60_opaque m v : ~ a_block m -> meta (Met m v) = Some (strip m) /\ raw_meta (Met m v) = m.
Proof.
  unfold a_block, is_block. intros H. simpl. destruct (strip m) eqn:E; auto. exfalso. apply H. eexists; reflexivity.
Qed.

(** Attaching a block and reading it back; adding to the metadata of a value. *)
Theorem C60_attach m v es : is_block m es -> NoDup (keys es) -> layers v = [] ->
  exists n, meta (Met m v) = Some n /\ is_block n es.
Proof.
  intros Hb Hn Hv. simpl. destruct (C60_none v Hv) as [-> _]. pose proof Hb as Hb'. unfold is_block in Hb. rewrite Hb. cbn [strip].
  destruct (C57_identity m es Hb' Hn) as (_ & b & _ & _ & _ & E & Eb & _). rewrite E. exists b. auto.
Qed.
Theorem C60_merge_meta m e es old : is_block m es -> NoDup (keys es) -> meta e = Some old -> a_block old -> (forall m, In m (layers e) -> distinct_layer m) ->
  exists e' new, merge_meta m e = Some e' /\ meta e' = Some new /\ strip e' = strip e /\
    forall k, lookup k new = match lookup k m with Some v => Some v | None => lookup k old end.
Proof.
  intros Hb Hn Ho [os Eo] Hd.
  assert (No : NoDup (keys os)).
  { destruct (C60_layers_exist e) as [ns Ha].
    assert (Hsub : forall ms ns, above_opaque ms ns -> forall x, In x ns -> In x ms).
    { clear. induction 1; intros x Hx; [destruct Hx|destruct Hx|]. destruct Hx as [->|Hx]; [left; reflexivity|right; auto]. }
    destruct (meta_layers e ns Ha (fun x Hx => Hd x (Hsub _ _ Ha x Hx))) as [(_ & _ & o & Ho' & Hno)|(o & es' & Ho' & Hb' & Hn' & _)].
    - rewrite Ho in Ho'. injection Ho' as <-. exfalso. apply Hno. exists os. exact Eo.
    - rewrite Ho in Ho'. injection Ho' as <-. unfold is_block in *. rewrite Eo in Hb'. injection Hb' as <-. exact Hn'. }
  unfold merge_meta. rewrite Ho. rewrite (merge_blocks old m os es Eo Hb). eexists _, _. split; [reflexivity|].
  split; [|split; [reflexivity|]].
  - simpl. rewrite strip_choice. simpl. rewrite Ho. pose proof Eo as Eo'. unfold is_block in Eo'. rewrite Eo'.
    rewrite (merge_blocks old _ os (insert_all (os ++ es))) by (try assumption; unfold is_block; rewrite strip_choice; reflexivity). reflexivity.
  - intros k. unfold lookup. rewrite strip_choice, Hb, Eo. simpl.
    rewrite insert_all_right. rewrite app_assoc, insert_all_find, !find_last_app, !find_last_unique by assumption.
    destruct (find_first k es); [reflexivity|]. destruct (find_first k os); reflexivity.
Qed.

(** Layers are merged, not deep merged: a block in an outer layer hides the
    block under the same key of an inner one (the comment in meta.rs says the
    layers are deep-merged). *)
Theorem C60_deep_refuted : exists v m, meta v = Some m /\ at_path [1%N; 3%N] m = None /\
  exists inner outer u, v = Met outer (Met inner u) /\ at_path [1%N; 3%N] inner = Some (num 1) /\
    at_path [1%N; 3%N] (deep_merge inner outer) = Some (num 1).
Proof.
  set (inner := Blk [(1%N, Blk [(3%N, num 1, None)], None)]). set (outer := Blk [(1%N, Blk [(2%N, num 2, None)], None)]).
  exists (Met outer (Met inner (num 0))). eexists. split; [reflexivity|]. split; [reflexivity|].
  exists inner, outer, (num 0). repeat split.
Qed.

(** Only the outermost layer survives a merge: what [meta] reports of a merge
    is not the combination of what it reports of the operands. *)
Theorem C60_merge_loses_refuted : exists l r m n k, merge l r = Some m /\ meta m = Some n /\ lookup k n = None /\
  exists lm, meta l = Some lm /\ lookup k lm = Some (num 1).
Proof.
  exists (Met (Blk [(1%N, num 1, None)]) (Blk [])), (Met (Blk [(2%N, num 2, None)]) (Blk [])). eexists _, _, 1%N.
  split; [reflexivity|]. split; [reflexivity|]. split; [reflexivity|]. eexists. split; reflexivity.
Qed.

Example C60_example :
  let v := Met (Blk [(1%N, num 1, None)]) (Met (Blk [(2%N, num 2, None); (1%N, num 5, None)]) (Met (num 7) (Met (Blk [(4%N, num 4, None)]) (num 0)))) in
  above_opaque (layers v) [Blk [(1%N, num 1, None)]; Blk [(2%N, num 2, None); (1%N, num 5, None)]] /\
  meta v = Some (Blk [(2%N, num 2, None); (1%N, num 1, None)]) /\
  merge_meta (Blk [(9%N, num 9, None)]) v = Some (Met (Blk [(2%N, num 2, None); (1%N, num 1, None); (9%N, num 9, None)]) v).
Proof.
  split; [|split; reflexivity]. simpl. apply block_layer; [eexists; reflexivity|]. apply block_layer; [eexists; reflexivity|].
  apply opaque_stops. intros [es E]. discriminate.
Qed.

Print Assumptions C57_merge.
Print Assumptions C57_not_blocks.
Print Assumptions C57_override.
Print Assumptions C57_associative.
Print Assumptions C57_identity.
Print Assumptions C57_metadata.
Print Assumptions C57_merge_with.
Print Assumptions C57_duplicates_refuted.
Print Assumptions C58_unfold.
Print Assumptions C58_path.
Print Assumptions C58_path_cases.
Print Assumptions C58_meet.
Print Assumptions C58_tidy.
Print Assumptions C58_idempotent.
Print Assumptions C58_unit.
Print Assumptions C58_associative.
Print Assumptions C58_associative_refuted.
Print Assumptions C58_replaced_metadata_refuted.
Print Assumptions C59_reflexive.
Print Assumptions C59_symmetric.
Print Assumptions C59_transitive.
Print Assumptions C59_transitive_refuted.
Print Assumptions C59_lookup.
Print Assumptions C59_merge.
Print Assumptions C59_deep_merge.
Print Assumptions C59_metadata.
Print Assumptions C59_same_data.
Print Assumptions C59_order_refuted.
Print Assumptions C60_total.
Print Assumptions C60_layers.
Print Assumptions C60_layers_exist.
Print Assumptions C60_none.
Print Assumptions C60_opaque.
Print Assumptions C60_attach.
Print Assumptions C60_merge_meta.
Print Assumptions C60_deep_refuted.
Print Assumptions C60_merge_loses_refuted.
