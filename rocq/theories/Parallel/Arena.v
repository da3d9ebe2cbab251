(** * What the parent reads is what the workers wrote *)

From Coq Require Import String List NArith ZArith Bool Arith Lia.
From Verif Require Import Parallel.Model Parallel.Spec Parallel.Codec Parallel.Encode Parallel.Total.
Import ListNotations.
Open Scope nat_scope.

(** ** One write *)

Definition covers (w : write) (a : nat) : Prop := fst w <= a < fst w + length (snd w).

Lemma store_same : forall m1 m2 w a, m1 a = m2 a -> store m1 w a = store m2 w a.
Proof. intros m1 m2 w a H. unfold store. destruct (_ && _); [reflexivity|exact H]. Qed.

Lemma store_other : forall m w a, ~ covers w a -> store m w a = m a.
Proof.
  intros m w a H. unfold store, covers in *.
  destruct (Nat.leb_spec (fst w) a); [|reflexivity]. destruct (Nat.ltb_spec a (fst w + length (snd w))); [lia|reflexivity].
Qed.

Lemma after_other : forall ws m a, Forall (fun w => ~ covers w a) ws -> after_writes ws m a = m a.
Proof.
  induction ws as [|w ws IH]; intros m a H; [reflexivity|]. inversion H; subst.
  unfold after_writes in *. cbn [fold_left]. rewrite IH by assumption. now apply store_other.
Qed.

Lemma after_app : forall a b m, after_writes (a ++ b) m = after_writes b (after_writes a m).
Proof. intros. apply fold_left_app. Qed.

Lemma read_slice_ext : forall m1 m2 off len, (forall a, off <= a < off + len -> m1 a = m2 a) ->
  read_slice m1 off len = read_slice m2 off len.
Proof.
  intros m1 m2 off len H. unfold read_slice. apply map_ext_in. intros a I. apply in_seq in I. apply H. lia.
Qed.

Lemma read_store : forall m off bs, read_slice (store m (off, bs)) off (length bs) = bs.
Proof.
  intros m off bs. unfold read_slice.
  assert (G : forall k, k <= length bs ->
     map (store m (off, bs)) (seq (off + k) (length bs - k)) = skipn k bs).
  { intros k Hk. remember (length bs - k) as r eqn:R. revert k Hk R. induction r as [|r IH]; intros k Hk R.
    - rewrite skipn_all2 by lia. reflexivity.
    - cbn [seq map]. replace (S (off + k)) with (off + S k) by lia. rewrite IH by lia.
      unfold store at 1. cbn [fst snd].
      destruct (Nat.leb_spec off (off + k)); [|lia].
      destruct (Nat.ltb_spec (off + k) (off + length bs)); [|lia]. cbn [andb].
      replace (off + k - off) with k by lia.
      clear - R. revert bs R. induction k as [|k IHk]; intros [|b bs] R; cbn [length] in R; try lia.
      + reflexivity.
      + cbn [nth skipn]. apply IHk. lia. }
  specialize (G 0 ltac:(lia)). now rewrite Nat.add_0_r, Nat.sub_0_r in G.
Qed.

(** ** Any order of the writes of several workers *)

Lemma shuffle_local : forall ts all, shuffle ts all -> forall i a m1 m2,
  (forall j, j <> i -> Forall (fun w => ~ covers w a) (nth j ts [])) -> m1 a = m2 a ->
  after_writes all m1 a = after_writes (nth i ts []) m2 a.
Proof.
  induction 1 as [ts E|before x t after ws S' IH]; intros i a m1 m2 D M.
  - assert (N : nth i ts [] = []).
    { destruct (nth_in_or_default i ts []) as [I| ->]; [|reflexivity].
      rewrite Forall_forall in E. now apply E. }
    rewrite N. exact M.
  - assert (Other : forall j, j <> length before ->
       nth j (before ++ (x :: t) :: after) [] = nth j (before ++ t :: after) []).
    { intros j Hj. destruct (Nat.lt_ge_cases j (length before)).
      - now rewrite !app_nth1.
      - rewrite !app_nth2 by lia. destruct (j - length before) eqn:E; [lia|reflexivity]. }
    assert (Here : forall u, nth (length before) (before ++ u :: after) [] = u).
    { intros u. rewrite app_nth2 by lia. now rewrite Nat.sub_diag. }
    destruct (Nat.eq_dec i (length before)) as [->|Ne].
    + rewrite Here. unfold after_writes in *. cbn [fold_left].
      rewrite (IH (length before) a (store m1 x) (store m2 x)).
      * now rewrite Here.
      * intros j Hj. rewrite <- Other by exact Hj. now apply D.
      * now apply store_same.
    + rewrite Other by exact Ne. unfold after_writes in *. cbn [fold_left]. apply IH.
      * intros j Hj. destruct (Nat.eq_dec j (length before)) as [->|Nj].
        -- specialize (D _ Hj). rewrite Here in D |- *. now inversion D.
        -- rewrite <- Other by exact Nj. now apply D.
      * assert (Dx := D _ (fun e => Ne (eq_sym e))). rewrite Here in Dx. inversion Dx; subst.
        now rewrite store_other.
Qed.

Definition within (lo hi : nat) (w : write) : Prop := lo <= fst w /\ fst w + length (snd w) <= hi.

Lemma within_not : forall lo hi w a, within lo hi w -> a < lo \/ hi <= a -> ~ covers w a.
Proof. unfold within, covers. intros. lia. Qed.

(** ** Records one after another *)

Fixpoint layout (cursor : nat) (bss : list (list byte)) : list write :=
  match bss with
  | [] => []
  | bs :: bss' => (cursor, le_bytes 8 (N.of_nat (length bs))) :: (cursor + 8, bs)
                  :: layout (cursor + 8 + length bs) bss'
  end.

Fixpoint extent (bss : list (list byte)) : nat :=
  match bss with [] => 0 | bs :: bss' => 8 + length bs + extent bss' end.

Fixpoint placed (m : memory) (cursor : nat) (bss : list (list byte)) : Prop :=
  match bss with
  | [] => True
  | bs :: bss' => read_slice m cursor 8 = le_bytes 8 (N.of_nat (length bs)) /\
                  read_slice m (cursor + 8) (length bs) = bs /\
                  placed m (cursor + 8 + length bs) bss'
  end.

Lemma le_bytes_length : forall k n, length (le_bytes k n) = k.
Proof. induction k as [|k IH]; intros n; [reflexivity|]. cbn [le_bytes length]. now rewrite IH. Qed.

Lemma layout_within : forall bss cursor, Forall (within cursor (cursor + extent bss)) (layout cursor bss).
Proof.
  induction bss as [|bs bss IH]; intros cursor; cbn [layout extent]; [constructor|].
  constructor; [unfold within; cbn [fst snd]; rewrite le_bytes_length; lia|].
  constructor; [unfold within; cbn [fst snd]; lia|].
  eapply Forall_impl; [|apply IH]. unfold within. intros w H. lia.
Qed.

Lemma placed_ext : forall bss cursor m1 m2,
  (forall a, cursor <= a < cursor + extent bss -> m1 a = m2 a) -> placed m1 cursor bss -> placed m2 cursor bss.
Proof.
  induction bss as [|bs bss IH]; intros cursor m1 m2 H P; [exact Logic.I|].
  cbn [placed extent] in *. destruct P as (P1 & P2 & P3). split; [|split].
  - rewrite <- P1. symmetry. apply read_slice_ext. intros a Ha. apply H. lia.
  - rewrite <- P2 at 2. symmetry. apply read_slice_ext. intros a Ha. apply H. lia.
  - eapply IH; [|exact P3]. intros a Ha. apply H. lia.
Qed.

Lemma placed_layout : forall bss cursor m, placed (after_writes (layout cursor bss) m) cursor bss.
Proof.
  induction bss as [|bs bss IH]; intros cursor m; [exact Logic.I|].
  cbn [layout placed]. unfold after_writes at 1 2. cbn [fold_left].
  set (m2 := store (store m (cursor, le_bytes 8 (N.of_nat (length bs)))) (cursor + 8, bs)).
  assert (Low : forall a, a < cursor + 8 + length bs ->
             fold_left store (layout (cursor + 8 + length bs) bss) m2 a = m2 a).
  { intros a Ha. apply after_other. eapply Forall_impl; [|apply layout_within].
    intros w W. eapply within_not; [exact W|]. lia. }
  split; [|split].
  - transitivity (read_slice (store m (cursor, le_bytes 8 (N.of_nat (length bs)))) cursor 8).
    + apply read_slice_ext. intros a Ha. rewrite Low by lia. unfold m2. apply store_other.
      unfold covers. cbn [fst snd]. lia.
    + pose proof (read_store m cursor (le_bytes 8 (N.of_nat (length bs)))) as R.
      rewrite le_bytes_length in R. exact R.
  - transitivity (read_slice m2 (cursor + 8) (length bs)).
    + apply read_slice_ext. intros a Ha. apply Low. lia.
    + apply read_store.
  - apply IH.
Qed.

Fixpoint spots (cursor : nat) (bss : list (list byte)) : list (nat * nat) :=
  match bss with
  | [] => []
  | bs :: bss' => (cursor + 8, length bs) :: spots (cursor + 8 + length bs) bss'
  end.

Lemma word_le : forall m off n, (n < 2 ^ 64)%N -> read_slice m off 8 = le_bytes 8 n -> read_word m off = n.
Proof.
  intros m off n L H. unfold read_word. rewrite H. apply from_le_bytes. exact L.
Qed.

Lemma next_placed : forall bss m stop cursor, placed m cursor bss -> cursor + extent bss <= stop ->
  (N.of_nat stop < 2 ^ 64)%N -> next_records m stop (length bss) cursor = spots cursor bss.
Proof.
  induction bss as [|bs bss IH]; intros m stop cursor P Hs L; [reflexivity|].
  cbn [placed extent length next_records spots] in *. unfold len_prefix.
  destruct P as (P1 & P2 & P3).
  destruct (Nat.ltb_spec stop (cursor + 8)); [lia|].
  rewrite (word_le _ _ (N.of_nat (length bs))) by (exact P1 || lia).
  destruct (N.ltb_spec (N.of_nat (stop - (cursor + 8))) (N.of_nat (length bs))); [lia|].
  rewrite Nat2N.id. f_equal. apply IH; [exact P3|lia|exact L].
Qed.

Lemma spots_read : forall bss m cursor, placed m cursor bss ->
  map (fun p => read_slice m (fst p) (snd p)) (spots cursor bss) = bss.
Proof.
  induction bss as [|bs bss IH]; intros m cursor P; [reflexivity|].
  cbn [placed spots map fst snd] in *. destruct P as (P1 & P2 & P3). f_equal; [exact P2|now apply IH].
Qed.

Lemma extent_count : forall bss, 8 * length bss <= extent bss.
Proof. induction bss as [|bs bss IH]; cbn [length extent]; lia. Qed.

(** ** Reading a segment, whatever it holds *)

Lemma next_inside : forall m stop remaining cursor,
  Forall (fun p => cursor + 8 <= fst p /\ fst p + snd p <= stop) (next_records m stop remaining cursor).
Proof.
  induction remaining as [|r IH]; intros cursor; cbn [next_records]; [constructor|].
  unfold len_prefix. destruct (Nat.ltb_spec stop (cursor + 8)); [constructor|].
  destruct (N.ltb_spec (N.of_nat (stop - (cursor + 8))) (read_word m cursor)); [constructor|].
  constructor; [cbn [fst snd]; lia|]. eapply Forall_impl; [|apply IH]. cbv beta. intros p Hp. lia.
Qed.

Lemma next_count : forall m stop remaining cursor, length (next_records m stop remaining cursor) <= remaining.
Proof.
  induction remaining as [|r IH]; intros cursor; cbn [next_records]; [cbn; lia|].
  destruct (_ <? _); [cbn; lia|]. destruct (_ <? _)%N; [cbn; lia|]. cbn [length].
  specialize (IH (cursor + len_prefix + N.to_nat (read_word m cursor))). lia.
Qed.

(** Places in increasing order, none overlapping the next. *)
Fixpoint ordered (from : nat) (ps : list (nat * nat)) : Prop :=
  match ps with
  | [] => True
  | p :: ps' => from + 8 <= fst p /\ ordered (fst p + snd p) ps'
  end.

Lemma next_ordered : forall m stop remaining cursor, ordered cursor (next_records m stop remaining cursor).
Proof.
  induction remaining as [|r IH]; intros cursor; cbn [next_records]; [exact Logic.I|].
  destruct (_ <? _); [exact Logic.I|]. destruct (_ <? _)%N; [exact Logic.I|].
  cbn [ordered fst snd]. unfold len_prefix. split; [lia|apply IH].
Qed.

(** ** One worker *)

Section Workers.

Variable utf8 : list byte -> bool.
Variable to_rfc3339 : N -> list byte.
Variable from_rfc3339 : list byte -> option N.

Notation serialise := (serialise to_rfc3339).
Notation deserialise_value := (deserialise_value utf8 from_rfc3339).
Notation map_element := (map_element utf8 to_rfc3339 from_rfc3339).
Notation map_elements := (map_elements utf8 to_rfc3339 from_rfc3339).
Notation sequential_map := (sequential_map utf8 to_rfc3339 from_rfc3339).
Notation worker_loop := (worker_loop to_rfc3339).
Notation worker := (worker to_rfc3339).
Notation decode_all := (decode_all utf8 from_rfc3339).
Notation collect := (collect utf8 from_rfc3339).
Notation try_parallel := (try_parallel utf8 from_rfc3339).
Notation par_map := (par_map utf8 to_rfc3339 from_rfc3339).

Lemma loop_clean : forall vs base stop cursor count, cursor <= stop -> 
  snd (worker_loop base stop cursor count vs) = true ->
  exists bss, Forall2 (fun v bs => serialise v = Ok bs) vs bss /\
    fst (worker_loop base stop cursor count vs)
      = layout cursor bss ++ [(base, le_bytes 8 (N.of_nat (count + length bss)))] /\
    cursor + extent bss <= stop.
Proof.
  induction vs as [|v vs IH]; intros base stop cursor count Hc H; cbn [Model.worker_loop] in *.
  - exists []. cbn [length layout extent app fst]. rewrite Nat.add_0_r. repeat split; [constructor|lia].
  - destruct (serialise v) as [bs|e] eqn:E; [|discriminate H]. unfold push in *. unfold len_prefix in *.
    destruct (Nat.ltb_spec stop (cursor + (8 + length bs))); [discriminate H|].
    cbn [fst snd] in *. destruct (IH base stop (cursor + (8 + length bs)) (S count) ltac:(lia) H) as (bss & F & W & X). exists (bs :: bss).
    split; [now constructor|]. cbn [layout extent length]. split; [|lia].
    rewrite W. replace (cursor + (8 + length bs)) with (cursor + 8 + length bs) by lia.
    replace (S count + length bss) with (count + S (length bss)) by lia. reflexivity.
Qed.

Lemma loop_within : forall vs base stop cursor count, base + 8 <= cursor -> base + 8 <= stop ->
  Forall (within base stop) (fst (worker_loop base stop cursor count vs)).
Proof.
  induction vs as [|v vs IH]; intros base stop cursor count Hc Hs; cbn [Model.worker_loop].
  - constructor; [|constructor]. unfold within. cbn [fst snd]. rewrite le_bytes_length. lia.
  - destruct (serialise v) as [bs|e]; [|constructor]. unfold push, len_prefix.
    destruct (Nat.ltb_spec stop (cursor + (8 + length bs))); [constructor|]. cbn [fst].
    apply Forall_app. split.
    + constructor; [unfold within; cbn [fst snd]; rewrite le_bytes_length; lia|].
      constructor; [unfold within; cbn [fst snd]; lia|constructor].
    + apply IH; lia.
Qed.

(** What the parent finds in the segment of a worker that ended without an error. *)
Lemma loop_records : forall vs seg i m,
  16 <= seg -> (N.of_nat (segment_base seg i + seg) < 2 ^ 64)%N ->
  let base := segment_base seg i in
  let r := worker_loop base (base + seg) (base + header_len) 0 vs in
  snd r = true ->
  (forall a, base <= a < base + seg -> m a = after_writes (fst r) fresh a) ->
  exists bss, Forall2 (fun v bs => serialise v = Ok bs) vs bss /\ records m seg i = bss.
Proof.
  intros vs seg i m Hseg L base r Hr A.
  destruct (loop_clean vs base (base + seg) (base + header_len) 0 ltac:(unfold header_len; lia) Hr)
    as (bss & F & W & X). fold r in W. exists bss. split; [exact F|].
  unfold header_len in *. cbn [Nat.add] in W.
  pose proof (extent_count bss) as Cnt.
  set (hw := (base, le_bytes 8 (N.of_nat (length bss)))) in *.
  assert (P : placed m (base + 8) bss).
  { eapply placed_ext; [|apply (placed_layout bss (base + 8) fresh)]. intros a Ha.
    rewrite A by lia. rewrite W, after_app. unfold after_writes at 2. cbn [fold_left].
    symmetry. apply store_other. unfold covers, hw. cbn [fst snd]. rewrite le_bytes_length. lia. }
  assert (Hd : read_slice m base 8 = le_bytes 8 (N.of_nat (length bss))).
  { rewrite <- (read_store (after_writes (layout (base + 8) bss) fresh) base (le_bytes 8 (N.of_nat (length bss)))).
    rewrite le_bytes_length. apply read_slice_ext. intros a Ha. rewrite A by lia. rewrite W, after_app. reflexivity. }
  unfold records, record_places. fold base. unfold header_len, len_prefix.
  rewrite (word_le _ _ (N.of_nat (length bss))) by (exact Hd || lia).
  replace (base + seg - base - 8) with (seg - 8) by lia.
  assert (Mx : length bss <= (seg - 8) / 8).
  { apply Nat.div_le_lower_bound; lia. }
  rewrite N.min_l by lia. rewrite Nat2N.id.
  rewrite next_placed by (exact P || lia). now apply spots_read.
Qed.

(** ** Decoding what was encoded is the sequential map *)

Lemma decode_map : forall vs bss, Forall2 (fun v bs => serialise v = Ok bs) vs bss ->
  decode_all bss = map_elements vs.
Proof.
  induction 1 as [|v bs vs bss E F IH]; [reflexivity|].
  cbn [Model.decode_all Model.map_elements]. unfold Model.map_element. rewrite E. cbn [bind].
  destruct (deserialise_value bs) as [p|e]; [|reflexivity]. cbn [bind]. now rewrite IH.
Qed.

Lemma map_elements_app : forall a b, map_elements (a ++ b) =
  (xs <- map_elements a ;; ys <- map_elements b ;; Ok (xs ++ ys)).
Proof.
  induction a as [|v a IH]; intros b.
  - cbn [app Model.map_elements bind]. now destruct (map_elements b).
  - cbn [app Model.map_elements]. destruct (map_element v); [|reflexivity]. cbn [bind]. rewrite IH.
    destruct (map_elements a); [|reflexivity]. cbn [bind]. now destruct (map_elements b).
Qed.

Lemma map_elements_length : forall vs xs, map_elements vs = Ok xs -> length xs = length vs.
Proof.
  induction vs as [|v vs IH]; intros xs H; cbn [Model.map_elements] in H.
  - injection H as <-. reflexivity.
  - destruct (map_element v); [|discriminate H]. cbn [bind] in H.
    destruct (map_elements vs) as [ys|]; [|discriminate H]. cbn [bind] in H. injection H as <-.
    cbn [length]. now rewrite (IH ys).
Qed.

(** ** The chunks *)

Definition start (n w i : nat) : nat := fst (chunk_bounds n w i).

Lemma chunk_end : forall n w i, snd (chunk_bounds n w i) = start n w (S i).
Proof.
  intros n w i. unfold start, chunk_bounds. cbn [fst snd].
  destruct (Nat.ltb_spec i (n mod w)); [rewrite !Nat.min_l by lia|rewrite !Nat.min_r by lia]; lia.
Qed.

Lemma chunk_mono : forall n w i, start n w i <= start n w (S i).
Proof. intros. rewrite <- chunk_end. unfold start, chunk_bounds. cbn [fst snd]. lia. Qed.

Lemma start_0 : forall n w, start n w 0 = 0.
Proof. intros. reflexivity. Qed.

Lemma start_all : forall n w, 0 < w -> start n w w = n.
Proof.
  intros n w H. unfold start, chunk_bounds. cbn [fst].
  pose proof (Nat.mod_upper_bound n w ltac:(lia)). rewrite Nat.min_r by lia.
  pose proof (Nat.div_mod n w ltac:(lia)). lia.
Qed.

Lemma start_le : forall n w i, i <= w -> 0 < w -> start n w i <= n.
Proof.
  intros n w i H W.
  assert (G : forall a b, a <= b -> start n w a <= start n w b).
  { intros a b Hab. induction Hab; [lia|]. etransitivity; [eassumption|apply chunk_mono]. }
  pose proof (G i w H) as L. now rewrite (start_all n w W) in L.
Qed.

Definition chunk {A} (n w : nat) (l : list A) (i : nat) : list A :=
  firstn (snd (chunk_bounds n w i) - fst (chunk_bounds n w i)) (skipn (fst (chunk_bounds n w i)) l).

Lemma chunk_firstn : forall A n w (l : list A) i,
  firstn (start n w (S i)) l = firstn (start n w i) l ++ chunk n w l i.
Proof.
  intros A n w l i. unfold chunk. rewrite chunk_end. fold (start n w i).
  pose proof (chunk_mono n w i) as M. remember (start n w (S i)) as b. remember (start n w i) as a.
  clear Heqa Heqb. replace b with (a + (b - a)) at 1 by lia. generalize (b - a) as k. clear M b.
  intros k. revert l. induction a as [|a IH]; intros l; [reflexivity|].
  destruct l as [|x l]; cbn [Nat.add firstn skipn app]; [now rewrite firstn_nil|].
  now rewrite IH.
Qed.

Lemma chunks_concat : forall A n w (l : list A) k,
  concat (map (chunk n w l) (seq 0 k)) = firstn (start n w k) l.
Proof.
  intros A n w l. induction k as [|k IH]; [reflexivity|].
  rewrite seq_S, map_app, concat_app, IH. cbn [map concat Nat.add]. rewrite app_nil_r.
  symmetry. apply chunk_firstn.
Qed.

Lemma chunk_length : forall A n w (l : list A) i, length l = n -> i < w ->
  length (chunk n w l i) = snd (chunk_bounds n w i) - fst (chunk_bounds n w i).
Proof.
  intros A n w l i L H. unfold chunk. rewrite firstn_length, skipn_length, L.
  pose proof (start_le n w (S i) ltac:(lia) ltac:(lia)). rewrite chunk_end. fold (start n w i). lia.
Qed.

(** ** The parent *)

Lemma collect_map : forall m seg n w (seen : list value) todo, length seen = n ->
  Forall (fun i => i < w /\ exists bss, Forall2 (fun v bs => serialise v = Ok bs) (chunk n w seen i) bss /\
                                       records m seg i = bss) todo ->
  collect m seg n w todo =
  match map_elements (concat (map (chunk n w seen) todo)) with Ok xs => Some xs | Err _ => None end.
Proof.
  intros m seg n w seen todo Ln. induction todo as [|i todo IH]; intros F; [reflexivity|].
  inversion F as [|i' todo' (Hi & bss & Fb & Rb) Ft]; subst i' todo'.
  cbn [Model.collect map concat]. rewrite Rb, (decode_map _ _ Fb), map_elements_app, (IH Ft).
  destruct (map_elements (chunk n w seen i)) as [xs|] eqn:E; [|reflexivity]. cbn [bind].
  rewrite (map_elements_length _ _ E), chunk_length by assumption. rewrite Nat.eqb_refl.
  destruct (map_elements (concat _)); reflexivity.
Qed.

Lemma segment_16 : forall size w, 16 <= segment_size size w.
Proof. intros. unfold segment_size, header_len, len_prefix. lia. Qed.

(** A segment that ends after another begins there or later. *)
Lemma bases_apart : forall seg i j a, segment_base seg i <= a < segment_base seg i + seg -> j <> i ->
  a < segment_base seg j \/ segment_base seg j + seg <= a.
Proof. intros seg i j a H N. unfold segment_base in *. nia. Qed.

Lemma clean_segment : forall seg n w seen all i, 16 <= seg -> i < w ->
  shuffle (map fst (map (worker seg n w seen) (seq 0 w))) all ->
  forall a, segment_base seg i <= a < segment_base seg i + seg ->
  after_writes all fresh a = after_writes (fst (worker seg n w seen i)) fresh a.
Proof.
  intros seg n w seen all i Hseg Hi S' a Ha. rewrite map_map in S'.
  assert (N : forall j, j < w -> nth j (map (fun x => fst (worker seg n w seen x)) (seq 0 w)) []
                                = fst (worker seg n w seen j)).
  { intros j Hj. rewrite nth_indep with (d' := (fun x => fst (worker seg n w seen x)) 0) by (rewrite map_length, seq_length; exact Hj).
    rewrite map_nth with (f := fun x => fst (worker seg n w seen x)). now rewrite seq_nth. }
  rewrite <- N by exact Hi. eapply shuffle_local; [exact S'| |reflexivity].
  intros j Hj. destruct (Nat.lt_ge_cases j w) as [Lj|Gj].
  - rewrite N by exact Lj. unfold Model.worker.
    eapply Forall_impl; [|apply loop_within; unfold header_len; lia].
    intros x X. eapply within_not; [exact X|]. eapply bases_apart; eassumption.
  - rewrite nth_overflow; [constructor|]. rewrite map_length, seq_length. exact Gj.
Qed.

(** What was seen is what is there, if it could be written out. *)
Lemma seen_same : forall vs seen, as_seen vs seen ->
  Forall (fun s => exists bs, serialise s = Ok bs) seen -> seen = vs.
Proof.
  induction 1 as [|v s vs seen E F IH]; intros H; [reflexivity|]. inversion H as [|s' seen' [bs B] H']; subst.
  rewrite (IH H'). f_equal. destruct E as [E|[k ->]]; [exact E|]. discriminate B.
Qed.

Lemma Forall2_left : forall A B (R : A -> B -> Prop) l r, Forall2 R l r -> Forall (fun a => exists b, R a b) l.
Proof. induction 1; constructor; eauto. Qed.

Theorem collected : forall seg n w vs seen m,
  16 <= seg -> 0 < w -> (N.of_nat (w * seg) < 2 ^ 64)%N -> length vs = n -> as_seen vs seen ->
  ran (map (worker seg n w seen) (seq 0 w)) m true ->
  collect m seg n w (seq 0 w) = match map_elements vs with Ok xs => Some xs | Err _ => None end.
Proof.
  intros seg n w vs seen m Hseg Hw L Ln A R. inversion R as [ws all Cl Sh E1 E2|]; subst ws m. clear R.
  assert (Ls : length seen = n).
  { rewrite <- Ln. clear -A. induction A; [reflexivity|]. cbn [length]. now f_equal. }
  assert (F : Forall (fun i => i < w /\ exists bss,
        Forall2 (fun v bs => serialise v = Ok bs) (chunk n w seen i) bss /\
        records (after_writes all fresh) seg i = bss) (seq 0 w)).
  { apply Forall_forall. intros i I. apply in_seq in I. split; [lia|].
    apply (loop_records (chunk n w seen i) seg i (after_writes all fresh) Hseg).
    - unfold segment_base. nia.
    - rewrite Forall_forall in Cl. apply (Cl (worker seg n w seen i)). apply in_map, in_seq. lia.
    - intros a Ha. eapply (clean_segment seg n w seen all i); [exact Hseg|lia|exact Sh|exact Ha]. }
  rewrite (collect_map _ _ _ _ seen) by assumption.
  rewrite chunks_concat, start_all by exact Hw. rewrite <- Ls, firstn_all.
  assert (V : seen = vs).
  { apply seen_same; [exact A|]. apply Forall_forall. intros s I.
    assert (I' : In s (concat (map (chunk n w seen) (seq 0 w)))).
    { rewrite chunks_concat, start_all by exact Hw. rewrite <- Ls, firstn_all. exact I. }
    apply in_concat in I'. destruct I' as (l & Il & Is). apply in_map_iff in Il. destruct Il as (i & <- & Ii).
    rewrite Forall_forall in F. destruct (F i Ii) as (_ & bss & Fb & _).
    apply Forall2_left in Fb. rewrite Forall_forall in Fb. now apply Fb. }
  now rewrite V.
Qed.

(** ** The whole call *)

Theorem par_map_cases : forall s vs seen m joined,
  let n := length vs in
  let w := workers s n in
  (N.of_nat (w * segment s n) < 2 ^ 64)%N -> as_seen vs seen ->
  ran (map (worker (segment s n) n w seen) (seq 0 w)) m joined ->
  par_map s joined m vs = sequential_map vs \/
  (strict s = true /\ par_map s joined m vs = Err ParallelFault /\
   (joined = true -> exists e, map_elements vs = Err e)).
Proof.
  intros s vs seen m joined n w L A R. unfold Model.par_map. fold n. fold w.
  destruct ((w <? 2) || negb (fork_safe s)) eqn:D; [now left|].
  apply orb_false_iff in D. destruct D as [Dw _]. apply Nat.ltb_ge in Dw.
  unfold Model.try_parallel. fold w. destruct joined.
  - rewrite (collected (segment s n) n w vs seen m) by (try assumption; try apply segment_16; try lia; reflexivity).
    unfold Model.sequential_map. destruct (map_elements vs) as [xs|e].
    + left. reflexivity.
    + destruct (strict s); [right|left; reflexivity]. repeat split; [intros _; eauto].
  - destruct (strict s); [right|left; reflexivity]. repeat split. discriminate.
Qed.

End Workers.

(** ** Waiting for the workers *)

Definition failing (e : ending) : bool := match e with Clean => false | _ => true end.

Lemma join_some : forall es n i k, join_loop n i (Some k) es = (map Waited (seq i (length es)), Some k).
Proof.
  induction es as [|e es IH]; intros n i k; [reflexivity|]. cbn [join_loop snd]. rewrite IH. reflexivity.
Qed.

Lemma join_none : forall es n i, Forall (fun e => e = Clean) es ->
  join_loop n i None es = (map Waited (seq i (length es)), None).
Proof.
  induction es as [|e es IH]; intros n i F; [reflexivity|]. inversion F; subst.
  cbn [join_loop snd]. rewrite IH by assumption. reflexivity.
Qed.

Lemma join_first : forall before e after n i, Forall (fun x => x = Clean) before -> e <> Clean ->
  join_loop n i None (before ++ e :: after) =
  (map Waited (seq i (length before)) ++ Waited (i + length before)
     :: kill_and_reap (match e with Lost => i + length before | _ => S (i + length before) end) n
     ++ map Waited (seq (S (i + length before)) (length after)), Some (i + length before)).
Proof.
  induction before as [|b before IH]; intros e after n i F N.
  - cbn [app length seq map]. rewrite Nat.add_0_r. destruct e; [contradiction| |];
      cbn [join_loop snd fst]; rewrite join_some; reflexivity.
  - inversion F; subst. cbn [app length join_loop snd]. rewrite IH by assumption. cbn [fst snd app].
    replace (S i + length before) with (i + S (length before)) by lia. reflexivity.
Qed.

Lemma first_failing : forall es : list ending, Forall (fun e => e = Clean) es \/
  exists before e after, es = before ++ e :: after /\ Forall (fun x => x = Clean) before /\ e <> Clean.
Proof.
  induction es as [|e es IH]; [left; constructor|].
  destruct e; [destruct IH as [IH|(b & x & a & -> & F & N)]| |].
  - left. now constructor.
  - right. exists (Clean :: b), x, a. repeat split; [now constructor|exact N].
  - right. exists [], Failed, es. repeat split; [constructor|discriminate].
  - right. exists [], Lost, es. repeat split; [constructor|discriminate].
Qed.

Lemma in_reap : forall i a b, In (Killed i) (kill_and_reap a b) <-> a <= i < b.
Proof.
  intros i a b. unfold kill_and_reap. rewrite in_flat_map. split.
  - intros (x & I & H). apply in_seq in I. destruct H as [H|[H|[]]]; [|discriminate H]. injection H as ->. lia.
  - intros H. exists i. split; [apply in_seq; lia|now left].
Qed.
