(** * Properties of par-map *)

From Coq Require Import String List NArith ZArith Bool Arith Lia.
From Verif Require Import Parallel.Model Parallel.Spec Parallel.Codec Parallel.Encode Parallel.Total Parallel.Arena.
Import ListNotations.
Open Scope nat_scope.

Section Any.

(** What the standard library and chrono decide. *)
Variable utf8 : list byte -> bool.
Variable to_rfc3339 : N -> list byte.
Variable from_rfc3339 : list byte -> option N.

Notation fits := (fits utf8 to_rfc3339 from_rfc3339).
Notation serialise := (serialise to_rfc3339).
Notation deserialise_value := (deserialise_value utf8 from_rfc3339).
Notation map_element := (map_element utf8 to_rfc3339 from_rfc3339).
Notation map_elements := (map_elements utf8 to_rfc3339 from_rfc3339).
Notation sequential_map := (sequential_map utf8 to_rfc3339 from_rfc3339).
Notation worker := (worker to_rfc3339).
Notation collect := (collect utf8 from_rfc3339).
Notation par_map := (par_map utf8 to_rfc3339 from_rfc3339).

(** ** C81: what an element is after it has crossed *)

(** Partial: the full claim is that for every [v] and [d] with [means v d] the element crosses
    and still means [d]; it is refuted below.  It holds where metadata is in one layer on a
    value that is ready, blocks hold pairs, and sizes are below 2^32. *)
Theorem C81_same_partial v d : sends v d -> fits v ->
  means v d /\ exists v', map_element v = Ok v' /\ means v' d /\ sends v' d.
Proof.
  intros S' F. split; [now apply sends_means|].
  destruct (round_trip utf8 to_rfc3339 from_rfc3339 v d S' F []) as (bs & E & D & R).
  rewrite app_nil_r in D. exists (rebuild d). split; [|split; [now apply sends_means|exact R]].
  unfold Model.map_element. rewrite E. cbn [bind]. now rewrite D.
Qed.

(** The bytes of an element end where it ends: whatever follows is left alone. *)
Theorem C81_delimited v d rest : sends v d -> fits v ->
  exists bs v', serialise v = Ok bs /\ deserialise_value (bs ++ rest) = Ok (v', rest) /\ means v' d.
Proof.
  intros S' F. destruct (round_trip utf8 to_rfc3339 from_rfc3339 v d S' F rest) as (bs & E & D & R).
  exists bs, (rebuild d). split; [exact E|split; [exact D|now apply sends_means]].
Qed.

(** Any element of a moderate size that crosses at all is the same but for metadata. *)
Theorem C81_data v v' d : map_element v = Ok v' -> fits v -> means v d ->
  exists d', means v' d' /\ bare d' = bare d.
Proof. apply map_element_means. Qed.

(** Functions, IO actions and the like are refused wherever they are. *)
Theorem C81_refused v w : inside v w -> unsendable w -> exists e, map_element v = Err e /\ e <> OutOfFuel.
Proof.
  intros I U. pose proof (proj1 (refused to_rfc3339) v w I U (3 * size v)) as N.
  pose proof (serialise_ends to_rfc3339 v) as T. unfold Model.map_element, Model.serialise in *.
  destruct (force_and_serialise to_rfc3339 (3 * size v) v) as [bs|e]; [now elim (N bs)|].
  exists e. split; [reflexivity|]. intros ->. now apply T.
Qed.

(** A computation that fails fails in the same way. *)
Theorem C81_raised v k : force v = Err (Raised k) -> map_element v = Err (Raised k).
Proof.
  intros H. unfold Model.map_element, Model.serialise. pose proof (size_pos v).
  destruct (3 * size v) as [|n] eqn:E; [lia|]. rewrite fas_eq, H. reflexivity.
Qed.

(** Writing out ends for every value; reading ends for all bytes, right or not, and if it
    gives a value it has read at least one byte. *)
Theorem C81_ends :
  (forall v, serialise v <> Err OutOfFuel) /\
  (forall bytes, (exists v rest, deserialise_value bytes = Ok (v, rest) /\ length rest < length bytes) \/
                 (exists e, deserialise_value bytes = Err e /\ e <> OutOfFuel)).
Proof. split; [apply serialise_ends|apply deserialise_value_ends]. Qed.

(** What is lost: of two layers of metadata, the outer. *)
Theorem C81_layers_refuted : exists v d v', means v d /\ fits v /\ map_element v = Ok v' /\ ~ means v' d.
Proof.
  exists (Annotated (Native (Num (PosInt 1))) (Annotated (Native (Num (PosInt 2))) Unit)).
  exists (DWith (DScalar (Num (PosInt 1))) (DWith (DScalar (Num (PosInt 2))) DNull)). eexists.
  split; [|split; [|split]].
  - repeat constructor; discriminate.
  - split; [repeat constructor|reflexivity].
  - reflexivity.
  - intros M. inversion M; subst. match goal with X : means Unit _ |- _ => inversion X end.
Qed.

(** Metadata on a computation that forces another value. *)
Theorem C81_computed_refuted : exists v d v', means v d /\ fits v /\ map_element v = Ok v' /\ ~ means v' d.
Proof.
  exists (Annotated (Native (Num (PosInt 1))) (Ran Unit)).
  exists (DWith (DScalar (Num (PosInt 1))) DNull). eexists. split; [|split; [|split]].
  - repeat constructor; discriminate.
  - split; [repeat constructor|reflexivity].
  - reflexivity.
  - intros M. inversion M.
Qed.

(** Metadata of a value looked at on the way is put on the result. *)
Theorem C81_stray_refuted : exists v d v', means v d /\ fits v /\ map_element v = Ok v' /\ ~ means v' d.
Proof.
  exists (RanOver (Native (Num (PosInt 1))) Unit). exists DNull. eexists. split; [|split; [|split]].
  - repeat constructor.
  - split; [repeat constructor|reflexivity].
  - reflexivity.
  - intros M. inversion M.
Qed.

(** A block that was made from a list of keys and values is refused. *)
Theorem C81_block_refuted : utf8 [97%N] = true ->
  exists v d, means v d /\ fits v /\ exists e, map_element v = Err e.
Proof.
  intros U. exists (Block (ListCons (BlockKvList (ListCons (Native (Sym [97%N])) (ListCons Unit ListNil))) ListNil)).
  exists (DBlock [(Sym [97%N], DNull)]). split; [|split].
  - constructor. eapply entries_list; try (constructor; fail).
    + left. constructor.
    + constructor. constructor.
  - split; [|reflexivity]. repeat constructor. exact U.
  - eexists. reflexivity.
Qed.

(** A string of 4 GiB comes back empty. *)
Theorem C81_long_refuted : utf8 [] = true ->
  exists s, means (Native (Str s)) (DScalar (Str s)) /\ s <> [] /\
            map_element (Native (Str s)) = Ok (Boxed BoxString (Native (Str []))).
Proof.
  intros U. pose (k := N.to_nat (2 ^ 32)).
  assert (K : N.of_nat k = (2 ^ 32)%N) by apply N2Nat.id. clearbody k.
  exists (@repeat byte 97%N k). assert (L : N.of_nat (length (@repeat byte 97%N k)) = (2 ^ 32)%N).
  { now rewrite repeat_length. }
  remember (@repeat byte 97%N k) as s. clear Heqs k K. split; [constructor; discriminate|split].
  - intros ->. discriminate L.
  - unfold Model.map_element.
    assert (E : serialise (Native (Str s)) = Ok (tag_str :: le_bytes 4 0 ++ s)).
    { transitivity (Ok (tag_str :: write_len_bytes s)); [reflexivity|].
      unfold write_len_bytes. rewrite L. reflexivity. }
    rewrite E. cbn [bind]. unfold Model.deserialise_value.
    replace (2 * length (tag_str :: le_bytes 4 0 ++ s) + 1) with (S (2 * length (tag_str :: le_bytes 4 0 ++ s))) by lia.
    generalize (2 * length (tag_str :: le_bytes 4 0 ++ s)) as n. intros n.
    change (deserialise utf8 from_rfc3339 (S n) (tag_str :: le_bytes 4 0 ++ s)) with
      (p <- read_str utf8 (le_bytes 4 0 ++ s) ;; Ok (Boxed BoxString (Native (Str (fst p))), snd p)).
    unfold Model.read_str, read_len_bytes. rewrite read_u32_le by reflexivity. cbn [bind fst snd].
    unfold take. destruct (N.ltb_spec (N.of_nat (length s)) 0); [lia|].
    cbn [N.to_nat firstn skipn bind fst snd]. rewrite U. reflexivity.
Qed.

(** ** C82: how the work is shared out does not show *)

(** Whatever the settings, the number of workers, the order of their writes and their fate:
    outside strict mode the outcome, value or error, is that of the sequential map. *)
Theorem C82_same s vs seen m joined :
  let n := length vs in
  let w := workers s n in
  strict s = false -> (N.of_nat (w * segment s n) < 2 ^ 64)%N -> as_seen vs seen ->
  ran (map (worker (segment s n) n w seen) (seq 0 w)) m joined ->
  par_map s joined m vs = sequential_map vs.
Proof.
  intros n w Hs L A R. destruct (par_map_cases utf8 to_rfc3339 from_rfc3339 s vs seen m joined L A R) as [H|(H & _)];
    [exact H|congruence].
Qed.

(** In strict mode it may also be the error that says that the workers failed, but not if
    they all ended without an error and every element crosses. *)
Theorem C82_strict s vs seen m joined :
  let n := length vs in
  let w := workers s n in
  (N.of_nat (w * segment s n) < 2 ^ 64)%N -> as_seen vs seen ->
  ran (map (worker (segment s n) n w seen) (seq 0 w)) m joined ->
  (par_map s joined m vs = sequential_map vs \/ par_map s joined m vs = Err ParallelFault) /\
  (joined = true -> forall r, sequential_map vs = Ok r -> par_map s joined m vs = Ok r).
Proof.
  intros n w L A R. destruct (par_map_cases utf8 to_rfc3339 from_rfc3339 s vs seen m joined L A R)
    as [H|(_ & H & J)].
  - split; [now left|]. intros _ r E. now rewrite H.
  - split; [now right|]. intros Hj r E. destruct (J Hj) as [e E']. unfold Model.sequential_map in E.
    rewrite E' in E. discriminate E.
Qed.

(** The result is the list of the elements' values, in the order of the list. *)
Theorem C82_elements s vs ds seen m joined :
  let n := length vs in
  let w := workers s n in
  strict s = false -> (N.of_nat (w * segment s n) < 2 ^ 64)%N -> as_seen vs seen ->
  ran (map (worker (segment s n) n w seen) (seq 0 w)) m joined ->
  Forall2 sends vs ds -> Forall fits vs ->
  exists r, par_map s joined m vs = Ok r /\ means r (DList ds).
Proof.
  intros n w Hs L A R S' F. rewrite (C82_same s vs seen m joined Hs L A R). unfold Model.sequential_map.
  assert (G : exists xs, map_elements vs = Ok xs /\ Forall2 means xs ds).
  { clear - S' F. induction S' as [|v d vs ds Sv _ IH]; [exists []; split; [reflexivity|constructor]|].
    inversion F; subst. destruct IH as (xs & E & Fx); [assumption|].
    destruct (C81_same_partial v d Sv) as (_ & v' & E' & M & _); [assumption|].
    exists (v' :: xs). split; [|now constructor]. cbn [Model.map_elements]. rewrite E'. cbn [bind]. now rewrite E. }
  destruct G as (xs & -> & Fx). exists (build_list xs). split; [reflexivity|].
  assert (B : forall xs ds, Forall2 means xs ds -> elements (build_list xs) ds).
  { clear. induction 1; [repeat constructor|]. eapply elements_cons; [constructor|assumption|assumption]. }
  destruct Fx; [constructor|]. cbn [build_list fold_right]. constructor; [assumption|now apply B].
Qed.

(** Some order of the writes always exists, so workers without an error do have an outcome. *)
Theorem C82_outcome_exists s vs :
  let n := length vs in
  let w := workers s n in
  Forall (fun i => snd (worker (segment s n) n w vs i) = true) (seq 0 w) ->
  exists m, ran (map (worker (segment s n) n w vs) (seq 0 w)) m true.
Proof.
  intros n w H. eexists. apply ran_clean with
    (all := concat (map fst (map (worker (segment s n) n w vs) (seq 0 w)))).
  - apply Forall_map. exact H.
  - assert (G : forall ts pre, Forall (fun t : list write => t = []) pre -> shuffle (pre ++ ts) (concat ts)).
    { induction ts as [|t ts IH]; intros pre P.
      - rewrite app_nil_r. now apply shuffle_done.
      - cbn [concat]. induction t as [|x t IHt]; cbn [app].
        + replace (pre ++ [] :: ts) with ((pre ++ [[]]) ++ ts) by now rewrite <- app_assoc.
          apply IH. apply Forall_app. split; [exact P|now constructor].
        + apply shuffle_step, IHt. }
    apply (G _ []). constructor.
Qed.

(** ** C83: the shared memory and the workers' processes *)

(** Whatever the memory holds, the records the parent reads of a segment are inside it, after
    its header, in order and apart, and there are no more than it has room for. *)
Theorem C83_reads_inside m seg w : 16 <= seg ->
  let base := segment_base seg w in
  let places := record_places m seg w in
  Forall (fun p => base + 16 <= fst p /\ fst p + snd p <= base + seg) places /\
  (forall i j p q, i < j -> nth_error places i = Some p -> nth_error places j = Some q ->
     fst p + snd p + 8 <= fst q) /\
  8 * length places + 8 <= seg.
Proof.
  intros Hs base places. unfold places, record_places. fold base. unfold header_len, len_prefix.
  set (r := N.to_nat _). split; [|split].
  - eapply Forall_impl; [|apply next_inside]. cbv beta. intros p H. lia.
  - pose proof (next_ordered m (base + seg) r (base + 8)) as O. revert O.
    generalize (next_records m (base + seg) r (base + 8)) as ps. generalize (base + 8) as from.
    assert (B : forall ps from j q, ordered from ps -> nth_error ps j = Some q -> from + 8 <= fst q).
    { induction ps as [|p ps IH]; intros from [|j] q O H; try discriminate H; cbn [ordered nth_error] in *.
      - injection H as <-. tauto.
      - destruct O as [O1 O2]. specialize (IH _ _ _ O2 H). lia. }
    intros from ps. revert from. induction ps as [|p ps IH]; intros from O i j x y Hij Hi Hj;
      [destruct i; discriminate Hi|]. cbn [ordered] in O. destruct O as [O1 O2].
    destruct j as [|j]; [lia|]. cbn [nth_error] in Hj. destruct i as [|i]; cbn [nth_error] in Hi.
    + injection Hi as <-. eapply B; eassumption.
    + eapply (IH _ O2 i j); [lia|exact Hi|exact Hj].
  - pose proof (next_count m (base + seg) r (base + 8)) as C.
    assert (R : r <= (seg - 8) / 8).
    { unfold r. replace (base + seg - base - 8) with (seg - 8) by lia.
      pose proof (N.le_min_r (read_word m base) (N.of_nat ((seg - 8) / 8))). lia. }
    pose proof (Nat.mul_div_le (seg - 8) 8 ltac:(lia)). lia.
Qed.

(** A worker writes to its own segment only, and segments do not overlap. *)
Theorem C83_writes_inside s n seen i :
  let seg := segment s n in
  Forall (fun wr => segment_base seg i <= fst wr /\ fst wr + length (snd wr) <= segment_base seg i + seg)
    (fst (worker seg n (workers s n) seen i)) /\
  forall j, i < j -> segment_base seg i + seg <= segment_base seg j.
Proof.
  intros seg. split.
  - pose proof (segment_16 (arena_size (per_elem s) (arena_max s) n (workers s n)) (workers s n)) as S16.
    fold (segment s n) in S16. fold seg in S16. apply loop_within; unfold header_len; lia.
  - intros j H. unfold segment_base. nia.
Qed.

(** Every element is some worker's, and only one's; no worker has two more than another. *)
Theorem C83_chunks n w : 0 < w ->
  (forall k, k < n -> exists i, i < w /\ fst (chunk_bounds n w i) <= k < snd (chunk_bounds n w i) /\
     forall j, fst (chunk_bounds n w j) <= k < snd (chunk_bounds n w j) -> j = i) /\
  (forall i, i < w -> snd (chunk_bounds n w i) <= n) /\
  (forall i j, snd (chunk_bounds n w i) - fst (chunk_bounds n w i)
               <= S (snd (chunk_bounds n w j) - fst (chunk_bounds n w j))).
Proof.
  intros Hw.
  assert (G : forall a b, a <= b -> start n w a <= start n w b).
  { intros a b Hab. induction Hab; [lia|]. etransitivity; [eassumption|apply chunk_mono]. }
  split; [|split].
  - intros k Hk.
    assert (E : forall c, k < start n w c -> exists i, i < c /\ start n w i <= k < start n w (S i)).
    { induction c as [|c IH]; intros H; [rewrite start_0 in H; lia|].
      destruct (Nat.lt_ge_cases k (start n w c)) as [L|Ge].
      - destruct (IH L) as (i & Hi & Hb). exists i. split; [lia|exact Hb].
      - exists c. split; [lia|split; assumption]. }
    destruct (E w) as (i & Hi & Hb); [now rewrite start_all|]. exists i. split; [exact Hi|].
    rewrite chunk_end. split; [exact Hb|]. intros j. rewrite chunk_end. intros Hj. change (start n w j <= k < start n w (S j)) in Hj.
    destruct (Nat.lt_trichotomy i j) as [L|[E'|L]]; [|now symmetry|].
    + pose proof (G (S i) j L). lia.
    + pose proof (G (S j) i L). lia.
  - intros i Hi. rewrite chunk_end. now apply start_le.
  - intros i j. unfold chunk_bounds. cbn [fst snd].
    destruct (i <? n mod w), (j <? n mod w); lia.
Qed.

(** Results that are used are as many as there are elements, whatever the memory holds. *)
Theorem C83_counted m seg n w xs : 0 < w -> collect m seg n w (seq 0 w) = Some xs -> length xs = n.
Proof.
  intros Hw H.
  assert (G : forall k from xs, collect m seg n w (seq from k) = Some xs ->
              length xs + start n w from = start n w (from + k)).
  { clear. induction k as [|k IH]; intros from xs H; cbn [seq Model.collect] in H.
    - injection H as <-. now rewrite Nat.add_0_r.
    - destruct (Model.decode_all utf8 from_rfc3339 (records m seg from)) as [ys|]; [|discriminate H].
      destruct (Nat.eqb_spec (length ys) (snd (chunk_bounds n w from) - fst (chunk_bounds n w from))) as [L|]; [|discriminate H].
      destruct (collect m seg n w (seq (S from) k)) as [zs|] eqn:E; [|discriminate H]. injection H as <-.
      apply IH in E. rewrite app_length, L. rewrite chunk_end. fold (start n w from).
      pose proof (chunk_mono n w from). replace (from + S k) with (S from + k) by lia. lia. }
  specialize (G w 0 xs H). rewrite start_0, Nat.add_0_r in G. cbn [Nat.add] in G. rewrite start_all in G by exact Hw. exact G.
Qed.

(** The workers: at least one, no more than elements, one for a short list. *)
Theorem C83_workers s n :
  1 <= workers s n /\ workers s n <= Nat.max n 1 /\ workers s n <= Nat.max (requested s) 1 /\
  (n < threshold s -> workers s n = 1).
Proof.
  unfold workers, decide_workers. destruct (Nat.ltb_spec n (threshold s)); destruct (Nat.ltb_spec n 2); cbn [orb]; lia.
Qed.

End Any.

(** Waiting succeeds exactly if every worker ended without an error, and otherwise reports
    the first that did not. *)
Theorem C83_join endings :
  (snd (join_all endings) = None <-> Forall (fun e => e = Clean) endings) /\
  (forall k, snd (join_all endings) = Some k <->
     (exists e, nth_error endings k = Some e /\ e <> Clean) /\
     forall j, j < k -> nth_error endings j = Some Clean).
Proof.
  unfold join_all. destruct (first_failing endings) as [F|(b & e & a & -> & F & N)].
  - rewrite join_none by exact F. split; [split; auto|]. intros k. split; [discriminate|].
    intros ((e & E & N) & _). apply nth_error_In in E. rewrite Forall_forall in F. now elim N; apply F.
  - rewrite join_first by assumption. cbn [snd Nat.add].
    assert (At : nth_error (b ++ e :: a) (length b) = Some e).
    { rewrite nth_error_app2 by lia. now rewrite Nat.sub_diag. }
    assert (Be : forall j, j < length b -> nth_error (b ++ e :: a) j = Some Clean).
    { intros j Hj. rewrite nth_error_app1 by exact Hj.
      destruct (nth_error b j) as [x|] eqn:E; [|apply nth_error_None in E; lia].
      apply nth_error_In in E. rewrite Forall_forall in F. now rewrite (F x E). }
    split.
    + split; [discriminate|]. intros Fa. apply Forall_app in Fa. destruct Fa as [_ Fa]. inversion Fa; contradiction.
    + intros k. split.
      * intros [= <-]. split; [exists e; split; [exact At|exact N]|exact Be].
      * intros ((x & E & Nx) & Bk). f_equal. destruct (Nat.lt_trichotomy k (length b)) as [L|[->|L]]; [|reflexivity|].
        -- rewrite (Be k L) in E. congruence.
        -- rewrite (Bk _ L) in At. congruence.
Qed.

(** Every worker is waited for; none is killed unless one failed before it or, the wait having
    gone wrong, it is itself the one; then all later ones are. *)
Theorem C83_reaped endings i : i < length endings ->
  In (Waited i) (fst (join_all endings)) /\
  (In (Killed i) (fst (join_all endings)) <->
   exists k, snd (join_all endings) = Some k /\ (k < i \/ k = i /\ nth_error endings k = Some Lost)).
Proof.
  intros Hi. unfold join_all. destruct (first_failing endings) as [F|(b & e & a & -> & F & N)].
  - rewrite join_none by exact F. cbn [fst snd]. split; [apply in_map, in_seq; lia|].
    split; [|intros (k & E & _); discriminate E].
    intros H. apply in_map_iff in H. destruct H as (x & E & _). discriminate E.
  - rewrite join_first by assumption. cbn [fst snd Nat.add]. rewrite app_length in *. cbn [length] in *.
    assert (At : nth_error (b ++ e :: a) (length b) = Some e).
    { rewrite nth_error_app2 by lia. now rewrite Nat.sub_diag. }
    split.
    + rewrite in_app_iff. cbn [In]. rewrite in_app_iff.
      destruct (Nat.lt_trichotomy i (length b)) as [L|[->|L]].
      * left. apply in_map, in_seq. lia.
      * right. now left.
      * right. right. right. apply in_map, in_seq. lia.
    + rewrite in_app_iff. cbn [In]. rewrite in_app_iff, in_reap. split.
      * intros [H|[H|[H|H]]]; [|discriminate H| |];
          try (apply in_map_iff in H; destruct H as (x & E & _); discriminate E).
        exists (length b). split; [reflexivity|]. destruct e; [contradiction|left; lia|].
        destruct (Nat.eq_dec (length b) i); [right; split; [assumption|exact At]|left; lia].
      * intros (k & [= <-] & C). right. right. left. destruct C as [L|[El E]].
        -- destruct e; lia.
        -- rewrite At in E. injection E as ->. lia.
Qed.

(** A killed worker is waited for after it was killed. *)
Theorem C83_killed_waited endings i before after :
  fst (join_all endings) = before ++ Killed i :: after -> In (Waited i) after.
Proof.
  unfold join_all. destruct (first_failing endings) as [F|(b & e & a & -> & F & N)].
  - rewrite join_none by exact F. cbn [fst]. intros H. assert (I : In (Killed i) (map Waited (seq 0 (length endings)))).
    { rewrite H. apply in_or_app. right. now left. }
    apply in_map_iff in I. destruct I as (x & E & _). discriminate E.
  - rewrite join_first by assumption. cbn [fst].
    assert (Skip : forall l r before, (forall x, In x l -> exists k, x = Waited k) ->
               (forall before', r = before' ++ Killed i :: after -> In (Waited i) after) ->
               l ++ r = before ++ Killed i :: after -> In (Waited i) after).
    { clear. induction l as [|x l IH]; intros r before A B H; [now apply (B before)|].
      destruct before as [|y before]; cbn [app] in H; injection H as Hx Ht.
      - destruct (A x (or_introl eq_refl)) as [k ->]. discriminate Hx.
      - eapply (IH r before); [|exact B|exact Ht]. intros z Z. apply A. now right. }
    assert (W : forall s n x, In x (map Waited (seq s n)) -> exists k, x = Waited k).
    { intros s n x I. apply in_map_iff in I. destruct I as (k & <- & _). now exists k. }
    assert (Reap : forall tail, (forall x, In x tail -> exists k, x = Waited k) -> forall l before',
               flat_map (fun k => [Killed k; Waited k]) l ++ tail = before' ++ Killed i :: after -> In (Waited i) after).
    { clear. intros tail T. induction l as [|x l IH]; intros before' H; cbn [flat_map app] in H.
      - exfalso. assert (I : In (Killed i) tail) by (rewrite H; apply in_or_app; right; now left).
        destruct (T _ I) as [k E]. discriminate E.
      - destruct before' as [|y before']; cbn [app] in H; injection H as Hx Ht.
        + subst. now left.
        + destruct before' as [|z before']; cbn [app] in Ht; injection Ht as Hz Ht; [discriminate Hz|].
          eapply IH. exact Ht. }
    apply Skip; [apply W|]. intros before' H.
    destruct before' as [|y before']; cbn [app] in H; [discriminate H|]. injection H as _ H.
    eapply Reap; [apply W|exact H].
Qed.

(** ** Examples *)

Definition ascii (bs : list byte) : bool := forallb (fun b => (b <? 128)%N) bs.
Definition no_date (d : N) : list byte := [].
Definition no_parse (bs : list byte) : option N := None.

(** [{a: [1, true]} // {a: "b"}], an element with metadata, lists and blocks, crosses. *)
Definition sample : value :=
  Annotated (Block (ListCons (BlockPair (Native (Sym [97%N])) (Boxed BoxString (Native (Str [98%N])))) ListNil))
    (Block (ListCons (BlockPair (Native (Sym [97%N]))
       (Ran (ListCons (Boxed BoxNumber (Ran (Native (Num (NegInt (-5)))))) (ListCons BoolTrue ListNil)))) ListNil)).

Example C81_example : exists d, sends sample d /\ fits ascii no_date no_parse sample /\
  exists v', map_element ascii no_date no_parse sample = Ok v' /\ means v' d.
Proof.
  assert (S' : sends sample (DWith (DBlock [(Sym [97%N], DScalar (Str [98%N]))])
                            (DBlock [(Sym [97%N], DList [DScalar (Num (NegInt (-5))); DBool true])]))).
  { unfold sample. constructor; [| constructor |].
    - constructor. eapply sends_entries_pair; [constructor|constructor|exact Logic.I| |constructor; constructor].
      econstructor; [constructor|discriminate].
    - constructor. eapply sends_entries_pair; [constructor|constructor|exact Logic.I| |constructor; constructor].
      constructor. constructor; [econstructor; [repeat constructor|discriminate]|].
      eapply sends_elements_cons; [constructor|constructor|constructor; constructor]. }
  assert (F : fits ascii no_date no_parse sample).
  { split; [|reflexivity]. repeat constructor; cbn; try discriminate; try reflexivity; try lia. }
  eexists. split; [exact S'|]. split; [exact F|].
  destruct (C81_same_partial ascii no_date no_parse sample _ S' F) as (_ & v' & E & M & _). eauto.
Qed.

Example C81_refused_example : exists w, inside (ListCons Unit (Ran (ListCons (Ran Function) ListNil))) w /\ unsendable w.
Proof.
  exists Function. split; [|exact Logic.I]. eapply inside_list; [constructor|].
  eapply member_tail; [repeat constructor|]. apply member_head. apply inside_here. repeat constructor.
Qed.

(** Three elements, two workers, the writes of one between those of the other. *)
Definition three : list value := [Ran BoolTrue; ListCons Unit ListNil; Boxed BoxNumber (Native (Num (PosInt 7)))].
Definition two_workers : settings :=
  {| strict := false; fork_safe := true; threshold := 2; requested := 2; per_elem := 20; arena_max := 64 |}.

Example C82_example :
  workers two_workers 3 = 2 /\ segment two_workers 3 = 32 /\
  as_seen three three /\
  (exists m, ran (map (worker no_date 32 3 2 three) (seq 0 2)) m true /\
     par_map ascii no_date no_parse two_workers true m three
       = Ok (build_list [BoolTrue; ListCons Unit ListNil; Boxed BoxNumber (Native (Num (PosInt 7)))])).
Proof.
  assert (A : as_seen three three) by (repeat constructor).
  split; [reflexivity|split; [reflexivity|split; [exact A|]]].
  destruct (C82_outcome_exists no_date two_workers three) as [m R]; [repeat constructor|].
  exists m. split; [exact R|].
  refine (C82_same ascii no_date no_parse two_workers three three m true eq_refl eq_refl A R).
Qed.

(** The same when a worker could not read one of the elements. *)
Example C82_fault_example : forall m,
  par_map ascii no_date no_parse two_workers false m three = sequential_map ascii no_date no_parse three /\
  as_seen three [Ran BoolTrue; Raises 3; Boxed BoxNumber (Native (Num (PosInt 7)))] /\
  snd (worker no_date 32 3 2 [Ran BoolTrue; Raises 3; Boxed BoxNumber (Native (Num (PosInt 7)))] 0) = false.
Proof.
  intros m. assert (A : as_seen three [Ran BoolTrue; Raises 3; Boxed BoxNumber (Native (Num (PosInt 7)))]).
  { constructor; [now left|]. constructor; [right; now exists 3|]. constructor; [now left|constructor]. }
  split; [|split; [exact A|reflexivity]].
  refine (C82_same ascii no_date no_parse two_workers three _ m false eq_refl eq_refl A (ran_fault _ _)).
Qed.

(** A header that claims more records than there are, with lengths beyond the segment. *)
Example C83_example :
  record_places (fun a => if a =? 0 then 255%N else if a =? 8 then 3%N else if a <? 16 then 0%N else 9%N) 40 0 = [(16, 3)] /\
  join_all [Clean; Failed; Clean] = ([Waited 0; Waited 1; Killed 2; Waited 2; Waited 2], Some 1).
Proof. split; reflexivity. Qed.

Print Assumptions C81_same_partial.
Print Assumptions C81_delimited.
Print Assumptions C81_data.
Print Assumptions C81_refused.
Print Assumptions C81_raised.
Print Assumptions C81_ends.
Print Assumptions C81_layers_refuted.
Print Assumptions C81_computed_refuted.
Print Assumptions C81_stray_refuted.
Print Assumptions C81_block_refuted.
Print Assumptions C81_long_refuted.
Print Assumptions C82_same.
Print Assumptions C82_strict.
Print Assumptions C82_elements.
Print Assumptions C82_outcome_exists.
Print Assumptions C83_reads_inside.
Print Assumptions C83_writes_inside.
Print Assumptions C83_chunks.
Print Assumptions C83_counted.
Print Assumptions C83_workers.
Print Assumptions C83_join.
Print Assumptions C83_reaped.
Print Assumptions C83_killed_waited.
Print Assumptions C81_example.
Print Assumptions C81_refused_example.
Print Assumptions C82_example.
Print Assumptions C82_fault_example.
Print Assumptions C83_example.
