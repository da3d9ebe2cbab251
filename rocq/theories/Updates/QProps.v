(** C68: searching nested values; C69: rewriting and structural matching. *)
From Coq Require Import ZArith List Bool Lia.
From Verif Require Import Numbers.Model Blocks.Model Blocks.Spec Blocks.Proofs Blocks.Props Updates.Model Updates.Spec Updates.Proofs Updates.Props
  Updates.Query Updates.QSpec Updates.QProofs.
From Verif Require Prelude.Model Prelude.Proofs.
Import ListNotations.

(** * C68 *)

(** [deep-find-paths] and [deep-find] give exactly the occurrences of the key
    in blocks, however deep under blocks and lists. *)
Theorem C68_find k v p x : In (p, x) (deep_find_paths k [] v) <->
  exists q b es, p = q ++ [k] /\ leads v q b /\ is_block b es /\ first_given es k x.
Proof.
  split.
  - intro H. apply found_sound in H. destruct H as (q & b & es & -> & L & B & F). exists q, b, es. repeat split; auto. now apply find_first_given.
  - intros (q & b & es & -> & L & B & F). apply find_first_given in F. exact (found_complete k v q b L es x [] B F).
Qed.
Theorem C68_find_values k v x : In x (deep_find k v) <-> exists q b es, leads v q b /\ is_block b es /\ first_given es k x.
Proof.
  unfold deep_find. rewrite Prelude.Proofs.map_std, in_map_iff. split.
  - intros ([p y] & <- & H). apply C68_find in H. destruct H as (q & b & es & _ & H). exists q, b, es. exact H.
  - intros (q & b & es & H). exists (q ++ [k], x). split; [reflexivity|]. apply C68_find. exists q, b, es. auto.
Qed.
(** Without lists, the paths given are those that end with the key and lead to
    something, each given once. *)
Lemma fits_key k p : fits [Deep; Named k] p <-> exists q, p = q ++ [k].
Proof.
  split.
  - intro F. inversion F as [| | |s q r F']; subst. inversion F' as [|k' s r' F''| |]; subst. inversion F''; subst. eauto.
  - intros (q & ->). constructor. repeat constructor.
Qed.
Lemma not_deep s k : ~ ends_deep [s; Named k].
Proof. intros ([|a [|b s']] & E); [discriminate..|]. cbn in E. destruct s'; discriminate. Qed.
Theorem C68_find_is_query k v : listless v -> deep_find_paths k [] v = query_fold [Named k] v.
Proof.
  intro L. unfold query_fold, norm. cbn [Prelude.Model.foldl apply_segment]. rewrite !Prelude.Proofs.mapcat_std. cbn [flat_map fst snd]. rewrite app_nil_r.
  now apply find_query.
Qed.
Theorem C68_find_paths k v p x : tidy v -> listless v ->
  (In (p, x) (deep_find_paths k [] v) <-> (exists q, p = q ++ [k]) /\ at_path p v = Some x).
Proof.
  intros T L. rewrite C68_find_is_query, in_query by exact L. change (norm [Named k]) with [Deep; Named k]. rewrite reads_path, fits_key by exact T.
  pose proof (not_deep Deep k). tauto.
Qed.
Theorem C68_find_once k v : tidy v -> listless v -> NoDup (map fst (deep_find_paths k [] v)).
Proof.
  intros T L. rewrite C68_find_is_query by exact L. unfold query_fold. change (norm [Named k]) with ([Deep] ++ [Named k]).
  cbn [app Prelude.Model.foldl]. apply (steps_nodup [Named k]); [intros [|[]]; discriminate| |].
  - cbn [apply_segment]. rewrite Prelude.Proofs.mapcat_std. cbn [flat_map fst snd]. rewrite app_nil_r. now apply desc_nodup.
  - intros p w H. apply in_apply in H. destruct H as (p0 & u & q & [E|[]] & -> & R). injection E as <- <-. apply reads_path in R; [|exact T].
    eapply tidy_path; [exact T|apply R].
Qed.
(** Through a list, the path given leads nowhere. *)
Theorem C68_list_paths_refuted : exists k v p x, tidy v /\ In (p, x) (deep_find_paths k [] v) /\ lookup_path p v = None.
Proof.
  exists 2%N, (Blk [(1%N, Lst [Blk [(2%N, Atom Unit, None)]], None)]), [1%N; 2%N], (Atom Unit). split; [|split].
  - constructor; [repeat constructor; intros []|]. intros e [<-|[]]. constructor.
  - cbn. auto.
  - reflexivity.
Qed.

(** [deep-query] gives exactly what lies on the paths that, from some point on,
    fit the pattern; at the end of a pattern, [**] stands for blocks only. *)
Theorem C68_query segs b p w : segs <> [] -> tidy b ->
  (In (p, w) (query_fold segs b) <->
   (exists above q, p = above ++ q /\ fits segs q) /\ at_path p b = Some w /\ (ends_deep segs -> a_block w)).
Proof.
  intros N T. rewrite in_query, reads_path by exact T.
  assert (E : ends_deep (norm segs) <-> ends_deep segs).
  { destruct segs as [|[| |k] segs]; [congruence|reflexivity|apply ends_cons|apply ends_cons]. }
  assert (F : fits (norm segs) p <-> exists above q, p = above ++ q /\ fits segs q).
  { destruct segs as [|s segs]; [congruence|]. assert (G : fits (Deep :: s :: segs) p <-> exists above q, p = above ++ q /\ fits (s :: segs) q).
    { split; [intro F; inversion F; subst; eauto|]. intros (a & q & -> & F). now constructor. }
    destruct s as [| |k]; [|exact G..]. cbn [norm]. split.
    - intro F. exists [], p. auto.
    - intros (a & q & -> & F). inversion F as [| | |s' q' r F']; subst. rewrite app_assoc. now constructor. }
  rewrite E, F. tauto.
Qed.
Theorem C68_query_values segs b w : segs <> [] -> tidy b ->
  (In w (query segs b) <-> exists p, (exists above q, p = above ++ q /\ fits segs q) /\ at_path p b = Some w /\ (ends_deep segs -> a_block w)).
Proof.
  intros N T. unfold query. rewrite Prelude.Proofs.map_std, in_map_iff. split.
  - intros ([p y] & <- & H). exists p. now apply C68_query.
  - intros (p & H). exists (p, w). split; [reflexivity|]. now apply C68_query.
Qed.
Theorem C68_query_paths segs b p : segs <> [] -> tidy b ->
  (In p (query_paths segs b) <-> exists w, (exists above q, p = above ++ q /\ fits segs q) /\ at_path p b = Some w /\ (ends_deep segs -> a_block w)).
Proof.
  intros N T. unfold query_paths. rewrite Prelude.Proofs.map_std, in_map_iff. split.
  - intros ([p' y] & <- & H). exists y. now apply C68_query.
  - intros (w & H). exists (p, w). split; [reflexivity|]. now apply C68_query.
Qed.
(** Each once, when [**] is used at the beginning at most. *)
Theorem C68_query_once segs b : tidy b -> ~ In Deep (tl (norm segs)) -> NoDup (query_paths segs b).
Proof.
  intros T N. unfold query_paths, query_fold. rewrite Prelude.Proofs.map_std.
  assert (exists ss, norm segs = Deep :: ss) as (ss & E) by (destruct segs as [|[| |k] segs]; cbn; eauto).
  rewrite E in N |- *. cbn [Prelude.Model.foldl tl] in *. apply steps_nodup; [exact N| |].
  - cbn [apply_segment]. rewrite Prelude.Proofs.mapcat_std. cbn [flat_map fst snd]. rewrite app_nil_r. now apply desc_nodup.
  - intros p w H. apply in_apply in H. destruct H as (p0 & u & q & [X|[]] & -> & R). injection X as <- <-. apply reads_path in R; [|exact T].
    eapply tidy_path; [exact T|apply R].
Qed.
Definition twice : value := Blk [(1%N, Blk [(1%N, Blk [(2%N, Atom Unit, None)], None)], None)].
Example twice_tidy : tidy twice.
Proof.
  unfold twice. constructor; [repeat constructor; intros []|]. intros e [<-|[]].
  constructor; [repeat constructor; intros []|]. intros e [<-|[]]. constructor; [repeat constructor; intros []|]. intros e [<-|[]]. constructor.
Qed.
(** Otherwise, the same place may be given twice. *)
Theorem C68_query_once_refuted : exists segs b, tidy b /\ ~ NoDup (query_paths segs b).
Proof.
  exists [Named 1%N; Deep; Named 2%N], twice. split; [apply twice_tidy|].
  replace (query_paths [Named 1%N; Deep; Named 2%N] twice) with [[1; 1; 2]; [1; 1; 2]]%N by reflexivity.
  intro N. inversion N as [|? ? H]. apply H. now left.
Qed.
(** [**] at the end leaves out what is not a block. *)
Theorem C68_query_leaves_refuted : exists b p w, tidy b /\ (exists q, p = 1%N :: q) /\ at_path p b = Some w /\ ~ In (p, w) (query_fold [Named 1%N; Deep] b).
Proof.
  exists twice, [1; 1; 2]%N, (Atom Unit). repeat split; [apply twice_tidy|eauto|]. rewrite C68_query; [|discriminate|apply twice_tidy].
  intros (_ & _ & H). destruct H as (es & [=]). exists [Named 1%N]. reflexivity.
Qed.

Theorem C68_query_first segs d b :
  (query segs b = [] /\ query_first segs d b = d) \/ (exists rest, query segs b = query_first segs d b :: rest).
Proof. unfold query_first. destruct (query segs b) as [|w rest]; [now left|right; eauto]. Qed.

Example C68_ex_query : query_paths [Named 1%N; Any] twice = [[1; 1]; [1; 1; 2]]%N.
Proof. reflexivity. Qed.
Example C68_ex_find : deep_find_paths 2%N [] twice = [([1; 1; 2]%N, Atom Unit)] /\ listless twice.
Proof.
  split; [reflexivity|]. unfold twice. constructor. intros k x f [E|[]]. injection E as <- <- <-. constructor. intros k x f [E|[]]. injection E as <- <- <-.
  constructor. intros k x f [E|[]]. injection E as <- <- <-. constructor.
Qed.

(** * C69 *)

(** Rewriting: at a position with nothing rewritten above it, the result has
    the replacement if the rule gives one; if not, the atom that was there, a
    block with the same keys, or a list as long.  Nothing is added. *)
Theorem C69_transform rule v p : untouched_above rule p v ->
  match follow p v with
  | None => follow p (transform rule v) = None
  | Some w => exists r, follow p (transform rule v) = Some r
      /\ (forall x, rule w = Some x -> r = x)
      /\ (rule w = None ->
          (forall a, strip w = Atom a -> r = w)
          /\ (forall es, is_block w es -> exists es', is_block r es' /\ keys es' = keys es)
          /\ (forall xs, strip w = Lst xs -> exists ys, strip r = Lst ys /\ length ys = length xs))
  end.
Proof.
  intro U. rewrite (follow_transformed rule p v U). destruct (follow p v) as [w|]; [|reflexivity]. cbn [option_map]. eexists. split; [reflexivity|].
  rewrite transform_eq. split.
  - intros x ->. reflexivity.
  - intros ->. repeat split.
    + intros a ->. reflexivity.
    + intros es B. rewrite B. eexists. split; [reflexivity|]. unfold keys. now rewrite map_map.
    + intros xs ->. eexists. split; [reflexivity|]. apply map_length.
Qed.
(** A rule that rewrites nothing keeps every atom where it was. *)
Theorem C69_transform_nothing rule v p w a : (forall x, rule x = None) -> strip w = Atom a ->
  (follow p v = Some w <-> follow p (transform rule v) = Some w).
Proof.
  intros R A. assert (U : untouched_above rule p v) by (intros q r u _ _ _; apply R).
  rewrite (follow_transformed rule p v U). destruct (follow p v) as [u|]; [|split; discriminate]. cbn [option_map].
  assert (X : forall u, transform rule u = match strip u with
      | Blk es => Blk (map (fun e => (e_key e, transform rule (e_val e), Some [])) es)
      | Lst xs => Lst (map (transform rule) xs)
      | _ => u
      end) by (intro; rewrite transform_eq, R; reflexivity).
  split; intros [= E]; f_equal.
  - subst u. now rewrite X, A.
  - rewrite X in E. destruct (strip u) as [b|xs|es|m y] eqn:S; subst w; try discriminate A; try reflexivity.
Qed.

(** Matching: what [match?] says is whether the value conforms. *)
Theorem C69_matches p t : matches p t = true <-> conforms p t.
Proof. apply matches_conforms. Qed.
(** It is open: a block that gets more keys, or changes keys the pattern does
    not have, still matches. *)
Theorem C69_open fs t u es : matches (Having fs) t = true -> is_block u es -> (forall k, In k (map fst fs) -> lookup k u = lookup k t) ->
  matches (Having fs) u = true.
Proof.
  rewrite !C69_matches. intros C B H. inversion C as [| |? ? ? _ F|]; subst. econstructor; [exact B|]. apply fields_all. intros k p Hk.
  destruct (proj1 (fields_all fs t) F k p Hk) as (x & L & Cx). exists x. split; [|exact Cx]. rewrite H; [exact L|]. change k with (fst (k, p)). now apply in_map.
Qed.
Theorem C69_open_merge fs t ts r rs m : matches (Having fs) t = true -> is_block t ts -> is_block r rs -> NoDup (keys ts) -> NoDup (keys rs) ->
  (forall k, In k (map fst fs) -> lookup k r = None) -> merge t r = Some m -> matches (Having fs) m = true.
Proof.
  intros M Bt Br Nt Nr H E. destruct (C57_merge t r ts rs Bt Br) as (m' & ms & E' & Bm & _). assert (m' = m) as -> by congruence.
  eapply C69_open; [exact M|exact Bm|]. intros k Hk. rewrite (C57_override t r ts rs m k Bt Br Nt Nr E), (H k Hk). reflexivity.
Qed.
(** Data matches itself taken as a pattern, and the empty pattern matches all
    blocks and nothing else. *)
Theorem C69_itself v : tidy_all v -> all_proper v -> matches (exact v) v = true.
Proof. intros. apply C69_matches. now apply exact_conforms. Qed.
Theorem C69_any_block t : matches (Having []) t = true <-> a_block t.
Proof.
  cbn [matches]. unfold a_block, is_block. destruct (strip t) as [| |es|]; (split; [|intros (? & [=])]) || split; try discriminate; eauto.
Qed.
(** A pattern is not matched by the data it matches: matching is not symmetric. *)
Theorem C69_symmetric_refuted : exists v w, tidy_all v /\ tidy_all w /\ matches (exact v) w = true /\ matches (exact w) v = false.
Proof.
  exists (Blk []), (Blk [(1%N, Atom Unit, None)]). repeat split; constructor; try constructor; auto; try (intros e []; fail).
  - constructor.
  - intros e [<-|[]]. constructor.
Qed.

Example C69_ex_transform : transform (fun v => match v with Atom (Boolean b) => Some (Atom (Boolean (negb b))) | _ => None end)
    (Blk [(1%N, Lst [Atom (Boolean true); Atom Unit], None)]) = Blk [(1%N, Lst [Atom (Boolean false); Atom Unit], Some [])].
Proof. reflexivity. Qed.
Example C69_ex_untouched : let rule := fun v => match v with Atom (Boolean b) => Some (Atom (Boolean (negb b))) | _ => None end in
  untouched_above rule [Key 1%N; Place 0] (Blk [(1%N, Lst [Atom (Boolean true); Atom Unit], None)]).
Proof.
  intros rule q r u E Hr Hu. destruct q as [|s [|s' q]]; cbn in E.
  - cbn in Hu. injection Hu as <-. reflexivity.
  - injection E as <- _. cbn in Hu. injection Hu as <-. reflexivity.
  - injection E as _ _ E. symmetry in E. apply app_eq_nil in E. tauto.
Qed.
Example C69_ex_match : matches (Having [(1%N, Test (fun _ => true)); (2%N, Each [Exactly Unit])])
    (Blk [(2%N, Lst [Atom Unit], None); (3%N, Atom Unit, None); (1%N, Atom Unit, None)]) = true.
Proof. reflexivity. Qed.

Print Assumptions C68_find.
Print Assumptions C68_find_values.
Print Assumptions C68_find_is_query.
Print Assumptions C68_find_paths.
Print Assumptions C68_find_once.
Print Assumptions C68_list_paths_refuted.
Print Assumptions C68_query.
Print Assumptions C68_query_values.
Print Assumptions C68_query_paths.
Print Assumptions C68_query_once.
Print Assumptions C68_query_once_refuted.
Print Assumptions C68_query_leaves_refuted.
Print Assumptions C68_query_first.
Print Assumptions C69_transform.
Print Assumptions C69_transform_nothing.
Print Assumptions C69_matches.
Print Assumptions C69_open.
Print Assumptions C69_open_merge.
Print Assumptions C69_itself.
Print Assumptions C69_any_block.
Print Assumptions C69_symmetric_refuted.
