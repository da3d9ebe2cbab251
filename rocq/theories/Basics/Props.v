(** Properties C22, C31, C32, C33. *)
From Coq Require Import List NArith Bool Lia Permutation Sorted Arith.
From Verif.Basics Require Import Model Spec Proofs.
Import ListNotations.

(** ** C31: demand annotations.

    [allows d n e] (Spec.v): a binding used [n] times, evaluated iff [e], does
    not contradict what [d] claims. *)

(** Whatever either branch allows, the combination of branches allows; for any
    number of branches and in any order. *)
Theorem C31_branches_sound : forall ds d0 n e,
  (exists d, In d (d0 :: ds) /\ allows d n e) -> allows (fold_left lub ds d0) n e.
Proof. exact fold_lub_sound. Qed.
Print Assumptions C31_branches_sound.

Theorem C31_branches_any_order : forall d ds ds',
  Permutation ds ds' -> fold_left lub ds d = fold_left lub ds' d.
Proof. exact lub_perm. Qed.
Print Assumptions C31_branches_any_order.

(** Sequential use adds the numbers of uses. *)
Theorem C31_sequence_sound : forall a b n m e f,
  allows a n e -> allows b m f -> allows (plus a b) (n + m) (e || f).
Proof. exact plus_sound. Qed.
Print Assumptions C31_sequence_sound.

(** Use through another binding: that binding is evaluated [length ns] times,
    the k-th evaluation using this one [nth k ns] times. *)
Theorem C31_nested_sound : forall a outer ns e f,
  Forall (uses_ok (d_card a)) ns -> uses_ok (d_card outer) (length ns) ->
  eval_ok (d_strict a) e -> eval_ok (d_strict outer) f ->
  allows (scale a outer) (list_sum ns) (e && f).
Proof. exact scale_sound. Qed.
Print Assumptions C31_nested_sound.

(** Skipping the update frame repeats no work: the binding is already a value or
    used at most once. *)
Theorem C31_skip_update_safe : forall d n e,
  allows d n e -> skip_update d = true -> d_whnf d = true \/ n <= 1.
Proof. exact skip_update_sound. Qed.
Print Assumptions C31_skip_update_safe.

(** The combination claims no more than its parts. *)
Theorem C31_lub_claims : forall a b,
  (d_card (lub a b) = CAtMostOnce ->
     forall c, In c [d_card a; d_card b] -> c = CAtMostOnce \/ c = CAbsent)
  /\ (d_strict (lub a b) = SStrict -> d_strict a = SStrict /\ d_strict b = SStrict).
Proof. exact lub_claims. Qed.
Print Assumptions C31_lub_claims.

(** [lub] is documented as a least upper bound; it is commutative, associative,
    but idempotent only on known demands. *)
Theorem C31_lub_laws : forall a b c,
  lub a b = lub b a /\ lub a (lub b c) = lub (lub a b) c.
Proof. exact (fun a b c => conj (lub_comm a b) (lub_assoc a b c)). Qed.
Print Assumptions C31_lub_laws.
Theorem C31_lub_idempotent_known : forall a,
  d_card a <> CUnknown -> d_strict a <> SUnknown -> lub a a = a.
Proof. exact lub_idem. Qed.
Print Assumptions C31_lub_idempotent_known.
Theorem C31_lub_idempotent_refuted : exists a, lub a a <> a.
Proof. exists (mkD CUnknown SUnknown false false). discriminate. Qed.
Print Assumptions C31_lub_idempotent_refuted.

Example demand_hyps :
  allows (mkD CAtMostOnce SStrict false false) 1 true /\
  fold_left lub [mkD CAtMostOnce SStrict false false; mkD CMulti SLazy false false]
    demand_absent = mkD CMulti SLazy false false.
Proof. repeat split; cbn; lia. Qed.

(** ** C33: environments *)

(** Lookup returns the value of the innermost frame that binds the key. *)
Theorem C33_innermost : forall (K V : Type) (K_eq : forall a b : K, {a = b} + {a <> b})
    (e : env (K:=K) (V:=V)) k v,
  env_get K_eq e k = Some v <->
  exists inner f outer, e = inner ++ f :: outer
    /\ Forall (fun g => frame_get K_eq g k = None) inner /\ frame_get K_eq f k = Some v.
Proof. exact @env_get_spec. Qed.
Print Assumptions C33_innermost.
Theorem C33_absent : forall (K V : Type) (K_eq : forall a b : K, {a = b} + {a <> b})
    (e : env (K:=K) (V:=V)) k,
  env_get K_eq e k = None <-> Forall (fun f => frame_get K_eq f k = None) e.
Proof. exact @env_get_none. Qed.
Print Assumptions C33_absent.

(** Any properly nested history of pushes, insertions and pops restores every
    lookup, and does not panic. *)
Theorem C33_scoped : forall (K V : Type) (K_eq : forall a b : K, {a = b} + {a <> b}) ops,
  bracket ops -> forall e : env (K:=K) (V:=V),
  exists e', fold_left eop_run ops (Some e) = Some e' /\
    forall k, env_get K_eq e' k = env_get K_eq e k.
Proof.
  intros K V K_eq ops H e. exists e. split; [exact (proj1 bracket_run ops H e)|reflexivity].
Qed.
Print Assumptions C33_scoped.
Theorem C33_insert : forall (K V : Type) (K_eq : forall a b : K, {a = b} + {a <> b})
    (e : env (K:=K) (V:=V)) k v e' k',
  env_insert e k v = Some e' ->
  env_get K_eq e' k' = if K_eq k' k then Some v else env_get K_eq e k'.
Proof. exact @env_insert_get. Qed.
Print Assumptions C33_insert.

(** Encountering a key never changes an existing binding, and gives an unbound
    key its default. *)
Theorem C33_encounter : forall (K V : Type) (K_eq : forall a b : K, {a = b} + {a <> b})
    (defaulter : K -> V) d k k',
  denv_get K_eq (denv_encounter K_eq defaulter d k) k'
  = match denv_get K_eq d k' with
    | Some v => Some v
    | None => if K_eq k' k then Some (defaulter k) else None
    end.
Proof. exact @encounter_get. Qed.
Print Assumptions C33_encounter.

Example env_hyps : bracket (K:=nat) (V:=nat)
    [EPush [(1, 2)]; EInsert 1 3; EPush [(1, 4)]; EPop; EPop]
  /\ env_get Nat.eq_dec [[(2, 5)]; [(1, 3)]; [(1, 4)]] 1 = Some 3.
Proof.
  split; [|reflexivity].
  apply (br_frame [(1, 2)] [EInsert 1 3; EPush [(1, 4)]; EPop] []); [|constructor].
  apply bd_insert. apply (bd_frame [(1, 4)] [] []); constructor.
Qed.

(** ** C22: symbol interning *)

(** After interning any history of at most 2^32 strings: each id handed out
    resolves to its string, and two ids are equal iff the strings are. *)
Theorem C22_interning : forall (S : Type) (S_eq : forall a b : S, {a = b} + {a <> b}) ss p ids,
  intern_all S_eq pool_new ss = (p, ids) ->
  (N.of_nat (length ss) <= 4294967296)%N ->
  Forall2 (fun s id => resolve p id = Some s) ss ids /\
  forall i j s t a b, nth_error ss i = Some s -> nth_error ss j = Some t ->
    nth_error ids i = Some a -> nth_error ids j = Some b -> (a = b <-> s = t).
Proof. exact @intern_history. Qed.
Print Assumptions C22_interning.

(** Later interning does not change what an id resolves to. *)
Theorem C22_stable : forall (S : Type) (S_eq : forall a b : S, {a = b} + {a <> b}) ss ts p ids p' ids',
  intern_all S_eq pool_new ss = (p, ids) -> intern_all S_eq p ts = (p', ids') ->
  (N.of_nat (length ss + length ts) <= 4294967296)%N ->
  forall id s, resolve p id = Some s -> resolve p' id = Some s.
Proof. exact @intern_stable. Qed.
Print Assumptions C22_stable.

Example intern_hyps :
  snd (intern_all Nat.eq_dec pool_new [7; 8; 7; 9]) = [0; 1; 0; 2]%N.
Proof. reflexivity. Qed.

(** ** C32: deterministic serialisation *)

(** For a key type whose order obeys the [Ord] contract ([lawful]), the emitted
    entries are the map's entries in increasing key order, whatever the hash
    map's iteration order. *)
Theorem C32_sorted : forall (K V : Type) cmp, lawful (K:=K) cmp -> forall entries : list (K * V),
  NoDup (map fst entries) ->
  Permutation (serialize_entries cmp entries) entries /\
  StronglySorted (fun x y => cmp (fst x) (fst y) = Lt) (serialize_entries cmp entries).
Proof. exact @ser_sorted. Qed.
Print Assumptions C32_sorted.
Theorem C32_deterministic : forall (K V : Type) cmp, lawful (K:=K) cmp ->
  forall e e' : list (K * V),
  NoDup (map fst e) -> Permutation e e' -> serialize_entries cmp e = serialize_entries cmp e'.
Proof. exact @ser_deterministic. Qed.
Print Assumptions C32_deterministic.
Theorem C32_round_trip : forall (K V : Type) cmp, lawful (K:=K) cmp ->
  forall (K_eq : forall a b : K, {a = b} + {a <> b}) (e : list (K * V)) k,
  NoDup (map fst e) -> frame_get K_eq (serialize_entries cmp e) k = frame_get K_eq e k.
Proof. exact @ser_round_trip. Qed.
Print Assumptions C32_round_trip.

Example nat_lawful : lawful Nat.compare.
Proof.
  split.
  - apply Nat.compare_eq_iff.
  - intros. apply Nat.compare_antisym.
  - intros a b c. rewrite !Nat.compare_lt_iff. lia.
Qed.
Example ser_hyps : serialize_entries (V:=nat) Nat.compare [(3, 0); (1, 1); (2, 2)] = [(1, 1); (2, 2); (3, 0)].
Proof. reflexivity. Qed.
