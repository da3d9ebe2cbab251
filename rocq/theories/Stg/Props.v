(** Theorems about the intrinsics written in the machine's own language. *)
From Coq Require Import List Bool Arith NArith Lia.
From Verif.Bytecode Require Import Model Spec EncProofs.
From Verif.Machine Require Import Model Spec Name Curry.
From Verif.Stg Require Import Model Spec Rules Proofs Data WrapSpec Wrap Finite.
Import ListNotations.
Open Scope nat_scope.

Section Props.
Context {native : Type}.
Notation syn := (syn native).
Notation form := (form native).
Notation value := (Spec.value (native := native)).
(** The intrinsics written in Rust, the global that merges blocks, and the globals. *)
Variable prim : N -> list native -> prim_result (native := native).
Variable merge : N.
Variable globals : list form.
Variable zero : native.
Variable message : N -> native.
Notation evals := (evals prim merge globals).
Notation strips := (strips prim merge globals).
Notation variables := (Spec.variables globals).
Notation same := (same prim merge globals).
Notation call_is := (call_is prim merge globals).
Notation call_fails := (call_fails prim merge globals).
Notation builds := (builds prim merge globals).
Notation of_kind := (of_kind prim merge globals).
Notation is_native := (is_native prim merge globals).
Notation boxes := (boxes prim merge globals).
Notation is_bool := (is_bool prim merge globals).
Notation begins := (Spec.begins prim merge globals).
Notation is_list := (is_list prim merge globals).
Notation ends := (ends prim merge globals).
Notation key_value_list := (key_value_list prim merge globals).
Notation entry := (entry prim merge globals).
Notation entries := (entries prim merge globals).
Notation items := (items prim merge globals).
Notation is_block := (is_block prim merge globals).
Notation all_handed := (all_handed prim merge globals).
Notation handed := (handed prim merge globals).
Notation returns := (returns prim merge globals).
Notation well_boxed := (well_boxed prim merge globals).
Hypothesis Hinst : installed zero message globals.

Ltac member := cbv [wrappers]; cbn [In]; tauto.
Ltac wrapper := eapply call_of; [exact Hinst | member | reflexivity | cbn; lia |].
Ltac failing := eapply call_fails_of; [exact Hinst | member | reflexivity | cbn; lia |].
Ltac enter Hv := eapply same_call; [apply Hinst; member | | | exact Hv];
  pose proof (variables_length _ _ _ _ Hv) as Hlen; cbn in Hlen; cbn; lia.
Ltac atom := eapply same_atom; reflexivity.

(** ** C50: looking up a key *)
Section Lookup.
(** Natives can be compared. *)
Variable eqb : native -> native -> bool.
Hypothesis Heq : forall a b, prim ix_eq [a; b] = RData (if eqb a b then true_tag else false_tag) [].

(** A block whose entries begin with some whose keys are not the one wanted, followed by one whose key
    is: every kind of lookup is that entry's value, unevaluated. Nothing is asked of the values of the
    entries before, or of anything after: these may fail or not end. *)
Theorem C50_first_match b es ps p rest kvs k v key raw y d :
  is_block b es -> begins es (ps ++ [p]) rest ->
  entries ps kvs -> Forall (fun kv => eqb (fst kv) y = false) kvs ->
  entry p k v -> eqb k y = true ->
  builds key symbol_tag [raw] -> is_native raw y ->
  call_is ix_lookup_or [key; d; b] v /\ call_is ix_lookup_or_unboxed [raw; d; b] v /\
  call_is ix_lookup [key; b] v /\ call_is ix_safe_lookup [b; key] v.
Proof.
  intros Hb He Hps Hno Hp Hyes Hkey Hraw.
  assert (Hsplit : exists mid, begins es ps mid /\ builds mid cons_tag [p; rest]).
  { clear - He. revert es He. induction ps as [|q ps IH]; intros es He; cbn [List.app] in He; inversion He as [| ? ? t ? ? Hes Ht]; subst.
    - inversion Ht; subst. exists es. split; [constructor | exact Hes].
    - destruct (IH _ Ht) as (mid & H1 & H2). exists mid. split; [econstructor; eassumption | exact H2]. }
  destruct Hsplit as (mid & Hpre & Hmid).
  assert (Hfind : forall e' d, same (finding message e' es raw d) v).
  { intros e' d'. eapply same_trans; [eapply (find_past prim merge globals zero message eqb Hinst Heq); eassumption |].
    eapply (find_here prim merge globals zero message eqb Hinst Heq); eassumption. }
  assert (Hun : forall d, call_is ix_lookup_or_unboxed [raw; d; b] v).
  { intros d'. wrapper. destruct (unboxed_search prim merge globals message b es raw d' Hb) as (e' & Hs).
    eapply same_trans; [exact Hs | apply Hfind]. }
  split; [| split; [apply Hun | split]].
  - wrapper. destruct (boxed_search prim merge globals message b es key raw d Hb Hkey) as (e' & Hs).
    eapply same_trans; [exact Hs | apply Hfind].
  - wrapper. eapply same_trans.
    { apply (same_case prim merge globals (local 0) [(symbol_tag, _)] None [Vals [key; b]] symbol_tag [raw]); [| reflexivity].
      eapply builds_of; [atom | exact Hkey]. }
    eapply same_trans; [apply same_let |]. apply (Hun (closure [Vals [raw]; Vals [key; b]] (thunk (call ix_lookup_fail [lref 0; lref 2])))).
    reflexivity.
  - wrapper. destruct (safe_search prim merge globals message b es key raw Hb Hkey) as (e' & Hs).
    eapply same_trans; [exact Hs |].
    eapply same_trans; [eapply (safe_find_past prim merge globals zero message eqb Hinst Heq); eassumption |].
    eapply (safe_find_here prim merge globals zero message eqb Hinst Heq); eassumption.
Qed.

(** No entry has the key: the default, null, or the error that names the key and the block. *)
Theorem C50_no_match b es ps kvs key raw y d :
  is_block b es -> is_list es ps -> entries ps kvs -> Forall (fun kv => eqb (fst kv) y = false) kvs ->
  builds key symbol_tag [raw] -> is_native raw y ->
  call_is ix_lookup_or [key; d; b] d /\ call_is ix_lookup_or_unboxed [raw; d; b] d /\
  (exists e refs, variables e refs = Some [raw; b] /\ call_is ix_lookup [key; b] (VClo (call ix_lookup_fail refs) 0 e)) /\
  (forall e refs, variables e refs = Some [b; key] -> builds (VClo (call ix_safe_lookup refs) 0 e) unit_tag []).
Proof.
  intros Hb (end_ & Hpre & Hend) Hps Hno Hkey Hraw.
  assert (Hfind : forall e' d, same (finding message e' es raw d) d).
  { intros e' d'. eapply same_trans; [eapply (find_past prim merge globals zero message eqb Hinst Heq); eassumption |].
    apply find_none. exact Hend. }
  assert (Hun : forall d, call_is ix_lookup_or_unboxed [raw; d; b] d).
  { intros d'. wrapper. destruct (unboxed_search prim merge globals message b es raw d' Hb) as (e' & Hs).
    eapply same_trans; [exact Hs | apply Hfind]. }
  split; [| split; [apply Hun | split]].
  - wrapper. destruct (boxed_search prim merge globals message b es key raw d Hb Hkey) as (e' & Hs).
    eapply same_trans; [exact Hs | apply Hfind].
  - exists [Vals [raw]; Vals [key; b]], [lref 0; lref 2]. split; [reflexivity |]. wrapper. eapply same_trans.
    { apply (same_case prim merge globals (local 0) [(symbol_tag, _)] None [Vals [key; b]] symbol_tag [raw]); [| reflexivity].
      eapply builds_of; [atom | exact Hkey]. }
    eapply same_trans; [apply same_let |]. apply (Hun (closure [Vals [raw]; Vals [key; b]] (thunk (call ix_lookup_fail [lref 0; lref 2])))).
    reflexivity.
  - intros e refs Hv. eapply builds_of; [enter Hv |].
    destruct (safe_search prim merge globals message b es key raw Hb Hkey) as (e' & Hs).
    eapply builds_of; [exact Hs |].
    eapply builds_of; [eapply (safe_find_past prim merge globals zero message eqb Hinst Heq); eassumption |].
    apply safe_find_none. exact Hend.
Qed.
End Lookup.

(** Looking up a key of something that is not a block is an error, except for the safe lookup, which
    is null, unless evaluating the thing fails. *)
Theorem C50_not_a_block b key raw d : ~ of_kind b block_tag -> builds key symbol_tag [raw] ->
  call_fails ix_lookup_or [key; d; b] /\ call_fails ix_lookup_or_unboxed [key; d; b] /\
  call_fails ix_lookup [key; b] /\
  (forall w e refs, strips b w -> variables e refs = Some [b; key] -> builds (VClo (call ix_safe_lookup refs) 0 e) unit_tag []).
Proof.
  intros Hb Hkey.
  assert (Hsw : forall e r (c : syn) v, Spec.variable globals e (lref r) = Some b -> ~ evals (VClo (switch (local r) [(block_tag, c)]) 0 e) v).
  { intros e r c v Hr Hv. destruct (switch_needs _ _ _ _ _ _ _ Hv) as (tag & fs & c' & Hbuild & Hbr).
    apply branch_one in Hbr as [-> _]. apply Hb.
    apply (same_builds prim merge globals _ b) in Hbuild; [| apply same_atom; exact Hr].
    destruct Hbuild as (args & e1 & Hs & _). eexists _, _. exact Hs. }
  assert (Hun : forall k d, call_fails ix_lookup_or_unboxed [k; d; b]).
  { intros k d'. failing. intros v. apply Hsw. reflexivity. }
  split; [| split; [apply Hun | split]].
  - failing. intros v. apply Hsw. reflexivity.
  - failing. intros v Hv.
    assert (Hs : same (VClo (snd (lookup (native := native))) 0 [Vals [key; b]])
       (VClo (let_ [thunk (call ix_lookup_fail [lref 0; lref 2])] (call ix_lookup_or_unboxed [lref 1; lref 0; lref 3])) 0 [Vals [raw]; Vals [key; b]])).
    { apply (same_case prim merge globals (local 0) [(symbol_tag, _)] None [Vals [key; b]] symbol_tag [raw]); [| reflexivity].
      eapply builds_of; [atom | exact Hkey]. }
    apply Hs in Hv. apply same_let in Hv. revert Hv. eapply Hun. reflexivity.
  - intros w e refs Hw Hv. eapply builds_of; [enter Hv |].
    eapply builds_of.
    { eapply same_fallback; [eapply strips_atom; [reflexivity | exact Hw] |].
      eapply selects_none; [exact Hw |]. intros tag [<- | []]. exact Hb. }
    apply builds_data. reflexivity.
Qed.

(** ** C51: blocks and their elements *)
(** A block made from a list of pairs, as written or as lists of a key and a value, has an entry for
    each, in order, with the same keys, and the same values, unevaluated. *)
Theorem C51_block_entries l ps kvs : is_list l ps -> items ps kvs ->
  forall e refs, variables e refs = Some [l] ->
  exists es qs, is_block (VClo (call ix_block refs) 0 e) es /\ is_list es qs /\ entries qs kvs.
Proof.
  intros Hl Hk e refs Hv.
  destruct (block_is prim merge globals zero message Hinst l ps kvs Hl Hk) as (es & qs & (ix & Hb) & Hes & Hqs).
  exists es, qs. split; [| auto]. exists ix. eapply builds_of; [enter Hv | exact Hb].
Qed.
(** The elements of a block are one list for each entry, of its key and its value; as many as there
    are entries, if these end. *)
Theorem C51_elements b es ps rest kvs : is_block b es -> begins es ps rest -> entries ps kvs ->
  forall e refs, variables e refs = Some [b] ->
  exists qs rest', begins (VClo (call ix_elements refs) 0 e) qs rest' /\
    Forall2 (fun q kv => key_value_list q (fst kv) (snd kv)) qs kvs /\
    (builds rest nil_tag [] -> builds rest' nil_tag []).
Proof.
  intros Hb He Hk e refs Hv.
  destruct (elements_is prim merge globals zero message Hinst b es ps rest kvs Hb He Hk) as (qs & rest' & Hq & Hf & Hend).
  assert (Hs : same (VClo (call ix_elements refs) 0 e) (VClo (snd (elements message)) 0 [Vals [b]])) by (enter Hv).
  inversion Hq; subst.
  - inversion Hf; subst. exists [], (VClo (call ix_elements refs) 0 e). split; [constructor |]. split; [constructor |].
    intros Hn. eapply builds_of; [exact Hs | auto].
  - exists (h :: ps0), rest'. split; [| split; assumption]. econstructor; [eapply builds_of; [exact Hs | eassumption] | assumption].
Qed.
(** A block made of the elements of a list has the elements of the list. *)
Theorem C51_round_trip l ps kvs : is_list l ps -> items ps kvs ->
  forall e refs, variables e refs = Some [l] ->
  forall e' refs', variables e' refs' = Some [VClo (call ix_block refs) 0 e] ->
  exists qs, is_list (VClo (call ix_elements refs') 0 e') qs /\
    Forall2 (fun q kv => key_value_list q (fst kv) (snd kv)) qs kvs.
Proof.
  intros Hl Hk e refs Hv e' refs' Hv'.
  destruct (C51_block_entries l ps kvs Hl Hk e refs Hv) as (es & qs & Hb & (end_ & Hes & Hend) & Hqs).
  destruct (C51_elements _ _ _ _ _ Hb Hes Hqs e' refs' Hv') as (qs' & rest' & Hq & Hf & He).
  exists qs'. split; [| exact Hf]. exists rest'. auto.
Qed.
(** A block made from pairs gives, for a key, the value of the first pair with it. *)
Theorem C51_block_lookup (eqb : native -> native -> bool) l ps (before : list (native * value)) k v after key raw y d :
  (forall a b, prim ix_eq [a; b] = RData (if eqb a b then true_tag else false_tag) []) ->
  is_list l ps -> items ps (before ++ (k, v) :: after) ->
  Forall (fun kv => eqb (fst kv) y = false) before -> eqb k y = true ->
  builds key symbol_tag [raw] -> is_native raw y ->
  forall e refs, variables e refs = Some [l] -> call_is ix_lookup_or [key; d; VClo (call ix_block refs) 0 e] v.
Proof.
  intros Heq Hl Hk Hno Hyes Hkey Hraw e refs Hv.
  destruct (C51_block_entries l ps _ Hl Hk e refs Hv) as (es & qs & Hb & (end_ & Hes & Hend) & Hqs).
  apply Forall2_app_inv_r in Hqs as (qs1 & qs2 & Hq1 & Hq2 & ->).
  inversion Hq2 as [| q ? qs3 ? Hq Hq3]; subst.
  assert (Hpre : exists rest, begins es (qs1 ++ [q]) rest).
  { clear - Hes. revert es Hes. induction qs1 as [|x qs1 IH]; intros es Hes; cbn [List.app] in *; inversion Hes; subst.
    - eexists. econstructor; [eassumption | constructor].
    - destruct (IH _ ltac:(eassumption)) as [rest Hr]. exists rest. econstructor; eassumption. }
  destruct Hpre as [rest Hpre].
  eapply (C50_first_match eqb Heq _ es qs1 q rest before k v key raw y d); eassumption.
Qed.
(** The parts of an entry, whichever way it is represented. *)
Theorem C51_entry_parts p k v : entry p k v ->
  call_is ix_extract_value [p] v /\
  (forall e refs, variables e refs = Some [p] ->
     is_native (VClo (call ix_extract_key refs) 0 e) k /\
     entry (VClo (call ix_kv refs) 0 e) k v /\
     key_value_list (VClo (call ix_dekv refs) 0 e) k v /\
     (exists key, builds (VClo (call ix_block_pair refs) 0 e) pair_tag [key; v] /\ is_native key k) /\
     (exists key, builds (VClo (call ix_pack_pair refs) 0 e) pair_tag [key; p] /\ is_native key k)).
Proof.
  intros H. split.
  - wrapper. eapply extract_value_is; eassumption.
  - intros e refs Hv. split; [| split; [| split; [| split]]].
    + eapply native_of; [enter Hv |]. eapply extract_key_is; eassumption.
    + eapply entry_of; [enter Hv |]. eapply kv_is. left. exact H.
    + eapply key_value_list_of; [enter Hv |]. eapply dekv_is; eassumption.
    + destruct (block_pair_is prim merge globals zero message Hinst p k v H) as (key & Hb & Hk).
      exists key. split; [| exact Hk]. eapply builds_of; [enter Hv | exact Hb].
    + destruct (pack_pair_is prim merge globals zero message Hinst p k v H) as (key & Hb & Hk).
      exists key. split; [| exact Hk]. eapply builds_of; [enter Hv | exact Hb].
Qed.

(** ** C52: conditions *)
Lemma not_decided e r p (b1 b2 : syn) v t1 t2 : Spec.variable globals e (RL r) = Some p ->
  evals (VClo (switch (local r) [(t1, b1); (t2, b2)]) 0 e) v -> ~ of_kind p t1 -> ~ of_kind p t2 -> False.
Proof.
  intros Hr Hv H1 H2. destruct (switch_needs _ _ _ _ _ _ _ Hv) as (tag & fs & c & Hb & Hbr).
  apply (same_builds prim merge globals _ p) in Hb; [| apply same_atom; exact Hr].
  apply branch_for_in in Hbr. cbn in Hbr. destruct Hb as (a & e1 & Hs & _).
  destruct Hbr as [[= -> _] | [[= -> _] | []]]; [apply H1 | apply H2]; eexists _, _; exact Hs.
Qed.
(** The second operand is looked at only if the first does not decide; an operand that is not a
    boolean is an error if it is looked at. *)
Theorem C52_and p q : (is_bool p false -> forall e refs, variables e refs = Some [p; q] -> is_bool (VClo (call ix_and refs) 0 e) false) /\
  (is_bool p true -> forall e refs b, variables e refs = Some [p; q] -> is_bool q b -> is_bool (VClo (call ix_and refs) 0 e) b) /\
  (~ of_kind p true_tag -> ~ of_kind p false_tag -> call_fails ix_and [p; q]) /\
  (is_bool p true -> ~ of_kind q true_tag -> ~ of_kind q false_tag -> call_fails ix_and [p; q]).
Proof.
  split; [| split; [| split]].
  - intros H e refs Hv. eapply is_bool_of; [enter Hv | apply and_false; exact H].
  - intros H e refs b Hv Hq. eapply is_bool_of; [enter Hv | apply and_true; assumption].
  - intros H1 H2. failing. intros v Hv. eapply not_decided; [| exact Hv | exact H1 | exact H2]. reflexivity.
  - intros Hp H1 H2. failing. intros v Hv.
    apply (same_case prim merge globals (local 0) _ None [Vals [p; q]] true_tag []
       (switch (local 1) [(true_tag, t); (false_tag, f)])) in Hv; [| eapply builds_of; [atom | exact Hp] | reflexivity].
    cbn [bind] in Hv. destruct (switch_needs _ _ _ _ _ _ _ Hv) as (tag & fs & c & Hb & Hbr).
    apply (same_builds prim merge globals _ q) in Hb; [| atom].
    apply branch_two in Hbr as [[-> _] | [-> _]]; [| | discriminate]; destruct Hb as (a & e1 & Hs & _); [apply H1 | apply H2]; eexists _, _; exact Hs.
Qed.

Theorem C52_or p q : (is_bool p true -> forall e refs, variables e refs = Some [p; q] -> is_bool (VClo (call ix_or refs) 0 e) true) /\
  (is_bool p false -> forall e refs b, variables e refs = Some [p; q] -> is_bool q b -> is_bool (VClo (call ix_or refs) 0 e) b) /\
  (~ of_kind p true_tag -> ~ of_kind p false_tag -> call_fails ix_or [p; q]) /\
  (is_bool p false -> ~ of_kind q true_tag -> ~ of_kind q false_tag -> call_fails ix_or [p; q]).
Proof.
  split; [| split; [| split]].
  - intros H e refs Hv. eapply is_bool_of; [enter Hv | apply or_true; exact H].
  - intros H e refs b Hv Hq. eapply is_bool_of; [enter Hv | apply or_false; assumption].
  - intros H1 H2. failing. intros v Hv. eapply not_decided; [| exact Hv | exact H2 | exact H1]. reflexivity.
  - intros Hp H1 H2. failing. intros v Hv.
    apply (same_case prim merge globals (local 0) _ None [Vals [p; q]] false_tag []
       (switch (local 1) [(true_tag, t); (false_tag, f)])) in Hv; [| eapply builds_of; [atom | exact Hp] | reflexivity].
    cbn [bind] in Hv. eapply not_decided; [| exact Hv | exact H1 | exact H2]. reflexivity.
Qed.
Theorem C52_not p : (forall b, is_bool p b -> forall e refs, variables e refs = Some [p] -> is_bool (VClo (call ix_not refs) 0 e) (negb b)) /\
  (~ of_kind p true_tag -> ~ of_kind p false_tag -> call_fails ix_not [p]).
Proof.
  split.
  - intros b H e refs Hv. eapply is_bool_of; [enter Hv | apply not_is; exact H].
  - intros H1 H2. failing. intros v Hv. eapply not_decided; [| exact Hv | exact H2 | exact H1]. reflexivity.
Qed.
(** The branch not chosen is never looked at. *)
Theorem C52_if c p q : (forall b, is_bool c b -> call_is ix_if [c; p; q] (if b then p else q)) /\
  (~ of_kind c true_tag -> ~ of_kind c false_tag -> call_fails ix_if [c; p; q]).
Proof.
  split.
  - intros b H. wrapper. destruct b.
    + eapply same_trans; [eapply same_case; [eapply builds_of; [atom | exact H] | reflexivity] |]. atom.
    + eapply same_trans; [eapply same_case; [eapply builds_of; [atom | exact H] | reflexivity] |]. atom.
  - intros H1 H2. failing. intros v Hv. eapply not_decided; [| exact Hv | exact H1 | exact H2]. reflexivity.
Qed.
(** Clauses are tried in order. The first whose condition holds is chosen, and nothing after it is
    looked at, nor the values of those before. If there is none, the result is the first thing that is
    not a clause (less its metadata), or null at the end of the list. *)
Definition rejected (p : value) : Prop := exists c v, builds p clause_tag [c; v] /\ is_bool c false.
Theorem C52_cond l ps rest : begins l ps rest -> Forall rejected ps ->
  (forall h t c v, builds rest cons_tag [h; t] -> builds h clause_tag [c; v] -> is_bool c true -> call_is ix_cond [l] v) /\
  (forall h t w, builds rest cons_tag [h; t] -> strips h w -> ~ of_kind h clause_tag -> call_is ix_cond [l] w) /\
  (builds rest nil_tag [] -> forall e refs, variables e refs = Some [l] -> builds (VClo (call ix_cond refs) 0 e) unit_tag []).
Proof.
  intros Hb Hr.
  pose proof (cond_past prim merge globals zero message Hinst l ps rest Hb Hr) as Hs.
  split; [| split].
  - intros h t c v Hl Hh Hc. wrapper. eapply same_trans; [exact Hs | eapply cond_here; eassumption].
  - intros h t w Hl Hh Hc. wrapper. eapply same_trans; [exact Hs | eapply cond_else; eassumption].
  - intros Hn e refs Hv. eapply builds_of; [enter Hv |]. eapply builds_of; [exact Hs | apply cond_nil; exact Hn].
Qed.
(** List cells. *)
Theorem C52_lists h t : (forall e refs, variables e refs = Some [h; t] -> builds (VClo (call ix_cons refs) 0 e) cons_tag [h; t]) /\
  (forall l, builds l cons_tag [h; t] -> call_is ix_head [l] h /\ call_is ix_tail [l] t) /\
  (forall l e refs, variables e refs = Some [l] -> builds l nil_tag [] -> is_bool (VClo (call ix_nilp refs) 0 e) true) /\
  (forall l w e refs, variables e refs = Some [l] -> strips l w -> ~ of_kind l nil_tag -> is_bool (VClo (call ix_nilp refs) 0 e) false).
Proof.
  split; [| split; [| split]].
  - intros e refs Hv. eapply builds_of; [enter Hv |]. apply builds_data. reflexivity.
  - intros l Hl. split; wrapper; [eapply head_is | eapply tail_is]; exact Hl.
  - intros l e refs Hv Hl. eapply is_bool_of; [enter Hv | apply nilp_true; exact Hl].
  - intros l w e refs Hv Hl Hn. eapply is_bool_of; [enter Hv | eapply nilp_false; eassumption].
Qed.

(** ** C53: the generated wrapper of an intrinsic written in Rust *)
(** For every number of arguments, every combination of types and of strictness. The call of an
    intrinsic that returns its result as it is: it has the value [v] exactly when all strict arguments
    evaluate, to boxes of the right kind where they have such a type, and the intrinsic returns [v] for
    what is in them, at the positions of the arguments. *)
Section Wrapped.
Variables (i : N) (tys : list (ty * bool)).
Hypothesis Hne : tys <> [].
Theorem C53_wrapper_plain ps : nth_error globals (N.to_nat i) = Some (wrap i tys TOther) ->
  length ps = length tys -> Forall well_boxed ps ->
  forall e refs, variables e refs = Some ps ->
  forall v, evals (VClo (call i refs) 0 e) v <-> exists qs, all_handed tys ps qs /\ returns i qs v.
Proof.
  intros Hg Hl Hw e refs Hv v. split.
  - intros He. destruct (call_needs prim merge globals i tys TOther Hg Hne e refs ps v Hv Hl Hw He) as (qs & Hq).
    exists qs. split; [exact Hq |].
    destruct (call_runs prim merge globals i tys TOther Hg Hne e refs ps qs Hv Hq) as (e' & refs' & Hs & Hv').
    apply Hs in He. apply (bif_returns prim merge globals _ _ _ _ _ Hv') in He. exact He.
  - intros (qs & Hq & Hr).
    destruct (call_runs prim merge globals i tys TOther Hg Hne e refs ps qs Hv Hq) as (e' & refs' & Hs & Hv').
    apply Hs. apply (bif_returns prim merge globals _ _ _ _ _ Hv'). exact Hr.
Qed.
(** The call of one that returns a number, string, symbol or date: it has a value exactly when all
    strict arguments evaluate as above; that is a box, and the intrinsic is not run until the box is
    opened. *)
Theorem C53_wrapper_boxed ret tag ps : nth_error globals (N.to_nat i) = Some (wrap i tys ret) -> box_tag ret = Some tag ->
  length ps = length tys -> Forall well_boxed ps ->
  forall e refs, variables e refs = Some ps ->
  ((exists v, evals (VClo (call i refs) 0 e) v) <-> exists qs, all_handed tys ps qs) /\
  (forall qs, all_handed tys ps qs ->
     exists q, builds (VClo (call i refs) 0 e) tag [q] /\ forall v, evals q v <-> returns i qs v).
Proof.
  intros Hg Ht Hl Hw e refs Hv.
  assert (Hbox : forall qs, all_handed tys ps qs ->
     exists q, builds (VClo (call i refs) 0 e) tag [q] /\ forall v, evals q v <-> returns i qs v).
  { intros qs Hq.
    destruct (call_runs prim merge globals i tys ret Hg Hne e refs ps qs Hv Hq) as (e' & refs' & Hs & Hv').
    exists (VClo (app_bif i refs') 0 e'). split; [| intros v; apply (bif_returns prim merge globals _ _ _ _ _ Hv')].
    eapply builds_of; [exact Hs |].
    destruct ret; try discriminate Ht; injection Ht as <-; cbn [boxing];
      (eapply builds_of; [apply same_let | apply builds_data; reflexivity]). }
  split; [| exact Hbox]. split.
  - intros [v He]. eapply call_needs; eassumption.
  - intros [qs Hq]. destruct (Hbox qs Hq) as (q & (args & e1 & Hs & _) & _). inversion Hs; eauto.
Qed.
(** What is handed over is determined by the arguments. *)
Theorem C53_handed_unique ps qs qs' : all_handed tys ps qs -> all_handed tys ps qs' -> qs = qs'.
Proof. intros H1 H2. eapply all_handed_unique; eassumption. Qed.
End Wrapped.

(** ** C54: evaluating a whole list *)
(** A list of numbers, in boxes or not, becomes the list of the numbers themselves, evaluated, in the
    same order; likewise strings. *)
Theorem C54_numbers l ps ns : is_list l ps -> Forall2 (fun p n => boxes number_tag p n \/ is_native p n) ps ns ->
  forall e refs, variables e refs = Some [l] -> is_list (VClo (call ix_seq_num_list refs) 0 e) (map VNat ns).
Proof.
  intros Hl Hn e refs Hv. eapply list_of; [enter Hv |]. eapply seq_num_is; eassumption.
Qed.
Theorem C54_strings l ps ns : is_list l ps -> Forall2 (boxes string_tag) ps ns ->
  forall e refs, variables e refs = Some [l] -> is_list (VClo (call ix_seq_str_list refs) 0 e) (map VNat ns).
Proof.
  intros Hl Hn e refs Hv. eapply list_of; [enter Hv |]. eapply seq_str_is; eassumption.
Qed.
(** Conversely, evaluation has a result only if the list ends and all its elements evaluate: an element
    that fails, wherever it is, makes the whole fail, although the result is a list cell. *)
Theorem C54_whole_list k i l : (k = TNumber /\ i = ix_seq_num_list) \/ (k = TString /\ i = ix_seq_str_list) ->
  forall e r v, Spec.variable globals e r = Some l -> evals (VClo (call i [r]) 0 e) v ->
  exists ps end_, begins l ps end_ /\ Forall (fun p => exists w, handed (k, true) p w) ps /\
    (ends end_ \/ exists h t, builds end_ cons_tag [h; t] /\ ~ well_boxed h).
Proof.
  intros Hk e r v Hr Hv.
  assert (Hf : finite prim merge globals (seq_ends prim merge globals) (fun p => exists w, handed (k, true) p w) l).
  { destruct Hk as [[-> ->] | [-> ->]].
    - eapply (call_finite prim merge globals _ ix_seq_num_list (seq_body TNumber ix_seq_num_list)); [| | exact Hr | exact Hv].
      + apply (Hinst _ seq_num_list). member.
      + intros l' v' Hv'. eapply seq_shape; [reflexivity | exact Hv'].
    - eapply (call_finite prim merge globals _ ix_seq_str_list (seq_body TString ix_seq_str_list)); [| | exact Hr | exact Hv].
      + apply (Hinst _ seq_str_list). member.
      + intros l' v' Hv'. eapply seq_shape; [reflexivity | exact Hv']. }
  destruct Hf as (ps & end_ & Hb & He & Hn). exists ps, end_. auto.
Qed.
(** Evaluating the spine alone has a result exactly when the list ends; no element is looked at. *)
Theorem C54_spine l :
  (forall ps, is_list l ps -> forall e refs, variables e refs = Some [l] -> builds (VClo (call ix_seq_spine refs) 0 e) nil_tag []) /\
  (forall e r v, Spec.variable globals e r = Some l -> evals (VClo (call ix_seq_spine [r]) 0 e) v ->
     exists ps end_, begins l ps end_ /\ ends end_).
Proof.
  split.
  - intros ps Hl e refs Hv. eapply builds_of; [enter Hv |]. eapply seq_spine_is; eassumption.
  - intros e r v Hr Hv.
    destruct (call_finite prim merge globals ends ix_seq_spine (snd (seq_spine (native := native)))) with (needed := fun _ : value => True) (e := e) (r := r) (l := l) (v := v)
      as (ps & end_ & Hb & He & _); [| | exact Hr | exact Hv | eauto].
    + apply (Hinst _ seq_spine). member.
    + intros l' v' Hv'. apply spine_shape with (v := v'). exact Hv'.
Qed.

(** ** C55: metadata *)
(** Attaching metadata changes what is seen of a value in no other way; reading it back gives what was
    attached, unevaluated; a value without any has an empty block. *)
Theorem C55_metadata m x e refs : variables e refs = Some [m; x] ->
  let p := VClo (call ix_with_meta refs) 0 e in
  (forall w, strips p w <-> strips x w) /\ call_is ix_raw_meta [p] m.
Proof.
  intros Hv p.
  assert (Hs : same p (VClo (SMeta (lref 0) (lref 1)) 0 [Vals [m; x]])) by (enter Hv).
  assert (Hp : evals p (VClo (SMeta (lref 0) (lref 1)) 0 [Vals [m; x]])) by (apply Hs; constructor).
  split.
  - intros w. split; intros Hw.
    + inversion Hw as [? ? He Hm | ? m' b' e' q ? He Hb Hq]; subst.
      * apply Hs in He. inversion He; subst; [lia | discriminate Hm].
      * apply Hs in He. inversion He; subst; [lia |]. injection Hb as <-. exact Hq.
    + eapply st_meta; [exact Hp | reflexivity | exact Hw].
  - wrapper. intros v. split; intros H.
    + inversion H; subst; try lia.
      * match goal with A : Machine.Spec.evals _ _ _ (VClo _ 0 [Vals [_]]) (VClo (SMeta _ _) 0 _) |- _ =>
          apply (same_atom prim merge globals _ _ p) in A; [| reflexivity]; apply Hs in A; inversion A; subst; [lia |] end.
        match goal with A : Spec.variable _ [Vals [m; x]] (lref 0) = Some _ |- _ => injection A as <- end.
        match goal with A : Machine.Spec.evals _ _ _ (VClo _ 0 (Vals [m; _] :: _)) _ |- _ =>
          apply (same_atom prim merge globals _ _ m) in A; [| reflexivity]; exact A end.
      * exfalso. match goal with A : Machine.Spec.evals _ _ _ (VClo _ 0 [Vals [_]]) ?u, B : is_meta ?u = false |- _ =>
          apply (same_atom prim merge globals _ _ p) in A; [| reflexivity]; exact (meta_exclusive _ _ _ _ _ _ _ _ Hp A B) end.
    + eapply ev_has_meta; [econstructor; [reflexivity | exact Hp] | reflexivity | reflexivity |].
      econstructor; [reflexivity | exact H].
Qed.
Theorem C55_no_metadata p w e refs : evals p w -> is_meta w = false -> variables e refs = Some [p] ->
  exists es, is_block (VClo (call ix_raw_meta refs) 0 e) es /\ is_list es [].
Proof.
  intros Hp Hm Hv. eexists. split.
  - eexists. eapply builds_of; [enter Hv |].
    eapply (builds_of prim merge globals _ (VClo (SAtom (RG ix_empty_block)) 0 [Vals [w]; Vals [p]])).
    { intros v. split; intros H.
      - inversion H; subst; try lia.
        + exfalso. match goal with A : Machine.Spec.evals _ _ _ (VClo _ 0 [Vals [p]]) (VClo (SMeta _ _) 0 _) |- _ =>
            apply (same_atom prim merge globals _ _ p) in A; [| reflexivity]; exact (meta_exclusive _ _ _ _ _ _ _ _ A Hp Hm) end.
        + match goal with A : Machine.Spec.evals _ _ _ (VClo _ 0 [Vals [p]]) ?u, B : is_meta ?u = false |- _ =>
            apply (same_atom prim merge globals _ _ p) in A; [| reflexivity];
            pose proof (strips_unique prim merge globals _ _ _ (st_plain _ _ _ _ _ A B) (st_plain _ _ _ _ _ Hp Hm)) as E end. subst. assumption.
      - eapply ev_no_meta; [econstructor; [reflexivity | exact Hp] | exact Hm | exact H]. }
    eapply builds_of.
    { apply same_atom. cbn [Spec.variable]. rewrite (Hinst ix_empty_block (empty_block zero)); [reflexivity | member]. }
    eapply builds_of; [apply same_let |]. apply builds_data. reflexivity.
  - exists (VClo nil_ 0 []). split; [constructor |]. apply builds_data. reflexivity.
Qed.
End Props.
