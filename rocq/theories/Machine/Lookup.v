(** Looking up a literal key: which entry the machine's scan finds. *)
From Coq Require Import List Bool Arith NArith Lia.
From Verif.Bytecode Require Import Model Spec.
From Verif.Machine Require Import Model Spec LookupSpec Chase.
Import ListNotations.
Open Scope nat_scope.

Section Lookup.
Context {native : Type}.
Notation mval := (mval (native := native)).
Notation heap := (heap (native := native)).
Variable is_symbol : native -> bool.
Variable symbols_equal : native -> native -> bool.
Notation symbol_of := (symbol_of is_symbol).
Notation has_key := (has_key is_symbol symbols_equal).
Notation value_symbol := (value_symbol is_symbol).
Notation pair_key := (pair_key is_symbol).
Notation scan_entries := (scan_entries is_symbol symbols_equal).

(** A walk along a partial function whose values lie in slots of the heap does not revisit one. *)
Section Walk.
Variable h : heap.
Variable next : mval -> option mval.
Hypothesis in_slots : forall v w, next v = Some w -> (exists n, w = MNat n) \/ exists a j, slot h a j = Some w.
Hypothesis natives_end : forall n, next (MNat n) = None.
Inductive walk : nat -> mval -> mval -> Prop :=
| wa_end v : next v = None -> walk 0 v v
| wa_step k v w x : next v = Some w -> walk k w x -> walk (S k) v x.
Lemma walk_unique k v x : walk k v x -> forall k' x', walk k' v x' -> k = k' /\ x = x'.
Proof.
  induction 1 as [v Hv | k v w x Hv _ IH]; intros k' x' H'; inversion H'; subst; try congruence; [auto |].
  match goal with H1 : next v = Some ?u, H2 : walk ?m ?u x' |- _ => rewrite Hv in H1; injection H1 as ->; destruct (IH _ _ H2); auto end.
Qed.
Lemma walk_cells k v x : walk k v x ->
  exists l, NoDup l /\ k <= S (length l) /\
    forall a j, In (a, j) l -> exists w k', slot h a j = Some w /\ walk k' w x /\ k' < k.
Proof.
  induction 1 as [v Hv | k v w x Hv Hw IH].
  - exists []. split; [constructor | split; [simpl; lia | intros a j []]].
  - destruct IH as (l & Hnd & Hlen & Hl). destruct (in_slots v w Hv) as [[n ->] | (b & i & Hs)].
    + inversion Hw; subst; [| rewrite natives_end in *; discriminate].
      exists []. split; [constructor | split; [simpl; lia | intros ? ? []]].
    + exists ((b, i) :: l). split; [| split].
      * constructor; [| exact Hnd]. intros Hin. destruct (Hl b i Hin) as (u & k' & Hs' & Hf' & Hlt).
        rewrite Hs in Hs'. injection Hs' as <-. destruct (walk_unique _ _ _ Hw _ _ Hf'). lia.
      * simpl. lia.
      * intros c j [[= <- <-] | Hin]; [exists w, k; auto |].
        destruct (Hl c j Hin) as (u & k' & H1 & H2 & H3). exists u, k'. repeat split; try assumption. lia.
Qed.
Lemma walk_short k v x : walk k v x -> k <= chase_fuel h.
Proof.
  intros H. destruct (walk_cells k v x H) as (l & Hnd & Hlen & Hl).
  assert (Hle : length l <= length (cells h)).
  { apply NoDup_incl_length; [exact Hnd |]. intros [a j] Hin. destruct (Hl a j Hin) as (w & _ & Hs & _). eapply in_cells; exact Hs. }
  unfold chase_fuel. rewrite length_cells in Hle. lia.
Qed.
Lemma walk_shorter k v x a j : walk k v x -> slot h a j = Some v -> k < chase_fuel h.
Proof.
  intros H Hv. destruct (walk_cells k v x H) as (l & Hnd & Hlen & Hl).
  assert (Hle : length ((a, j) :: l) <= length (cells h)).
  { apply NoDup_incl_length.
    - constructor; [| exact Hnd]. intros Hin. destruct (Hl a j Hin) as (w & k' & Hs & Hw & Hlt).
      rewrite Hv in Hs. injection Hs as <-. destruct (walk_unique _ _ _ H _ _ Hw). lia.
    - intros [b i] [[= <- <-] | Hin]; [eapply in_cells; exact Hv |].
      destruct (Hl b i Hin) as (w & _ & Hs & _). eapply in_cells; exact Hs. }
  unfold chase_fuel. rewrite length_cells in Hle. simpl in Hle. lia.
Qed.
End Walk.

(** * Symbols *)
Definition symbol_next (h : heap) (v : mval) : option mval :=
  match v with
  | MNat _ => None
  | MClo (SAtom r) _ _ e => resolve_ref h e r
  | MClo (SCons tag (r :: _)) _ _ e => if (tag =? tag_boxed_symbol)%N then resolve_ref h e r else None
  | MClo _ _ _ _ => None
  end.
Lemma symbol_next_slots h v w : symbol_next h v = Some w -> (exists n, w = MNat n) \/ exists a j, slot h a j = Some w.
Proof.
  destruct v as [n|[] a u e]; try discriminate; cbn [symbol_next]; try apply resolve_cell.
  destruct args as [|r rs]; [discriminate |]. destruct (tag =? tag_boxed_symbol)%N; [apply resolve_cell | discriminate].
Qed.
Lemma symbol_walk h v n : symbol_of h v n -> exists k, walk (symbol_next h) k v (MNat n).
Proof.
  induction 1 as [n Hn | r a u e v n Hr _ [k IH] | r rs a u e v n Hr _ [k IH]].
  - exists 0. constructor. reflexivity.
  - exists (S k). econstructor; [exact Hr | exact IH].
  - exists (S k). econstructor; [| exact IH]. exact Hr.
Qed.
Lemma symbol_is h v n : symbol_of h v n -> is_symbol n = true.
Proof. induction 1; assumption. Qed.
Lemma walk_symbol h k v x : walk (symbol_next h) k v x -> forall n, x = MNat n -> is_symbol n = true -> forall fuel, k <= fuel -> value_symbol fuel h v = Some n.
Proof.
  induction 1 as [v Hv | k v w x Hv _ IH]; intros n -> Hn fuel Hf.
  - destruct fuel; cbn [Model.value_symbol]; rewrite Hn; reflexivity.
  - destruct fuel as [|fuel]; [lia |]. specialize (IH n eq_refl Hn fuel ltac:(lia)).
    destruct v as [m|[] a u e]; try discriminate; cbn [symbol_next Model.value_symbol] in *.
    + rewrite Hv. exact IH.
    + destruct args as [|r rs]; [discriminate |]. destruct (tag =? tag_boxed_symbol)%N; [| discriminate]. rewrite Hv. exact IH.
Qed.
Lemma value_symbol_of fuel h : forall v n, value_symbol fuel h v = Some n -> symbol_of h v n.
Proof.
  induction fuel as [|fuel IH]; intros v n H.
  - destruct v as [m|[] a u e]; cbn [Model.value_symbol] in H; try discriminate.
    + destruct (is_symbol m) eqn:E; [injection H as <-; constructor; exact E | discriminate].
    + destruct args; discriminate.
  - destruct v as [m|[] a u e]; cbn [Model.value_symbol] in H; try discriminate.
    + destruct (is_symbol m) eqn:E; [injection H as <-; constructor; exact E | discriminate].
    + destruct (resolve_ref h e evaluand) as [w|] eqn:E; [| discriminate]. econstructor; [exact E | auto].
    + destruct args as [|r rs]; [discriminate |]. destruct (N.eqb_spec tag tag_boxed_symbol) as [->|]; [| discriminate].
      destruct (resolve_ref h e r) as [w|] eqn:E; [| discriminate]. eapply so_boxed; [exact E | auto].
Qed.
Lemma value_symbol_iff h v n : value_symbol (chase_fuel h) h v = Some n <-> symbol_of h v n.
Proof.
  split; [apply value_symbol_of |]. intros H. destruct (symbol_walk h v n H) as [k Hk].
  apply (walk_symbol h k v _ Hk n eq_refl (symbol_is _ _ _ H)).
  eapply walk_short; [| | exact Hk]; [intros ? ? ?; eapply symbol_next_slots; eassumption | reflexivity].
Qed.
Lemma pair_key_iff h entry n : pair_key h entry = Some n <-> entry_key is_symbol h entry n.
Proof.
  split.
  - destruct entry as [m|[] a u e]; try discriminate. destruct args as [|r rs]; [discriminate |]. cbn [Model.pair_key].
    destruct (N.eqb_spec tag tag_block_pair) as [->|]; [| discriminate].
    destruct (resolve_ref h e r) as [v|] eqn:E; [| discriminate]. intros H. apply value_symbol_iff in H. exists r, rs, a, u, e, v. auto.
  - intros (r & rs & a & u & e & v & -> & Hr & Hs). cbn [Model.pair_key]. rewrite N.eqb_refl, Hr. apply value_symbol_iff, Hs.
Qed.
Definition keyed (h : heap) (key : native) (entry : mval) : bool :=
  match pair_key h entry with Some k => symbols_equal key k | None => false end.
Lemma keyed_iff h key entry : keyed h key entry = true <-> has_key h key entry.
Proof.
  unfold keyed, LookupSpec.has_key. split.
  - destruct (pair_key h entry) as [k|] eqn:E; [| discriminate]. intros H. exists k. split; [apply pair_key_iff, E | exact H].
  - intros (k & Hk & He). apply pair_key_iff in Hk. rewrite Hk. exact He.
Qed.
Lemma keyed_not h key entry : keyed h key entry = false <-> ~ has_key h key entry.
Proof. rewrite <- keyed_iff. destruct (keyed h key entry); split; congruence. Qed.

(** * Entries *)
Definition scan_next (h : heap) (key : native) (v : mval) : option mval :=
  match v with
  | MClo (SCons tag (head :: tail :: _)) _ _ e =>
      if (tag =? tag_list_cons)%N then
        match resolve_ref h e head with
        | Some entry => if keyed h key entry then None else resolve_ref h e tail
        | None => None
        end
      else None
  | _ => None
  end.
Lemma scan_next_slots h key v w : scan_next h key v = Some w -> (exists n, w = MNat n) \/ exists a j, slot h a j = Some w.
Proof.
  destruct v as [n|[] a u e]; try discriminate. destruct args as [|hd [|tl rest]]; try discriminate. cbn [scan_next].
  destruct (tag =? tag_list_cons)%N; [| discriminate]. destruct (resolve_ref h e hd) as [entry|]; [| discriminate].
  destruct (keyed h key entry); [discriminate | apply resolve_cell].
Qed.
(** What the scan yields where it ends. *)
Definition at_end (h : heap) (key : native) (v : mval) : option mval :=
  match v with
  | MClo (SCons tag (head :: _)) _ _ e =>
      if (tag =? tag_list_cons)%N then
        match resolve_ref h e head with
        | Some (MClo (SCons _ pargs) _ _ pe as entry) =>
            if keyed h key entry then match second pargs with Some r => resolve_ref h pe r | None => None end else None
        | _ => None
        end
      else None
  | _ => None
  end.
Lemma scan_step fuel h key v : scan_entries (S fuel) h key v =
  match scan_next h key v with Some w => scan_entries fuel h key w | None => at_end h key v end.
Proof.
  destruct v as [n|[] a u e]; try reflexivity. cbn [Model.scan_entries].
  destruct args as [|hd rest]; cbn [scan_next at_end]; [destruct (tag =? tag_list_cons)%N; reflexivity |].
  destruct rest as [|tl rest]; cbn [scan_next].
  - destruct (tag =? tag_list_cons)%N; [| reflexivity]. destruct (resolve_ref h e hd) as [entry|]; [| reflexivity].
    fold (keyed h key entry). destruct entry as [n|c a' u' e']; [| destruct c]; destruct (keyed h key _); reflexivity.
  - destruct (tag =? tag_list_cons)%N; [| reflexivity]. destruct (resolve_ref h e hd) as [entry|]; [| reflexivity].
    fold (keyed h key entry). destruct (keyed h key entry) eqn:Ek.
    + destruct entry as [n|c a' u' e']; [reflexivity |]. destruct c; rewrite ?Ek; reflexivity.
    + cbn [second nth_error]. destruct (resolve_ref h e tl); [reflexivity |].
      destruct entry as [n|c a' u' e']; [reflexivity |]. destruct c; rewrite ?Ek; reflexivity.
Qed.
Lemma walk_scan h key k v w : walk (scan_next h key) k v w -> forall fuel, k < fuel -> scan_entries fuel h key v = at_end h key w.
Proof.
  induction 1 as [v Hv | k v w x Hv _ IH]; intros fuel Hf; (destruct fuel as [|fuel]; [lia |]); rewrite scan_step, Hv; [reflexivity |].
  apply IH. lia.
Qed.
Lemma at_end_iff h key v x : scan_next h key v = None -> (at_end h key v = Some x <-> list_finds is_symbol symbols_equal h key v x).
Proof.
  intros Hn. split.
  - destruct v as [n|[] a u e]; try discriminate. destruct args as [|hd rest]; [discriminate |]. cbn [at_end].
    destruct (N.eqb_spec tag tag_list_cons) as [->|]; [| discriminate].
    destruct (resolve_ref h e hd) as [[n|c a' u' e']|] eqn:Eh; try discriminate. destruct c; try discriminate.
    destruct (keyed h key _) eqn:Ek; [| discriminate]. destruct args as [|r0 [|r rs]]; try discriminate. cbn [second nth_error].
    intros Hx. apply keyed_iff in Ek. eapply finds_here; [exact Eh | exact Ek |]. do 7 eexists. split; [reflexivity | exact Hx].
  - intros H. inversion H as [hd args a u e entry y Hr Hk Hv | hd tl args a u e entry w y Hr Hk Ht Hl]; subst.
    + cbn [at_end]. rewrite N.eqb_refl, Hr. apply keyed_iff in Hk. destruct Hv as (tag & r0 & r & rs & a' & u' & e' & -> & Hx).
      rewrite Hk. exact Hx.
    + cbn [scan_next] in Hn. rewrite N.eqb_refl, Hr in Hn. apply keyed_not in Hk. rewrite Hk, Ht in Hn. discriminate.
Qed.
Lemma finds_next h key v w x : scan_next h key v = Some w -> (list_finds is_symbol symbols_equal h key v x <-> list_finds is_symbol symbols_equal h key w x).
Proof.
  destruct v as [n|[] a u e]; try discriminate. destruct args as [|hd [|tl rest]]; try discriminate. cbn [scan_next].
  destruct (N.eqb_spec tag tag_list_cons) as [->|]; [| discriminate]. destruct (resolve_ref h e hd) as [entry|] eqn:Eh; [| discriminate].
  destruct (keyed h key entry) eqn:Ek; [discriminate |]. intros Ht. apply keyed_not in Ek. split.
  - intros H. inversion H; subst; [exfalso; apply Ek; congruence | congruence].
  - intros H. eapply finds_later; eassumption.
Qed.
Lemma finds_walk h key v x : list_finds is_symbol symbols_equal h key v x -> exists k w, walk (scan_next h key) k v w /\ at_end h key w = Some x.
Proof.
  induction 1 as [hd args a u e entry x Hr Hk Hv | hd tl args a u e entry v x Hr Hk Ht Hl (k & w & Hw & He)].
  - assert (Hn : scan_next h key (MClo (SCons tag_list_cons (hd :: args)) a u e) = None).
    { cbn [scan_next]. destruct args; [reflexivity |]. rewrite N.eqb_refl, Hr. apply keyed_iff in Hk. rewrite Hk. reflexivity. }
    exists 0. eexists. split; [constructor; exact Hn |]. apply at_end_iff; [exact Hn |]. eapply finds_here; eassumption.
  - exists (S k), w. split; [| exact He]. econstructor; [| exact Hw]. cbn [scan_next]. rewrite N.eqb_refl, Hr.
    apply keyed_not in Hk. rewrite Hk. exact Ht.
Qed.
Lemma scan_finds fuel h key : forall v x, scan_entries fuel h key v = Some x -> list_finds is_symbol symbols_equal h key v x.
Proof.
  induction fuel as [|fuel IH]; intros v x H; [discriminate |]. rewrite scan_step in H.
  destruct (scan_next h key v) as [w|] eqn:E; [apply (finds_next _ _ _ _ _ E); auto | apply at_end_iff; assumption].
Qed.
Theorem lookup_iff h block key x : lookup_in_block is_symbol symbols_equal h block key = Some x <-> block_finds is_symbol symbols_equal h key block x.
Proof.
  split.
  - destruct block as [n|[] a u e]; try discriminate. destruct args as [|r rs]; [discriminate |]. cbn [lookup_in_block].
    destruct (N.eqb_spec tag tag_block) as [->|]; [| discriminate]. destruct (resolve_ref h e r) as [v|] eqn:E; [| discriminate].
    intros H. apply scan_finds in H. exists r, rs, a, u, e, v. auto.
  - intros (r & rs & a & u & e & v & -> & Hr & Hf). cbn [lookup_in_block]. rewrite N.eqb_refl, Hr.
    destruct (finds_walk _ _ _ _ Hf) as (k & w & Hw & He). rewrite <- He. apply (walk_scan _ _ _ _ _ Hw).
    destruct (resolve_cell _ _ _ _ Hr) as [[n ->] | (b & j & Hs)]; [inversion Hf |].
    eapply walk_shorter; [| | exact Hw | exact Hs]; [intros ? ? ?; eapply scan_next_slots; eassumption | reflexivity].
Qed.
End Lookup.
