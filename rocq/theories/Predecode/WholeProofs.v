(** Whole encoded programs, pre-decoded. *)
From Coq Require Import List Bool Arith NArith Lia ZifyN ZifyNat ZifyBool.
From Verif.Simplify Require Import Compress.
From Verif.Bytecode Require Import Model Spec Proofs EncProofs ProgProofs WholeProofs SizeProofs.
From Verif.Predecode Require Import Model Spec InvProofs NodeProofs RunProofs LocProofs AgreeProofs TotalProofs ByteProofs.
Import ListNotations.
Open Scope N_scope.

Section Whole.
Context {native : Type}.
Notation program := (program native).

(** The tables have no other entries than those the specification speaks of. *)
Definition tables (p : program) : Prop := length (p_templates p) = 18%nat /\ length (p_pap p) = 256%nat.
Lemma templates_length (s : enc native) ts s' : encode_templates s = (ts, s') -> length ts = 18%nat.
Proof. unfold encode_templates. generalize (combine (seq 0 (length arities)) arities) (eq_refl : length (combine (seq 0 (length arities)) arities) = 18%nat).
  intros l L E. rewrite <- L. eapply smap_length, E. Qed.
Lemma pap_length (s : enc native) ts s' : encode_pap_templates s = (ts, s') -> length ts = 256%nat.
Proof. unfold encode_pap_templates. generalize pap_pairs (eq_refl : length pap_pairs = 256%nat).
  intros l L E. rewrite <- L. eapply smap_length, E. Qed.
Lemma fixture_tables producer_next fusible globals (s : enc native) f s' : emit_fixtures_and_globals producer_next fusible globals s = (f, s') ->
  length (x_templates f) = 18%nat /\ length (x_pap f) = 256%nat.
Proof.
  unfold emit_fixtures_and_globals.
  destruct (encode_templates s) as [ts s1] eqn:E1. set (s2 := emit [op_black_hole] s1).
  destruct (encode_node (SMeta (RL 0) (RL 1)) s2) as [m s3] eqn:E3.
  destruct (encode_pap_templates s3) as [pap s4] eqn:E4.
  destruct (encode_node (SApp (RL 0) [RL 1] false) s4) as [a1 s5] eqn:E5.
  destruct (encode_node (SApp (RL 0) [RL 1; RL 2] false) s5) as [a2 s6] eqn:E6.
  destruct (encode_node (SBif producer_next [RL 0]) s6) as [pr s7] eqn:E7.
  destruct (smap _ _ s7) as [gs s8] eqn:E8. intros E. apply pair_equal_spec in E. destruct E as [<- _]. cbn [x_templates x_pap].
  split; [exact (templates_length _ _ _ E1)|exact (pap_length _ _ _ E4)].
Qed.
Local Opaque emit_fixtures_and_globals.
Lemma encode_tables producer_next fusible root globals (p : program) off gs : encode producer_next fusible root globals = (p, off, gs) -> tables p.
Proof.
  unfold encode. destruct (emit_fixtures_and_globals producer_next fusible globals (mkEnc [] [])) as [f s] eqn:E1.
  destruct (encode_node root s) as [o s']. intros E. apply pair_equal_spec in E. destruct E as [E _]. apply pair_equal_spec in E. destruct E as [<- _].
  apply fixture_tables in E1. exact E1.
Qed.
Lemma prelude_tables producer_next fusible globals (base : program) gs : encode_prelude producer_next fusible globals = (base, gs) -> tables base.
Proof.
  unfold encode_prelude. destruct (emit_fixtures_and_globals producer_next fusible globals (mkEnc [] [])) as [f s] eqn:E1.
  intros E. apply pair_equal_spec in E. destruct E as [<- _]. apply fixture_tables in E1. exact E1.
Qed.
Lemma overrides_tables (base : program) overrides forms root (p : program) off gs :
  encode_overrides_and_root base overrides forms root = (p, off, gs) -> tables base -> tables p.
Proof.
  unfold encode_overrides_and_root.
  destruct (encode_overrides overrides (p_globals base) forms (mkEnc (p_code base) (p_consts base))) as [[entries gs1] s].
  destruct (encode_node root s) as [o s']. intros E. apply pair_equal_spec in E. destruct E as [E _]. apply pair_equal_spec in E. destruct E as [<- _]. auto.
Qed.

Lemma fields_all tag : (tag < 18)%nat -> exists n, constructor_fields tag = Some n.
Proof. intros H. do 18 (destruct tag as [|tag]; [eexists; reflexivity|]). lia. Qed.
Lemma pap_all i : (i < 256)%nat -> exists s n, (1 <= s <= 16)%nat /\ (1 <= n <= 16)%nat /\ i = ((s - 1) * 16 + (n - 1))%nat.
Proof.
  intros H. exists (S (i / 16)), (S (i mod 16)). pose proof (Nat.div_mod i 16 ltac:(lia)). pose proof (Nat.mod_upper_bound i 16 ltac:(lia)).
  split; [|split]; [|lia|]; [|lia]. split; [lia|]. apply le_n_S. assert (i / 16 < 16)%nat by (apply Nat.div_lt_upper_bound; lia). lia.
Qed.
Lemma pap_nth (p : program) s n : (1 <= s <= 16)%nat -> (1 <= n <= 16)%nat -> pap_offset p s n = nth_error (p_pap p) ((s - 1) * 16 + (n - 1)).
Proof.
  intros Hs Hn. unfold pap_offset, pap_max. replace (Nat.eqb s 0) with false by lia. replace (Nat.eqb n 0) with false by lia.
  replace (Nat.ltb 16 s) with false by lia. replace (Nat.ltb 16 n) with false by lia. reflexivity.
Qed.

Section Program.
Context (producer_next : N) (p : program) (gs : list gform) (globals : list (form native)) (G : program_ok producer_next p gs globals).
Lemma program_roots root t : tables p -> reads (p_code p) (p_consts p) root t -> roots_in (readable (p_code p) (p_consts p)) p root gs.
Proof.
  intros [T1 T2] R. unfold roots_in, readable. repeat split.
  - eauto.
  - apply Forall_map. pose proof (ok_globals _ _ _ _ G) as F. clear -F. induction F as [|m g l l' [_ H] F IH]; constructor; eauto.
  - apply Forall_forall. intros o I. apply In_nth_error in I. destruct I as [tag I].
    destruct (fields_all tag) as [n En]; [rewrite <- T1; apply nth_error_Some; congruence|].
    destruct (ok_templates _ _ _ _ G tag n En) as (o' & Eo & H). assert (o' = o) as -> by congruence. eauto.
  - eexists. apply (ok_blackhole _ _ _ _ G).
  - eexists. apply (ok_meta _ _ _ _ G).
  - eexists. apply (ok_apply1 _ _ _ _ G).
  - eexists. apply (ok_apply2 _ _ _ _ G).
  - eexists. apply (ok_producer _ _ _ _ G).
  - apply Forall_forall. intros o I. apply In_nth_error in I. destruct I as [i I].
    destruct (pap_all i) as (s & n & Hs & Hn & ->); [rewrite <- T2; apply nth_error_Some; congruence|].
    destruct (ok_pap _ _ _ _ G s n Hs Hn) as (o' & Eo & H). rewrite (pap_nth p s n Hs Hn), I in Eo. inversion Eo; subst. eauto.
Qed.
Lemma program_decodes root t : is_code (p_code p) -> tables p -> reads (p_code p) (p_consts p) root t -> exists D, decode_program p root gs = Done D.
Proof. intros Ok T R. exact (decode_total p root gs (readable (p_code p) (p_consts p)) Ok (readable_closed (p_code p) (p_consts p)) (program_roots root t T R)). Qed.
Lemma nth_F2 {A B} (R : A -> B -> Prop) l l' i a : Forall2 R l l' -> nth_error l i = Some a -> exists b, nth_error l' i = Some b /\ R a b.
Proof. intros F. revert i. induction F as [|x y l l' H F IH]; intros [|i] E; cbn in E; try discriminate; [inversion E; subst; cbn; eauto|cbn; eauto]. Qed.
Lemma program_decoded depth steps root t D : is_code (p_code p) -> reads (p_code p) (p_consts p) root t ->
  decode_program_with depth steps p root gs = Done D -> pools_fit D ->
  program_runs producer_next (p_consts p) D globals /\ runs D (p_consts p) (o_root D) t.
Proof.
  intros Ok R E P. destruct (whole_li _ _ _ _ _ _ E Ok) as (d & F & L).
  pose proof (fun off t => reads_runs p root gs D d F L P (p_consts p) off t) as RR.
  split; [|apply (RR root); [exact R|apply (f_root _ _ _ _ _ F)]]. constructor.
  - intros tag n En. destruct (ok_templates _ _ _ _ G tag n En) as (o & Eo & H). destruct (nth_F2 _ _ _ _ _ (f_templates _ _ _ _ _ F) Eo) as (i & Ei & Hi). exists i. split; [exact Ei|]. exact (RR o _ H i Hi).
  - eapply RR; [apply (ok_blackhole _ _ _ _ G)|apply (f_blackhole _ _ _ _ _ F)].
  - eapply RR; [apply (ok_meta _ _ _ _ G)|apply (f_meta _ _ _ _ _ F)].
  - intros s n Hs Hn. destruct (ok_pap _ _ _ _ G s n Hs Hn) as (o & Eo & H). rewrite (pap_nth p s n Hs Hn) in Eo.
    destruct (nth_F2 _ _ _ _ _ (f_pap _ _ _ _ _ F) Eo) as (i & Ei & Hi). exists i. split; [exact Ei|]. exact (RR o _ H i Hi).
  - eapply RR; [apply (ok_apply1 _ _ _ _ G)|apply (f_apply1 _ _ _ _ _ F)].
  - eapply RR; [apply (ok_apply2 _ _ _ _ G)|apply (f_apply2 _ _ _ _ _ F)].
  - eapply RR; [apply (ok_producer _ _ _ _ G)|apply (f_producer _ _ _ _ _ F)].
  - pose proof (f_globals _ _ _ _ _ F) as Fg. pose proof (ok_globals _ _ _ _ G) as F2. revert Fg. generalize (o_globals D). clear -F2 RR.
    induction F2 as [|m g l l' [_ H] F2 IH]; intros os Fg; cbn [map] in Fg; inversion Fg as [|? i ? ? Hi Ft]; subst; [constructor|]. constructor; [exact (RR _ _ H i Hi)|exact (IH _ Ft)].
Qed.
End Program.
End Whole.
