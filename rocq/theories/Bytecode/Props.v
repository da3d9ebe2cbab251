(** The bytecode encoding. *)
From Coq Require Import List Bool Arith NArith Lia.
From Verif.Simplify Require Import Compress.
From Verif.Bytecode Require Import Model Spec Proofs EncProofs ProgProofs WholeProofs SizeProofs.
Import ListNotations.
Open Scope N_scope.

(** ** C26: encoding and decoding *)

Section Native.
Context {native : Type}.
Notation enc := (enc native).
Notation syn := (syn native).

(** Code written so far spends at least five bytes on each constant; the empty encoder does, and
    every encoding step keeps it so. *)
Definition economical (s : enc) : Prop := (5 * length (e_consts s) <= length (e_code s))%nat.

(** Encoding a program of any size or depth onto any code, and decoding from the offset returned,
    gives the program back, provided its parts fit the wire widths and the code fits the offsets. *)
Theorem C26_round_trip : forall (t : syn) s o s', encode_node t s = (o, s') ->
  economical s -> fits t -> code_fits (e_code s') = true ->
  reads (e_code s') (e_consts s') o t.
Proof.
  intros t s o s' E Sp F C. refine (proj2 (encode_good _ F _ _ _ E _)).
  apply spare_small; [eapply encode_spare; [exact E|exact Sp]|exact C].
Qed.
Theorem C26_economical : economical (mkEnc [] []) /\
  forall (t : syn) s o s', encode_node t s = (o, s') -> economical s -> economical s'.
Proof. split; [unfold economical; cbn; lia|intros t s o s' E Sp; exact (encode_spare _ _ _ _ E Sp)]. Qed.

(** Encoding more never disturbs what was encoded before. *)
Theorem C26_appending : forall (t u : syn) s o s' o0, encode_node t s = (o, s') ->
  reads (e_code s) (e_consts s) o0 u -> reads (e_code s') (e_consts s') o0 u.
Proof. intros t u s o s' o0 E R. exact (reads_ext _ _ _ _ (encode_ext _ _ _ _ E) R). Qed.

(** The code at an offset decodes to one program only: nothing the machine acts on is lost. *)
Theorem C26_lossless : forall code consts o (t t' : syn), reads code consts o t -> reads code consts o t' -> same t t'.
Proof. intros code consts o t t' H H'. exact (reads_unique _ _ _ _ H _ H'). Qed.

(** A bound on the size of the code, from the program's shape. *)
Theorem C26_size : forall (t : syn) s o s', encode_node t s = (o, s') ->
  N.of_nat (length (e_code s')) <= N.of_nat (length (e_code s)) + bytes t.
Proof. intros t s o s' E. exact (encode_size _ _ _ _ E). Qed.

(** So two programs with the same encoding are the same program to the machine. *)
Theorem C26_injective : forall (t t' : syn) s o s', encode_node t s = (o, s') -> encode_node t' s = (o, s') ->
  economical s -> fits t -> fits t' -> code_fits (e_code s') = true -> same t t'.
Proof.
  intros t t' s o s' E E' Sp F F' C.
  exact (C26_lossless _ _ _ _ _ (C26_round_trip _ _ _ _ E Sp F C) (C26_round_trip _ _ _ _ E' Sp F' C)).
Qed.

Section Registry.
Context (producer_next : N) (fusible : N -> bool).

(** A whole program: the root, every global, and all the machine's tables. *)
Theorem C26_program : forall (root : syn) globals p off gs,
  producer_next < 256 -> (forall i, fusible i = true -> i < 256) ->
  (forall g, In g globals -> form_fits g) -> fits root ->
  encode producer_next fusible root globals = (p, off, gs) -> code_fits (p_code p) = true ->
  program_ok producer_next p gs (meant_globals fusible globals) /\ reads (p_code p) (p_consts p) off root.
Proof. intros root globals p off gs A B C D E F. exact (encode_whole producer_next fusible root globals p off gs A B C D E F). Qed.

(** A program of less than four gigabytes, by the same bound, always fits. *)
Theorem C26_program_size : forall (root : syn) globals p off gs,
  encode producer_next fusible root globals = (p, off, gs) ->
  46000 + globals_bytes globals + bytes root <= no_branch -> code_fits (p_code p) = true.
Proof. intros root globals p off gs. exact (whole_size producer_next fusible root globals p off gs). Qed.

(** Encoding the prelude ahead of time and a root onto it later is the same as encoding both together. *)
Theorem C26_prelude : forall (root : syn) globals base gs p off,
  encode_prelude producer_next fusible globals = (base, gs) -> encode_root_onto base root = (p, off) ->
  encode producer_next fusible root globals = (p, off, gs).
Proof.
  intros root globals base gs p off E E'. pose proof (prelude_then_root producer_next fusible root globals) as H.
  rewrite E, E' in H. exact H.
Qed.

(** Overriding global slots of a prelude and encoding a root onto it. *)
Theorem C26_overrides : forall globals base gs overrides (root : syn) p off gs',
  producer_next < 256 -> (forall i, fusible i = true -> i < 256) ->
  (forall g, In g globals -> form_fits g) -> (forall o, In o overrides -> form_fits (snd o)) -> fits root ->
  encode_prelude producer_next fusible globals = (base, gs) ->
  encode_overrides_and_root base overrides gs root = (p, off, gs') -> code_fits (p_code p) = true ->
  program_ok producer_next p gs'
    (map (fun q => overridden overrides (fst q) (snd q)) (combine (seq 0 (length globals)) (meant_globals fusible globals)))
  /\ reads (p_code p) (p_consts p) off root.
Proof.
  intros globals base gs overrides root p off gs' Bp Hf Fg Fo Fr E E' C.
  assert (length (meant_globals fusible globals) = length globals) as L.
  { unfold meant_globals. rewrite map_length, combine_length, seq_length. lia. }
  rewrite <- L. apply (overrides_whole producer_next fusible base gs _ overrides root p off gs'); auto.
  - apply (prelude_ok producer_next fusible globals base gs); auto.
    (* the base is a prefix of the whole *)
    unfold encode_overrides_and_root in E'.
    destruct (encode_overrides overrides (p_globals base) gs (mkEnc (p_code base) (p_consts base))) as [[entries gs1] s] eqn:E1.
    destruct (encode_node root s) as [o s'] eqn:E2. inversion E'; subst; clear E'.
    destruct (overrides_ok producer_next fusible _ _ _ _ _ _ _ E1) as (X & _).
    pose proof (ext_len _ _ (ext_trans _ _ _ X (encode_ext _ _ _ _ E2))) as Le. cbn [e_code] in Le.
    unfold code_fits in C |- *. cbn [with_code p_code] in C. apply N.leb_le in C. apply N.leb_le. lia.
  - exact (prelude_spare producer_next fusible globals base gs E).
Qed.

(** Overriding: the last form given for a slot, the others as they were. *)
Theorem C26_overridden : forall (overrides : list (nat * form native)) i f,
  (forall g, ~ In (i, g) overrides) -> overridden overrides i f = f.
Proof.
  intros overrides i f H. unfold overridden.
  destruct (find (fun o => Nat.eqb (fst o) i) (rev overrides)) as [[j g]|] eqn:E; [|reflexivity].
  apply find_some in E. destruct E as [I J]. apply Nat.eqb_eq in J. cbn in J. subst. apply in_rev in I. destruct (H _ I).
Qed.

(** A reference with an unknown tag is an error, not a reference. *)
Theorem C26_unknown_reference : forall code pc tag pc' d,
  read_u8 code pc = Done (tag, pc') -> 2 < tag -> read_ref code pc <> Done d.
Proof.
  intros code pc tag pc' d E H. unfold read_ref. rewrite E. cbn [obind]. destruct (read_u32 code pc') as [[w pc2]| |]; cbn [obind]; try discriminate.
  unfold ref_l, ref_g, ref_v. destruct (tag =? 0) eqn:E0; [apply N.eqb_eq in E0; lia|].
  destruct (tag =? 1) eqn:E1; [apply N.eqb_eq in E1; lia|]. destruct (tag =? 2) eqn:E2; [apply N.eqb_eq in E2; lia|]. discriminate.
Qed.

(** A partial application's trampoline: run in an environment holding the pending arguments, then the
    function, then the arguments supplied before, it calls the function on the supplied arguments
    followed by the pending ones. *)
Theorem C26_partial_application : forall (root : syn) globals p off gs (A : Type) (supplied pending : list A) (f : A),
  producer_next < 256 -> (forall i, fusible i = true -> i < 256) ->
  (forall g, In g globals -> form_fits g) -> fits root ->
  encode producer_next fusible root globals = (p, off, gs) -> code_fits (p_code p) = true ->
  (1 <= length supplied <= 16)%nat -> (1 <= length pending <= 16)%nat ->
  exists o eager callee args, pap_offset p (length supplied) (length pending) = Some o
    /\ reads (p_code p) (p_consts p) o (SApp (RL callee) (map RL args) eager) /\ eager = false
    /\ let env := pending ++ f :: supplied in
       nth_error env (N.to_nat callee) = Some f
       /\ map (fun i => nth_error env (N.to_nat i)) args = map Some (supplied ++ pending).
Proof.
  intros root globals p off gs A supplied pending f Bp Hf Fg Fr E C Ls Lp.
  destruct (C26_program _ _ _ _ _ Bp Hf Fg Fr E C) as [Ok _].
  destruct (ok_pap _ _ _ _ Ok _ _ Ls Lp) as (o & Eo & R).
  set (s := length supplied) in *. set (n := length pending) in *.
  exists o, false, (N.of_nat n), (map N.of_nat (seq (n + 1) s ++ seq 0 n)).
  split; [exact Eo|]. split; [|split; [reflexivity|]].
  { unfold locals in R. rewrite map_map, map_app. exact R. }
  cbn zeta. split.
  - rewrite Nat2N.id. unfold n. rewrite nth_error_app2 by lia. now rewrite Nat.sub_diag.
  - rewrite map_map, !map_app. f_equal.
    + transitivity (map (fun i => nth_error supplied i) (seq 0 s)).
      * assert (forall k, map (fun x => nth_error (pending ++ f :: supplied) (N.to_nat (N.of_nat x))) (seq (n + 1 + k) s) = map (fun i => nth_error supplied i) (seq k s)) as H.
        { generalize s. induction s0 as [|s0 IH]; intros k; [reflexivity|]. cbn [seq map]. f_equal.
          - rewrite Nat2N.id, nth_error_app2 by (unfold n; lia). replace (n + 1 + k - length pending)%nat with (S k) by (unfold n; lia). reflexivity.
          - replace (S (n + 1 + k)) with (n + 1 + S k)%nat by lia. apply IH. }
        specialize (H 0%nat). rewrite Nat.add_0_r in H. exact H.
      * unfold s. clear. induction supplied as [|a l IH]; [reflexivity|]. cbn [length seq map nth_error]. f_equal.
        rewrite <- seq_shift, map_map. exact IH.
    + unfold n. clear. generalize (f :: supplied). intros r. induction pending as [|a l IH]; [reflexivity|].
      cbn [length seq map nth_error app]. rewrite N2Nat.inj_0 || idtac. f_equal.
      rewrite <- seq_shift, map_map. rewrite <- IH. apply map_ext. intros i. rewrite !Nat2N.id. reflexivity.
Qed.
End Registry.

(** ** Beyond the widths *)

(** The widths are not all enforced where programs are made: the compiler rejects a lambda of more than
    255 parameters (stg/compiler.rs 1519) but not an application of more than 255 arguments, and such
    an application decodes as one with none. *)
Theorem C26_args_refuted : forall (c : ref native) args eager s o s',
  encode_node (SApp c args eager) s = (o, s') -> economical s -> code_fits (e_code s') = true ->
  ref_fits c -> length args = 256%nat ->
  reads (e_code s') (e_consts s') o (SApp c [] eager) /\ ~ same (SApp c args eager) (SApp c [] eager).
Proof.
  intros c args eager s o s' E Sp C F L. split.
  - apply (args_overflow c args eager s o s' E); auto. apply spare_small; [exact (encode_spare _ _ _ _ E Sp)|exact C].
  - intros S. inversion S; subst. discriminate L.
Qed.
(** A case with branches for both tag 0 and tag 255 decodes as one with no branches. (Data
    constructors' tags run from 0 to 17.) *)
Theorem C26_wide_table_refuted : exists (t t' : syn) o s,
  encode_node t (mkEnc [] []) = (o, s) /\ code_fits (e_code s) = true /\
  reads (e_code s) (e_consts s) o t' /\ ~ same t t'.
Proof.
  set (t := SCase (SAtom (RL 0)) [(0, SBlackHole); (255, SBlackHole)] None : syn).
  exists t, (SCase (SAtom (RL 0)) [] None). destruct (encode_node t (mkEnc [] [])) as [o s] eqn:E. exists o, s.
  split; [reflexivity|].
  vm_compute in E. apply pair_equal_spec in E. destruct E as [<- <-].
  split; [vm_compute; reflexivity|]. split.
  - eapply R_case; [vm_compute; reflexivity| | | | |].
    + constructor. exists (DLocal 0). split; [vm_compute; reflexivity|reflexivity].
    + intros tag. cbn. unfold match_tag. destruct (tag <? 0); [split; reflexivity|]. destruct (N.to_nat (tag - 0)); split; reflexivity.
    + intros tag o b _ H. discriminate H.
    + cbn. split; intros H; vm_compute in H; discriminate H || reflexivity.
    + intros o f _ H. discriminate H.
  - intros S. inversion S as [| ? ? ? ? ? ? _ H | | | | | ]. specialize (H 0). cbn in H. destruct H as [_ H]. discriminate (H eq_refl).
Qed.
(** A function form of no parameters keeps no source location. *)
Theorem C26_location_refuted : forall o : N, header_info (hdr (FLambda 0 7) o) = (0, false, 0)
  /\ kind_info (FLambda 0 7) = (0, false, 7).
Proof. intros o. split; reflexivity. Qed.
End Native.

Print Assumptions C26_unknown_reference.
Print Assumptions C26_round_trip.
Print Assumptions C26_economical.
Print Assumptions C26_appending.
Print Assumptions C26_lossless.
Print Assumptions C26_size.
Print Assumptions C26_program_size.
Print Assumptions C26_injective.
Print Assumptions C26_program.
Print Assumptions C26_prelude.
Print Assumptions C26_overrides.
Print Assumptions C26_overridden.
Print Assumptions C26_partial_application.
Print Assumptions C26_args_refuted.
Print Assumptions C26_wide_table_refuted.
Print Assumptions C26_location_refuted.

(** ** Examples *)
Definition sample : syn nat :=
  SLet true [(FLambda 2 9, SCase (SAtom (RL 0)) [(3, SAtom (RL 1)); (7, SCons 3 [RV 42%nat]); (3, SBlackHole)] (Some (SApp (RL 2) [RL 0; RV 7%nat] true)));
             (FThunk, SAnn 5 (SSeq (SAtom (RG 4)) (SMeta (RL 0) (RV 42%nat))));
             (FValue, SLookupLit 11 (RV 1%nat) (RL 0) (RG 3))]
    (SDeMeta (SDirectApp 4 (RL 0) [RL 1; RL 2] false) (SBif 17 [RL 0; RL 1]) (SFused 20 (RL 0) (RV 3%nat) SBlackHole)).
Example C26_example_widths : fits sample.
Proof.
  cbn. unfold tags_fit, args_fit. cbn. repeat split; try lia.
  - intros b [<-|[<-|[<-|[]]]]; cbn; lia.
  - intros [[b [[<-|[<-|[<-|[]]]] E]] _]; discriminate E.
Qed.
Example C26_example : exists o s, encode_node sample (mkEnc [] []) = (o, s) /\ economical (mkEnc (native := nat) [] []) /\
  code_fits (e_code s) = true /\ reads (e_code s) (e_consts s) o sample /\ o = 246 /\ length (e_code s) = 285%nat.
Proof.
  destruct (encode_node sample (mkEnc [] [])) as [o s] eqn:E. exists o, s. split; [reflexivity|].
  assert (economical (mkEnc (native := nat) [] [])) as Ec by (unfold economical; cbn; lia).
  assert (code_fits (e_code s) = true) as C by (vm_compute in E; apply pair_equal_spec in E; destruct E as [_ <-]; reflexivity).
  split; [exact Ec|]. split; [exact C|]. split; [exact (C26_round_trip _ _ _ _ E Ec C26_example_widths C)|].
  vm_compute in E. apply pair_equal_spec in E. destruct E as [<- <-]. split; reflexivity.
Qed.
(** A program with two globals, the first of the shape of a strict binary primitive. *)
Definition sample_globals : list (form nat) :=
  [(FLambda 2 3, SCase (SAtom (RL 0)) [] (Some (SBif 0 [RL 0; RL 1]))); (FThunk, sample)].
Example C26_example_forms : forall g, In g sample_globals -> form_fits g.
Proof.
  intros g [<-|[<-|[]]]; split; cbn [fst snd kind_fits]; try lia; try exact I; [|exact C26_example_widths].
  cbn. unfold tags_fit, args_fit. cbn. repeat split; try lia; try intros b []. intros [(b & [] & _) _].
Qed.
Example C26_example_program : exists p off gs, encode 40 (fun i => i =? 0) sample sample_globals = (p, off, gs) /\
  code_fits (p_code p) = true /\
  program_ok 40 p gs [(FLambda 2 3, SFused 0 (RL 0) (RL 1) (SCase (SAtom (RL 0)) [] (Some (SBif 0 [RL 0; RL 1])))); (FThunk, sample)]
  /\ reads (p_code p) (p_consts p) off sample.
Proof.
  destruct (encode 40 (fun i => i =? 0) sample sample_globals) as [[p off] gs] eqn:E. exists p, off, gs. split; [reflexivity|].
  assert (code_fits (p_code p) = true) as C by (apply (C26_program_size _ _ _ _ _ _ _ E); vm_compute; discriminate).
  split; [exact C|]. apply (C26_program 40 (fun i => i =? 0) sample sample_globals p off gs); auto.
  - reflexivity.
  - intros i H. apply N.eqb_eq in H. subst. reflexivity.
  - exact C26_example_forms.
  - exact C26_example_widths.
Qed.
Example C26_example_args : exists o s, encode_node (SApp (RL 0) (repeat (RL 1) 256) false) (mkEnc (native := nat) [] []) = (o, s) /\
  code_fits (e_code s) = true.
Proof.
  destruct (encode_node (SApp (RL 0) (repeat (RL 1) 256) false) (mkEnc (native := nat) [] [])) as [o s] eqn:E.
  exists o, s. split; [reflexivity|]. pose proof (C26_size _ _ _ _ E) as B. unfold code_fits. apply N.leb_le. eapply N.le_trans; [exact B|].
  vm_compute. discriminate.
Qed.
