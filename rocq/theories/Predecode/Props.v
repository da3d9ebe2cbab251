(** Pre-decoding the byte stream. *)
From Coq Require Import List Bool Arith NArith Lia ZifyN ZifyNat ZifyBool.
From Verif.Simplify Require Import Compress.
From Verif.Bytecode Require Import Model Spec Proofs EncProofs ProgProofs.
From Verif.Bytecode Require Props.
From Verif.Predecode Require Import Model Spec InvProofs NodeProofs RunProofs LocProofs AgreeProofs TotalProofs ByteProofs WholeProofs.
Import ListNotations.
Open Scope N_scope.

(** ** C27: the instruction array is the program in the byte stream *)
Section Decoded.
Context {native : Type} (p : program native) (root : N) (globals : list gform) (D : decoded) (depth steps : nat).
Context (Ok : is_code (p_code p)) (E : decode_program_with depth steps p root globals = Done D).

(** Instructions and the code positions they were decoded from correspond one to one: position [i] of
    the list of offsets holds the offset of instruction [i], no offset has two instructions, and
    there is a location for each. *)
Theorem C27_bijective :
  length (o_instrs D) = length (o_off_of D) /\ length (o_smids D) = length (o_off_of D) /\ NoDup (o_off_of D) /\
  forall i off, nth_error (o_off_of D) i = Some off -> ordinal D off (N.of_nat i).
Proof.
  destruct (whole_ok _ _ _ _ _ _ E Ok) as (d & F). destruct (final_len _ _ _ _ _ F) as [L1 L2]. repeat split; auto.
  - rewrite (f_off _ _ _ _ _ F). eapply off_nodup, (f_inv _ _ _ _ _ F).
  - intros i off H. exact (proj1 (final_off _ _ _ _ _ F _ _ H)).
Qed.

(** An offset that has been given an ordinal leads, through annotations alone, to the node that the
    instruction was decoded from; that node is not an annotation. *)
Theorem C27_resolves : forall off i, ordinal D off i -> exists o n,
  nth_error (o_off_of D) (N.to_nat i) = Some o /\ wraps (p_code p) off o /\
  read_node (p_code p) o = Done n /\ forall s b, n <> NAnn s b.
Proof.
  intros off i H. destruct (whole_li _ _ _ _ _ _ E Ok) as (d & F & L). destruct (resolves _ _ _ _ _ F L _ _ H) as (o & Ho & W).
  destruct (final_off _ _ _ _ _ F _ _ Ho) as (_ & n & En & _). exists o, n. split; [exact Ho|]. split; [exact W|]. split; [exact En|].
  intros s b ->. exact (off_not_ann _ _ _ _ _ F _ _ _ _ Ho En).
Qed.
(** All annotations around one node share its instruction. *)
Theorem C27_folded : forall off o i, wraps (p_code p) off o -> ordinal D off i -> ordinal D o i.
Proof. intros off o i W H. destruct (whole_ok _ _ _ _ _ _ E Ok) as (d & F). exact (wraps_ordinal _ _ _ _ _ F _ _ _ W H). Qed.

(** Each instruction's operands are those of the node at its offset, code positions replaced by
    ordinals. *)
Theorem C27_operands : pools_fit D -> forall i off, nth_error (o_off_of D) i = Some off -> exists n n',
  read_node (p_code p) off = Done n /\ view_at D (N.of_nat i) = Done n' /\ Rnode (ordinal D) n n'.
Proof.
  intros P i off H. destruct (whole_ok _ _ _ _ _ _ E Ok) as (d & F). destruct (final_off _ _ _ _ _ F _ _ H) as (_ & n & En & Hv).
  destruct (Hv P) as (n' & Ev & R). eauto.
Qed.

(** The machine's entry points. *)
Theorem C27_roots : ordinal D root (o_root D) /\ ordinal D (p_blackhole p) (o_blackhole D) /\ ordinal D (p_meta p) (o_meta D) /\
  ordinal D (p_apply1 p) (o_apply1 D) /\ ordinal D (p_apply2 p) (o_apply2 D) /\ ordinal D (p_producer p) (o_producer D) /\
  Forall2 (ordinal D) (p_templates p) (o_templates D) /\ Forall2 (ordinal D) (p_pap p) (o_pap D) /\
  Forall2 (ordinal D) (map g_entry globals) (o_globals D).
Proof. destruct (whole_ok _ _ _ _ _ _ E Ok) as (d & []). repeat split; assumption. Qed.

(** Whatever program the bytes at an offset read as, the instructions from its ordinal on are that
    program, to any depth. *)
Theorem C27_runs : pools_fit D -> forall consts off (t : syn native) i,
  reads (p_code p) consts off t -> ordinal D off i -> runs D consts i t.
Proof.
  intros P consts off t i R H. destruct (whole_li _ _ _ _ _ _ E Ok) as (d & F & L). exact (reads_runs _ _ _ _ _ F L P consts off t R i H).
Qed.

(** Source locations: a node has its own location if that is valid, or that of the innermost valid
    annotation around it, if no annotation outside those leads to it too. *)
Theorem C27_locations : forall consts off (t : syn native) i,
  reads (p_code p) consts off t -> ordinal D off i -> ~ unlocated t ->
  (forall a s b, read_node (p_code p) a = Done (NAnn s b) -> ordinal D a i -> wraps (p_code p) off a) ->
  nth_error (o_smids D) (N.to_nat i) = Some (location t).
Proof. intros consts off t i R H. destruct (whole_li _ _ _ _ _ _ E Ok) as (d & F & L). exact (locations _ _ _ _ _ F L consts off t i R H). Qed.
(** And in any case the location is none, the node's own or that of an annotation leading to it. *)
Theorem C27_location_sound : forall i o s, nth_error (o_off_of D) i = Some o -> nth_error (o_smids D) i = Some s ->
  s = 0 \/ (exists e c l, read_node (p_code p) o = Done (NDirectApp e s c l)) \/ (exists k b f, read_node (p_code p) o = Done (NLookupLit s k b f)) \/
  exists a b, read_node (p_code p) a = Done (NAnn s b) /\ ordinal D a (N.of_nat i).
Proof.
  intros i o s Ho Hs. destruct (whole_li _ _ _ _ _ _ E Ok) as (d & F & L). destruct (location_sound _ _ _ _ _ F L _ _ _ Ho Hs) as [H|[H|H]]; auto.
  unfold own in H. destruct (read_node (p_code p) o) as [[]| |]; try discriminate; inversion H; subst; eauto 7.
Qed.

(** The location in force when a node acts is the same either way, provided the locations on the way
    are valid. *)
Theorem C27_annotation : forall consts off (t : syn native) i ann,
  reads (p_code p) consts off t -> ordinal D off i -> locations_valid t ->
  (forall a s b, read_node (p_code p) a = Done (NAnn s b) -> ordinal D a i -> wraps (p_code p) off a) ->
  byte_annotation (p_code p) (length (p_code p)) off ann = Done (in_force t ann) /\ instr_annotation D i ann = Done (in_force t ann).
Proof.
  intros consts off t i ann R H V U.
  assert (forall t : syn native, locations_valid t -> ~ unlocated t) as Nu by (intros t0; induction t0; cbn; try tauto; intros [A B]; auto).
  split.
  - destruct (reads_chain (p_code p) consts t off R) as [k C]. pose proof (chain_bound _ Ok _ _ C) as B.
    assert (k <= length (p_code p))%nat as B' by lia. clear B U V H. revert B'. generalize (length (p_code p)) as f. revert t R ann.
    induction C as [o n En Na|o s b k En C IH]; intros t R ann f B.
    + assert (exists r, byte_annotation (p_code p) f o ann = Done r) as [r _].
      { destruct f; cbn [byte_annotation]; rewrite En; cbn [obind]; destruct n; eauto; exfalso; eapply Na; reflexivity. }
      destruct f; cbn [byte_annotation]; rewrite En; cbn [obind]; destruct R; cbn [in_force];
        try match goal with A : atom_at _ _ _ _ |- _ => destruct A as (? & ? & ?) end;
        match goal with A : read_node _ _ = Done ?m |- _ => assert (n = m) as -> by congruence end; try reflexivity; exfalso; eapply Na; reflexivity.
    + destruct f as [|f]; [lia|]. cbn [byte_annotation]. rewrite En. cbn [obind].
      inversion R as [? ? (? & ? & ?)| | | | | | |? ? o2 body' E' R2| | | | | |]; subst; try congruence.
      rewrite En in E'. inversion E'; subst. cbn [in_force]. apply IH; [exact R2|lia].
  - unfold instr_annotation. rewrite (C27_locations _ _ _ _ R H (Nu _ V) U). f_equal. clear -V.
    assert (forall (u : syn native) a, locations_valid u -> a <> 0 -> in_force u a <> 0) as W
      by (intros u; induction u; cbn [locations_valid in_force]; intros; try tauto; firstorder).
    revert ann. induction t; intros ann; cbn [locations_valid location in_force] in *; try reflexivity; try (apply N.eqb_neq in V; now rewrite V).
    destruct V as [V1 V2]. rewrite (IHt V2 smid). replace (in_force t smid =? 0) with false; [reflexivity|]. symmetry. apply N.eqb_neq. now apply W.
Qed.

(** The bounds on recursion and iteration in the model are never what stops it. *)
Theorem C27_fuel : decode_program p root globals = Done D.
Proof. exact (decode_depth depth steps p root globals D Ok E). Qed.
End Decoded.

(** Code is decoded whenever it is well formed: there is a set of offsets containing all entry points
    at which nodes can be read, closed under going to a node's parts, with no endless chain of
    annotations. Sharing and cycles among the rest are allowed. *)
Theorem C27_decodes : forall (native : Type) (p : program native) root globals (P : N -> Prop), is_code (p_code p) ->
  roots_in P p root globals ->
  (forall o, P o -> exists n k, read_node (p_code p) o = Done n /\ Forall P (children n) /\ chain (p_code p) k o) ->
  exists D, decode_program p root globals = Done D.
Proof. intros native p root globals P Ok R C. exact (decode_total p root globals P Ok C R). Qed.

Section Encoded.
Context {native : Type} (producer_next : N) (fusible : N -> bool).
Context (Bp : producer_next < 256) (Bf : forall i, fusible i = true -> i < 256).

(** Programs the encoder produces are decoded, and the instructions are the root, every global and
    all the machine's tables. *)
Theorem C27_program : forall (root : syn native) globals p off gs,
  (forall g, In g globals -> form_fits g) -> fits root ->
  encode producer_next fusible root globals = (p, off, gs) -> code_fits (p_code p) = true ->
  exists D, decode_program p off gs = Done D /\
    (pools_fit D -> program_runs producer_next (p_consts p) D (meant_globals fusible globals) /\ runs D (p_consts p) (o_root D) root).
Proof.
  intros root globals p off gs Fg Fr E C. destruct (Props.C26_program producer_next fusible root globals p off gs Bp Bf Fg Fr E C) as [G R].
  assert (is_code (p_code p)) as Ok by (split; [exact (b_whole producer_next fusible Bp _ _ _ _ _ E Fg Fr)|exact C]).
  destruct (program_decodes producer_next p gs _ G off root Ok (encode_tables _ _ _ _ _ _ _ E) R) as [D ED]. exists D. split; [exact ED|].
  intros P. exact (program_decoded producer_next p gs _ G _ _ off root D Ok R ED P).
Qed.
(** The same for a prelude some of whose globals are overridden. *)
Theorem C27_overrides : forall globals base gs overrides (root : syn native) p off gs',
  (forall g, In g globals -> form_fits g) -> (forall o, In o overrides -> form_fits (snd o)) -> fits root ->
  encode_prelude producer_next fusible globals = (base, gs) ->
  encode_overrides_and_root base overrides gs root = (p, off, gs') -> code_fits (p_code p) = true ->
  exists D, decode_program p off gs' = Done D /\
    (pools_fit D -> program_runs producer_next (p_consts p) D
        (map (fun q => overridden overrides (fst q) (snd q)) (combine (seq 0 (length globals)) (meant_globals fusible globals)))
      /\ runs D (p_consts p) (o_root D) root).
Proof.
  intros globals base gs overrides root p off gs' Fg Fo Fr E E' C.
  destruct (Props.C26_overrides producer_next fusible globals base gs overrides root p off gs' Bp Bf Fg Fo Fr E E' C) as [G R].
  assert (is_code (p_code p)) as Ok.
  { split; [|exact C]. apply (b_overridden base overrides gs root p off gs' E'); auto. exact (b_prelude producer_next fusible Bp _ _ _ E Fg). }
  assert (tables p) as T by (eapply overrides_tables; [exact E'|eapply prelude_tables, E]).
  destruct (program_decodes producer_next p gs' _ G off root Ok T R) as [D ED]. exists D. split; [exact ED|].
  intros P. exact (program_decoded producer_next p gs' _ G _ _ off root D Ok R ED P).
Qed.
End Encoded.

(** ** Invalid locations
    The compiler gives lookups in the prelude no location (stg/compiler.rs 1989-1994). The byte
    dispatcher then forgets the location in force, the other one keeps it. *)
Definition tiny_code : list N :=
  [op_lookup_lit; 0; 0; 0; 0; ref_l; 0; 0; 0; 0; ref_l; 1; 0; 0; 0; 19; 0; 0; 0;   (* 0 *)
   op_atom; ref_l; 0; 0; 0; 0;                                                     (* 19 *)
   op_ann; 7; 0; 0; 0; 19; 0; 0; 0;                                                (* 25 *)
   op_seq; 25; 0; 0; 0; 0; 0; 0; 0;                                                (* 34 *)
   op_black_hole;                                                                  (* 43 *)
   op_seq; 44; 0; 0; 0; 34; 0; 0; 0].                                              (* 44 *)
Definition tiny : program nat := mkProgram tiny_code [] [34] [44; 34] 43 34 [43] 25 44 0.
Definition tiny_result : decoded :=
  match decode_program tiny 34 [mkGform 0 0 0 34] with Done D => D | _ => mkDecoded [] [] [] [] [] [] 0 0 [] 0 0 0 0 [] [] [] [] end.
Lemma tiny_is_code : is_code (p_code tiny).
Proof. split; [|reflexivity]. cbn [p_code tiny]. unfold tiny_code, op_lookup_lit, op_atom, op_ann, op_seq, op_black_hole, ref_l. repeat constructor. Qed.
Lemma tiny_decodes_with : decode_program_with (length (p_code tiny)) (length (p_code tiny)) tiny 34 [mkGform 0 0 0 34] = Done tiny_result.
Proof. unfold tiny_result. vm_compute. reflexivity. Qed.
Lemma tiny_decodes : decode_program tiny 34 [mkGform 0 0 0 34] = Done tiny_result.
Proof. exact (C27_fuel _ _ _ _ _ _ tiny_is_code tiny_decodes_with). Qed.
Lemma tiny_lookup : reads (p_code tiny) (p_consts tiny) 0 (SLookupLit 0 (RL 0) (RL 1) (RL 0)).
Proof.
  apply (R_lookup _ _ _ _ (DLocal 0) (DLocal 1) 19); try reflexivity. exists (DLocal 0). split; reflexivity.
Qed.

Theorem C27_annotation_refuted : exists (p : program nat) root globals D off t i ann,
  is_code (p_code p) /\ decode_program p root globals = Done D /\ reads (p_code p) (p_consts p) off t /\ ordinal D off i /\
  byte_annotation (p_code p) (length (p_code p)) off ann = Done 0 /\ instr_annotation D i ann = Done 5.
Proof.
  exists tiny, 34, [mkGform 0 0 0 34], tiny_result, 0, (SLookupLit 0 (RL 0) (RL 1) (RL 0)).
  destruct (ord_lookup (o_ord_of tiny_result) 0) as [i|] eqn:E; [|vm_compute in E; discriminate]. exists i, 5.
  split; [exact tiny_is_code|]. split; [exact tiny_decodes|]. split; [exact tiny_lookup|]. split; [exact E|].
  split; [reflexivity|]. vm_compute in E. injection E as <-. vm_compute. reflexivity.
Qed.

Print Assumptions C27_bijective.
Print Assumptions C27_resolves.
Print Assumptions C27_folded.
Print Assumptions C27_operands.
Print Assumptions C27_roots.
Print Assumptions C27_runs.
Print Assumptions C27_locations.
Print Assumptions C27_location_sound.
Print Assumptions C27_annotation.
Print Assumptions C27_fuel.
Print Assumptions C27_decodes.
Print Assumptions C27_program.
Print Assumptions C27_overrides.
Print Assumptions C27_annotation_refuted.

(** ** Examples
    Code with a cycle, a shared atom and an annotation. *)
Example C27_example_pools : pools_fit tiny_result /\ length (o_instrs tiny_result) = 5%nat /\ o_off_of tiny_result = [34; 44; 43; 19; 0].
Proof. vm_compute. repeat split. Qed.
Example C27_example_runs : runs (native := nat) tiny_result [] 0 (SSeq (SAnn 7 (SAtom (RL 0))) (SLookupLit 0 (RL 0) (RL 1) (RL 0))).
Proof.
  assert (forall o (t : syn nat) i, reads (p_code tiny) [] o t -> ordinal tiny_result o i -> runs tiny_result [] i t) as A.
  { intros o t i R O. exact (C27_runs tiny 34 [mkGform 0 0 0 34] tiny_result _ _ tiny_is_code tiny_decodes_with (proj1 C27_example_pools) [] o t i R O). }
  apply (A 34).
  - apply (R_seq _ _ _ 25 0); [reflexivity| |exact tiny_lookup]. apply (R_ann _ _ _ _ 19); [reflexivity|].
    apply R_atom. exists (DLocal 0). split; reflexivity.
  - vm_compute. reflexivity.
Qed.
Example C27_example_location : nth_error (o_smids tiny_result) 3 = Some 7 /\
  reads (p_code tiny) (p_consts tiny) 25 (SAnn 7 (SAtom (RL 0))) /\ ordinal tiny_result 25 3 /\
  locations_valid (native := nat) (SAnn 7 (SAtom (RL 0))) /\
  byte_annotation tiny_code 54 25 2 = Done 7 /\ instr_annotation tiny_result 3 2 = Done 7.
Proof.
  split; [vm_compute; reflexivity|]. split; [|split; [vm_compute; reflexivity|split; [cbn; lia|split; vm_compute; reflexivity]]].
  apply (R_ann _ _ _ _ 19); [reflexivity|]. apply R_atom. exists (DLocal 0). split; reflexivity.
Qed.
Example C27_example_closed : exists P : N -> Prop, roots_in P tiny 34 [mkGform 0 0 0 34] /\
  (forall o, P o -> exists n k, read_node (p_code tiny) o = Done n /\ Forall P (children n) /\ chain (p_code tiny) k o).
Proof.
  exists (fun o => In o [0; 19; 25; 34; 43; 44]).
  assert (In 0 [0; 19; 25; 34; 43; 44] /\ In 19 [0; 19; 25; 34; 43; 44] /\ In 25 [0; 19; 25; 34; 43; 44] /\ In 34 [0; 19; 25; 34; 43; 44]
    /\ In 43 [0; 19; 25; 34; 43; 44] /\ In 44 [0; 19; 25; 34; 43; 44]) as (I1 & I2 & I3 & I4 & I5 & I6) by (cbn; tauto).
  split.
  - unfold roots_in. cbn [p_templates p_blackhole p_meta p_pap p_apply1 p_apply2 p_producer tiny map g_entry].
    repeat split; repeat (constructor; [assumption|]); try assumption; constructor.
  - intros o [<-|[<-|[<-|[<-|[<-|[<-|[]]]]]]].
    + eexists _, 0%nat. split; [vm_compute; reflexivity|]. split; [cbn [children]; repeat (constructor; [assumption|]); constructor|].
      eapply c_end; [vm_compute; reflexivity|discriminate].
    + eexists _, 0%nat. split; [vm_compute; reflexivity|]. split; [constructor|]. eapply c_end; [vm_compute; reflexivity|discriminate].
    + eexists _, 1%nat. split; [vm_compute; reflexivity|]. split; [cbn [children]; repeat (constructor; [assumption|]); constructor|].
      eapply c_ann; [vm_compute; reflexivity|]. eapply c_end; [vm_compute; reflexivity|discriminate].
    + eexists _, 0%nat. split; [vm_compute; reflexivity|]. split; [cbn [children]; repeat (constructor; [assumption|]); constructor|].
      eapply c_end; [vm_compute; reflexivity|discriminate].
    + eexists _, 0%nat. split; [vm_compute; reflexivity|]. split; [constructor|]. eapply c_end; [vm_compute; reflexivity|discriminate].
    + eexists _, 0%nat. split; [vm_compute; reflexivity|]. split; [cbn [children]; repeat (constructor; [assumption|]); constructor|].
      eapply c_end; [vm_compute; reflexivity|discriminate].
Qed.
