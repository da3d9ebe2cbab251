(** Decoding one node. *)
From Coq Require Import List Bool Arith NArith Lia ZifyN ZifyNat ZifyBool.
From Verif.Simplify Require Import Compress.
From Verif.Bytecode Require Import Model Spec Proofs EncProofs.
From Verif.Predecode Require Import Model Spec InvProofs.
Import ListNotations.
Open Scope N_scope.

(** ** Packing *)
Lemma make_ref_tag r : make_ref (ref_tag r) (ref_payload r) = r.
Proof. destruct r; reflexivity. Qed.
Lemma land_one f : N.land f 1 = 0 \/ N.land f 1 = 1.
Proof. change 1 with (N.ones 1). rewrite N.land_ones. change (2 ^ 1) with 2. pose proof (N.mod_lt f 2 ltac:(discriminate)) as H. destruct (f mod 2) as [|p]; [now left|]. right. destruct p; try reflexivity; exfalso; destruct p; cbv in H; discriminate H. Qed.
Lemma flags_eager f r : N.land (N.lor (N.land f 1) (N.shiftl (ref_tag r) 1)) 1 = N.land f 1.
Proof. destruct (land_one f) as [-> | ->]; destruct r; reflexivity. Qed.
Lemma flags_callable f r : make_ref (N.shiftr (N.lor (N.land f 1) (N.shiftl (ref_tag r) 1)) 1) (ref_payload r) = r.
Proof. destruct (land_one f) as [-> | ->]; destruct r; reflexivity. Qed.
Lemma flags_first r r' : make_ref (N.lor (ref_tag r) (N.shiftl (ref_tag r') 2)) (ref_payload r) = r.
Proof. destruct r, r'; reflexivity. Qed.
Lemma flags_second r r' : make_ref (N.shiftr (N.lor (ref_tag r) (N.shiftl (ref_tag r') 2)) 2) (ref_payload r') = r'.
Proof. destruct r, r'; reflexivity. Qed.
Lemma slice_end {A} (l r : list A) start len : start = N.of_nat (length l) -> len = N.of_nat (length r) ->
  slice (l ++ r) start len = Done r.
Proof.
  intros -> ->. unfold slice. rewrite app_length.
  replace (N.of_nat (length l) + N.of_nat (length r) <=? N.of_nat (length l + length r)) with true by (symmetry; apply N.leb_le; lia).
  f_equal. rewrite !Nat2N.id, skipn_app, skipn_all, Nat.sub_diag. cbn. apply firstn_all.
Qed.

Ltac ubind E a d1 E1 := apply bind_inv in E; destruct E as (a & d1 & E1 & E).
Ltac ulift E1 := apply lift_inv in E1; let Ex := fresh in let x := fresh in destruct E1 as (x & E1 & Ex);
  apply pair_equal_spec in Ex; destruct Ex; subst x; match goal with H : ?a = ?b |- _ => is_var a; subst a end.

Section Code.
Context (code : list N) (Ok : is_code code) (fuel : nat).
Notation inv := (inv code).
Notation assigned := (assigned code).

(** A state that differs by additions to the pools. *)
Lemma pool_inv cur d refs offsets headers branches : inv cur d ->
  prefix (d_refs d) refs -> prefix (d_offsets d) offsets -> prefix (d_headers d) headers -> prefix (d_branches d) branches ->
  let d' := mkDec (d_ord d) (d_off d) (d_instrs d) (d_smids d) refs offsets headers branches (d_queue d) in
  inv cur d' /\ grows d d'.
Proof.
  intros V P1 P2 P3 P4 d'. assert (grows d d') as G by (constructor; cbn; auto using prefix_refl).
  split; [|exact G]. destruct V as [v1 v2 v3 v4 v5 v6 v7 v8 v9 v10]. constructor; cbn; auto.
  intros i x H. apply (done_mono code d); auto.
Qed.
Definition stepped (cur : option N) (d d' : dec) : Prop := inv cur d' /\ grows d d'.
Lemma stepped_refl cur d : inv cur d -> stepped cur d d.
Proof. split; [assumption|apply grows_refl]. Qed.
Lemma stepped_trans cur a b c : stepped cur a b -> stepped cur b c -> stepped cur a c.
Proof. intros [_ G] [V G']. split; [exact V|eapply grows_trans; eauto]. Qed.
Lemma assigned_stepped cur d d' : assigned cur d d' -> stepped cur d d'.
Proof. intros A. split; apply A. Qed.

Definition maps (d : dec) (o i : N) : Prop := ord_lookup (d_ord d) o = Some i.
Lemma maps_grows d d' o i : grows d d' -> maps d o i -> maps d' o i.
Proof. intros G. apply (g_ord _ _ G). Qed.
Lemma maps_all d d' os is : grows d d' -> Forall2 (maps d) os is -> Forall2 (maps d') os is.
Proof. intros G. apply F2_impl. intros a b. now apply maps_grows. Qed.

(** ** Pool pushes *)
Lemma each_refs offs : forall d u d' cur, each (fun off => do r <- lift (arg_ref code off); push_ref r) offs d = Done (u, d') ->
  inv cur d -> stepped cur d d' /\ exists rs, arg_refs code offs = Done rs /\ d_refs d' = d_refs d ++ rs
    /\ d_offsets d' = d_offsets d /\ d_headers d' = d_headers d /\ d_branches d' = d_branches d /\ d_ord d' = d_ord d /\ d_off d' = d_off d /\ d_smids d' = d_smids d /\ d_instrs d' = d_instrs d.
Proof.
  induction offs as [|o offs IH]; intros d u d' cur E V; cbn [each] in E.
  - inversion E; subst. split; [now apply stepped_refl|]. exists []. rewrite app_nil_r. unfold arg_refs. cbn. auto 10.
  - ubind E x d1 E1. ubind E1 r d2 E2. ulift E2. inversion E1; subst; clear E1.
    destruct (pool_inv cur d (d_refs d ++ [r]) (d_offsets d) (d_headers d) (d_branches d) V) as [V1 G1]; auto using prefix_refl, prefix_snoc.
    destruct (IH _ _ _ _ E V1) as [S2 (rs & A & B)]. split; [eapply stepped_trans; [split; [exact V1|exact G1]|exact S2]|].
    exists (r :: rs). cbn [d_refs d_offsets d_headers d_branches d_ord d_off d_smids d_instrs] in B. unfold arg_refs in *. cbn [map collect]. rewrite E2. cbn [obind]. rewrite A.
    split; [reflexivity|]. rewrite <- app_assoc in B. exact B.
Qed.
Lemma push_refs_ok cur offs d start len d' : push_refs code offs d = Done (start, len, d') -> inv cur d ->
  (length offs < 256)%nat ->
  stepped cur d d' /\ exists rs, arg_refs code offs = Done rs /\ (pools_small d' -> slice (d_refs d') start len = Done rs).
Proof.
  intros E V L. unfold push_refs in E. ubind E st d1 E1. inversion E1; subst; clear E1. ubind E u d2 E1. inversion E; subst; clear E.
  destruct (each_refs _ _ _ _ _ E1 V) as [S (rs & A & B & _)]. split; [exact S|]. exists rs. split; [exact A|]. intros P.
  pose proof (pools_small_back _ _ (proj2 S) P) as (P1 & _).
  assert (length rs = length offs) as Lr.
  { clear -A. revert rs A. unfold arg_refs. induction offs as [|o offs IH]; intros rs A; cbn [map collect] in A; [now inversion A|].
    destruct (arg_ref code o); cbn [obind] in A; try discriminate. destruct (collect _) as [l| |] eqn:E; try discriminate. cbn [obind] in A. inversion A; subst. cbn. f_equal. now apply IH. }
  rewrite B. apply slice_end; [unfold u32; apply N.mod_small; exact P1|]. rewrite Lr. unfold u16. apply N.mod_small. lia.
Qed.
Lemma each_offsets offs : forall d u d' cur, each (fun off => do ord <- ordinal_for code fuel off; push_offset ord) offs d = Done (u, d') ->
  inv cur d -> stepped cur d d' /\ exists os, Forall2 (maps d') offs os /\ d_offsets d' = d_offsets d ++ os.
Proof.
  induction offs as [|o offs IH]; intros d u d' cur E V; cbn [each] in E.
  - inversion E; subst. split; [now apply stepped_refl|]. exists []. rewrite app_nil_r. split; [constructor|reflexivity].
  - ubind E x d1 E1. ubind E1 i d2 E2. inversion E1; subst; clear E1.
    destruct (ordinal_for_assigned code Ok _ _ _ _ _ _ E2 V) as [A M].
    destruct (pool_inv cur d2 (d_refs d2) (d_offsets d2 ++ [i]) (d_headers d2) (d_branches d2) (a_inv _ _ _ _ A)) as [V1 G1]; auto using prefix_refl, prefix_snoc.
    destruct (IH _ _ _ _ E V1) as [S2 (os & B & C)].
    split; [eapply stepped_trans; [apply assigned_stepped, A|]; eapply stepped_trans; [split; [exact V1|exact G1]|exact S2]|].
    exists (i :: os). split.
    + constructor; [|exact B]. apply (maps_grows _ _ _ _ (proj2 S2)). exact M.
    + cbn [d_offsets] in C. rewrite C, <- app_assoc, (a_offsets _ _ _ _ A). reflexivity.
Qed.
Lemma push_offsets_ok cur offs d start len d' : push_offsets code fuel offs d = Done (start, len, d') -> inv cur d ->
  (length offs < 256)%nat ->
  stepped cur d d' /\ exists os, Forall2 (maps d') offs os /\ (pools_small d' -> slice (d_offsets d') start len = Done os).
Proof.
  intros E V L. unfold push_offsets in E. ubind E st d1 E1. inversion E1; subst; clear E1. ubind E u d2 E1. inversion E; subst; clear E.
  destruct (each_offsets _ _ _ _ _ E1 V) as [S (os & A & B)]. split; [exact S|]. exists os. split; [exact A|]. intros P.
  pose proof (pools_small_back _ _ (proj2 S) P) as (_ & P1 & _).
  rewrite B. apply slice_end; [unfold u32; apply N.mod_small; exact P1|]. rewrite <- (Forall2_len _ _ _ A). unfold u16. apply N.mod_small. lia.
Qed.
Lemma push_branches_ok cur n : forall pc d pc' d', push_branches code fuel n pc d = Done (pc', d') -> inv cur d ->
  stepped cur d d' /\ exists es ms, read_many (read_u32 code) n pc = Done (es, pc') /\ d_branches d' = d_branches d ++ ms
    /\ Forall2 (Ropt (maps d')) (map entry_of es) (map entry_of ms) /\ length es = length ms.
Proof.
  induction n as [|n IH]; intros pc d pc' d' E V; cbn [push_branches] in E.
  - inversion E; subst. split; [now apply stepped_refl|]. exists [], []. rewrite app_nil_r. repeat split; auto. constructor.
  - ubind E ep d1 E1. ulift E1. destruct ep as [e pc1]. ubind E m d2 E2. ubind E u d3 E3. inversion E3; subst; clear E3.
    assert (assigned cur d d2 /\ (if e =? no_branch then m = no_branch else maps d2 e m)) as [A M].
    { destruct (e =? no_branch); [inversion E2; subst; split; [now apply assigned_refl|reflexivity]|]. exact (ordinal_for_assigned code Ok _ _ _ _ _ _ E2 V). }
    destruct (pool_inv cur d2 (d_refs d2) (d_offsets d2) (d_headers d2) (d_branches d2 ++ [m]) (a_inv _ _ _ _ A)) as [V1 G1]; auto using prefix_refl, prefix_snoc.
    destruct (IH _ _ _ _ E V1) as [S2 (es & ms & B & C & D & L)].
    split; [eapply stepped_trans; [apply assigned_stepped, A|]; eapply stepped_trans; [split; [exact V1|exact G1]|exact S2]|].
    exists (e :: es), (m :: ms). split; [cbn [read_many]; rewrite E1; cbn [obind]; rewrite B; reflexivity|]. split; [|split].
    + cbn [d_branches] in C. rewrite C, <- app_assoc, (a_branches _ _ _ _ A). reflexivity.
    + cbn [map]. constructor; [|exact D]. unfold entry_of at 1. destruct (e =? no_branch).
      * subst m. unfold entry_of. rewrite N.eqb_refl. exact I.
      * pose proof (ordinal_small code Ok _ _ _ _ (a_inv _ _ _ _ A) M) as Sm. unfold entry_of.
        replace (m =? no_branch) with false by (symmetry; apply N.eqb_neq; lia). cbn.
        apply (maps_grows _ _ _ _ (proj2 S2)). exact M.
    + cbn. now rewrite L.
Qed.
Lemma push_headers_ok cur n : forall pc d pc' d', push_headers code fuel n pc d = Done (pc', d') -> inv cur d ->
  stepped cur d d' /\ exists hs ms, read_many (read_form_header code) n pc = Done (hs, pc') /\ d_headers d' = d_headers d ++ ms
    /\ Forall2 (Rheader (maps d')) hs ms.
Proof.
  induction n as [|n IH]; intros pc d pc' d' E V; cbn [push_headers] in E.
  - inversion E; subst. split; [now apply stepped_refl|]. exists [], []. rewrite app_nil_r. repeat split; auto.
  - ubind E ep d1 E1. ulift E1. destruct ep as [h pc1]. ubind E m d2 E2. ubind E u d3 E3. inversion E3; subst; clear E3.
    destruct (ordinal_for_assigned code Ok _ _ _ _ _ _ E2 V) as [A M].
    set (h' := mkHeader _ _ _ m) in *.
    destruct (pool_inv cur d2 (d_refs d2) (d_offsets d2) (d_headers d2 ++ [h']) (d_branches d2) (a_inv _ _ _ _ A)) as [V1 G1]; auto using prefix_refl, prefix_snoc.
    destruct (IH _ _ _ _ E V1) as [S2 (es & ms & B & C & D)].
    split; [eapply stepped_trans; [apply assigned_stepped, A|]; eapply stepped_trans; [split; [exact V1|exact G1]|exact S2]|].
    exists (h :: es), (h' :: ms). split; [cbn [read_many]; rewrite E1; cbn [obind]; rewrite B; reflexivity|]. split.
    + cbn [d_headers] in C. rewrite C, <- app_assoc, (a_headers _ _ _ _ A). reflexivity.
    + constructor; [|exact D]. repeat split. apply (maps_grows _ _ _ _ (proj2 S2)). exact M.
Qed.

(** ** One node *)
Definition decoded_as (d : dec) (n : node N) (x : instr) : Prop :=
  pools_small d -> forall smid, exists n', view (d_refs d) (d_offsets d) (d_headers d) (d_branches d) smid x = Done n' /\ Rnode (maps d) n n'.
Ltac known op H := apply N.eqb_eq in H; subst op;
  repeat match goal with |- context [?a =? ?b] => let v := eval compute in (a =? b) in change (a =? b) with v end;
  cbn [orb]; cbv iota.
Ltac rn E0 := unfold read_node; rewrite E0; cbn [obind];
  repeat match goal with |- context [?a =? ?b] => let v := eval compute in (a =? b) in change (a =? b) with v end;
  cbn [orb]; cbv iota;
  repeat match goal with H : ?r = Done _ |- context [obind ?r _] => rewrite H; cbn [obind] end.
Ltac vw := unfold view; cbv zeta; cbn [i_op i_flags i_len i_a i_b i_c];
  repeat match goal with |- context [?a =? ?b] => let v := eval compute in (a =? b) in change (a =? b) with v end;
  cbn [orb]; cbv iota.
Lemma decode_node_ok ord off d x d' : decode_node code fuel off ord d = Done (x, d') -> inv (Some ord) d ->
  stepped (Some ord) d d' /\ exists n, read_node code off = Done n /\ decoded_as d' n x.
Proof.
  intros E V. unfold decode_node in E. ubind E a d0 E0. ulift E0. destruct a as [op pc].
  destruct (op =? op_atom) eqn:O1.
  { known op O1. ubind E a d1 E1. ulift E1. destruct a as [r pc1]. inversion E; subst. split; [now apply stepped_refl|].
    eexists; split; [rn E0; reflexivity|]. intros P smid. vw. eexists; split; [reflexivity|]. cbn. unfold atom_ref. cbn. symmetry; apply make_ref_tag. }
  destruct (op =? op_cons) eqn:O2.
  { known op O2. ubind E a d1 E1. ulift E1. destruct a as [tag pc1]. ubind E a d1 E2. ulift E2. destruct a as [offs pc2].
    ubind E a d1 E3. destruct a as [start len]. inversion E; subst; clear E.
    destruct (push_refs_ok _ _ _ _ _ _ E3 V (args_length code Ok _ _ _ E2)) as [S (rs & A & B)]. split; [exact S|].
    eexists; split; [rn E0; reflexivity|]. intros P smid. vw. rewrite (B P). eexists; split; [reflexivity|]. cbn. split; [|reflexivity].
    unfold tag_byte, u8. cbn. symmetry; apply N.mod_small. exact (proj1 (byte_lt code Ok _ _ _ E1)). }
  destruct (op =? op_bif) eqn:O3.
  { known op O3. ubind E a d1 E1. ulift E1. destruct a as [tag pc1]. ubind E a d1 E2. ulift E2. destruct a as [offs pc2].
    ubind E a d1 E3. destruct a as [start len]. inversion E; subst; clear E.
    destruct (push_refs_ok _ _ _ _ _ _ E3 V (args_length code Ok _ _ _ E2)) as [S (rs & A & B)]. split; [exact S|].
    eexists; split; [rn E0; reflexivity|]. intros P smid. vw. rewrite (B P). eexists; split; [reflexivity|]. cbn. split; [|reflexivity].
    unfold tag_byte, u8. cbn. symmetry; apply N.mod_small. exact (proj1 (byte_lt code Ok _ _ _ E1)). }
  destruct (op =? op_case) eqn:O4.
  { known op O4. ubind E a d1 E1. ulift E1. destruct a as [so pc1].
    ubind E scr d1 E2. destruct (ordinal_for_assigned code Ok _ _ _ _ _ _ E2 V) as [A1 M1]. pose proof (a_inv _ _ _ _ A1) as V1.
    ubind E a d2 E3. ulift E3. destruct a as [min pc2]. ubind E a d2 E4. ulift E4. destruct a as [len pc3].
    ubind E start d2 E5. inversion E5; subst start; subst d2; clear E5. ubind E pc4 d3 E6.
    destruct (push_branches_ok _ _ _ _ _ _ E6 V1) as [S2 (es & ms & B & C & F & L)]. destruct S2 as [V2 G2].
    ubind E a d4 E7. ulift E7. destruct a as [fbf pc5]. ubind E fb d5 E8. inversion E; subst; clear E.
    assert (assigned (Some ord) d3 d' /\ exists fo, (if fbf =? 1 then exists z, obind (read_u32 code pc5) (fun '(fb, _) => Done (NCase so min (map entry_of es) (Some fb))) = Done z /\ z = NCase so min (map entry_of es) fo else fo = None)
      /\ Ropt (maps d') fo (entry_of fb)) as [A3 (fo & Hf & Rf)].
    { destruct (fbf =? 1).
      - ubind E8 a d4 E9. ulift E9. destruct a as [fo pc6]. destruct (ordinal_for_assigned code Ok _ _ _ _ _ _ E8 V2) as [A3 M3].
        split; [exact A3|]. exists (Some fo). split.
        + eexists; split; [rewrite E9; reflexivity|reflexivity].
        + pose proof (ordinal_small code Ok _ _ _ _ (a_inv _ _ _ _ A3) M3) as Sm. unfold entry_of.
          replace (fb =? no_branch) with false by (symmetry; apply N.eqb_neq; lia). exact M3.
      - inversion E8; subst. split; [now apply assigned_refl|]. exists None. split; [reflexivity|]. unfold entry_of. rewrite N.eqb_refl. exact I. }
    split; [eapply stepped_trans; [apply assigned_stepped, A1|]; eapply stepped_trans; [split; [exact V2|exact G2]|apply assigned_stepped, A3]|].
    assert (G13 : grows d1 d') by (eapply grows_trans; [exact G2|apply A3]).
    exists (NCase so min (map entry_of es) fo). split.
    { rn E0. unfold read_branch_table. rewrite E3. cbn [obind]. rewrite E4. cbn [obind]. rewrite B. cbn [obind]. rewrite E7. cbn [obind].
      destruct (fbf =? 1); [destruct Hf as (z & -> & ->); reflexivity|subst fo; reflexivity]. }
    intros P smid. vw. rewrite (a_branches _ _ _ _ A3), C.
    pose proof (proj1 (byte_lt code Ok _ _ _ E4)) as Ll.
    rewrite slice_end.
    - cbn [obind]. eexists; split; [reflexivity|]. cbn. repeat split.
      + apply (maps_grows _ _ _ _ G13). exact M1.
      + revert F. apply F2_impl. intros [a|] [b|]; cbn; auto. apply maps_grows. apply A3.
      + exact Rf.
    - unfold u32. apply N.mod_small. pose proof (pools_small_back _ _ G13 P) as (_ & _ & _ & P4). exact P4.
    - rewrite <- L, (many_length _ _ _ _ _ B). unfold u16. rewrite N.mod_small by lia. lia. }
  destruct (op =? op_seq) eqn:O5.
  { known op O5. ubind E a d1 E1. ulift E1. destruct a as [so pc1].
    ubind E scr d1 E2. destruct (ordinal_for_assigned code Ok _ _ _ _ _ _ E2 V) as [A1 M1]. pose proof (a_inv _ _ _ _ A1) as V1.
    ubind E a d2 E3. ulift E3. destruct a as [bo pc2].
    ubind E body d2 E4. destruct (ordinal_for_assigned code Ok _ _ _ _ _ _ E4 V1) as [A2 M2]. inversion E; subst; clear E.
    split; [eapply stepped_trans; apply assigned_stepped; eassumption|].
    eexists; split; [rn E0; reflexivity|]. intros P smid. vw. eexists; split; [reflexivity|]. cbn. split; [|exact M2].
    eapply maps_grows; [apply A2|exact M1]. }
  destruct (op =? op_ann) eqn:O6; [discriminate|].
  destruct (op =? op_fused_primop) eqn:O7.
  { known op O7. ubind E a d1 E1. ulift E1. destruct a as [id pc1].
    ubind E a d1 E2. ulift E2. destruct a as [lo pc2].
    ubind E lm d1 E3. destruct (ordinal_for_assigned code Ok _ _ _ _ _ _ E3 V) as [A1 M1]. pose proof (a_inv _ _ _ _ A1) as V1.
    ubind E a d2 E4. ulift E4. destruct a as [ro pc3].
    ubind E rm d2 E5. destruct (ordinal_for_assigned code Ok _ _ _ _ _ _ E5 V1) as [A2 M2]. inversion E; subst; clear E.
    split; [eapply stepped_trans; apply assigned_stepped; eassumption|].
    eexists; split; [rn E0; reflexivity|]. intros P smid. vw. eexists; split; [reflexivity|]. cbn. split; [reflexivity|]. split; [|exact M2].
    eapply maps_grows; [apply A2|exact M1]. }
  destruct (op =? op_black_hole) eqn:O8.
  { known op O8. inversion E; subst. split; [now apply stepped_refl|].
    eexists; split; [rn E0; reflexivity|]. intros P smid. vw. eexists; split; [reflexivity|]. exact I. }
  destruct (op =? op_app) eqn:O9.
  { known op O9. ubind E a d1 E1. ulift E1. destruct a as [flags pc1]. ubind E a d1 E2. ulift E2. destruct a as [c pc2].
    ubind E a d1 E3. ulift E3. destruct a as [offs pc3]. ubind E a d1 E4. destruct a as [start len]. inversion E; subst; clear E.
    destruct (push_offsets_ok _ _ _ _ _ _ E4 V (args_length code Ok _ _ _ E3)) as [S (os & A & B)]. split; [exact S|].
    eexists; split; [rn E0; reflexivity|]. intros P smid. vw. rewrite (B P). eexists; split; [reflexivity|]. cbn.
    split; [|split; [|exact A]].
    - unfold eager, is_eager, flag_eager. cbn [i_flags]. now rewrite flags_eager.
    - unfold callable_ref, flag_eager. cbn. symmetry; apply flags_callable. }
  destruct (op =? op_direct_app) eqn:O10.
  { known op O10. ubind E a d1 E1. ulift E1. destruct a as [flags pc1]. ubind E a d1 E5. ulift E5. destruct a as [sm pcs]. ubind E a d1 E2. ulift E2. destruct a as [c pc2].
    ubind E a d1 E3. ulift E3. destruct a as [offs pc3]. ubind E a d1 E4. destruct a as [start len]. ubind E u d2 E6. inversion E; subst; clear E.
    assert (V1 : inv (Some ord) d1 /\ grows d d1).
    { unfold push_offsets in E4. ubind E4 st d3 E7. inversion E7; subst; clear E7. ubind E4 uu d4 E8. inversion E4; subst; clear E4.
      destruct (each_offsets _ _ _ _ _ E8 V) as [[V1 G1] _]. split; [exact V1|exact G1]. }
    destruct V1 as (V1 & G1). destruct (set_smid_ok code _ _ _ _ _ _ E6 V1) as [A6 _].
    destruct (push_offsets_ok _ _ _ _ _ _ E4 V (args_length code Ok _ _ _ E3)) as [S (os & A & B)].
    split; [eapply stepped_trans; [exact S|apply assigned_stepped, A6]|].
    eexists; split; [rn E0; reflexivity|]. intros P smid. vw. rewrite (a_offsets _ _ _ _ A6), (B (pools_small_back _ _ (a_grows _ _ _ _ A6) P)). eexists; split; [reflexivity|]. cbn.
    split; [|split; [|eapply maps_all; [apply A6|exact A]]].
    - unfold eager, is_eager, flag_eager. cbn [i_flags]. now rewrite flags_eager.
    - unfold callable_ref, flag_eager. cbn. symmetry; apply flags_callable. }
  destruct ((op =? op_let) || (op =? op_letrec)) eqn:O11.
  { ubind E a d1 E1. ulift E1. destruct a as [count pc1]. ubind E start d1 E2. inversion E2; subst; clear E2.
    ubind E pc2 d2 E3. destruct (push_headers_ok _ _ _ _ _ _ E3 V) as [[V1 G1] (hs & ms & B & C & F)].
    ubind E a d3 E4. ulift E4. destruct a as [bo pc3]. ubind E body d3 E5. destruct (ordinal_for_assigned code Ok _ _ _ _ _ _ E5 V1) as [A2 M2].
    inversion E; subst; clear E.
    split; [eapply stepped_trans; [split; [exact V1|exact G1]|apply assigned_stepped, A2]|].
    exists (NLet (op =? op_letrec) hs bo). split.
    { apply orb_true_iff in O11. destruct O11 as [O11|O11]; known op O11; rn E0; reflexivity. }
    intros P smid. exists (NLet (op =? op_letrec) ms body). split.
    { assert (slice (d_headers d') (u32 (N.of_nat (length (d_headers d1)))) (u32 count) = Done ms) as Sl.
      { rewrite (a_headers _ _ _ _ A2), C. apply slice_end.
        - unfold u32. apply N.mod_small. assert (grows d1 d') as G by (eapply grows_trans; [exact G1|apply A2]).
          pose proof (pools_small_back _ _ G P) as (_ & _ & P3 & _). exact P3.
        - rewrite <- (Forall2_len _ _ _ F), (many_length _ _ _ _ _ B). unfold u32. rewrite N.mod_small by exact (word_lt code Ok _ _ _ E1). lia. }
      apply orb_true_iff in O11. destruct O11 as [O11|O11]; known op O11; vw; rewrite Sl; reflexivity. }
    cbn. split; [reflexivity|]. split; [|exact M2]. revert F. apply F2_impl. intros h h' (H1 & H2 & H3 & H4). repeat split; auto.
    eapply maps_grows; [apply A2|exact H4]. }
  destruct (op =? op_meta) eqn:O12.
  { known op O12. ubind E a d1 E1. ulift E1. destruct a as [mo pc1]. ubind E a d1 E2. ulift E2. destruct a as [bo pc2].
    ubind E m d1 E3. ulift E3. ubind E b d1 E4. ulift E4. inversion E; subst; clear E. split; [now apply stepped_refl|].
    eexists; split; [rn E0; reflexivity|]. intros P smid. vw. eexists; split; [reflexivity|]. cbn. unfold first_ref, second_ref. cbn [i_flags i_a i_b].
    now rewrite flags_first, flags_second. }
  destruct (op =? op_demeta) eqn:O13.
  { known op O13. ubind E a d1 E1. ulift E1. destruct a as [so pc1].
    ubind E m1 d1 E2. destruct (ordinal_for_assigned code Ok _ _ _ _ _ _ E2 V) as [A1 M1]. pose proof (a_inv _ _ _ _ A1) as V1.
    ubind E a d2 E3. ulift E3. destruct a as [ho pc2].
    ubind E m2 d2 E4. destruct (ordinal_for_assigned code Ok _ _ _ _ _ _ E4 V1) as [A2 M2]. pose proof (a_inv _ _ _ _ A2) as V2.
    ubind E a d3 E5. ulift E5. destruct a as [oo pc3].
    ubind E m3 d3 E6. destruct (ordinal_for_assigned code Ok _ _ _ _ _ _ E6 V2) as [A3 M3]. inversion E; subst; clear E.
    split; [eapply stepped_trans; [apply assigned_stepped, A1|eapply stepped_trans; apply assigned_stepped; eassumption]|].
    eexists; split; [rn E0; reflexivity|]. intros P smid. vw. eexists; split; [reflexivity|]. cbn. split; [|split; [|exact M3]].
    - eapply maps_grows; [eapply grows_trans; [apply A2|apply A3]|exact M1].
    - eapply maps_grows; [apply A3|exact M2]. }
  destruct (op =? op_lookup_lit) eqn:O14; [|discriminate].
  known op O14. ubind E a d1 E1. ulift E1. destruct a as [sm pc1]. ubind E a d1 E2. ulift E2. destruct a as [k pc2].
  ubind E a d1 E3. ulift E3. destruct a as [o pc3]. ubind E a d1 E4. ulift E4. destruct a as [dfo pc4].
  ubind E dm d1 E5. destruct (ordinal_for_assigned code Ok _ _ _ _ _ _ E5 V) as [A1 M1]. pose proof (a_inv _ _ _ _ A1) as V1.
  ubind E u d2 E6. destruct (set_smid_ok code _ _ _ _ _ _ E6 V1) as [A2 _]. inversion E; subst; clear E.
  split; [eapply stepped_trans; apply assigned_stepped; eassumption|].
  eexists; split; [rn E0; reflexivity|]. intros P smid. vw. eexists; split; [reflexivity|]. cbn. unfold first_ref, second_ref. cbn [i_flags i_a i_b].
  rewrite flags_first, flags_second. repeat split. eapply maps_grows; [apply A2|exact M1].
Qed.
End Code.
