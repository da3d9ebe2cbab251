(** Decoding a whole program. *)
From Coq Require Import List Bool Arith NArith Lia ZifyN ZifyNat ZifyBool.
From Verif.Simplify Require Import Compress.
From Verif.Bytecode Require Import Model Spec Proofs EncProofs ProgProofs.
From Verif.Predecode Require Import Model Spec InvProofs NodeProofs.
Import ListNotations.
Open Scope N_scope.

(** ** Relations every step respects *)
Section Keeps.
Context (R : dec -> dec -> Prop) (Rr : forall d, R d d) (Rt : forall a b c, R a b -> R b c -> R a c).
Definition keeps {A} (x : step A) : Prop := forall d a d', x d = Done (a, d') -> R d d'.
Lemma k_ret {A} (a : A) : keeps (ret a).
Proof. intros d b d' E. inversion E; subst. apply Rr. Qed.
Lemma k_bind {A B} (x : step A) (f : A -> step B) : keeps x -> (forall a, keeps (f a)) -> keeps (bind x f).
Proof. intros K1 K2 d a d' E. ubind E y d1 E1. eapply Rt; [eapply K1, E1|eapply K2, E]. Qed.
Lemma k_lift {A} (x : outcome A) : keeps (lift x).
Proof. intros d a d' E. apply lift_inv in E. destruct E as (y & _ & E). inversion E; subst. apply Rr. Qed.
Lemma k_stop {A} o : (forall x, o <> Done x) -> keeps (A := A) (fun _ => o).
Proof. intros H d a d' E. now apply H in E. Qed.
Lemma k_each {A} (f : A -> step unit) l : (forall a, keeps (f a)) -> keeps (each f l).
Proof. intros K. induction l as [|a l IH]; cbn [each]; [apply k_ret|]. apply k_bind; auto. Qed.
Lemma k_size {A} (f : dec -> list A) : keeps (size_of f).
Proof. intros d a d' E. inversion E; subst. apply Rr. Qed.
Lemma k_get o : keeps (get_smid o).
Proof. intros d a d' E. unfold get_smid in E. destruct (nth_error _ _); inversion E; subst. apply Rr. Qed.

Section With.
Context (code : list N) (fuel : nat).
Context (Kord : forall off, keeps (ordinal_for code fuel off))
  (Kref : forall r, keeps (push_ref r)) (Koff : forall o, keeps (push_offset o))
  (Khead : forall h, keeps (push_header h)) (Kbr : forall b, keeps (push_branch b)).
Lemma k_refs offs : keeps (push_refs code offs).
Proof. unfold push_refs. apply k_bind; [apply k_size|]. intros s. apply k_bind; [|intros; apply k_ret]. apply k_each. intros a. apply k_bind; [apply k_lift|auto]. Qed.
Lemma k_offsets offs : keeps (push_offsets code fuel offs).
Proof. unfold push_offsets. apply k_bind; [apply k_size|]. intros s. apply k_bind; [|intros; apply k_ret]. apply k_each. intros a. apply k_bind; auto. Qed.
Lemma k_branches n : forall pc, keeps (push_branches code fuel n pc).
Proof.
  induction n as [|n IH]; intros pc; cbn [push_branches]; [apply k_ret|]. apply k_bind; [apply k_lift|]. intros [e pc1].
  apply k_bind; [destruct (e =? no_branch); [apply k_ret|auto]|]. intros m. apply k_bind; auto.
Qed.
Lemma k_headers n : forall pc, keeps (push_headers code fuel n pc).
Proof.
  induction n as [|n IH]; intros pc; cbn [push_headers]; [apply k_ret|]. apply k_bind; [apply k_lift|]. intros [h pc1].
  apply k_bind; [auto|]. intros m. apply k_bind; auto.
Qed.
Lemma k_ordinals l : keeps (ordinals code fuel l).
Proof. induction l as [|o l IH]; cbn [ordinals]; [apply k_ret|]. apply k_bind; [auto|]. intros i. apply k_bind; [auto|]. intros; apply k_ret. Qed.
Lemma k_node off ord : (forall op pc s, read_u8 code off = Done (op, pc) -> op = op_direct_app \/ op = op_lookup_lit -> keeps (set_smid ord s)) ->
  keeps (decode_node code fuel off ord).
Proof.
  intros Kset. unfold decode_node. intros d x d' E. ubind E a d0 E0. ulift E0. destruct a as [op pc].
  assert (Kset' : op = op_direct_app \/ op = op_lookup_lit -> forall s, keeps (set_smid ord s)) by (intros; eapply Kset; eauto).
  revert d x d' E. clear E0 Kset.
  repeat match goal with
  | |- forall d x d', (if ?c then _ else _) d = _ -> _ => let H := fresh "O" in destruct c eqn:H
  end;
  try match goal with |- forall d x d', ?m d = Done (x, d') -> R d d' => change (keeps m) end.
  all: repeat first
    [ apply k_ret | apply k_size | apply k_refs | apply k_offsets | apply k_branches | apply k_headers | apply k_lift
    | apply Kord
    | apply k_stop; discriminate
    | apply Kset'; match goal with H : (_ =? op_direct_app) = true |- _ => left; now apply N.eqb_eq | H : (_ =? op_lookup_lit) = true |- _ => right; now apply N.eqb_eq end
    | match goal with |- forall p : _ * _, _ => intros [? ?] | |- forall p, _ => intros ? | |- keeps (if ?c then _ else _) => destruct c end
    | apply k_bind ].
Qed.
End With.
End Keeps.

Section Code.
Context (code : list N) (Ok : is_code code).
Notation inv := (inv code).
Notation assigned := (assigned code).

Lemma pop_inv d q d' : pop d = Done (q, d') -> inv None d ->
  match q with
  | None => d' = d /\ d_queue d = []
  | Some (off, ord) => stepped code (Some ord) d d' /\ nth_error (d_off d') (N.to_nat ord) = Some off
      /\ nth_error (d_instrs d') (N.to_nat ord) = Some None
      /\ d_ord d' = d_ord d /\ d_smids d' = d_smids d /\ d_off d' = d_off d /\ d_instrs d' = d_instrs d
  end.
Proof.
  unfold pop. intros E V. destruct (d_queue d) as [|[off ord] queue] eqn:Eq; inversion E; subst; clear E; [auto|].
  destruct V as [v1 v2 v3 v4 v5 v6 v7 v8 v9 v10]. rewrite Eq in *. cbn in v7. inversion v7 as [|x l Nx ND]; subst.
  destruct (v6 off ord (or_introl eq_refl)) as (Ho & Hi & _).
  split; [|cbn; auto 10]. split.
  - constructor; cbn; auto.
    + intros o i H. destruct (v6 o i (or_intror H)) as (A & B & _). split; [exact A|]. split; [exact B|].
      intros C; inversion C; subst. apply Nx. change i with (snd (o, i)). now apply in_map.
    + intros c C; inversion C; subst. apply nth_error_Some. congruence.
    + intros i H. destruct (v9 i H) as [C|[C|C]]; [discriminate| |now right]. left. cbn in C. now rewrite C.
  - constructor; cbn; auto using prefix_refl.
Qed.
Lemma set_instr_inv ord off x d u d' n : set_instr ord x d = Done (u, d') -> inv (Some ord) d ->
  nth_error (d_off d) (N.to_nat ord) = Some off -> read_node code off = Done n -> decoded_as d n x ->
  nth_error (d_instrs d) (N.to_nat ord) = Some None ->
  inv None d' /\ grows d d' /\ d_ord d' = d_ord d /\ d_off d' = d_off d /\ d_smids d' = d_smids d
  /\ d_instrs d' = replace (N.to_nat ord) (Some x) (d_instrs d).
Proof.
  unfold set_instr. intros E V Ho En Hx Hn. rewrite Hn in E. inversion E; subst; clear E.
  destruct V as [v1 v2 v3 v4 v5 v6 v7 v8 v9 v10].
  assert (grows d (mkDec (d_ord d) (d_off d) (replace (N.to_nat ord) (Some x) (d_instrs d)) (d_smids d) (d_refs d) (d_offsets d) (d_headers d) (d_branches d) (d_queue d))) as G.
  { constructor; cbn; auto using prefix_refl. intros i y H. rewrite replace_nth, H. destruct (Nat.eqb_spec (N.to_nat ord) i) as [K|]; [|reflexivity]. subst i. congruence. }
  split; [|split; [exact G|cbn; auto]]. constructor; cbn; auto.
  - now rewrite replace_length.
  - intros o i H. destruct (v6 o i H) as (A & B & C). split; [exact A|]. split; [|discriminate].
    rewrite replace_nth. destruct (Nat.eqb_spec (N.to_nat ord) (N.to_nat i)) as [K|]; [|exact B].
    exfalso. apply C. f_equal. lia.
  - discriminate.
  - intros i H. rewrite replace_nth in H. destruct (Nat.eqb_spec (N.to_nat ord) i) as [K|K].
    + destruct (nth_error (d_instrs d) i); discriminate.
    + destruct (v9 i H) as [C|C]; [|now right]. exfalso. inversion C. lia.
  - intros i y H. rewrite replace_nth in H. destruct (Nat.eqb_spec (N.to_nat ord) i) as [K|K].
    + subst i. rewrite Hn in H. inversion H; subst. exists off, n. auto.
    + apply (done_mono code d); auto.
Qed.

Section Run.
Context (fuel : nat).
(** The node being decoded is not decoded meanwhile. *)
Definition undecoded (ord : N) (d : dec) : Prop := nth_error (d_instrs d) (N.to_nat ord) = Some None.
Lemma undecoded_node off ord o : keeps (fun d d' => undecoded o d -> undecoded o d') (decode_node code fuel off ord).
Proof.
  assert (forall s, keeps (fun d d' => undecoded o d -> undecoded o d') (set_smid ord s)) as Ks.
  { intros s d a d' E. unfold set_smid in E. destruct (nth_error _ _); inversion E; subst. auto. }
  apply k_node; auto; try (intros r d a d' E; inversion E; subst; auto; fail).
  generalize fuel. clear Ks. intros f off'.
  enough (forall off, keeps (fun d d' => undecoded o d -> undecoded o d') (ordinal_for code f off)) by auto. clear off'.
  assert (Rt : forall a b c : dec, (undecoded o a -> undecoded o b) -> (undecoded o b -> undecoded o c) -> undecoded o a -> undecoded o c) by auto.
  induction f as [|f IH]; intros off' d a d' E; cbn [ordinal_for] in E; destruct (ord_lookup _ _); try (inversion E; subst; auto; fail);
  revert d a d' E; match goal with |- forall d a d', ?x d = _ -> _ => change (keeps (fun d d' => undecoded o d -> undecoded o d') x) end;
  (apply k_bind; [exact Rt|now apply k_lift|]; intros [op pc]; destruct (op =? op_ann);
   [|intros d a d' E; inversion E; subst; unfold undecoded; cbn; intros U; now apply nth_app_old];
   apply k_bind; [exact Rt|now apply k_lift|]; intros [smid pc1]; apply k_bind; [exact Rt|now apply k_lift|]; intros [b pc2]).
  - apply k_bind; [exact Rt|now apply k_stop|]. intros bo d a d' E U. ubind E old d1 E1. unfold get_smid in E1. destruct (nth_error _ _); inversion E1; subst.
    ubind E u d2 E2. assert (undecoded o d2) as U2.
    { destruct (old =? 0); [|inversion E2; subst; auto]. unfold set_smid in E2. destruct (nth_error _ _); inversion E2; subst; auto. }
    inversion E; subst; auto.
  - apply k_bind; [exact Rt|auto|]. intros bo d a d' E U. ubind E old d1 E1. unfold get_smid in E1. destruct (nth_error _ _); inversion E1; subst.
    ubind E u d2 E2. assert (undecoded o d2) as U2.
    { destruct (old =? 0); [|inversion E2; subst; auto]. unfold set_smid in E2. destruct (nth_error _ _); inversion E2; subst; auto. }
    inversion E; subst; auto.
Qed.
Lemma run_ok steps : forall d u d', run code fuel steps d = Done (u, d') -> inv None d ->
  inv None d' /\ grows d d' /\ d_queue d' = [].
Proof.
  induction steps as [|n IH]; intros d u d' E V; cbn [run] in E; ubind E q d1 E1; pose proof (pop_inv _ _ _ E1 V) as H;
  destruct q as [[off ord]|]; try (destruct H as [-> Q]; inversion E; subst; split; [exact V|split; [apply grows_refl|exact Q]]); try discriminate.
  destruct H as ((V1 & G1) & Ho & Hi & _). ubind E x d2 E2. ubind E u2 d3 E3.
  destruct (decode_node_ok code Ok fuel _ _ _ _ _ E2 V1) as ((V2 & G2) & nd & En & Dn).
  pose proof (undecoded_node _ _ ord _ _ _ E2 Hi) as Hi2.
  pose proof (prefix_nth _ _ _ _ (g_off _ _ G2) Ho) as Ho2.
  destruct (set_instr_inv _ _ _ _ _ _ _ E3 V2 Ho2 En Dn Hi2) as (V3 & G3 & _).
  destruct (IH _ _ _ E V3) as (V4 & G4 & Q). split; [exact V4|]. split; [|exact Q].
  eapply grows_trans; [exact G1|]. eapply grows_trans; [exact G2|]. eapply grows_trans; eassumption.
Qed.
Lemma empty_inv cur : cur = None -> inv cur empty_dec.
Proof.
  intros ->. constructor; cbn; intros; try reflexivity; try discriminate; try contradiction; try constructor;
    match goal with H : nth_error [] ?i = _ |- _ => destruct i; discriminate end.
Qed.
Lemma ordinals_ok cur l : forall d is d', ordinals code fuel l d = Done (is, d') -> inv cur d ->
  assigned cur d d' /\ Forall2 (maps d') l is.
Proof.
  induction l as [|o l IH]; intros d is d' E V; cbn [ordinals] in E.
  - inversion E; subst. split; [now apply assigned_refl|constructor].
  - ubind E i d1 E1. destruct (ordinal_for_assigned code Ok _ _ _ _ _ _ E1 V) as [A1 M1].
    ubind E is' d2 E2. inversion E; subst; clear E. destruct (IH _ _ _ E2 (a_inv _ _ _ _ A1)) as [A2 M2].
    split; [eapply assigned_trans; eassumption|]. constructor; [|exact M2]. eapply maps_grows; [apply A2|exact M1].
Qed.
End Run.
End Code.

Lemma collect_some (l : list (option instr)) : forall r, collect (map (fun o => match o with Some i => Done i | None => Panic end) l) = Done r ->
  l = map Some r.
Proof.
  induction l as [|[x|] l IH]; intros r E; cbn [map collect] in E; [now inversion E| |discriminate]. cbn [obind] in E.
  destruct (collect _) as [r'| |] eqn:Er; try discriminate. cbn [obind] in E. inversion E; subst. cbn. f_equal. now apply IH.
Qed.

(** What the decoder leaves behind. *)
Record final {native} (p : program native) (root : N) (globals : list gform) (D : decoded) (d : dec) : Prop := {
  f_inv : inv (p_code p) None d;
  f_instrs : d_instrs d = map Some (o_instrs D);
  f_smids : o_smids D = d_smids d; f_refs : o_refs D = d_refs d; f_offsets : o_offsets D = d_offsets d;
  f_headers : o_headers D = d_headers d; f_branches : o_branches D = d_branches d;
  f_off : o_off_of D = d_off d; f_ord : o_ord_of D = d_ord d;
  f_root : ordinal D root (o_root D); f_blackhole : ordinal D (p_blackhole p) (o_blackhole D);
  f_templates : Forall2 (ordinal D) (p_templates p) (o_templates D);
  f_meta : ordinal D (p_meta p) (o_meta D); f_apply1 : ordinal D (p_apply1 p) (o_apply1 D);
  f_apply2 : ordinal D (p_apply2 p) (o_apply2 D); f_producer : ordinal D (p_producer p) (o_producer D);
  f_pap : Forall2 (ordinal D) (p_pap p) (o_pap D);
  f_globals : Forall2 (ordinal D) (map g_entry globals) (o_globals D) }.

Lemma whole_ok {native} depth steps (p : program native) root globals D :
  decode_program_with depth steps p root globals = Done D -> is_code (p_code p) ->
  exists d, final p root globals D d.
Proof.
  intros E Ok. unfold decode_program_with in E. cbv zeta in E.
  match type of E with obind (?x empty_dec) _ = _ => destruct (x empty_dec) as [[build d]| |] eqn:Ex; try discriminate end.
  cbn [obind] in E. destruct (collect _) as [instrs| |] eqn:Ec; try discriminate. cbn [obind] in E.
  assert (D = build d instrs) as -> by congruence. clear E. rename Ex into E. apply collect_some in Ec.
  ubind E r d1 E1. destruct (ordinal_for_assigned _ Ok _ _ _ _ _ _ E1 (empty_inv _ None eq_refl)) as [A1 M1].
  ubind E gl d2 E2. destruct (ordinals_ok _ Ok _ _ _ _ _ _ E2 (a_inv _ _ _ _ A1)) as [A2 M2].
  ubind E te d3 E3. destruct (ordinals_ok _ Ok _ _ _ _ _ _ E3 (a_inv _ _ _ _ A2)) as [A3 M3].
  ubind E bh d4 E4. destruct (ordinal_for_assigned _ Ok _ _ _ _ _ _ E4 (a_inv _ _ _ _ A3)) as [A4 M4].
  ubind E me d5 E5. destruct (ordinal_for_assigned _ Ok _ _ _ _ _ _ E5 (a_inv _ _ _ _ A4)) as [A5 M5].
  ubind E a1 d6 E6. destruct (ordinal_for_assigned _ Ok _ _ _ _ _ _ E6 (a_inv _ _ _ _ A5)) as [A6 M6].
  ubind E a2 d7 E7. destruct (ordinal_for_assigned _ Ok _ _ _ _ _ _ E7 (a_inv _ _ _ _ A6)) as [A7 M7].
  ubind E pr d8 E8. destruct (ordinal_for_assigned _ Ok _ _ _ _ _ _ E8 (a_inv _ _ _ _ A7)) as [A8 M8].
  ubind E pa d9 E9. destruct (ordinals_ok _ Ok _ _ _ _ _ _ E9 (a_inv _ _ _ _ A8)) as [A9 M9].
  ubind E u d10 E10. inversion E; subst build d10; clear E.
  destruct (run_ok _ Ok _ _ _ _ _ E10 (a_inv _ _ _ _ A9)) as (V & G & _).
  pose proof (a_grows _ _ _ _ A2) as H2. pose proof (a_grows _ _ _ _ A3) as H3. pose proof (a_grows _ _ _ _ A4) as H4.
  pose proof (a_grows _ _ _ _ A5) as H5. pose proof (a_grows _ _ _ _ A6) as H6. pose proof (a_grows _ _ _ _ A7) as H7.
  pose proof (a_grows _ _ _ _ A8) as H8. pose proof (a_grows _ _ _ _ A9) as H9.
  assert (grows d8 d) as G8 by (eapply grows_trans; eassumption). assert (grows d7 d) as G7 by (eapply grows_trans; eassumption).
  assert (grows d6 d) as G6 by (eapply grows_trans; eassumption). assert (grows d5 d) as G5 by (eapply grows_trans; eassumption).
  assert (grows d4 d) as G4 by (eapply grows_trans; eassumption). assert (grows d3 d) as G3 by (eapply grows_trans; eassumption).
  assert (grows d2 d) as G2 by (eapply grows_trans; eassumption). assert (grows d1 d) as G1 by (eapply grows_trans; eassumption).
  exists d. constructor; try reflexivity; try assumption.
  - apply (maps_grows _ _ _ _ G1 M1).
  - apply (maps_grows _ _ _ _ G4 M4).
  - apply (maps_all _ _ _ _ G3 M3).
  - apply (maps_grows _ _ _ _ G5 M5).
  - apply (maps_grows _ _ _ _ G6 M6).
  - apply (maps_grows _ _ _ _ G7 M7).
  - apply (maps_grows _ _ _ _ G8 M8).
  - apply (maps_all _ _ _ _ G M9).
  - apply (maps_all _ _ _ _ G2 M2).
Qed.

(** ** Consequences *)
Section Final.
Context {native : Type} (p : program native) (root : N) (globals : list gform) (D : decoded) (d : dec)
  (F : final p root globals D d).
Notation code := (p_code p).
Lemma final_len : length (o_instrs D) = length (o_off_of D) /\ length (o_smids D) = length (o_off_of D).
Proof.
  pose proof (f_inv _ _ _ _ _ F) as V. rewrite (f_off _ _ _ _ _ F), (f_smids _ _ _ _ _ F).
  split; [|apply (v_len2 _ _ _ V)]. rewrite <- (v_len1 _ _ _ V), (f_instrs _ _ _ _ _ F). now rewrite map_length.
Qed.
Lemma final_small : pools_fit D -> pools_small d.
Proof. unfold pools_fit, pools_small. now rewrite (f_refs _ _ _ _ _ F), (f_offsets _ _ _ _ _ F), (f_headers _ _ _ _ _ F), (f_branches _ _ _ _ _ F). Qed.
Lemma final_off i o : nth_error (o_off_of D) i = Some o -> ordinal D o (N.of_nat i) /\
  exists n, read_node code o = Done n /\ (pools_fit D -> exists n', view_at D (N.of_nat i) = Done n' /\ Rnode (ordinal D) n n').
Proof.
  pose proof (f_inv _ _ _ _ _ F) as V. intros H. unfold ordinal. rewrite (f_ord _ _ _ _ _ F).
  pose proof H as H'. rewrite (f_off _ _ _ _ _ F) in H'. split; [apply (v_off _ _ _ V _ _ H')|].
  destruct final_len as [L1 L2].
  assert (i < length (o_off_of D))%nat as Li by (apply nth_error_Some; congruence).
  destruct (nth_error (o_instrs D) i) as [x|] eqn:Ex; [|apply nth_error_None in Ex; lia].
  destruct (nth_error (o_smids D) i) as [s|] eqn:Es; [|apply nth_error_None in Es; lia].
  destruct (v_done _ _ _ V i x) as (o' & n & Ho & En & Hv).
  { rewrite (f_instrs _ _ _ _ _ F). now apply map_nth_error. }
  rewrite H' in Ho. inversion Ho; subst o'. exists n. split; [exact En|]. intros P.
  destruct (Hv (final_small P) s) as (n' & Ev & R). exists n'. split; [|exact R].
  unfold view_at. rewrite Nat2N.id, Ex, Es, (f_refs _ _ _ _ _ F), (f_offsets _ _ _ _ _ F), (f_headers _ _ _ _ _ F), (f_branches _ _ _ _ _ F). exact Ev.
Qed.
Lemma final_ord o i : ordinal D o i ->
  (exists s b, read_node code o = Done (NAnn s b) /\ ordinal D b i) \/ nth_error (o_off_of D) (N.to_nat i) = Some o.
Proof.
  pose proof (f_inv _ _ _ _ _ F) as V. unfold ordinal. rewrite (f_ord _ _ _ _ _ F), (f_off _ _ _ _ _ F). intros H.
  destruct (v_ord _ _ _ V _ _ H) as [_ [A|A]]; auto.
Qed.
Lemma off_not_ann i o s b : nth_error (o_off_of D) i = Some o -> read_node code o <> Done (NAnn s b).
Proof.
  intros H E. pose proof (f_inv _ _ _ _ _ F) as V. rewrite (f_off _ _ _ _ _ F) in H.
  destruct (v_byte _ _ _ V o (nth_error_In _ _ H)) as (op & pc & Eb & Ne). apply ann_byte in E. destruct E as [pc' E]. congruence.
Qed.
End Final.
