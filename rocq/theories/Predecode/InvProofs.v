(** The decoder's invariant. *)
From Coq Require Import List Bool Arith NArith Lia ZifyN ZifyNat ZifyBool FinFun.
From Verif.Simplify Require Import Compress.
From Verif.Bytecode Require Import Model Spec Proofs EncProofs.
From Verif.Predecode Require Import Model Spec.
Import ListNotations.
Open Scope N_scope.

(** ** Steps *)
Lemma bind_inv {A B} (x : step A) (f : A -> step B) d r : bind x f d = Done r ->
  exists a d1, x d = Done (a, d1) /\ f a d1 = Done r.
Proof. unfold bind. destruct (x d) as [[a d1]| |]; cbn; try discriminate. eauto. Qed.
Lemma lift_inv {A} (x : outcome A) d r : lift x d = Done r -> exists a, x = Done a /\ r = (a, d).
Proof. unfold lift. destruct x; cbn; try discriminate. intros E; inversion E; eauto. Qed.

(** ** Lists *)
Lemma replace_length {A} (x : A) l : forall i, length (replace i x l) = length l.
Proof. induction l; intros [|i]; cbn; auto. Qed.
Lemma replace_nth {A} (x : A) l : forall i j, nth_error (replace i x l) j =
  if Nat.eqb i j then match nth_error l j with Some _ => Some x | None => None end else nth_error l j.
Proof.
  induction l as [|y l IH]; intros i j; [destruct i, j; cbn; try reflexivity; now destruct (Nat.eqb _ _)|].
  destruct i, j; cbn; auto.
Qed.
Lemma nth_app_old {A} (l r : list A) i x : nth_error l i = Some x -> nth_error (l ++ r) i = Some x.
Proof. intros H. rewrite nth_error_app1; [exact H|]. apply nth_error_Some. congruence. Qed.
Lemma nth_snoc {A} (l : list A) a i x : nth_error (l ++ [a]) i = Some x ->
  nth_error l i = Some x \/ (i = length l /\ x = a).
Proof.
  intros H. destruct (Nat.lt_ge_cases i (length l)) as [L|L].
  - rewrite nth_error_app1 in H by exact L. auto.
  - rewrite nth_error_app2 in H by exact L. destruct (i - length l)%nat as [|k] eqn:E; cbn in H.
    + inversion H. right. split; [lia|reflexivity].
    + destruct k; discriminate.
Qed.
Lemma lookup_cons o i m o' : ord_lookup ((o, i) :: m) o' = if o =? o' then Some i else ord_lookup m o'.
Proof. unfold ord_lookup. cbn. now destruct (o =? o'). Qed.

(** ** Growth of the state *)
Definition prefix {A} (l l' : list A) : Prop := exists r, l' = l ++ r.
Lemma prefix_refl {A} (l : list A) : prefix l l.
Proof. exists []. now rewrite app_nil_r. Qed.
Lemma prefix_trans {A} (a b c : list A) : prefix a b -> prefix b c -> prefix a c.
Proof. intros [x ->] [y ->]. exists (x ++ y). now rewrite app_assoc. Qed.
Lemma prefix_snoc {A} (l : list A) x : prefix l (l ++ [x]).
Proof. now exists [x]. Qed.
Lemma prefix_len {A} (l l' : list A) : prefix l l' -> (length l <= length l')%nat.
Proof. intros [r ->]. rewrite app_length. lia. Qed.
Lemma prefix_nth {A} (l l' : list A) i x : prefix l l' -> nth_error l i = Some x -> nth_error l' i = Some x.
Proof. intros [r ->]. apply nth_app_old. Qed.
Record grows (d d' : dec) : Prop := {
  g_ord : forall o i, ord_lookup (d_ord d) o = Some i -> ord_lookup (d_ord d') o = Some i;
  g_off : prefix (d_off d) (d_off d');
  g_instrs : forall i x, nth_error (d_instrs d) i = Some (Some x) -> nth_error (d_instrs d') i = Some (Some x);
  g_refs : prefix (d_refs d) (d_refs d');
  g_offsets : prefix (d_offsets d) (d_offsets d');
  g_headers : prefix (d_headers d) (d_headers d');
  g_branches : prefix (d_branches d) (d_branches d') }.
Lemma grows_refl d : grows d d.
Proof. constructor; auto using prefix_refl. Qed.
Lemma grows_trans a b c : grows a b -> grows b c -> grows a c.
Proof.
  intros [] []. constructor; eauto using prefix_trans.
Qed.

Definition pools_small (d : dec) : Prop :=
  N.of_nat (length (d_refs d)) < 4294967296 /\ N.of_nat (length (d_offsets d)) < 4294967296 /\
  N.of_nat (length (d_headers d)) < 4294967296 /\ N.of_nat (length (d_branches d)) < 4294967296.
Lemma pools_small_back d d' : grows d d' -> pools_small d' -> pools_small d.
Proof.
  intros G (A & B & C & D). pose proof (prefix_len _ _ (g_refs _ _ G)). pose proof (prefix_len _ _ (g_offsets _ _ G)).
  pose proof (prefix_len _ _ (g_headers _ _ G)). pose proof (prefix_len _ _ (g_branches _ _ G)). unfold pools_small. lia.
Qed.

Section Code.
Context (code : list N) (Ok : is_code code).

(** ** Reads *)
Lemma byte_lt pc b pc' : read_u8 code pc = Done (b, pc') -> b < 256 /\ nth_error code (N.to_nat pc) = Some b /\ pc' = pc + 1.
Proof.
  unfold read_u8. destruct (nth_error code (N.to_nat pc)) as [x|] eqn:E; [|discriminate]. intros H; inversion H; subst.
  split; [|auto]. destruct Ok as [B _]. rewrite Forall_forall in B. apply B. eapply nth_error_In, E.
Qed.
Lemma word_lt pc v pc' : read_u32 code pc = Done (v, pc') -> v < 4294967296.
Proof.
  unfold read_u32. destruct (read_u8 code pc) as [[a p1]| |] eqn:E1; try discriminate. cbn [obind].
  destruct (read_u8 code p1) as [[b p2]| |] eqn:E2; try discriminate. cbn [obind].
  destruct (read_u8 code p2) as [[c p3]| |] eqn:E3; try discriminate. cbn [obind].
  destruct (read_u8 code p3) as [[e p4]| |] eqn:E4; try discriminate. cbn [obind].
  intros H. assert (v = a + 256 * b + 65536 * c + 16777216 * e) as -> by congruence. apply byte_lt, proj1 in E1. apply byte_lt, proj1 in E2. apply byte_lt, proj1 in E3. apply byte_lt, proj1 in E4. lia.
Qed.
Lemma many_length {A} (rd : N -> outcome (A * N)) n : forall pc l pc', read_many rd n pc = Done (l, pc') -> length l = n.
Proof.
  induction n as [|n IH]; intros pc l pc' E; cbn [read_many] in E; [now inversion E|].
  destruct (rd pc) as [[a p]| |]; try discriminate. cbn [obind] in E.
  destruct (read_many rd n p) as [[l' p']| |] eqn:E2; try discriminate. cbn [obind] in E. inversion E; subst. cbn. f_equal. eapply IH, E2.
Qed.
Lemma args_length pc l pc' : read_arg_offsets code pc = Done (l, pc') -> (length l < 256)%nat.
Proof.
  unfold read_arg_offsets. destruct (read_u8 code pc) as [[n p]| |] eqn:E; try discriminate. cbn [obind]. intros H.
  apply many_length in H. apply byte_lt, proj1 in E. lia.
Qed.
Lemma read_ann off op pc smid pc2 b pc3 : read_u8 code off = Done (op, pc) -> op = op_ann ->
  read_u32 code pc = Done (smid, pc2) -> read_u32 code pc2 = Done (b, pc3) -> read_node code off = Done (NAnn smid b).
Proof. intros E1 -> E2 E3. unfold read_node. rewrite E1. cbn [obind]. 
  repeat match goal with |- context [?a =? ?b] => let v := eval compute in (a =? b) in change (a =? b) with v end.
  cbn [orb]. cbv iota. rewrite E2. cbn [obind]. rewrite E3. reflexivity. Qed.
Lemma ann_byte off smid b : read_node code off = Done (NAnn smid b) -> exists pc, read_u8 code off = Done (op_ann, pc).
Proof.
  unfold read_node. destruct (read_u8 code off) as [[op pc]| |] eqn:E; try discriminate. cbn [obind]. intros H.
  destruct (op =? op_ann) eqn:Eo; [apply N.eqb_eq in Eo; subst; eauto|]. exfalso. revert H.
  repeat match goal with
  | |- Done _ = _ -> _ => intros K; discriminate K
  | |- Error = _ -> _ => intros K; discriminate K
  | |- Panic = _ -> _ => intros K; discriminate K
  | |- (if ?x then _ else _) = _ -> _ => destruct x
  | |- (let '(_, _) := ?p in _) = _ -> _ => destruct p
  | |- obind ?x _ = _ -> _ => destruct x; cbn [obind]
  end.
Qed.

(** ** The invariant *)
Definition done_ok (d : dec) (i : nat) (x : instr) : Prop :=
  exists o n, nth_error (d_off d) i = Some o /\ read_node code o = Done n /\
    (pools_small d -> forall smid, exists n', view (d_refs d) (d_offsets d) (d_headers d) (d_branches d) smid x = Done n' /\
      Rnode (fun a b => ord_lookup (d_ord d) a = Some b) n n').
(** [cur] is the ordinal being decoded, if any. *)
Record inv (cur : option N) (d : dec) : Prop := {
  v_len1 : length (d_instrs d) = length (d_off d);
  v_len2 : length (d_smids d) = length (d_off d);
  v_off : forall i o, nth_error (d_off d) i = Some o -> ord_lookup (d_ord d) o = Some (N.of_nat i);
  v_byte : forall o, In o (d_off d) -> exists b pc, read_u8 code o = Done (b, pc) /\ b <> op_ann;
  v_ord : forall o i, ord_lookup (d_ord d) o = Some i -> (N.to_nat i < length (d_off d))%nat /\
    (nth_error (d_off d) (N.to_nat i) = Some o \/
     exists s b, read_node code o = Done (NAnn s b) /\ ord_lookup (d_ord d) b = Some i);
  v_queue : forall o i, In (o, i) (d_queue d) -> nth_error (d_off d) (N.to_nat i) = Some o
    /\ nth_error (d_instrs d) (N.to_nat i) = Some None /\ cur <> Some i;
  v_nodup : NoDup (map snd (d_queue d));
  v_cur : forall c, cur = Some c -> (N.to_nat c < length (d_off d))%nat;
  v_pending : forall i, nth_error (d_instrs d) i = Some None -> cur = Some (N.of_nat i) \/ In (N.of_nat i) (map snd (d_queue d));
  v_done : forall i x, nth_error (d_instrs d) i = Some (Some x) -> done_ok d i x }.

Lemma off_nodup cur d : inv cur d -> NoDup (d_off d).
Proof.
  intros V. apply NoDup_nth_error. intros i j L E. destruct (nth_error (d_off d) i) as [o|] eqn:Ei.
  - pose proof (v_off _ _ V _ _ Ei) as A. symmetry in E. pose proof (v_off _ _ V _ _ E) as B. rewrite A in B. inversion B. lia.
  - apply nth_error_None in Ei. lia.
Qed.
Lemma bounded_nodup (l : list N) n : NoDup l -> (forall o, In o l -> (N.to_nat o < n)%nat) -> (length l <= n)%nat.
Proof.
  intros ND B. assert (NoDup (map N.to_nat l)) as ND'.
  { apply FinFun.Injective_map_NoDup; [|exact ND]. intros a b H. lia. }
  rewrite <- (map_length N.to_nat l), <- (seq_length n 0). apply NoDup_incl_length; [exact ND'|].
  intros x I. apply in_map_iff in I. destruct I as (o & <- & I). apply in_seq. specialize (B o I). lia.
Qed.
Lemma in_code o b pc : read_u8 code o = Done (b, pc) -> (N.to_nat o < length code)%nat.
Proof. intros H. apply byte_lt in H. apply nth_error_Some. destruct H as (_ & -> & _). discriminate. Qed.
Lemma off_small cur d : inv cur d -> (length (d_off d) <= length code)%nat.
Proof.
  intros V. apply bounded_nodup; [eapply off_nodup, V|]. intros o I. destruct (v_byte _ _ V o I) as (b & pc & E & _). eapply in_code, E.
Qed.
Lemma code_small : N.of_nat (length code) <= no_branch.
Proof. destruct Ok as [_ C]. unfold code_fits in C. now apply N.leb_le in C. Qed.

(** ** Values related stay related *)
Lemma Forall2_mono {A B} (R Q : A -> B -> Prop) l l' : (forall a b, R a b -> Q a b) -> Forall2 R l l' -> Forall2 Q l l'.
Proof. exact (F2_impl R Q l l'). Qed.
Lemma Rnode_mono (R Q : N -> N -> Prop) n n' : (forall a b, R a b -> Q a b) -> Rnode R n n' -> Rnode Q n n'.
Proof.
  intros H. destruct n, n'; cbn; auto; intuition (eauto using Forall2_mono).
  - eapply Forall2_mono; [|eassumption]. intros [a|] [b|]; cbn; auto.
  - destruct fallback, fallback0; cbn in *; auto.
  - eapply Forall2_mono; [|eassumption]. intros a b (X & Y & Z & W). repeat split; auto.
Qed.
Lemma slice_mono {A} (l l' : list A) start len r : prefix l l' -> slice l start len = Done r -> slice l' start len = Done r.
Proof.
  intros P. pose proof (prefix_len _ _ P) as L. destruct P as [x ->]. unfold slice.
  destruct (start + len <=? N.of_nat (length l)) eqn:E; [|discriminate]. apply N.leb_le in E.
  replace (start + len <=? N.of_nat (length (l ++ x))) with true by (symmetry; apply N.leb_le; lia).
  intros H; inversion H; subst; f_equal. rewrite skipn_app. replace (N.to_nat start - length l)%nat with 0%nat by lia. cbn [skipn].
  rewrite firstn_app, skipn_length. replace (N.to_nat len - (length l - N.to_nat start))%nat with 0%nat by lia. cbn [firstn].
  now rewrite app_nil_r.
Qed.
Lemma view_mono d d' smid x n : grows d d' ->
  view (d_refs d) (d_offsets d) (d_headers d) (d_branches d) smid x = Done n ->
  view (d_refs d') (d_offsets d') (d_headers d') (d_branches d') smid x = Done n.
Proof.
  intros G. unfold view. cbv zeta.
  repeat match goal with |- (if ?c then _ else _) = _ -> _ => destruct c; [try (intros H; exact H)|] end; try discriminate;
  match goal with |- obind (slice ?l ?s ?n) _ = _ -> _ => destruct (slice l s n) as [r| |] eqn:E; cbn [obind]; try discriminate end;
  (eapply slice_mono in E; [|first [exact (g_refs _ _ G)|exact (g_offsets _ _ G)|exact (g_headers _ _ G)|exact (g_branches _ _ G)]]);
  rewrite E; intros H; exact H.
Qed.
Lemma done_mono d d' i x : grows d d' -> done_ok d i x -> done_ok d' i x.
Proof.
  intros G (o & n & E1 & E2 & H). exists o, n. split; [eapply prefix_nth; [apply (g_off _ _ G)|exact E1]|]. split; [exact E2|].
  intros P smid. destruct (H (pools_small_back _ _ G P) smid) as (n' & E3 & R). exists n'. split; [eapply view_mono; eauto|].
  eapply Rnode_mono; [|exact R]. intros a b. apply (g_ord _ _ G).
Qed.

(** ** Assigning ordinals *)
Record assigned (cur : option N) (d d' : dec) : Prop := {
  a_inv : inv cur d'; a_grows : grows d d';
  a_refs : d_refs d' = d_refs d; a_offsets : d_offsets d' = d_offsets d;
  a_headers : d_headers d' = d_headers d; a_branches : d_branches d' = d_branches d }.
Lemma new_ordinal_ok cur off d ord d' op pc : new_ordinal off d = Done (ord, d') ->
  inv cur d ->
  ord_lookup (d_ord d) off = None -> read_u8 code off = Done (op, pc) -> op <> op_ann ->
  assigned cur d d' /\ ord_lookup (d_ord d') off = Some ord.
Proof.
  intros E V Nn Rd NA. pose proof (v_cur _ _ V) as Cu. unfold new_ordinal in E. inversion E; subst; clear E.
  pose proof (off_small _ _ V) as S. pose proof code_small as C.
  assert (~ In off (d_off d)) as NI.
  { intros I. apply In_nth_error in I. destruct I as [i Ei]. apply (v_off _ _ V) in Ei. congruence. }
  assert (length (d_off d) < length code)%nat as S1.
  { assert (length (off :: d_off d) <= length code)%nat as X; [|cbn in X; lia].
    apply bounded_nodup; [constructor; [exact NI|eapply off_nodup, V]|].
    intros o [<-|I]; [eapply in_code, Rd|]. destruct (v_byte _ _ V o I) as (b & p & Eb & _). eapply in_code, Eb. }
  rewrite (v_len1 _ _ V). set (n := length (d_off d)) in *.
  assert (u32 (N.of_nat n) = N.of_nat n) as U by (unfold u32; apply N.mod_small; unfold no_branch in C; lia).
  rewrite U. set (i := N.of_nat n).
  assert (N.to_nat i = n) as Ti by (unfold i; lia).
  set (d' := mkDec _ _ _ _ _ _ _ _ _).
  assert (grows d d') as G.
  { constructor; cbn; auto using prefix_refl, prefix_snoc.
    - intros o j H. rewrite lookup_cons. destruct (off =? o) eqn:Eo; [apply N.eqb_eq in Eo; congruence|exact H].
    - intros j x H. now apply nth_app_old. }
  split; [|cbn; rewrite lookup_cons, N.eqb_refl; reflexivity].
  constructor; auto. constructor; cbn [d_instrs d_off d_smids d_ord d_queue d'].
  - rewrite !app_length. cbn. f_equal. apply (v_len1 _ _ V).
  - rewrite !app_length. cbn. f_equal. apply (v_len2 _ _ V).
  - intros j o H. rewrite lookup_cons. apply nth_snoc in H. destruct H as [H|[-> ->]].
    + destruct (off =? o) eqn:Eo; [apply N.eqb_eq in Eo; subst; destruct NI; eapply nth_error_In, H|]. now apply (v_off _ _ V).
    + rewrite N.eqb_refl. reflexivity.
  - intros o I. apply in_app_or in I. destruct I as [I|[<-|[]]]; [now apply (v_byte _ _ V)|eauto].
  - intros o j H. rewrite lookup_cons in H. rewrite app_length. cbn [length]. destruct (off =? o) eqn:Eo.
    + inversion H; subst. apply N.eqb_eq in Eo. subst o. split; [fold n; lia|]. left. rewrite Ti, nth_error_app2 by (fold n; lia).
      fold n. now rewrite Nat.sub_diag.
    + destruct (v_ord _ _ V o j H) as [L K]. split; [lia|]. destruct K as [K|(s & b & K1 & K2)]; [left; now apply nth_app_old|right].
      exists s, b. split; [exact K1|]. apply (g_ord _ _ G _ _ K2).
  - intros o j [H|H].
    + inversion H; subst o j. rewrite Ti. split; [rewrite nth_error_app2 by (fold n; lia); fold n; now rewrite Nat.sub_diag|].
      pose proof (v_len1 _ _ V) as Ln. fold n in Ln. split.
      * rewrite <- Ln, nth_error_app2 by lia. now rewrite Nat.sub_diag.
      * intros Ec. apply Cu in Ec. lia.
    + destruct (v_queue _ _ V o j H) as (A & B & D). split; [now apply nth_app_old|]. split; [now apply nth_app_old|exact D].
  - cbn [map snd]. constructor; [|apply (v_nodup _ _ V)]. intros I. apply in_map_iff in I. destruct I as ((o & j) & Ej & I). cbn in Ej. subst j.
    destruct (v_queue _ _ V _ _ I) as (A & _ & _). rewrite Ti in A.
    assert (nth_error (d_off d) n <> None) as K by congruence. apply nth_error_Some in K. lia.
  - intros c Ec. apply Cu in Ec. rewrite app_length. lia.
  - intros j H. apply nth_snoc in H. destruct H as [H|[-> _]].
    + destruct (v_pending _ _ V j H) as [K|K]; [now left|right; now right].
    + right. left. cbn. unfold i, n. f_equal. symmetry. apply (v_len1 _ _ V).
  - intros j x H. apply nth_snoc in H. destruct H as [H|[_ H]]; [|discriminate H].
    apply (done_mono d); [exact G|]. now apply (v_done _ _ V).
Qed.

Lemma assigned_refl cur d : inv cur d -> assigned cur d d.
Proof. intros V. constructor; auto using grows_refl. Qed.
Lemma assigned_trans cur a b c : assigned cur a b -> assigned cur b c -> assigned cur a c.
Proof. intros [V1 G1 A1 B1 C1 D1] [V2 G2 A2 B2 C2 D2]. constructor; try congruence. eapply grows_trans; eauto. Qed.

(** Changing a location. *)
Lemma set_smid_ok cur ord smid d u d' : set_smid ord smid d = Done (u, d') -> inv cur d ->
  assigned cur d d' /\ d_ord d' = d_ord d /\ d_off d' = d_off d /\ d_instrs d' = d_instrs d /\ d_queue d' = d_queue d.
Proof.
  unfold set_smid. destruct (nth_error (d_smids d) (N.to_nat ord)) eqn:E; [|discriminate]. intros H V; inversion H; subst; clear H.
  split; [|cbn; auto]. constructor; cbn; auto.
  - destruct V as [v1 v2 v3 v4 v5 v6 v7 v8 v9]. constructor; cbn; auto. now rewrite replace_length.
  - constructor; cbn; auto using prefix_refl.
Qed.

Lemma ordinal_for_ok cur fuel : forall off d ord d', ordinal_for code fuel off d = Done (ord, d') -> inv cur d ->
  assigned cur d d' /\ ord_lookup (d_ord d') off = Some ord /\
  (forall o j, ord_lookup (d_ord d) o = None -> ord_lookup (d_ord d') o = Some j -> j = ord).
Proof.
  induction fuel as [|fuel IH]; intros off d ord d' E V; cbn [ordinal_for] in E;
  (destruct (ord_lookup (d_ord d) off) as [i|] eqn:El; [inversion E; subst; split; [now apply assigned_refl|split; [exact El|congruence]]|]);
  apply bind_inv in E; destruct E as ([op pc] & d1 & E1 & E); apply lift_inv in E1; destruct E1 as ([op' pc'] & E1 & E1');
  inversion E1'; subst op' pc' d1; clear E1';
  (destruct (op =? op_ann) eqn:Eo; [apply N.eqb_eq in Eo|apply N.eqb_neq in Eo; destruct (new_ordinal_ok cur off d ord d' op pc E V El E1 Eo) as [A B]; split; [exact A|split; [exact B|]];
     unfold new_ordinal in E; inversion E; subst; cbn; intros o j N1 N2; rewrite lookup_cons in N2; destruct (off =? o); congruence]).
  - apply bind_inv in E. destruct E as ([smid pc2] & d1 & _ & E). apply bind_inv in E. destruct E as ([b pc3] & d2 & _ & E).
    apply bind_inv in E. destruct E as (bo & d3 & E & _). discriminate E.
  - apply bind_inv in E. destruct E as ([smid pc2] & d1 & E2 & E). apply lift_inv in E2. destruct E2 as (x & E2 & Ex). inversion Ex; subst x d1; clear Ex.
    apply bind_inv in E. destruct E as ([b pc3] & d1 & E3 & E). apply lift_inv in E3. destruct E3 as (x & E3 & Ex). inversion Ex; subst x d1; clear Ex.
    apply bind_inv in E. destruct E as (bo & d1 & E4 & E). destruct (IH _ _ _ _ E4 V) as (A1 & L1 & F1).
    apply bind_inv in E. destruct E as (old & d2 & E5 & E). unfold get_smid in E5.
    destruct (nth_error (d_smids d1) (N.to_nat bo)) as [s0|]; [|discriminate]. inversion E5; subst s0 d2; clear E5.
    apply bind_inv in E. destruct E as (u & d2 & E6 & E).
    assert (assigned cur d1 d2 /\ d_ord d2 = d_ord d1) as [A2 O2].
    { destruct (old =? 0); [destruct (set_smid_ok _ _ _ _ _ _ E6 (a_inv _ _ _ A1)) as (X & Y & _); auto|].
      inversion E6; subst. split; [apply assigned_refl, A1|reflexivity]. }
    apply bind_inv in E. destruct E as (u' & d3 & E7 & E). inversion E7; subst u' d3; clear E7. inversion E; subst; clear E.
    pose proof (read_ann _ _ _ _ _ _ _ E1 eq_refl E2 E3) as Rn. rewrite <- O2 in L1.
    pose proof (a_inv _ _ _ A2) as V2.
    assert (forall o j, ord_lookup (d_ord d2) o = Some j -> ord_lookup ((off, ord) :: d_ord d2) o = Some j) as Lm.
    { intros o j H. rewrite lookup_cons. destruct (off =? o) eqn:Eq; [|exact H]. apply N.eqb_eq in Eq. subst o.
      f_equal. symmetry. apply (F1 off j El). now rewrite <- O2. }
    set (d3 := mkDec _ _ _ _ _ _ _ _ _) in *.
    assert (grows d2 d3) as G3 by (constructor; cbn; auto using prefix_refl).
    split; [|split].
    + eapply assigned_trans; [exact A1|]. eapply assigned_trans; [exact A2|]. constructor; auto.
      destruct V2 as [v1 v2 v3 v4 v5 v6 v7 v8 v9 v10]. constructor; cbn; auto.
      * intros o j H. rewrite lookup_cons in H. destruct (off =? o) eqn:Eq.
        -- apply N.eqb_eq in Eq. subst o. inversion H; subst j. split; [apply (v5 _ _ L1)|]. right. exists smid, b. auto.
        -- destruct (v5 o j H) as [X [Y|(s & b' & Y & Z)]]; (split; [exact X|]); [now left|right; exists s, b'; auto].
      * intros i x H. apply (done_mono d2); auto.
    + cbn. now rewrite lookup_cons, N.eqb_refl.
    + intros o j H1 H2. cbn in H2. rewrite lookup_cons in H2. destruct (off =? o); [congruence|].
      apply (F1 o j H1). now rewrite <- O2.
Qed.
Corollary ordinal_for_assigned cur fuel off d ord d' : ordinal_for code fuel off d = Done (ord, d') -> inv cur d ->
  assigned cur d d' /\ ord_lookup (d_ord d') off = Some ord.
Proof. intros E V. destruct (ordinal_for_ok _ _ _ _ _ _ E V) as (A & B & _). auto. Qed.
Lemma ordinal_small cur d o i : inv cur d -> ord_lookup (d_ord d) o = Some i -> i < no_branch.
Proof. intros V H. destruct (v_ord _ _ V _ _ H) as [L _]. pose proof (off_small _ _ V). pose proof code_small. lia. Qed.
End Code.
