(** Well-formed code is decoded. *)
From Coq Require Import List Bool Arith NArith Lia ZifyN ZifyNat ZifyBool.
From Verif.Simplify Require Import Compress.
From Verif.Bytecode Require Import Model Spec Proofs EncProofs ProgProofs.
From Verif.Predecode Require Import Model Spec InvProofs NodeProofs RunProofs LocProofs.
Import ListNotations.
Open Scope N_scope.

Section Code.
Context (code : list N) (Ok : is_code code).
Notation inv := (inv code).

(** ** Chains of annotations *)
Notation chain := (chain code).
Lemma chain_fun k o : chain k o -> forall k', chain k' o -> k = k'.
Proof.
  induction 1 as [o n E Na|o s b k E C IH]; intros k' C'; inversion C' as [? n' E' Na'|? s' b' k2 E' C2]; subst; try reflexivity.
  - exfalso. apply (Na s' b'). congruence.
  - exfalso. apply (Na' s b). congruence.
  - f_equal. apply IH. assert (b' = b) as <- by congruence. exact C2.
Qed.
Lemma node_in_code o n : read_node code o = Done n -> (N.to_nat o < length code)%nat.
Proof. unfold read_node. destruct (read_u8 code o) as [[op pc]| |] eqn:E; try discriminate. intros _. eapply in_code, E. exact Ok. Qed.
Lemma chain_bound k o : chain k o -> (k < length code)%nat.
Proof.
  intros C. assert (exists l, length l = S k /\ NoDup l /\ forall a, In a l -> (N.to_nat a < length code)%nat /\ exists k', (k' <= k)%nat /\ chain k' a) as (l & L & ND & B).
  { induction C as [o n E Na|o s b k E C IH].
    - exists [o]. split; [reflexivity|]. split; [constructor; [auto|constructor]|]. intros a [<-|[]]. split; [eapply node_in_code, E|]. exists 0%nat. split; [lia|]. eapply c_end; eauto.
    - destruct IH as (l & L & ND & B). exists (o :: l). split; [cbn; now rewrite L|]. split.
      + constructor; [|exact ND]. intros I. destruct (B o I) as (_ & k' & L' & C'). pose proof (chain_fun _ _ C' (S k) (c_ann code o s b k E C)). lia.
      + intros a [<-|I]; [split; [eapply node_in_code, E|exists (S k); split; [lia|eapply c_ann; eauto]]|].
        destruct (B a I) as (Ha & k' & L' & C'). split; [exact Ha|]. exists k'. split; [lia|exact C']. }
  pose proof (bounded_nodup l (length code) ND (fun a I => proj1 (B a I))). lia.
Qed.

(** ** Closed sets of offsets *)
Section Closed.
Context (P : N -> Prop).
Definition closed : Prop := forall o, P o -> exists n k, read_node code o = Done n /\ Forall P (children n) /\ chain k o.
Context (Cl : closed) (fuel : nat) (Fu : (length code <= fuel)%nat).

Definition good (cur : option N) (d : dec) : Prop := inv cur d /\ forall o i, In (o, i) (d_queue d) -> P o.
Definition yields {A} (cur : option N) (x : step A) (Q : A -> Prop) : Prop :=
  forall d, good cur d -> exists a d', x d = Done (a, d') /\ good cur d' /\ Q a.
Lemma y_ret {A} cur (a : A) (Q : A -> Prop) : Q a -> yields cur (ret a) Q.
Proof. intros q d G. exists a, d. auto. Qed.
Lemma y_bind {A B} cur (x : step A) (f : A -> step B) Q R : yields cur x Q -> (forall a, Q a -> yields cur (f a) R) -> yields cur (bind x f) R.
Proof.
  intros Y1 Y2 d G. destruct (Y1 d G) as (a & d1 & E1 & G1 & q). destruct (Y2 a q d1 G1) as (b & d2 & E2 & G2 & r).
  exists b, d2. split; [|auto]. unfold bind. rewrite E1. exact E2.
Qed.
Lemma y_lift {A} cur (x : outcome A) a (Q : A -> Prop) : x = Done a -> Q a -> yields cur (lift x) Q.
Proof. intros -> q d G. exists a, d. auto. Qed.
Lemma y_size {A} cur (f : dec -> list A) : yields cur (size_of f) (fun _ => True).
Proof. intros d G. eexists _, d. split; [reflexivity|auto]. Qed.
Ltac pool := intros d [V H]; eexists tt, _; split; [reflexivity|]; split; [|exact I]; split; [apply pool_inv; auto using prefix_refl, prefix_snoc|exact H].
Lemma y_ref cur r : yields cur (push_ref r) (fun _ => True). Proof. pool. Qed.
Lemma y_off cur r : yields cur (push_offset r) (fun _ => True). Proof. pool. Qed.
Lemma y_header cur r : yields cur (push_header r) (fun _ => True). Proof. pool. Qed.
Lemma y_branch cur r : yields cur (push_branch r) (fun _ => True). Proof. pool. Qed.
Lemma y_set cur ord s : (forall d, inv cur d -> (N.to_nat ord < length (d_off d))%nat) -> yields cur (set_smid ord s) (fun _ => True).
Proof.
  intros B d [V H]. specialize (B d V). unfold set_smid. rewrite <- (v_len2 _ _ _ V) in B.
  destruct (nth_error (d_smids d) (N.to_nat ord)) as [x|] eqn:E; [|apply nth_error_None in E; lia].
  eexists tt, _. split; [reflexivity|]. split; [|exact I]. split; [|exact H].
  apply (set_smid_ok code cur ord s d tt); [unfold set_smid; rewrite E; reflexivity|exact V].
Qed.

Lemma other_byte o n : read_node code o = Done n -> (forall s b, n <> NAnn s b) -> exists op pc, read_u8 code o = Done (op, pc) /\ op <> op_ann.
Proof.
  intros E Na. unfold read_node in E. destruct (read_u8 code o) as [[op pc]| |] eqn:Eb; try discriminate. exists op, pc. split; [reflexivity|]. intros ->.
  cbn [obind] in E. repeat match type of E with context [?a =? ?b] => let v := eval compute in (a =? b) in change (a =? b) with v in E end.
  cbn [orb] in E. cbv iota in E. destruct (read_u32 code pc) as [[s pc1]| |]; try discriminate. cbn [obind] in E.
  destruct (read_u32 code pc1) as [[b pc2]| |]; try discriminate. cbn [obind] in E. inversion E; subst; eapply Na; reflexivity.
Qed.
Lemma ann_words o s b : read_node code o = Done (NAnn s b) -> exists pc pc1 pc2, read_u8 code o = Done (op_ann, pc)
  /\ read_u32 code pc = Done (s, pc1) /\ read_u32 code pc1 = Done (b, pc2).
Proof.
  intros E. pose proof E as E0. apply ann_byte in E0. destruct E0 as [pc Eb]. unfold read_node in E. rewrite Eb in E. cbn [obind] in E.
  repeat match type of E with context [?a =? ?b] => let v := eval compute in (a =? b) in change (a =? b) with v in E end.
  cbn [orb] in E. cbv iota in E. destruct (read_u32 code pc) as [[s1 pc1]| |] eqn:E1; try discriminate. cbn [obind] in E.
  destruct (read_u32 code pc1) as [[b1 pc2]| |] eqn:E2; try discriminate. cbn [obind] in E. inversion E; subst s1 b1; clear E.
  exists pc, pc1, pc2. auto.
Qed.
Lemma ordinal_yields cur k : forall o f d, chain k o -> (k <= f)%nat -> inv cur d -> exists i d', ordinal_for code f o d = Done (i, d').
Proof.
  induction k as [|k IH]; intros o f d C L V; inversion C as [? n E Na|? s b k' E C']; subst.
  - destruct (other_byte o n E Na) as (op & pc & Eb & Ne). apply N.eqb_neq in Ne.
    destruct f as [|f]; cbn [ordinal_for]; (destruct (ord_lookup (d_ord d) o) as [i|] eqn:El; [eauto|]);
    unfold bind at 1, lift at 1; rewrite Eb; cbn [obind]; rewrite Ne; eexists _, _; reflexivity.
  - destruct (ann_words o s b E) as (pc & pc1 & pc2 & Eb & E1 & E2). destruct f as [|f]; [lia|].
    destruct (IH b f d C' ltac:(lia) V) as (i & d1 & E3). destruct (ordinal_for_assigned code Ok _ _ _ _ _ _ E3 V) as [A M].
    pose proof (a_inv _ _ _ _ A) as V1. destruct (v_ord _ _ _ V1 _ _ M) as [Li _]. rewrite <- (v_len2 _ _ _ V1) in Li.
    destruct (nth_error (d_smids d1) (N.to_nat i)) as [old|] eqn:Es; [|apply nth_error_None in Es; lia].
    cbn [ordinal_for]. destruct (ord_lookup (d_ord d) o) as [i0|] eqn:El; [eauto|].
    unfold bind at 1, lift at 1. rewrite Eb. cbn [obind]. change (op_ann =? op_ann) with true. cbv iota.
    unfold bind at 1, lift at 1. rewrite E1. cbn [obind]. unfold bind at 1, lift at 1. rewrite E2. cbn [obind].
    unfold bind at 1. rewrite E3. cbn [obind]. unfold bind at 1, get_smid. rewrite Es. cbn [obind]. unfold bind at 1.
    destruct (old =? 0).
    + unfold set_smid. rewrite Es. cbn [obind]. eexists _, _. reflexivity.
    + cbn [ret obind]. eexists _, _. reflexivity.
Qed.
Lemma ordinal_queue f : forall o d i d', ordinal_for code f o d = Done (i, d') -> P o -> (forall o i, In (o, i) (d_queue d) -> P o) ->
  forall o i, In (o, i) (d_queue d') -> P o.
Proof.
  induction f as [|f IH]; intros o d i d' E Po H; apply ordinal_inv in E;
  destruct E as [(El & ->)|(El & op & pc & E0 & [(Ne & En)|(f' & s & b & d1 & old & d2 & Ef & En & E1 & Es & E2 & ->)])]; try discriminate; try exact H.
  1, 2: unfold new_ordinal in En; inversion En; subst; cbn; intros o' i' [K|K]; [inversion K; subst; exact Po|eauto].
  inversion Ef; subst f'. intros o' i'. cbn. assert (d_queue d2 = d_queue d1) as ->.
  { destruct (old =? 0); [apply set_smid_same in E2; tauto|now subst]. }
  eapply IH; [exact E1| |exact H]. destruct (Cl o Po) as (n & k & En' & Ch & _). rewrite En in En'. inversion En'; subst. now inversion Ch.
Qed.
Lemma y_ordinal cur o : P o -> yields cur (ordinal_for code fuel o) (fun _ => True).
Proof.
  intros Po d [V H]. destruct (Cl o Po) as (n & k & _ & _ & C). pose proof (chain_bound _ _ C).
  destruct (ordinal_yields cur k o fuel d C ltac:(lia) V) as (i & d' & E). exists i, d'. split; [exact E|]. split; [|exact I].
  split; [apply (ordinal_for_assigned code Ok _ _ _ _ _ _ E V)|]. eapply ordinal_queue; eauto.
Qed.
Lemma y_each {A} cur (f : A -> step unit) (T : A -> Prop) l : Forall T l -> (forall a, T a -> yields cur (f a) (fun _ => True)) -> yields cur (each f l) (fun _ => True).
Proof.
  intros F H. induction F as [|a l Ta F IH]; cbn [each]; [now apply y_ret|]. eapply y_bind; [apply H, Ta|auto].
Qed.
Lemma y_refs cur offs rs : arg_refs code offs = Done rs -> yields cur (push_refs code offs) (fun _ => True).
Proof.
  intros E. unfold push_refs. eapply y_bind; [apply y_size|]. intros st _. eapply y_bind; [|intros; now apply y_ret].
  apply (y_each cur _ (fun o => exists r, arg_ref code o = Done r)).
  - unfold arg_refs in E. revert rs E. induction offs as [|o offs IH]; intros rs E; [constructor|]. cbn [map collect] in E.
    destruct (arg_ref code o) as [r| |] eqn:Er; try discriminate. cbn [obind] in E. destruct (collect _) as [rs'| |] eqn:E2; try discriminate. constructor; eauto.
  - intros o [r Er]. eapply y_bind; [eapply y_lift; [exact Er|exact I]|]. intros; apply y_ref.
Qed.
Lemma y_offsets cur offs : Forall P offs -> yields cur (push_offsets code fuel offs) (fun _ => True).
Proof.
  intros F. unfold push_offsets. eapply y_bind; [apply y_size|]. intros st _. eapply y_bind; [|intros; now apply y_ret].
  apply (y_each cur _ P); [exact F|]. intros o Po. eapply y_bind; [now apply y_ordinal|]. intros; apply y_off.
Qed.
Lemma y_branches cur n : forall pc es pc', read_many (read_u32 code) n pc = Done (es, pc') -> Forall P (flat_map opt_list (map entry_of es)) ->
  yields cur (push_branches code fuel n pc) (eq pc').
Proof.
  induction n as [|n IH]; intros pc es pc' E F; cbn [read_many] in E; cbn [push_branches]; [inversion E; subst; now apply y_ret|].
  destruct (read_u32 code pc) as [[e pc1]| |] eqn:E1; try discriminate. cbn [obind] in E.
  destruct (read_many (read_u32 code) n pc1) as [[es' pc2]| |] eqn:E2; try discriminate. cbn [obind] in E. inversion E; subst; clear E.
  cbn [map flat_map] in F. apply Forall_app in F. destruct F as [F1 F2].
  eapply (y_bind _ _ _ (eq (e, pc1))); [eapply y_lift; [reflexivity|reflexivity]|]. intros a <-. cbv beta iota.
  eapply (y_bind cur _ _ (fun _ => True)); [unfold entry_of in F1; destruct (e =? no_branch); [now apply y_ret|apply y_ordinal; now inversion F1]|]. intros m _.
  eapply y_bind; [apply y_branch|]. intros _ _. eapply IH; eauto.
Qed.
Lemma y_headers cur n : forall pc hs pc', read_many (read_form_header code) n pc = Done (hs, pc') -> Forall P (map (@h_body N) hs) ->
  yields cur (push_headers code fuel n pc) (eq pc').
Proof.
  induction n as [|n IH]; intros pc es pc' E F; cbn [read_many] in E; cbn [push_headers]; [inversion E; subst; now apply y_ret|].
  destruct (read_form_header code pc) as [[e pc1]| |] eqn:E1; try discriminate. cbn [obind] in E.
  destruct (read_many (read_form_header code) n pc1) as [[es' pc2]| |] eqn:E2; try discriminate. cbn [obind] in E. inversion E; subst; clear E.
  cbn [map] in F. inversion F; subst.
  eapply (y_bind _ _ _ (eq (e, pc1))); [eapply y_lift; [reflexivity|reflexivity]|]. intros a <-. cbv beta iota.
  eapply y_bind; [now apply y_ordinal|]. intros m _. eapply y_bind; [apply y_header|]. intros _ _. eapply IH; eauto.
Qed.
Ltac ub E := match type of E with
  | obind ?x _ = Done _ => let Ex := fresh "X" in destruct x as [?| |] eqn:Ex; try discriminate E; cbn [obind] in E;
       try match type of E with (let '(_, _) := ?p in _) = _ => destruct p as [? ?] end; cbv beta iota in E
  | (let '(_, _) := ?p in _) = Done _ => destruct p as [? ?]
  | (let (_, _) := ?p in _) = Done _ => destruct p as [? ?]
  end.
Ltac ly := match goal with
  | |- yields _ (bind (lift (Done ?a)) _) _ => eapply (y_bind _ _ _ (eq a)); [eapply (y_lift _ _ a); [reflexivity|reflexivity]|]; let z := fresh in intros z <-; cbv beta iota
  | H : ?x = Done ?a |- yields _ (bind (lift ?x) _) _ => eapply (y_bind _ _ _ (eq a)); [eapply (y_lift _ _ a); [exact H|reflexivity]|]; let z := fresh in intros z <-; cbv beta iota
  | |- yields _ (bind (ordinal_for _ _ ?o) _) _ => eapply y_bind; [apply y_ordinal; assumption|]; intros ? _; cbv beta iota
  | |- yields _ (bind (size_of _) _) _ => eapply y_bind; [apply y_size|]; intros ? _; cbv beta iota
  | |- yields _ (ret _) _ => now apply y_ret
  end.
Ltac norm E := repeat match type of E with context [?a =? ?b] => let v := eval compute in (a =? b) in
    match v with true => change (a =? b) with true in E | false => change (a =? b) with false in E end end; cbn [orb] in E; cbv iota in E.
Ltac op_is op O E := apply N.eqb_eq in O; subst op; norm E; repeat ub E.
Ltac kids E Ch := inversion E; subst; cbn [children] in Ch; repeat match goal with H : Forall P (_ :: _) |- _ => inversion H; subst; clear H end.
Lemma y_node off ord n : read_node code off = Done n -> (forall s b, n <> NAnn s b) -> Forall P (children n) ->
  yields (Some ord) (decode_node code fuel off ord) (fun _ => True).
Proof.
  intros E Na Ch. unfold decode_node. unfold read_node in E. ub E. ly.
  assert (forall d, inv (Some ord) d -> (N.to_nat ord < length (d_off d))%nat) as B by (intros d V; apply (v_cur _ _ _ V); reflexivity).
  destruct (n0 =? op_atom) eqn:O1; [op_is n0 O1 E; repeat ly|].
  destruct (n0 =? op_cons) eqn:O2.
  { op_is n0 O2 E. repeat ly. eapply y_bind; [eapply y_refs; eassumption|]. intros [st len] _. ly. }
  destruct (n0 =? op_bif) eqn:O3.
  { op_is n0 O3 E. repeat ly. eapply y_bind; [eapply y_refs; eassumption|]. intros [st len] _. ly. }
  destruct (n0 =? op_case) eqn:O4.
  { op_is n0 O4 E. unfold read_branch_table in X1. repeat ub X1. inversion X1; subst; clear X1.
    assert (P n0 /\ Forall P (flat_map opt_list (map entry_of l0))) as [P1 P2].
    { destruct (n5 =? 1); [ub E|]; inversion E; subst; cbn [children] in Ch; inversion Ch as [|? ? C1 C2]; subst; apply Forall_app in C2; tauto. }
    repeat ly. eapply y_bind; [eapply y_branches; eassumption|]. intros pc' <-. repeat ly.
    eapply (y_bind _ _ _ (fun _ => True)); [|intros; ly].
    destruct (n5 =? 1); [|now apply y_ret]. repeat ub E. ly. apply y_ordinal. inversion E; subst. cbn [children] in Ch. inversion Ch as [|? ? C1 C2]; subst.
    apply Forall_app in C2. destruct C2 as [_ C2]. now inversion C2. }
  destruct (n0 =? op_seq) eqn:O5.
  { op_is n0 O5 E. kids E Ch. repeat ly. }
  destruct (n0 =? op_ann) eqn:O6.
  { op_is n0 O6 E. exfalso. inversion E; subst. eapply Na. reflexivity. }
  destruct (n0 =? op_fused_primop) eqn:O7.
  { op_is n0 O7 E. kids E Ch. repeat ly. }
  destruct (n0 =? op_black_hole) eqn:O8.
  { ly. }
  destruct (n0 =? op_app) eqn:O9.
  { op_is n0 O9 E. kids E Ch. repeat ly. eapply y_bind; [now apply y_offsets|]. intros [st len] _. ly. }
  destruct (n0 =? op_direct_app) eqn:O10.
  { op_is n0 O10 E. kids E Ch. repeat ly. eapply y_bind; [now apply y_offsets|]. intros [st len] _.
    eapply y_bind; [now apply y_set|]. intros _ _. ly. }
  destruct ((n0 =? op_let) || (n0 =? op_letrec))%bool eqn:O11.
  { repeat ub E. inversion E; subst. cbn [children] in Ch. apply Forall_app in Ch.
    destruct Ch as [C1 C2]. inversion C2; subst. repeat ly. eapply y_bind; [eapply y_headers; eassumption|]. intros pc' <-. repeat ly. }
  destruct (n0 =? op_meta) eqn:O12.
  { op_is n0 O12 E. repeat ly. }
  destruct (n0 =? op_demeta) eqn:O13.
  { op_is n0 O13 E. kids E Ch. repeat ly. }
  destruct (n0 =? op_lookup_lit) eqn:O14.
  { op_is n0 O14 E. kids E Ch. repeat ly. eapply y_bind; [now apply y_set|]. intros _ _. ly. }
  discriminate.
Qed.


(** ** The loop *)
Lemma y_run_step off ord d d0 : pop d = Done (Some (off, ord), d0) -> good None d -> exists x d1 d2,
  decode_node code fuel off ord d0 = Done (x, d1) /\ set_instr ord x d1 = Done (tt, d2) /\ good None d2.
Proof.
  intros E [V H]. destruct (pop_inv code _ _ _ E V) as ((V0 & G0) & Ho & Hi & _).
  unfold pop in E. destruct (d_queue d) as [|q l] eqn:Q; [discriminate|]. inversion E; subst q d0; clear E.
  assert (P off) as Po by (eapply H; left; reflexivity).
  destruct (Cl off Po) as (n & k & En & Ch & C).
  assert (forall s b, n <> NAnn s b) as Na.
  { intros s b ->. destruct (v_byte _ _ _ V0 off (nth_error_In _ _ Ho)) as (op & pc & Eb & Ne). apply ann_byte in En. destruct En as [pc' En]. congruence. }
  edestruct (y_node off ord n En Na Ch) as (x & d1 & E1 & [V1 H1] & _); [split; [exact V0|]; cbn; intros; eapply H; right; eassumption|].
  destruct (decode_node_ok code Ok fuel _ _ _ _ _ E1 V0) as ((_ & G1) & nd & End & Dn).
  pose proof (undecoded_node _ _ _ _ ord _ _ _ E1 Hi) as Hi2. pose proof (prefix_nth _ _ _ _ (g_off _ _ G1) Ho) as Ho2.
  exists x, d1. unfold set_instr at 1. unfold undecoded in Hi2. rewrite Hi2. eexists. split; [exact E1|]. split; [reflexivity|]. split; [|cbn; exact H1].
  eapply (set_instr_inv code ord off x d1 tt); try eassumption. unfold set_instr. now rewrite Hi2.
Qed.
End Closed.

(** How many instructions have been decoded. *)
Fixpoint decoded_count (l : list (option instr)) : nat := match l with [] => 0 | Some _ :: l => S (decoded_count l) | None :: l => decoded_count l end.
Lemma count_le l : (decoded_count l <= length l)%nat.
Proof. induction l as [|[x|] l IH]; cbn; lia. Qed.
Lemma count_lt l i : nth_error l i = Some None -> (decoded_count l < length l)%nat.
Proof.
  revert i. induction l as [|a l IH]; intros [|i] E; cbn in E; try discriminate.
  - inversion E; subst. cbn. pose proof (count_le l). lia.
  - specialize (IH i E). destruct a; cbn; lia.
Qed.
Lemma count_replace l i x : nth_error l i = Some None -> decoded_count (replace i (Some x) l) = S (decoded_count l).
Proof.
  revert i. induction l as [|a l IH]; intros [|i] E; cbn in E; try discriminate.
  - inversion E; subst. reflexivity.
  - cbn [replace]. destruct a; cbn; now rewrite (IH i E).
Qed.
Lemma count_grows l : forall l', (forall i x, nth_error l i = Some (Some x) -> nth_error l' i = Some (Some x)) -> (decoded_count l <= decoded_count l')%nat.
Proof.
  induction l as [|a l IH]; intros l' H; [cbn; lia|]. destruct l' as [|b l'].
  - assert (decoded_count l <= decoded_count [])%nat as L. { apply IH. intros i x E. specialize (H (S i) x E). discriminate H. }
    destruct a as [y|]; [specialize (H 0%nat y eq_refl); discriminate H|exact L].
  - assert (decoded_count l <= decoded_count l')%nat as L. { apply IH. intros i x E. exact (H (S i) x E). }
    destruct a as [y|]; [specialize (H 0%nat y eq_refl); cbn in H; inversion H; subst; cbn; lia|]. cbn [decoded_count]. destruct b; cbn; lia.
Qed.
Lemma step_count fuel off ord d d0 x d1 d2 : pop d = Done (Some (off, ord), d0) -> inv None d ->
  decode_node code fuel off ord d0 = Done (x, d1) -> set_instr ord x d1 = Done (tt, d2) ->
  inv None d2 /\ (decoded_count (d_instrs d) < decoded_count (d_instrs d2) <= length code)%nat /\ (decoded_count (d_instrs d) < length code)%nat.
Proof.
  intros E V E1 E2. destruct (pop_inv code _ _ _ E V) as ((V0 & G0) & Ho & Hi & _).
  destruct (decode_node_ok code Ok fuel _ _ _ _ _ E1 V0) as ((V1 & G1) & nd & End & Dn).
  pose proof (undecoded_node _ _ _ _ ord _ _ _ E1 Hi) as Hi2. pose proof (prefix_nth _ _ _ _ (g_off _ _ G1) Ho) as Ho2.
  destruct (set_instr_inv code ord off x d1 tt d2 nd E2 V1 Ho2 End Dn Hi2) as (V2 & _ & _ & _ & _ & Ei).
  split; [exact V2|]. rewrite Ei, (count_replace _ _ _ Hi2).
  pose proof (count_grows _ _ (g_instrs _ _ (grows_trans _ _ _ G0 G1))) as L. pose proof (count_lt _ _ Hi2). pose proof (v_len1 _ _ _ V1). pose proof (off_small code Ok _ _ V1). lia.
Qed.
Lemma run_total P : closed P -> forall fuel, (length code <= fuel)%nat -> forall n d, good P None d -> (length code <= decoded_count (d_instrs d) + n)%nat ->
  exists d', run code fuel n d = Done (tt, d') /\ good P None d' /\ d_queue d' = [].
Proof.
  intros Cl fuel Fu. induction n as [|n IH]; intros d G B; cbn [run]; unfold bind at 1; destruct (pop d) as [[q d0]| |] eqn:E;
  try (unfold pop in E; destruct (d_queue d); discriminate); cbn [obind];
  (destruct q as [[off ord]|]; [|exists d0; unfold pop in E; destruct (d_queue d) eqn:Q; [|discriminate]; inversion E; subst; split; [reflexivity|split; assumption]]);
  destruct (y_run_step P Cl fuel Fu off ord d d0 E G) as (x & d1 & d2 & E1 & E2 & G2);
  destruct (step_count fuel _ _ _ _ _ _ _ E (proj1 G) E1 E2) as (_ & L1 & L2); [lia|].
  unfold bind at 1. rewrite E1. cbn [obind]. unfold bind at 1. rewrite E2. cbn [obind]. apply IH; [exact G2|]. lia.
Qed.
Lemma y_ordinals P : closed P -> forall fuel, (length code <= fuel)%nat -> forall cur l, Forall P l -> yields P cur (ordinals code fuel l) (fun _ => True).
Proof.
  intros Cl fuel Fu cur l F. induction F as [|o l Po F IH]; cbn [ordinals]; [now apply y_ret|].
  eapply y_bind; [now apply y_ordinal|]. intros i _. eapply y_bind; [exact IH|]. intros is _. now apply y_ret.
Qed.

(** ** Depth and number of steps do not matter *)
Lemma needs_bound d o k : needs code d o k -> k <> 0%nat -> (k < length code + 1)%nat.
Proof.
  intros C _. assert (exists l, length l = k /\ NoDup l /\ forall a, In a l -> (N.to_nat a < length code)%nat /\ exists k', (k' <= k)%nat /\ needs code d a k') as (l & L & ND & B).
  { induction C as [o i E|o op pc E E1 Na|o s b k En E C IH].
    - exists []. split; [reflexivity|]. split; [constructor|intros a []].
    - exists []. split; [reflexivity|]. split; [constructor|intros a []].
    - destruct IH as (l & L & ND & B). exists (o :: l). split; [cbn; now rewrite L|]. split.
      + constructor; [|exact ND]. intros I. destruct (B o I) as (_ & k' & L' & C'). pose proof (needs_fun code _ _ _ C' (S k) (n_ann code d o s b k En E C)). lia.
      + intros a [<-|I]; [split; [eapply node_in_code, E|exists (S k); split; [lia|eapply n_ann; eauto]]|].
        destruct (B a I) as (Ha & k' & L' & C'). split; [exact Ha|]. exists k'. split; [lia|exact C']. }
  pose proof (bounded_nodup l (length code) ND (fun a I => proj1 (B a I))). lia.
Qed.
Definition le {A} (x y : step A) : Prop := forall d r, x d = Done r -> y d = Done r.
Lemma le_refl {A} (x : step A) : le x x. Proof. intros d r; auto. Qed.
Lemma le_bind {A B} (x y : step A) (f g : A -> step B) : le x y -> (forall a, le (f a) (g a)) -> le (bind x f) (bind y g).
Proof.
  intros L1 L2 d r. unfold bind. destruct (x d) as [[a d1]| |] eqn:E; try discriminate. cbn [obind]. rewrite (L1 _ _ E). cbn [obind]. apply L2.
Qed.
Lemma ordinal_depth f : forall o d i d', ordinal_for code f o d = Done (i, d') -> forall f' k, needs code d o k -> (k <= f')%nat -> ordinal_for code f' o d = Done (i, d').
Proof.
  induction f as [|f IH]; intros o d i d' E f' k Nk L.
  - pose proof E as Eo. apply ordinal_inv in E. destruct E as [(El & ->)|(El & op & pc & E0 & [(Ne & En)|(f2 & s & b & d1 & old & d2 & Ef & En & E1 & Es & E2 & ->)])]; [| |discriminate].
    + destruct f'; cbn [ordinal_for]; now rewrite El.
    + destruct f'; cbn [ordinal_for]; rewrite El; unfold bind at 1, lift at 1; rewrite E0; cbn [obind]; apply N.eqb_neq in Ne; rewrite Ne; exact En.
  - pose proof E as Eo. apply ordinal_inv in E. destruct E as [(El & ->)|(El & op & pc & E0 & [(Ne & En)|(f2 & s & b & d1 & old & d2 & Ef & En & E1 & Es & E2 & Ed)])].
    + destruct f'; cbn [ordinal_for]; now rewrite El.
    + destruct f'; cbn [ordinal_for]; rewrite El; unfold bind at 1, lift at 1; rewrite E0; cbn [obind]; apply N.eqb_neq in Ne; rewrite Ne; exact En.
    + inversion Ef; subst f2. inversion Nk as [? ? H'|? ? ? H' E' Ne'|? s' b' k' H' E' N'']; subst; try congruence.
      * apply ann_byte in En. destruct En as [pc' En]. congruence.
      * assert (b' = b) as -> by congruence. destruct f' as [|f']; [lia|]. rewrite <- Eo.
        pose proof (IH _ _ _ _ E1 f' k' N'' ltac:(lia)) as E3.
        destruct (ann_words o s b En) as (pc0 & pc1 & pc2 & Eb & X1 & X2).
        assert (forall g, ordinal_for code (S g) o d = (do body_ord <- ordinal_for code g b; do old <- get_smid body_ord;
          (if old =? 0 then set_smid body_ord s else ret tt);; insert_ord o body_ord;; ret body_ord) d) as U.
        { intros g. cbn [ordinal_for]. rewrite El. unfold bind at 1, lift at 1. rewrite Eb. cbn [obind]. change (op_ann =? op_ann) with true. cbv iota.
          unfold bind at 1, lift at 1. rewrite X1. cbn [obind]. unfold bind at 1, lift at 1. rewrite X2. reflexivity. }
        rewrite !U. apply f_equal with (f := fun z => obind z (fun '(a, d) => (do old <- get_smid a;
          (if old =? 0 then set_smid a s else ret tt);; insert_ord o a;; ret a) d)). congruence.
Qed.
Lemma ordinal_le f f' o : (length code <= f')%nat -> le (ordinal_for code f o) (ordinal_for code f' o).
Proof.
  intros L d [i d'] E. destruct (ordinal_needs code _ _ _ _ _ E) as (k & _ & Nk & _).
  eapply ordinal_depth; [exact E|exact Nk|]. destruct k; [lia|]. pose proof (needs_bound _ _ _ Nk ltac:(lia)). lia.
Qed.
Section Le.
Context (f f' : nat) (L : (length code <= f')%nat).
Lemma le_each {A} (g h : A -> step unit) l : (forall a, le (g a) (h a)) -> le (each g l) (each h l).
Proof. intros H. induction l as [|a l IH]; cbn [each]; [apply le_refl|]. now apply le_bind. Qed.
Lemma le_offsets offs : le (push_offsets code f offs) (push_offsets code f' offs).
Proof.
  unfold push_offsets. apply le_bind; [apply le_refl|]. intros st. apply le_bind; [|intros; apply le_refl]. apply le_each. intros o.
  apply le_bind; [now apply ordinal_le|intros; apply le_refl].
Qed.
Lemma le_branches n : forall pc, le (push_branches code f n pc) (push_branches code f' n pc).
Proof.
  induction n as [|n IH]; intros pc; cbn [push_branches]; [apply le_refl|]. apply le_bind; [apply le_refl|]. intros [e pc1].
  apply le_bind; [destruct (e =? no_branch); [apply le_refl|now apply ordinal_le]|]. intros m. apply le_bind; [apply le_refl|]. intros _. apply IH.
Qed.
Lemma le_headers n : forall pc, le (push_headers code f n pc) (push_headers code f' n pc).
Proof.
  induction n as [|n IH]; intros pc; cbn [push_headers]; [apply le_refl|]. apply le_bind; [apply le_refl|]. intros [e pc1].
  apply le_bind; [now apply ordinal_le|]. intros m. apply le_bind; [apply le_refl|]. intros _. apply IH.
Qed.
Lemma le_node off ord : le (decode_node code f off ord) (decode_node code f' off ord).
Proof.
  unfold decode_node. apply le_bind; [apply le_refl|]. intros [op pc].
  repeat match goal with
  | |- le ?x ?x => apply le_refl
  | |- le (if ?c then _ else _) (if ?c then _ else _) => destruct c
  | |- le (ordinal_for _ _ _) (ordinal_for _ _ _) => now apply ordinal_le
  | |- le (push_offsets _ _ _) _ => apply le_offsets
  | |- le (push_branches _ _ _ _) _ => apply le_branches
  | |- le (push_headers _ _ _ _) _ => apply le_headers
  | |- le (bind _ _) (bind _ _) => apply le_bind
  | |- forall a : _ * _, _ => intros [? ?]
  | |- forall _, _ => intros ?
  end.
Qed.
Lemma le_ordinals l : le (ordinals code f l) (ordinals code f' l).
Proof.
  induction l as [|o l IH]; cbn [ordinals]; [apply le_refl|]. apply le_bind; [now apply ordinal_le|]. intros i. apply le_bind; [exact IH|]. intros; apply le_refl.
Qed.
Lemma run_le n : forall d d', run code f n d = Done (tt, d') -> inv None d -> forall m, (length code <= decoded_count (d_instrs d) + m)%nat -> run code f' m d = Done (tt, d').
Proof.
  induction n as [|n IH]; intros d d' E V m B; cbn [run] in E; unfold bind at 1 in E; destruct (pop d) as [[q d0]| |] eqn:Ep; try discriminate; cbn [obind] in E;
  destruct q as [[off ord]|]; try discriminate.
  1, 3: destruct m; cbn [run]; unfold bind at 1; rewrite Ep; cbn [obind]; exact E.
  ubind E x d1 E1. ubind E u d2 E2. destruct u. destruct (step_count f _ _ _ _ _ _ _ Ep V E1 E2) as (V2 & L1 & L2).
  destruct m as [|m]; [lia|]. cbn [run]. unfold bind at 1. rewrite Ep. cbn [obind]. unfold bind at 1. rewrite (le_node _ _ _ _ E1). cbn [obind].
  unfold bind at 1. rewrite E2. cbn [obind]. apply (IH _ _ E V2). lia.
Qed.
End Le.
End Code.

(** ** Whole programs *)
Lemma decode_total {native} (p : program native) root globals P : is_code (p_code p) -> closed (p_code p) P -> roots_in P p root globals ->
  exists D, decode_program p root globals = Done D.
Proof.
  intros Ok Cl (R1 & R2 & R3 & R4 & R5 & R6 & R7 & R8 & R9). unfold decode_program, decode_program_with. cbv zeta. set (L := length (p_code p)).
  assert (L <= L)%nat as Fu by lia.
  assert (good (p_code p) P None empty_dec) as G0 by (split; [now apply empty_inv|cbn; intros ? ? []]).
  Ltac one Y G a d E G' := let q := fresh in destruct (Y _ G) as (a & d & E & G' & q); clear q; unfold bind at 1; rewrite E; cbn [obind].
  one (y_ordinal (p_code p) Ok P Cl L Fu None root R1) G0 a1 d1 E1 G1.
  one (y_ordinals (p_code p) Ok P Cl L Fu None _ R2) G1 a2 d2 E2 G2.
  one (y_ordinals (p_code p) Ok P Cl L Fu None _ R3) G2 a3 d3 E3 G3.
  one (y_ordinal (p_code p) Ok P Cl L Fu None _ R4) G3 a4 d4 E4 G4.
  one (y_ordinal (p_code p) Ok P Cl L Fu None _ R5) G4 a5 d5 E5 G5.
  one (y_ordinal (p_code p) Ok P Cl L Fu None _ R6) G5 a6 d6 E6 G6.
  one (y_ordinal (p_code p) Ok P Cl L Fu None _ R7) G6 a7 d7 E7 G7.
  one (y_ordinal (p_code p) Ok P Cl L Fu None _ R8) G7 a8 d8 E8 G8.
  one (y_ordinals (p_code p) Ok P Cl L Fu None _ R9) G8 a9 d9 E9 G9.
  destruct (run_total (p_code p) Ok P Cl L Fu L d9 G9 ltac:(unfold L; lia)) as (d10 & E10 & [V _] & Q).
  unfold bind at 1. rewrite E10. cbn [obind ret].
  assert (exists r, collect (map (fun o => match o with Some i => Done i | None => Panic end) (d_instrs d10)) = Done r) as [r ->]; [|cbn [obind]; eauto].
  assert (forall i, nth_error (d_instrs d10) i <> Some None) as A.
  { intros i H. destruct (v_pending _ _ _ V i H) as [K|K]; [discriminate|]. rewrite Q in K. destruct K. }
  induction (d_instrs d10) as [|[x|] l IH]; [cbn; eauto| |exfalso; apply (A 0%nat); reflexivity].
  destruct IH as [r Er]; [intros i; exact (A (S i))|]. cbn [map collect obind]. rewrite Er. cbn [obind]. eauto.
Qed.
Lemma decode_depth {native} depth steps (p : program native) root globals D : is_code (p_code p) ->
  decode_program_with depth steps p root globals = Done D -> decode_program p root globals = Done D.
Proof.
  intros Ok E. unfold decode_program. set (L := length (p_code p)). unfold decode_program_with in *. cbv zeta in *.
  assert (L <= L)%nat as Fu by lia.
  match type of E with obind (?x empty_dec) _ = _ => destruct (x empty_dec) as [[build d]| |] eqn:Ex; try discriminate end.
  match goal with |- obind (?x empty_dec) _ = _ => assert (x empty_dec = Done (build, d)) as -> end; [|exact E]. clear E. rename Ex into E.
  Ltac two E LE a d X := let Y := fresh in ubind E a d X; unfold bind at 1; pose proof (LE _ _ X) as Y; rewrite Y; clear Y; cbn [obind].
  two E (ordinal_le (p_code p) Ok depth L root Fu) r d1 E1. destruct (ordinal_for_assigned _ Ok _ _ _ _ _ _ E1 (empty_inv _ None eq_refl)) as [A1 M1].
  two E (le_ordinals (p_code p) Ok depth L Fu (map g_entry globals)) gl d2 E2. destruct (ordinals_ok _ Ok _ _ _ _ _ _ E2 (a_inv _ _ _ _ A1)) as [A2 M2].
  two E (le_ordinals (p_code p) Ok depth L Fu (p_templates p)) te d3 E3. destruct (ordinals_ok _ Ok _ _ _ _ _ _ E3 (a_inv _ _ _ _ A2)) as [A3 M3].
  two E (ordinal_le (p_code p) Ok depth L (p_blackhole p) Fu) bh d4 E4. destruct (ordinal_for_assigned _ Ok _ _ _ _ _ _ E4 (a_inv _ _ _ _ A3)) as [A4 M4].
  two E (ordinal_le (p_code p) Ok depth L (p_meta p) Fu) me d5 E5. destruct (ordinal_for_assigned _ Ok _ _ _ _ _ _ E5 (a_inv _ _ _ _ A4)) as [A5 M5].
  two E (ordinal_le (p_code p) Ok depth L (p_apply1 p) Fu) a1 d6 E6. destruct (ordinal_for_assigned _ Ok _ _ _ _ _ _ E6 (a_inv _ _ _ _ A5)) as [A6 M6].
  two E (ordinal_le (p_code p) Ok depth L (p_apply2 p) Fu) a2 d7 E7. destruct (ordinal_for_assigned _ Ok _ _ _ _ _ _ E7 (a_inv _ _ _ _ A6)) as [A7 M7].
  two E (ordinal_le (p_code p) Ok depth L (p_producer p) Fu) pr d8 E8. destruct (ordinal_for_assigned _ Ok _ _ _ _ _ _ E8 (a_inv _ _ _ _ A7)) as [A8 M8].
  two E (le_ordinals (p_code p) Ok depth L Fu (p_pap p)) pa d9 E9. destruct (ordinals_ok _ Ok _ _ _ _ _ _ E9 (a_inv _ _ _ _ A8)) as [A9 M9].
  ubind E u d10 E10. destruct u. unfold bind at 1. rewrite (run_le (p_code p) Ok depth L Fu _ _ _ E10 (a_inv _ _ _ _ A9) L); [|unfold L; lia]. cbn [obind]. exact E.
Qed.

(** ** Code that reads as a program is closed *)
Section Reads.
Context {native : Type} (code : list N) (Ok : is_code code) (consts : list native).
Definition readable (o : N) : Prop := exists t, reads code consts o t.
Lemma atom_readable o r : atom_at code consts o r -> readable o.
Proof. intros A. exists (SAtom r). now constructor. Qed.
Lemma atoms_readable l rs : Forall2 (atom_at code consts) l rs -> Forall readable l.
Proof. induction 1; constructor; eauto using atom_readable. Qed.
Lemma reads_node o t : reads code consts o t -> exists n, read_node code o = Done n /\ Forall readable (children n).
Proof.
  intros R. inversion R as [off r A|off so min table fo scr bs fb E R1 H1 H2 H3 H4| | | | |off rec hs o' bs body E Hl Hi Hr Rb| | | | | | |]; subst.
  - destruct A as (d & E & _). eexists. split; [exact E|]. constructor.
  - eexists. split; [exact E|]. cbn [children]. constructor; [eexists; eauto|]. apply Forall_app. split.
    + apply Forall_forall. intros x I. apply in_flat_map in I. destruct I as ([e|] & I & K); [|destruct K]. destruct K as [<-|[]].
      apply In_nth_error in I. destruct I as [j I]. pose (tag := min + N.of_nat j).
      assert (match_tag min table tag = Some e) as M.
      { unfold match_tag, tag. replace (min + N.of_nat j <? min) with false by lia. replace (N.to_nat (min + N.of_nat j - min)) with j by lia. now rewrite I. }
      destruct (branch_for tag bs) as [b|] eqn:Eb; [exists b; eapply H2; eauto|]. apply H1 in Eb. congruence.
    + destruct fo as [fo|]; [|constructor]. destruct fb as [fb|]; [|destruct H3 as [_ H3]; specialize (H3 eq_refl); discriminate]. constructor; [|constructor]. exists fb. auto.
  - eexists; split; [eassumption|]. constructor.
  - eexists; split; [eassumption|]. cbn. eapply atoms_readable; eassumption.
  - eexists; split; [eassumption|]. cbn. eapply atoms_readable; eassumption.
  - eexists; split; [eassumption|]. constructor.
  - eexists; split; [eassumption|]. cbn. apply Forall_app. split; [|constructor; [eexists; eauto|constructor]].
    apply Forall_forall. intros x I. apply in_map_iff in I. destruct I as (h & <- & I). apply In_nth_error in I. destruct I as [j I].
    destruct (nth_error bs j) as [[k b]|] eqn:Eb; [exists b; eapply Hr; eauto|]. apply nth_error_None in Eb. rewrite <- Hl in Eb. apply nth_error_None in Eb. congruence.
  - eexists; split; [eassumption|]. cbn. constructor; [eexists; eauto|constructor].
  - eexists; split; [eassumption|]. constructor.
  - eexists; split; [eassumption|]. cbn. repeat (constructor; [eexists; eauto|]). constructor.
  - eexists; split; [eassumption|]. cbn. repeat (constructor; [eexists; eauto|]). constructor.
  - eexists; split; [eassumption|]. cbn. constructor; [eapply atom_readable; eassumption|constructor].
  - eexists; split; [eassumption|]. cbn. repeat (constructor; [eapply atom_readable; eassumption|]). constructor.
  - eexists; split; [eassumption|]. constructor.
Qed.
Lemma reads_chain : forall t o, reads code consts o t -> exists k, chain code k o.
Proof.
  assert (forall o n, read_node code o = Done n -> (forall s b, n <> NAnn s b) -> exists k, chain code k o) as B by (intros; exists 0%nat; eapply c_end; eauto).
  assert (forall (t : syn native) o, reads code consts o t -> (forall s b, t <> SAnn s b) -> exists k, chain code k o) as C.
  { intros u o R Na. inversion R; subst; try (eapply B; [eassumption|discriminate]); [|exfalso; eapply Na; reflexivity].
    match goal with A : atom_at _ _ _ _ |- _ => destruct A as (d & E & _) end. eapply B; [exact E|discriminate]. }
  fix IH 1. intros t o R. destruct t as [| | | | | | |smid body| | | | | |]; try (eapply C; [exact R|discriminate]).
  inversion R as [| | | | | | |? ? b ? E R1| | | | | |]; subst. destruct (IH body b R1) as [k K]. exists (S k). eapply c_ann; eassumption.
Qed.
Lemma readable_closed : closed code readable.
Proof.
  intros o [t R]. destruct (reads_node o t R) as (n & E & F). destruct (reads_chain t o R) as [k C]. eauto.
Qed.
End Reads.
