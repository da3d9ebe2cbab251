(** How much code a program takes. *)
From Coq Require Import List Bool Arith NArith Lia ZifyN ZifyNat ZifyBool.
From Verif.Simplify Require Import Compress.
From Verif.Bytecode Require Import Model Spec Proofs EncProofs ProgProofs WholeProofs.
Import ListNotations.
Open Scope N_scope.

Section Size.
Context {native : Type}.
Notation enc := (enc native).
Notation syn := (syn native).
Notation ref := (ref native).

Definition len {A} (l : list A) : N := N.of_nat (length l).
Lemma len_app {A} (a b : list A) : len (a ++ b) = len a + len b.
Proof. unfold len. rewrite app_length. lia. Qed.
Definition csize (s : enc) : N := len (e_code s).
Lemma csize_emit bs s : csize (emit bs s) = csize s + len bs.
Proof. unfold csize. rewrite emit_code, len_app. reflexivity. Qed.
Lemma csize_ref r s : csize (emit_ref r s) = csize s + 5.
Proof. unfold csize. rewrite emit_ref_code, len_app. f_equal. unfold ref_bytes. destruct r; reflexivity. Qed.
Lemma csize_atom r s o s' : emit_atom r s = (o, s') -> csize s' = csize s + 6.
Proof. unfold emit_atom. intros E; inversion E; subst. rewrite csize_ref, csize_emit. unfold len. cbn. lia. Qed.
Lemma csize_smap {A B} (f : A -> enc -> B * enc) (w : A -> N) l :
  (forall a, In a l -> forall s b s', f a s = (b, s') -> csize s' <= csize s + w a) ->
  forall s bs s', smap f l s = (bs, s') -> csize s' <= csize s + fold_right (fun a n => w a + n) 0 l.
Proof.
  induction l as [|a l IH]; intros H s bs s' E; cbn [smap] in E; cbn [fold_right].
  - inversion E; subst. lia.
  - destruct (f a s) as [b s1] eqn:E1. destruct (smap f l s1) as [bs' s2] eqn:E2. inversion E; subst.
    pose proof (H a (or_introl eq_refl) _ _ _ E1). assert (forall x, In x l -> forall s b s', f x s = (b, s') -> csize s' <= csize s + w x) as H' by (intros x I; apply H; now right).
    pose proof (IH H' _ _ _ E2). lia.
Qed.
Lemma smap_length {A B} (f : A -> enc -> B * enc) l : forall s bs s', smap f l s = (bs, s') -> length bs = length l.
Proof.
  induction l as [|a l IH]; intros s bs s' E; cbn [smap] in E; [now inversion E|].
  destruct (f a s) as [b s1]. destruct (smap f l s1) as [bs' s2] eqn:E2. inversion E; subst. cbn. f_equal. eapply IH, E2.
Qed.
Lemma csize_args args s offs s' : emit_arg_atoms args s = (offs, s') -> csize s' <= csize s + 6 * len args /\ length offs = length args.
Proof.
  intros E. split; [|eapply smap_length, E]. unfold emit_arg_atoms in E.
  eapply (csize_smap emit_atom (fun _ => 6)) in E.
  - assert (fold_right (fun (_ : ref) n => 6 + n) 0 args = 6 * len args) as F.
    { unfold len. clear. induction args as [|a l IH]; [reflexivity|]. cbn [fold_right length]. rewrite IH. lia. }
    rewrite F in E. exact E.
  - intros a _ s0 b s1 H. rewrite (csize_atom _ _ _ _ H). lia.
Qed.
Lemma len_le32s l : len (flat_map le32 l) = 4 * len l.
Proof. unfold len. induction l as [|a l IH]; [reflexivity|]. cbn [flat_map]. rewrite app_length, le32_length. cbn [length]. lia. Qed.
Lemma len_arg_offsets l : len (arg_offsets l) = 1 + 4 * len l.
Proof. unfold arg_offsets. pose proof (len_le32s l) as H. unfold len in *. cbn [length]. lia. Qed.
Lemma len_headers {A} (bs : list (fkind * A)) offs : len (form_headers bs offs) <= 10 * len bs.
Proof.
  unfold form_headers. revert offs. induction bs as [|[k a] bs IH]; intros offs; [cbn; lia|].
  destruct offs as [|o offs]; [unfold len; cbn; lia|]. cbn [combine flat_map fst snd]. rewrite len_app.
  specialize (IH offs). assert (len (form_header k o) = 10) as ->.
  { unfold form_header. destruct (classify k) as [[x y] z]. reflexivity. }
  unfold len in *. cbn [length]. lia.
Qed.
Definition top {B} (bs : list (N * B)) : N := fold_right (fun b m => N.max (fst b) m) 0 bs.
Lemma top_max {B} (bs : list (N * B)) b : In b bs -> fst b <= top bs.
Proof. induction bs as [|x l IH]; [intros []|]. intros [<-|I]; unfold top in *; cbn; [lia|]. specialize (IH I). lia. Qed.
Lemma len_table l m : (forall p, In p l -> fst p <= m) -> len (branch_table l) <= 6 + 4 * m.
Proof.
  intros H. unfold branch_table. destruct l as [|p l]; [change (len [0; 0]) with 2; lia|].
  destruct (max_tag_spec (p :: l) ltac:(discriminate)) as (_ & q & I & E). specialize (H q I).
  remember (p :: l) as d eqn:Ed. clear Ed I. rewrite len_app, len_le32s. unfold len. rewrite dense_length.
  change (length [min_tag d; u8 (N.of_nat (S (N.to_nat (max_tag d - min_tag d))))]) with 2%nat. lia.
Qed.

(** A bound on the bytes a program takes, from its shape. *)
Definition args_bytes (l : list ref) : N := 1 + 10 * len l.
Fixpoint bytes (t : syn) : N :=
  match t with
  | SAtom _ => 6
  | SCase scr bs fb => bytes scr + fold_right (fun b n => bytes (snd b) + n) 0 bs
                       + match fb with Some f => bytes f | None => 0 end + 16 + 4 * top bs
  | SCons _ args | SBif _ args => 2 + args_bytes args
  | SApp _ args _ => 7 + args_bytes args
  | SDirectApp _ _ args _ => 11 + args_bytes args
  | SLet _ bs body => fold_right (fun b n => 10 + bytes (snd b) + n) 0 bs + bytes body + 9
  | SAnn _ body => bytes body + 9
  | SMeta _ _ => 21
  | SDeMeta a b c => bytes a + bytes b + bytes c + 13
  | SSeq a b => bytes a + bytes b + 9
  | SLookupLit _ _ _ _ => 25
  | SFused _ _ _ _ => 22
  | SBlackHole => 1
  end.
Lemma len_cons {A} (a : A) l : len (a :: l) = 1 + len l.
Proof. unfold len. cbn [length]. lia. Qed.
Lemma len_nil {A} : len (@nil A) = 0.
Proof. reflexivity. Qed.
Lemma len_le32 v : len (le32 v) = 4.
Proof. reflexivity. Qed.
Ltac sz := repeat (rewrite ?csize_emit, ?csize_ref, ?len_app, ?len_arg_offsets, ?len_cons, ?len_nil, ?len_le32).
Lemma fused_size id l r s o s' : emit_fused_primop_refs id l r s = (o, s') -> csize s' <= csize s + 22.
Proof.
  unfold emit_fused_primop_refs. destruct (emit_atom l s) as [lo s1] eqn:E1. destruct (emit_atom r s1) as [ro s2] eqn:E2.
  intros E; inversion E; subst. apply csize_atom in E1. apply csize_atom in E2. sz. lia.
Qed.
Lemma encode_size t : forall s o s', encode_node t s = (o, s') -> csize s' <= csize s + bytes t.
Proof.
  induction t using syn_ind'; intros s0 o0 s' E; cbn [encode_node] in E; cbn [bytes].
  - rewrite (csize_atom _ _ _ _ E). lia.
  - destruct (encode_node t s0) as [so s1] eqn:E1. destruct (smap _ bs s1) as [data s2] eqn:E2.
    apply IHt in E1. rewrite Forall_forall in H.
    pose proof E2 as E2'. apply (csize_smap _ (fun b => bytes (snd b))) in E2.
    2:{ intros b I s4 r s5 Eb. cbv beta in Eb. destruct (encode_node (snd b) s4) as [o5 s6] eqn:E6. inversion Eb; subst. eapply H; eauto. }
    assert (forall p, In p data -> fst p <= top bs) as T.
    { assert (Forall2 (fun (b : N * syn) (p : N * N) => fst p = fst b) bs data) as F2.
      { clear -E2'. revert s1 data s2 E2'. induction bs as [|b bs IH]; intros s1 data s2 E2'; cbn [smap] in E2'.
        - inversion E2'; subst. constructor.
        - destruct (encode_node (snd b) s1) as [o5 s6]. destruct (smap _ bs s6) as [ps s7] eqn:E7. inversion E2'; subst. constructor; [reflexivity|eapply IH, E7]. }
      intros p I. clear -F2 I. induction F2 as [|b q bs data Eq _ IH]; [destruct I|]. cbn [top fold_right]. unfold top in *. cbn [fold_right].
      destruct I as [<-|I]; [lia|specialize (IH I); lia]. }
    destruct fb as [f|].
    + destruct (encode_node f s2) as [fo s3] eqn:E3. inversion E; subst. eapply H0 in E3; [|reflexivity]. sz. pose proof (len_table data (top bs) T). lia.
    + inversion E; subst. sz. pose proof (len_table data (top bs) T). lia.
  - destruct (emit_arg_atoms args s0) as [offs s1] eqn:E1. inversion E; subst. destruct (csize_args _ _ _ _ E1). sz. unfold args_bytes, len in *. lia.
  - destruct (emit_arg_atoms args s0) as [offs s1] eqn:E1. inversion E; subst. destruct (csize_args _ _ _ _ E1). sz. unfold args_bytes, len in *. lia.
  - destruct (emit_arg_atoms args s0) as [offs s1] eqn:E1. inversion E; subst. destruct (csize_args _ _ _ _ E1). sz. unfold args_bytes, len in *. lia.
  - destruct (emit_arg_atoms args s0) as [offs s1] eqn:E1. inversion E; subst. destruct (csize_args _ _ _ _ E1). sz. unfold args_bytes, len in *. lia.
  - destruct (smap _ bs s0) as [offs s1] eqn:E1. destruct (encode_node t s1) as [bo s2] eqn:E2. inversion E; subst. apply IHt in E2.
    rewrite Forall_forall in H. apply (csize_smap _ (fun b => bytes (snd b))) in E1.
    2:{ intros b I s4 r s5 Eb. exact (H b I _ _ _ Eb). }
    sz. pose proof (len_headers bs offs).
    assert (fold_right (fun (b : fkind * syn) n => 10 + bytes (snd b) + n) 0 bs = 10 * len bs + fold_right (fun (b : fkind * syn) n => bytes (snd b) + n) 0 bs) as ->.
    { clear. unfold len. induction bs as [|b bs IH]; [reflexivity|]. cbn [fold_right length]. rewrite IH. lia. }
    lia.
  - destruct (encode_node t s0) as [bo s1] eqn:E1. inversion E; subst. apply IHt in E1. sz. lia.
  - destruct (emit_atom m s0) as [lo s1] eqn:E1. destruct (emit_atom b s1) as [ro s2] eqn:E2.
    inversion E; subst. apply csize_atom in E1. apply csize_atom in E2. sz. lia.
  - destruct (encode_node t1 s0) as [o1 s1] eqn:E1. destruct (encode_node t2 s1) as [o2 s2] eqn:E2.
    destruct (encode_node t3 s2) as [o3 s3] eqn:E3. inversion E; subst.
    apply IHt1 in E1. apply IHt2 in E2. apply IHt3 in E3. sz. lia.
  - destruct (encode_node t1 s0) as [o1 s1] eqn:E1. destruct (encode_node t2 s1) as [o2 s2] eqn:E2.
    inversion E; subst. apply IHt1 in E1. apply IHt2 in E2. sz. lia.
  - destruct (emit_atom d s0) as [lo s1] eqn:E1. inversion E; subst. apply csize_atom in E1. sz. lia.
  - eapply fused_size; eauto.
  - inversion E; subst. sz. lia.
Qed.

(** A whole program: the tables take a fixed amount. *)
Lemma templates_size (s : enc) os s' : encode_templates s = (os, s') -> csize s' <= csize s + 294.
Proof.
  unfold encode_templates. intros E.
  apply (csize_smap _ (fun p => bytes (SCons (N.of_nat (fst p)) (lrefs 0 (snd p))))) in E; [|intros a _ s0 b s1 H; exact (encode_size _ _ _ _ H)].
  eapply N.le_trans; [exact E|]. apply N.add_le_mono_l. vm_compute. discriminate.
Qed.
Lemma pap_size (s : enc) os s' : encode_pap_templates s = (os, s') -> csize s' <= csize s + 45568.
Proof.
  unfold encode_pap_templates. intros E.
  apply (csize_smap _ (fun p => bytes (pap_node (fst p) (snd p)))) in E; [|intros a _ s0 b s1 H; exact (encode_size _ _ _ _ H)].
  eapply N.le_trans; [exact E|]. apply N.add_le_mono_l. vm_compute. discriminate.
Qed.
Section Registry.
Context (producer_next : N) (fusible : N -> bool).
Definition globals_bytes (globals : list (form native)) : N := fold_right (fun f n => N.max 22 (bytes (snd f)) + n) 0 globals.
Lemma global_size i f (s : enc) g s' : encode_global fusible i f s = (g, s') -> csize s' <= csize s + N.max 22 (bytes (snd f)).
Proof.
  unfold encode_global. destruct (fusible i && is_fusible_shape f).
  - unfold emit_fused_primop. destruct (emit_fused_primop_refs (u8 i) (RL 0) (RL 1) s) as [o s1] eqn:E1. destruct (classify (fst f)) as [[x y] z].
    intros E; inversion E; subst. apply fused_size in E1. lia.
  - destruct (encode_node (snd f) s) as [o s1] eqn:E1. destruct (classify (fst f)) as [[x y] z].
    intros E; inversion E; subst. apply encode_size in E1. lia.
Qed.
Lemma emit_size globals s f s' : emit_fixtures_and_globals producer_next fusible globals s = (f, s') ->
  csize s' <= csize s + 46000 + globals_bytes globals.
Proof.
  unfold emit_fixtures_and_globals.
  destruct (encode_templates s) as [ts s1] eqn:E1. set (s2 := emit [op_black_hole] s1).
  destruct (encode_node (SMeta (RL 0) (RL 1)) s2) as [m s3] eqn:E3.
  destruct (encode_pap_templates s3) as [pap s4] eqn:E4.
  destruct (encode_node (SApp (RL 0) [RL 1] false) s4) as [a1 s5] eqn:E5.
  destruct (encode_node (SApp (RL 0) [RL 1; RL 2] false) s5) as [a2 s6] eqn:E6.
  destruct (encode_node (SBif producer_next [RL 0]) s6) as [pr s7] eqn:E7.
  destruct (smap _ _ s7) as [gs s8] eqn:E8. intros E; inversion E; subst; clear E.
  apply templates_size in E1. assert (csize s2 = csize s1 + 1) as E2 by (unfold s2; rewrite csize_emit; reflexivity).
  apply encode_size in E3. apply pap_size in E4. apply encode_size in E5. apply encode_size in E6. apply encode_size in E7.
  apply (csize_smap _ (fun p => N.max 22 (bytes (snd (snd p))))) in E8; [|intros a _ s9 b s10 H; exact (global_size _ _ _ _ _ H)].
  assert (forall k, fold_right (fun (a : nat * form native) n => N.max 22 (bytes (snd (snd a))) + n) 0 (combine (seq k (length globals)) globals) = globals_bytes globals) as Eg.
  { clear. induction globals as [|f l IH]; intros k; [reflexivity|]. cbn [length seq combine fold_right globals_bytes snd].
    unfold globals_bytes in IH. rewrite IH. reflexivity. }
  rewrite Eg in E8. cbv [bytes args_bytes] in E3, E5, E6, E7. unfold len in E5, E6, E7. cbn [length] in E5, E6, E7. lia.
Qed.
Theorem whole_size root globals p off gs : encode producer_next fusible root globals = (p, off, gs) ->
  46000 + globals_bytes globals + bytes root <= no_branch -> code_fits (p_code p) = true.
Proof.
  unfold encode. destruct (emit_fixtures_and_globals producer_next fusible globals (mkEnc [] [])) as [f s] eqn:E1.
  destruct (encode_node root s) as [o s'] eqn:E2. intros E B. inversion E; subst.
  apply emit_size in E1. apply encode_size in E2. unfold csize, len in *. cbn [e_code length] in E1.
  unfold code_fits. cbn [build_program p_code]. apply N.leb_le. lia.
Qed.
End Registry.

Ltac ext_chain := repeat first
  [ apply ext_refl
  | match goal with |- ext ?a (emit _ ?b) => apply ext_trans with b; [|apply ext_emit] end
  | match goal with |- ext ?a (emit_ref _ ?b) => apply ext_trans with b; [|apply ext_ref] end
  | match goal with H : ext ?a ?b |- ext _ ?b => apply ext_trans with a; [|exact H] end ].
Ltac rd8' H := let E := fresh "E" in let H' := fresh "H" in
  destruct (rd8 _ _ _ _ H) as [E H']; rewrite E; cbn [obind]; clear E H; rename H' into H.
Ltac rd32' H B := let E := fresh "E" in let H' := fresh "H" in
  destruct (rd32 _ _ _ _ B H) as [E H']; rewrite E; cbn [obind]; clear E H; rename H' into H.
Ltac op H := unfold read_node; cbn [app] in H; rd8' H;
  repeat match goal with |- context [?a =? ?b] => let v := eval compute in (a =? b) in change (a =? b) with v end;
  cbn [orb]; cbv iota.

(** An application of 256 arguments is written with a count of zero. *)
Lemma args_overflow (c : ref) args e (s : enc) o s' : encode_node (SApp c args e) s = (o, s') -> small s' ->
  ref_fits c -> length args = 256%nat -> reads (e_code s') (e_consts s') o (SApp c [] e).
Proof.
  intros E S F L. cbn [encode_node] in E. destruct (emit_arg_atoms args s) as [offs s1] eqn:E1.
  destruct (csize_args _ _ _ _ E1) as [_ Lo]. apply pair_equal_spec in E; destruct E as [<- <-].
  set (s2 := emit [op_app; eager_flag e] s1) in *. set (s3 := emit_ref c s2) in *. set (s' := emit (arg_offsets offs) s3) in *.
  assert (ext s3 s') as X3 by apply ext_emit. assert (ext s1 s') as X1 by (unfold s', s3, s2; ext_chain).
  pose proof (small_ext _ _ X1 S) as S1. rewrite (here_small _ S1).
  assert (e_code s' = e_code s1 ++ [op_app; eager_flag e] ++ ref_bytes c s2 ++ arg_offsets offs) as Ec.
  { unfold s', s3. rewrite emit_code, emit_ref_code. unfold s2. rewrite emit_code, <- !app_assoc. reflexivity. }
  assert (holds (e_code s') (N.of_nat (length (e_code s1))) ([op_app; eager_flag e] ++ ref_bytes c s2 ++ arg_offsets offs)) as Hd
    by (rewrite Ec; apply holds_end).
  assert (exists d, read_node (e_code s') (N.of_nat (length (e_code s1))) = Done (NApp e d []) /\ stands_for (e_consts s') d c) as (d & En & St).
  { op Hd. rd8' Hd. destruct (rd_ref _ _ _ _ _ _ F S X3 Hd) as (d & Er & St & Hd'). rewrite Er. cbn [obind].
    unfold read_arg_offsets. unfold arg_offsets in Hd'. rewrite Lo, L in Hd'. change (u8 (N.of_nat 256)) with 0 in Hd'.
    rd8' Hd'. change (N.to_nat 0) with 0%nat. cbn [read_many obind]. exists d. split; [now destruct e|exact St]. }
  eapply R_app; [exact En|exact St|]. constructor.
Qed.
End Size.
