(** Whole programs. *)
From Coq Require Import List Bool Arith NArith ZArith Lia ZifyN ZifyNat ZifyBool.
From Verif.Simplify Require Import Compress.
From Verif.Bytecode Require Import Model Spec Proofs EncProofs ProgProofs.
Import ListNotations.
Open Scope N_scope.

Section Whole.
Context {native : Type}.
Notation enc := (enc native).
Notation syn := (syn native).
Context (producer_next : N) (fusible : N -> bool).

Lemma locals_fit from count : (from + count <= 255)%nat -> All (@ref_fits native) (locals from count).
Proof.
  intros B. apply All_Forall, Forall_forall. intros r I. unfold locals in I. apply in_map_iff in I.
  destruct I as (i & <- & I). apply in_seq in I. cbn. lia.
Qed.
Lemma locals_length from count : length (@locals native from count) = count.
Proof. unfold locals. now rewrite map_length, seq_length. Qed.
Lemma pap_fits s n : (1 <= s <= 16)%nat -> (1 <= n <= 16)%nat -> fits (@pap_node native s n).
Proof.
  intros A B. cbn [fits pap_node]. split; [cbn; lia|]. split.
  - rewrite app_length. change (@lrefs native) with (@locals native). rewrite !locals_length. lia.
  - apply All_Forall, Forall_app. change (@lrefs native) with (@locals native).
    split; apply All_Forall, locals_fit; lia.
Qed.
Lemma pap_index s n : (1 <= s <= 16)%nat -> (1 <= n <= 16)%nat ->
  nth_error pap_pairs ((s - 1) * pap_max + (n - 1)) = Some (s, n).
Proof.
  intros A B. assert (forall k : list nat, (forall j x, nth_error k j = Some x ->
    nth_error (flat_map (fun a => map (fun b => (a, b)) (seq 1 pap_max)) k) (j * pap_max + (n - 1)) = Some (x, n))) as H.
  { induction k as [|a k IH]; intros [|j] x E; cbn in E; try discriminate.
    - inversion E; subst. cbn [flat_map]. rewrite nth_error_app1 by (rewrite map_length, seq_length; unfold pap_max; lia).
      rewrite nth_error_map. rewrite (nth_error_nth' _ 0%nat) by (rewrite seq_length; unfold pap_max; lia).
      rewrite seq_nth by (unfold pap_max; lia). cbn [option_map]. do 2 f_equal. lia.
    - cbn [flat_map]. rewrite nth_error_app2 by (rewrite map_length, seq_length; unfold pap_max; lia).
      rewrite map_length, seq_length. replace (S j * pap_max + (n - 1) - pap_max)%nat with (j * pap_max + (n - 1))%nat by (unfold pap_max; lia).
      now apply IH. }
  apply H. rewrite (nth_error_nth' _ 0%nat) by (rewrite seq_length; unfold pap_max; lia).
  rewrite seq_nth by (unfold pap_max; lia). f_equal. lia.
Qed.

(** The static structure of [smap] over encodings. *)
Lemma smap_encode {A} (tree : A -> syn) l s os s' : smap (fun a s => encode_node (tree a) s) l s = (os, s') ->
  ext s s' /\ (spare s -> spare s') /\
  ((forall a, In a l -> fits (tree a)) -> small s' -> Forall2 (fun a o => good (tree a) o s') l os).
Proof.
  intros E. split; [|split].
  - eapply ext_smap; [|exact E]. intros a _ s0 b s1 H. eapply encode_ext, H.
  - eapply spare_smap; [|exact E]. intros a _ s0 b s1 H. eapply encode_spare, H.
  - intros F S. eapply (smap_good _ (fun a o s => good (tree a) o s)); [| | |exact E|exact S].
    + intros a b s0 s1 X. now apply good_ext.
    + intros a _ s0 b s1 H. eapply encode_ext, H.
    + intros a I s0 b s1 H S1. exact (encode_good _ (F a I) _ _ _ H S1).
Qed.
Lemma encode_global_ok i f (s : enc) g s' : encode_global fusible i f s = (g, s') ->
  ext s s' /\ (spare s -> spare s').
Proof.
  unfold encode_global. intros E. destruct (fusible i && is_fusible_shape f).
  - destruct (emit_fused_primop (u8 i) s) as [o s1] eqn:E1. destruct (classify (fst f)) as [[? ?] ?]. inversion E; subst.
    split; [eapply ext_fused, E1|eapply spare_fused, E1].
  - destruct (encode_node (snd f) s) as [o s1] eqn:E1. destruct (classify (fst f)) as [[? ?] ?]. inversion E; subst.
    split; [eapply encode_ext, E1|eapply encode_spare, E1].
Qed.
Definition ok_in (m : form native) (g : gform) (s : enc) : Prop := global_ok (e_code s) (e_consts s) m g.
Lemma ok_in_ext m g s s' : ext s s' -> ok_in m g s -> ok_in m g s'.
Proof. intros X [A B]. split; [exact A|eapply reads_ext; eauto]. Qed.
Lemma class_info k (o : N) : kind_fits k -> let '(kind, arity, smid) := classify k in
  header_info (mkHeader kind arity smid o) = kind_info k.
Proof. intros F. pose proof (hdr_info k o F) as H. unfold hdr in H. now destruct (classify k) as [[? ?] ?]. Qed.
Lemma fields_arities tag n : constructor_fields tag = Some n -> nth_error arities tag = Some n.
Proof. do 18 (destruct tag as [|tag]; [intros E; exact E|]). discriminate. Qed.
Lemma shape_forces (f : form native) : is_fusible_shape f = forces_first f.
Proof.
  destruct f as [k t]. unfold is_fusible_shape, forces_first. cbn [fst snd]. destruct k as [b a| |]; cbn [fk_arity]; try reflexivity.
  destruct t as [|[[[|]| |]| | | | | | | | | | | | |]| | | | | | | | | | | |]; cbn [is_fusible_body]; rewrite ?andb_false_r, ?andb_true_r;
  destruct b as [|[x|[x|x|]|]]; try reflexivity.
Qed.
Lemma encode_global_good (Hf : forall i, fusible i = true -> i < 256) i f s g s' :
  form_fits f -> encode_global fusible (N.of_nat i) f s = (g, s') -> small s' -> ok_in (meant_global fusible i f) g s'.
Proof.
  intros [K F] E S. unfold encode_global in E. unfold meant_global.
  rewrite <- shape_forces. destruct (fusible (N.of_nat i) && is_fusible_shape f) eqn:C.
  - destruct (emit_fused_primop (u8 (N.of_nat i)) s) as [o s1] eqn:E1. pose proof (class_info (fst f) o K) as H.
    destruct (classify (fst f)) as [[kd ar] sm]. inversion E; subst. split; [exact H|]. cbn [fst snd g_entry].
    apply andb_true_iff in C. pose proof (Hf _ (proj1 C)) as B. unfold emit_fused_primop, u8 in E1.
    rewrite N.mod_small in E1 by exact B. eapply fused_good; [exact B| | |exact E1|exact S]; cbn; lia.
  - destruct (encode_node (snd f) s) as [o s1] eqn:E1. pose proof (class_info (fst f) o K) as H.
    destruct (classify (fst f)) as [[kd ar] sm]. inversion E; subst. split; [exact H|]. cbn [g_entry].
    exact (proj2 (encode_good _ F _ _ _ E1 S)).
Qed.
Lemma Forall2_map_l {A A' B} (R : A' -> B -> Prop) (f : A -> A') l l' :
  Forall2 (fun a b => R (f a) b) l l' -> Forall2 R (map f l) l'.
Proof. induction 1; constructor; auto. Qed.
Lemma Forall2_nth_l {A B} (R : A -> B -> Prop) l l' : Forall2 R l l' -> forall i a, nth_error l i = Some a ->
  exists b, nth_error l' i = Some b /\ R a b.
Proof.
  induction 1; intros [|i] a E; cbn in *; try discriminate.
  - inversion E; subst. eauto.
  - eauto.
Qed.

(** What the fixtures and globals look like in a state. *)
Record fixtures_ok (f : fixtures) (s : enc) (globals : list (form native)) : Prop := {
  fx_templates : Forall2 (fun p o => good (SCons (N.of_nat (fst p)) (lrefs 0 (snd p))) o s)
                   (combine (seq 0 (length arities)) arities) (x_templates f);
  fx_blackhole : good SBlackHole (x_blackhole f) s;
  fx_meta : good (SMeta (RL 0) (RL 1)) (x_meta f) s;
  fx_pap : Forall2 (fun p o => good (pap_node (fst p) (snd p)) o s) pap_pairs (x_pap f);
  fx_apply1 : good (SApp (RL 0) [RL 1] false) (x_apply1 f) s;
  fx_apply2 : good (SApp (RL 0) [RL 1; RL 2] false) (x_apply2 f) s;
  fx_producer : good (SBif producer_next [RL 0]) (x_producer f) s;
  fx_globals : Forall2 (fun m g => ok_in m g s) (meant_globals fusible globals) (x_globals f) }.
Lemma fixtures_ok_ext f s s' globals : ext s s' -> fixtures_ok f s globals -> fixtures_ok f s' globals.
Proof.
  intros X [A B C D E F G H]. constructor; try (eapply good_ext; eauto).
  - eapply F2_impl; [|exact A]. intros p o. now apply good_ext.
  - eapply F2_impl; [|exact D]. intros p o. now apply good_ext.
  - eapply F2_impl; [|exact H]. intros p o. now apply ok_in_ext.
Qed.
Lemma in_combine_seq {A} (l : list A) n i a : In (i, a) (combine (seq n (length l)) l) -> In a l.
Proof. intros I. now apply in_combine_r in I. Qed.
Lemma arity_small a : In a arities -> (a <= 3)%nat.
Proof. cbn. intros H. repeat (destruct H as [<-|H]; [lia|]). destruct H. Qed.
Lemma template_index_small i a : In (i, a) (combine (seq 0 (length arities)) arities) -> (i < 18)%nat.
Proof. intros I. apply in_combine_l, in_seq in I. cbn in I. lia. Qed.
Lemma pap_pairs_in s n : In (s, n) pap_pairs -> (1 <= s <= 16)%nat /\ (1 <= n <= 16)%nat.
Proof.
  unfold pap_pairs. intros I. apply in_flat_map in I. destruct I as (x & Ix & I). apply in_map_iff in I.
  destruct I as (y & E & Iy). inversion E; subst. apply in_seq in Ix, Iy. unfold pap_max in *. lia.
Qed.

Lemma templates_encode (s : enc) os s' : encode_templates s = (os, s') ->
  ext s s' /\ (spare s -> spare s') /\
  (small s' -> Forall2 (fun p o => good (SCons (N.of_nat (fst p)) (lrefs 0 (snd p))) o s')
                 (combine (seq 0 (length arities)) arities) os).
Proof.
  unfold encode_templates. intros E. apply (smap_encode (fun p => SCons (N.of_nat (fst p)) (lrefs 0 (snd p)))) in E.
  destruct E as (X & P & G). split; [exact X|]. split; [exact P|]. apply G.
  intros [i a] I. cbn [fst snd fits]. split; [apply template_index_small in I; lia|].
  change (@lrefs native) with (@locals native). apply in_combine_seq, arity_small in I.
  split; [rewrite locals_length; lia|apply locals_fit; lia].
Qed.
Lemma pap_encode (s : enc) os s' : encode_pap_templates s = (os, s') ->
  ext s s' /\ (spare s -> spare s') /\
  (small s' -> Forall2 (fun p o => good (pap_node (fst p) (snd p)) o s') pap_pairs os).
Proof.
  unfold encode_pap_templates. intros E. apply (smap_encode (fun p => pap_node (fst p) (snd p))) in E.
  destruct E as (X & P & G). split; [exact X|]. split; [exact P|]. apply G.
  intros [a b] I. apply pap_pairs_in in I. apply pap_fits; apply I.
Qed.

Lemma emit_fixtures_ok globals s f s' : emit_fixtures_and_globals producer_next fusible globals s = (f, s') ->
  ext s s' /\ (spare s -> spare s') /\
  (producer_next < 256 -> (forall i, fusible i = true -> i < 256) -> (forall g, In g globals -> form_fits g) ->
   small s' -> fixtures_ok f s' globals).
Proof.
  unfold emit_fixtures_and_globals. intros E.
  destruct (encode_templates s) as [templates s1] eqn:E1. cbv zeta in E.
  set (s2 := emit [op_black_hole] s1) in *.
  destruct (encode_node (SMeta (RL 0) (RL 1)) s2) as [meta s3] eqn:E3.
  destruct (encode_pap_templates s3) as [pap s4] eqn:E4.
  destruct (encode_node (SApp (RL 0) [RL 1] false) s4) as [apply1 s5] eqn:E5.
  destruct (encode_node (SApp (RL 0) [RL 1; RL 2] false) s5) as [apply2 s6] eqn:E6.
  destruct (encode_node (SBif producer_next [RL 0]) s6) as [producer s7] eqn:E7.
  destruct (smap _ _ s7) as [gs s8] eqn:E8. apply pair_equal_spec in E; destruct E as [<- <-].
  destruct (templates_encode _ _ _ E1) as (X1 & P1 & G1). destruct (pap_encode _ _ _ E4) as (X4 & P4 & G4).
  pose proof (ext_emit [op_black_hole] s1) as X2. fold s2 in X2.
  pose proof (encode_ext _ _ _ _ E3) as X3. pose proof (encode_ext _ _ _ _ E5) as X5.
  pose proof (encode_ext _ _ _ _ E6) as X6. pose proof (encode_ext _ _ _ _ E7) as X7.
  assert (ext s7 s8) as X8.
  { eapply ext_smap; [|exact E8]. intros a _ s0 b s9 H. eapply encode_global_ok, H. }
  pose proof (ext_trans _ _ _ X7 X8) as Y6. pose proof (ext_trans _ _ _ X6 Y6) as Y5. pose proof (ext_trans _ _ _ X5 Y5) as Y4.
  pose proof (ext_trans _ _ _ X4 Y4) as Y3. pose proof (ext_trans _ _ _ X3 Y3) as Y2. pose proof (ext_trans _ _ _ X2 Y2) as Y1.
  split; [eapply ext_trans; eauto|]. split.
  - intros Sp. eapply spare_smap; [|exact E8|].
    + intros a _ s0 b s9 H. eapply encode_global_ok, H.
    + eapply encode_spare; [exact E7|]. eapply encode_spare; [exact E6|]. eapply encode_spare; [exact E5|].
      apply P4. eapply encode_spare; [exact E3|]. apply spare_emit. auto.
  - intros Bp Hf Fg S. pose proof (small_ext _ _ X8 S) as S7. pose proof (small_ext _ _ Y6 S) as S6. pose proof (small_ext _ _ Y5 S) as S5.
    pose proof (small_ext _ _ Y4 S) as S4. pose proof (small_ext _ _ Y3 S) as S3. pose proof (small_ext _ _ Y2 S) as S2.
    pose proof (small_ext _ _ Y1 S) as S1.
    constructor; cbn [x_templates x_blackhole x_meta x_pap x_apply1 x_apply2 x_producer x_globals].
    + eapply F2_impl; [intros p o; exact (good_ext _ _ _ _ Y1)|]. exact (G1 S1).
    + eapply good_ext; [exact Y2|]. eapply (encode_good SBlackHole I s1); [reflexivity|exact S2].
    + eapply good_ext; [exact Y3|]. eapply (encode_good (SMeta (RL 0) (RL 1))); [cbn; lia|exact E3|exact S3].
    + eapply F2_impl; [intros p o; exact (good_ext _ _ _ _ Y4)|]. exact (G4 S4).
    + eapply good_ext; [exact Y5|]. eapply (encode_good (SApp (RL 0) [RL 1] false)); [|exact E5|exact S5].
      cbn. split; [lia|]. split; [cbn; lia|]. cbn. lia.
    + eapply good_ext; [exact Y6|]. eapply (encode_good (SApp (RL 0) [RL 1; RL 2] false)); [|exact E6|exact S6].
      cbn. split; [lia|]. split; [cbn; lia|]. cbn. lia.
    + eapply good_ext; [exact X8|]. eapply (encode_good (SBif producer_next [RL 0])); [|exact E7|exact S7].
      cbn. split; [lia|]. split; [cbn; lia|]. cbn. lia.
    + unfold meant_globals. apply Forall2_map_l.
      eapply (smap_good _ (fun p g s => ok_in (meant_global fusible (fst p) (snd p)) g s)); [| | |exact E8|exact S].
      * intros a b s0 s9 X. now apply ok_in_ext.
      * intros a _ s0 b s9 H. eapply encode_global_ok, H.
      * intros [i g] I s0 b s9 H S9. cbn [fst snd] in *. apply (encode_global_good Hf i g s0 b s9); auto.
        apply Fg. now apply in_combine_seq in I.
Qed.

Lemma build_ok f s globals : fixtures_ok f s globals ->
  program_ok producer_next (build_program s f) (x_globals f) (meant_globals fusible globals).
Proof.
  intros [A B C D E F G H]. constructor; cbn [build_program p_code p_consts p_templates p_blackhole p_meta p_apply1 p_apply2 p_producer p_globals].
  - intros tag n T. apply fields_arities in T. assert (nth_error (combine (seq 0 (length arities)) arities) tag = Some (tag, n)) as T'.
    { rewrite nth_combine, T. assert (tag < length arities)%nat by (apply nth_error_Some; congruence).
      rewrite (nth_error_nth' _ 0%nat) by (now rewrite seq_length). now rewrite seq_nth. }
    destruct (Forall2_nth_l _ _ _ A _ _ T') as (o & Eo & [_ R]). exists o. split; [exact Eo|exact R].
  - apply B.
  - apply C.
  - intros x n Bs Bn. destruct (Forall2_nth_l _ _ _ D _ _ (pap_index x n Bs Bn)) as (o & Eo & [_ R]).
    exists o. split; [|exact R]. unfold pap_offset. cbn [p_pap build_program].
    replace (Nat.eqb x 0 || Nat.eqb n 0 || Nat.ltb pap_max x || Nat.ltb pap_max n) with false; [exact Eo|].
    symmetry. rewrite !orb_false_iff, !Nat.eqb_neq, !Nat.ltb_ge. unfold pap_max. lia.
  - apply E.
  - apply F.
  - apply G.
  - eapply F2_impl; [|exact H]. intros m g K. exact K.
  - reflexivity.
Qed.

Lemma spare_nil : spare (mkEnc (native := native) [] []).
Proof. unfold spare. cbn. lia. Qed.

Local Opaque emit_fixtures_and_globals.
Theorem encode_whole (root : syn) globals p off gs :
  producer_next < 256 -> (forall i, fusible i = true -> i < 256) ->
  (forall g, In g globals -> form_fits g) -> fits root ->
  encode producer_next fusible root globals = (p, off, gs) -> code_fits (p_code p) = true ->
  program_ok producer_next p gs (meant_globals fusible globals) /\ reads (p_code p) (p_consts p) off root.
Proof.
  intros Bp Hf Fg Fr E C. unfold encode in E.
  destruct (emit_fixtures_and_globals producer_next fusible globals (mkEnc [] [])) as [f s] eqn:E1.
  destruct (encode_node root s) as [o s'] eqn:E2. inversion E; subst; clear E.
  destruct (emit_fixtures_ok _ _ _ _ E1) as (X1 & P1 & G1).
  pose proof (encode_ext _ _ _ _ E2) as X2.
  assert (small s') as S by (apply spare_small; [eapply encode_spare; [exact E2|apply P1, spare_nil]|exact C]).
  split.
  - apply (build_ok f s' globals). eapply fixtures_ok_ext; [exact X2|]. apply G1; auto. eapply small_ext; eauto.
  - exact (proj2 (encode_good _ Fr _ _ _ E2 S)).
Qed.

Theorem prelude_then_root (root : syn) globals :
  let '(base, gs) := encode_prelude producer_next fusible globals in
  let '(p, off) := encode_root_onto base root in
  encode producer_next fusible root globals = (p, off, gs).
Proof.
  unfold encode_prelude, encode, encode_root_onto.
  destruct (emit_fixtures_and_globals producer_next fusible globals (mkEnc [] [])) as [f [code consts]] eqn:E1.
  cbn [build_program p_code p_consts e_code e_consts].
  destruct (encode_node root (mkEnc code consts)) as [o s'] eqn:E2. reflexivity.
Qed.

(** ** Overrides *)
Lemma patch_get {A} i (x : A) l j : nth_error (patch i x l) j = if Nat.eqb i j then (match nth_error l j with Some _ => Some x | None => None end) else nth_error l j.
Proof.
  unfold patch. destruct (nth_error l i) as [y|] eqn:E.
  - assert (i < length l)%nat as B by (apply nth_error_Some; congruence).
    assert (length (firstn i l) = i) as L by (rewrite firstn_length; lia).
    destruct (Nat.eqb_spec i j) as [->|N].
    + rewrite nth_error_app2 by lia. rewrite L, Nat.sub_diag, E. reflexivity.
    + destruct (Nat.lt_ge_cases j i) as [C|C].
      * rewrite nth_error_app1 by lia. rewrite <- (firstn_skipn i l) at 2. rewrite nth_error_app1 by lia. reflexivity.
      * rewrite nth_error_app2 by lia. rewrite L. destruct (j - i)%nat as [|k] eqn:Ek; [lia|]. cbn [nth_error].
        rewrite <- (firstn_skipn (S i) l) at 2. rewrite nth_error_app2 by (rewrite firstn_length; lia).
        rewrite firstn_length. f_equal. lia.
  - destruct (Nat.eqb_spec i j) as [->|N]; [now rewrite E|reflexivity].
Qed.
Lemma patch_map {A B} (f : A -> B) i x l : map f (patch i x l) = patch i (f x) (map f l).
Proof.
  unfold patch. rewrite nth_error_map. destruct (nth_error l i); cbn [option_map]; [|reflexivity].
  rewrite map_app, firstn_map. cbn [map]. now rewrite skipn_map.
Qed.
Lemma overridden_snoc overrides slot g i f :
  overridden (overrides ++ [(slot, g)]) i f = if Nat.eqb slot i then g else overridden (native := native) overrides i f.
Proof. unfold overridden. rewrite rev_app_distr. cbn. now destruct (Nat.eqb slot i). Qed.
Lemma overridden_cons overrides slot g i f :
  overridden ((slot, g) :: overrides) i f = overridden (native := native) overrides i (if Nat.eqb slot i then g else f).
Proof.
  unfold overridden. cbn [rev]. assert (forall l, find (fun o : nat * form native => Nat.eqb (fst o) i) (l ++ [(slot, g)])
    = match find (fun o => Nat.eqb (fst o) i) l with Some x => Some x | None => if Nat.eqb slot i then Some (slot, g) else None end) as H.
  { induction l as [|y l IH]; cbn; [now destruct (Nat.eqb slot i)|]. destruct (Nat.eqb (fst y) i); auto. }
  rewrite H. destruct (find _ (rev overrides)) as [[? ?]|]; [reflexivity|]. now destruct (Nat.eqb slot i).
Qed.

Definition globals_in (ms : list (form native)) (gs : list gform) (s : enc) : Prop :=
  length ms = length gs /\ forall i m g, nth_error ms i = Some m -> nth_error gs i = Some g -> ok_in m g s.
Lemma overrides_ok overrides : forall entries gs s entries' gs' s',
  encode_overrides overrides entries gs s = (entries', gs', s') ->
  ext s s' /\ (spare s -> spare s') /\ (entries = map g_entry gs -> entries' = map g_entry gs') /\
  ((forall o, In o overrides -> form_fits (snd o)) -> small s' -> forall ms, globals_in ms gs s ->
    length gs' = length ms /\
    forall i m g, nth_error ms i = Some m -> nth_error gs' i = Some g -> ok_in (overridden overrides i m) g s').
Proof.
  induction overrides as [|[slot f] overrides IH]; intros entries gs s entries' gs' s' E; cbn [encode_overrides] in E.
  - inversion E; subst. split; [apply ext_refl|]. split; [auto|]. split; [auto|].
    intros _ _ ms [L G]. split; [congruence|]. intros i m g. apply G.
  - destruct (encode_node (snd f) s) as [entry s1] eqn:E1. destruct (classify (fst f)) as [[kind arity] smid] eqn:Ec.
    apply IH in E. destruct E as (X & P & Q & R). pose proof (encode_ext _ _ _ _ E1) as X1.
    split; [eapply ext_trans; eauto|]. split; [intros Sp; apply P; eapply encode_spare; eauto|]. split.
    + intros ->. apply Q. now rewrite patch_map.
    + intros F S ms [L G]. assert (small s1) as S1 by (eapply small_ext; eauto).
      pose proof (F _ (or_introl eq_refl)) as [Kf Ff]. cbn [snd] in Kf, Ff.
      assert (globals_in (patch slot f ms) (patch slot (mkGform kind arity smid entry) gs) s1) as [L' G'].
      { split.
        - assert (forall {A} i (x : A) l, length (patch i x l) = length l) as PL.
          { intros A i x l. unfold patch. destruct (nth_error l i) eqn:En; [|reflexivity].
            assert (i < length l)%nat by (apply nth_error_Some; congruence).
            rewrite app_length, firstn_length. cbn [length]. rewrite skipn_length. lia. }
          now rewrite !PL.
        - intros i m g Em Eg. rewrite patch_get in Em. rewrite patch_get in Eg. destruct (Nat.eqb slot i).
          + destruct (nth_error ms i); inversion Em; subst. destruct (nth_error gs i); inversion Eg; subst.
            split; cbn [g_kind g_arity g_smid g_entry].
            * pose proof (class_info (fst m) entry Kf) as K. now rewrite Ec in K.
            * exact (proj2 (encode_good _ Ff _ _ _ E1 S1)).
          + eapply ok_in_ext; [exact X1|]. eapply G; eauto. }
      destruct (R (fun o I => F o (or_intror I)) S _ (conj L' G')) as [L'' G''].
      assert (forall {A} i (x : A) l, length (patch i x l) = length l) as PL.
      { intros A i x l. unfold patch. destruct (nth_error l i) eqn:En; [|reflexivity].
        assert (i < length l)%nat by (apply nth_error_Some; congruence).
        rewrite app_length, firstn_length. cbn [length]. rewrite skipn_length. lia. }
      split; [rewrite L''; apply PL|].
      intros i m g Em Eg. rewrite overridden_cons. eapply G''; [|exact Eg]. rewrite patch_get, Em. now destruct (Nat.eqb slot i).
Qed.
Lemma Forall2_of_nth {A B} (R : A -> B -> Prop) : forall l l', length l = length l' ->
  (forall i a b, nth_error l i = Some a -> nth_error l' i = Some b -> R a b) -> Forall2 R l l'.
Proof.
  induction l as [|a l IH]; intros [|b l'] L H; cbn in L; try discriminate; constructor.
  - now apply (H 0%nat).
  - apply IH; [lia|]. intros i x y. apply (H (S i)).
Qed.

(** A program is preserved by appending to its code and constants. *)
Lemma program_ok_ext (base : program native) gs globals s' :
  program_ok producer_next base gs globals -> ext (mkEnc (p_code base) (p_consts base)) s' ->
  forall gs' globals', Forall2 (global_ok (e_code s') (e_consts s')) globals' gs' ->
  program_ok producer_next (with_code base s' (map g_entry gs')) gs' globals'.
Proof.
  intros [A B C D E F G H K] X gs' globals' H'.
  assert (forall o t, reads (p_code base) (p_consts base) o t -> reads (e_code s') (e_consts s') o t) as M.
  { intros o t R. exact (reads_ext _ _ _ _ X R). }
  constructor; cbn [with_code p_code p_consts p_templates p_blackhole p_meta p_apply1 p_apply2 p_producer p_globals]; auto.
  - intros tag n T. destruct (A tag n T) as (o & Eo & R). exists o. auto.
  - intros x n Bs Bn. destruct (D x n Bs Bn) as (o & Eo & R). exists o. split; [exact Eo|auto].
Qed.
Theorem overrides_whole (base : program native) gs ms overrides (root : syn) p off gs' :
  program_ok producer_next base gs ms ->
  (5 * length (p_consts base) <= length (p_code base))%nat ->
  (forall o, In o overrides -> form_fits (snd o)) -> fits root ->
  encode_overrides_and_root base overrides gs root = (p, off, gs') -> code_fits (p_code p) = true ->
  program_ok producer_next p gs'
    (map (fun q => overridden overrides (fst q) (snd q)) (combine (seq 0 (length ms)) ms))
  /\ reads (p_code p) (p_consts p) off root.
Proof.
  intros Ok Sp Fo Fr E C. unfold encode_overrides_and_root in E.
  destruct (encode_overrides overrides (p_globals base) gs (mkEnc (p_code base) (p_consts base))) as [[entries gs1] s] eqn:E1.
  destruct (encode_node root s) as [o s'] eqn:E2. inversion E; subst; clear E.
  destruct (overrides_ok _ _ _ _ _ _ _ E1) as (X & P & Q & R). rewrite (Q (ok_entries _ _ _ _ Ok)).
  pose proof (encode_ext _ _ _ _ E2) as X2.
  assert (small s') as S by (apply spare_small; [eapply encode_spare; [exact E2|apply P, Sp]|exact C]).
  assert (small s) as S1 by (eapply small_ext; eauto).
  pose proof (ok_globals _ _ _ _ Ok) as G.
  assert (globals_in ms gs (mkEnc (p_code base) (p_consts base))) as Gi.
  { split; [eapply Forall2_len; eauto|]. intros i m g Em Eg. exact (Forall2_nth _ _ _ G i m g Em Eg). }
  destruct (R Fo S1 _ Gi) as [L G']. split.
  - apply (program_ok_ext base gs ms); [exact Ok|eapply ext_trans; eauto|].
    apply Forall2_of_nth; [rewrite map_length, combine_length, seq_length; lia|].
    intros i m g Em Eg. rewrite nth_error_map, nth_combine in Em.
    destruct (nth_error ms i) as [m0|] eqn:E0; [|destruct (nth_error (seq 0 (length ms)) i); discriminate].
    assert (i < length ms)%nat by (apply nth_error_Some; congruence).
    rewrite (nth_error_nth' _ 0%nat) in Em by (now rewrite seq_length). rewrite seq_nth in Em by assumption.
    cbn in Em. inversion Em; subst. exact (ok_in_ext _ _ _ _ X2 (G' _ _ _ E0 Eg)).
  - exact (proj2 (encode_good _ Fr _ _ _ E2 S)).
Qed.
(** A prelude image satisfies the requirement on [base]. *)
Lemma prelude_spare globals (base : program native) gs : encode_prelude producer_next fusible globals = (base, gs) ->
  (5 * length (p_consts base) <= length (p_code base))%nat.
Proof.
  unfold encode_prelude. destruct (emit_fixtures_and_globals producer_next fusible globals (mkEnc [] [])) as [f s] eqn:E1.
  intros E; inversion E; subst. destruct (emit_fixtures_ok _ _ _ _ E1) as (_ & P & _). exact (P spare_nil).
Qed.
Lemma prelude_ok globals (base : program native) gs :
  producer_next < 256 -> (forall i, fusible i = true -> i < 256) ->
  (forall g, In g globals -> form_fits g) ->
  encode_prelude producer_next fusible globals = (base, gs) -> code_fits (p_code base) = true ->
  program_ok producer_next base gs (meant_globals fusible globals).
Proof.
  intros Bp Hf Fg E C. unfold encode_prelude in E.
  destruct (emit_fixtures_and_globals producer_next fusible globals (mkEnc [] [])) as [f s] eqn:E1.
  inversion E; subst; clear E. destruct (emit_fixtures_ok _ _ _ _ E1) as (X1 & P1 & G1).
  apply (build_ok f s globals). apply G1; auto. apply spare_small; [apply P1, spare_nil|exact C].
Qed.
End Whole.
