(** * The encoder: which data it writes *)

From Coq Require Import String List NArith ZArith Bool Arith Lia.
From Verif Require Import Parallel.Model Parallel.Spec Parallel.Codec.
Import ListNotations.
Open Scope nat_scope.

Scheme sends_mut := Minimality for sends Sort Prop
  with sends_elements_mut := Minimality for sends_elements Sort Prop
  with sends_entries_mut := Minimality for sends_entries Sort Prop.

Scheme inside_mut := Minimality for inside Sort Prop
  with member_mut := Minimality for member Sort Prop
  with entry_mut := Minimality for entry Sort Prop.

(** ** Forcing *)

Lemma size_pos : forall v, 1 <= size v.
Proof. intros v. destruct v; cbn [size]; lia. Qed.

Lemma gives_idem : forall v w, gives v w -> gives w w.
Proof. induction 1; try constructor; assumption. Qed.

Lemma gives_det : forall v w, gives v w -> forall w', gives v w' -> w = w'.
Proof. induction 1; intros w' G; inversion G; subst; auto. Qed.

Lemma gives_size : forall v w, gives v w -> size w <= size v.
Proof. induction 1; cbn [size]; lia. Qed.

Lemma gives_natives : forall v w, gives v w -> incl (natives w) (natives v).
Proof.
  induction 1; cbn [natives]; try apply incl_refl; try assumption; now apply incl_appr.
Qed.

Lemma gives_run : forall v w, gives v w -> forall reg, exists reg', run reg v = Ok (reg', w).
Proof. induction 1; intros reg; cbn [run]; eauto. Qed.

Lemma gives_force : forall v w, gives v w -> exists r, force v = Ok (r, w).
Proof. intros v w G. apply gives_run, G. Qed.

Lemma ready_force : forall v, gives v v -> force v = Ok (None, v).
Proof. intros v G. unfold force. inversion G; subst; try reflexivity; apply gives_size in H; cbn [size] in H; lia. Qed.

Lemma run_gives : forall v reg r w, run reg v = Ok (r, w) -> gives v w.
Proof.
  induction v; intros reg r w H; cbn [run] in H; try discriminate;
    try (injection H as <- <-; constructor); constructor; eauto.
Qed.

Lemma run_register : forall v reg r w, run reg v = Ok (r, w) ->
  r = reg \/ r = None \/
  exists m, r = Some m /\ incl (natives m) (natives v) /\ size m + size w <= size v.
Proof.
  induction v; intros reg r w H; cbn [run] in H; try discriminate;
    try (injection H as <- <-; now left).
  - pose proof (gives_size _ _ (run_gives _ _ _ _ H)) as Sz.
    right. destruct (IHv2 _ _ _ H) as [-> | [-> | (m & -> & I & S')]]; [right|now left|right].
    + exists v1. cbn [natives size]. repeat split; [now apply incl_appl|lia].
    + exists m. cbn [natives size]. repeat split; [now apply incl_appr|lia].
  - right. destruct (IHv _ _ _ H) as [-> | [-> | (m & -> & I & S')]]; [now left|now left|right].
    exists m. cbn [natives size]. repeat split; [assumption|lia].
  - pose proof (gives_size _ _ (run_gives _ _ _ _ H)) as Sz.
    right. destruct (IHv2 _ _ _ H) as [-> | [-> | (m & -> & I & S')]]; [right|now left|right].
    + exists v1. cbn [natives size]. repeat split; [now apply incl_appl|lia].
    + exists m. cbn [natives size]. repeat split; [now apply incl_appr|lia].
Qed.

Lemma force_register : forall v r w, force v = Ok (r, w) ->
  gives v w /\ forall m, r = Some m -> incl (natives m) (natives v) /\ size m + size w <= size v.
Proof.
  intros v r w H. split; [eapply run_gives, H|]. intros m ->.
  destruct (run_register _ _ _ _ H) as [E | [E | (m' & E & I)]]; try discriminate.
  injection E as <-. exact I.
Qed.

Lemma force_raised : forall v e, force v = Err e -> exists k, e = Raised k.
Proof.
  unfold force. intros v. generalize (@None value). induction v; intros reg e H; cbn [run] in H;
    try discriminate; eauto. injection H as <-. eauto.
Qed.

(** ** Meaning is kept by forcing *)

Lemma means_gives : forall v w, gives v w -> forall d, means v d ->
  exists dw, means w dw /\ bare dw = bare d.
Proof.
  induction 1; intros d M; try (exists d; split; [exact M|reflexivity]); inversion M; subst; cbn [bare]; auto.
Qed.

Lemma elements_gives : forall v w ds, gives v w -> elements v ds -> elements w ds.
Proof.
  intros v w ds G E. inversion E as [? G'|? h t ? ? G']; subst; rewrite (gives_det _ _ G _ G') in *.
  - constructor. eapply gives_idem, G'.
  - econstructor; eauto. eapply gives_idem, G'.
Qed.

Lemma entries_gives : forall v w es, gives v w -> entries v es -> entries w es.
Proof.
  intros v w es G E. inversion E as [? G'|? ? ? ? ? ? ? G'|? ? ? ? ? ? ? ? ? ? ? G']; subst;
    rewrite (gives_det _ _ G _ G') in *.
  - constructor. eapply gives_idem, G'.
  - eapply entries_pair; eauto. eapply gives_idem, G'.
  - eapply entries_list; eauto. eapply gives_idem, G'.
Qed.

Lemma sends_elements_gives : forall v w ds, gives v w -> sends_elements v ds -> sends_elements w ds.
Proof.
  intros v w ds G E. inversion E as [? G'|? h t ? ? G']; subst; rewrite (gives_det _ _ G _ G') in *.
  - constructor. eapply gives_idem, G'.
  - econstructor; eauto. eapply gives_idem, G'.
Qed.

Section Encode.

Variable utf8 : list byte -> bool.
Variable to_rfc3339 : N -> list byte.
Variable from_rfc3339 : list byte -> option N.

Notation storable := (storable utf8 to_rfc3339 from_rfc3339).
Notation fits := (fits utf8 to_rfc3339 from_rfc3339).
Notation okd := (okd utf8 to_rfc3339 from_rfc3339).
Notation enc := (enc to_rfc3339).
Notation enc_native := (enc_native to_rfc3339).
Notation encode_scalar := (encode_scalar to_rfc3339).
Notation force_and_serialise := (force_and_serialise to_rfc3339).
Notation serialise_forced := (serialise_forced to_rfc3339).
Notation list_items := (list_items to_rfc3339).
Notation block_items := (block_items to_rfc3339).

Lemma fas_eq : forall n v, force_and_serialise (S n) v =
  (f <- force v ;;
      match fst f with
      | Some m =>
          bm <- force_and_serialise n m ;;
          bv <- serialise_forced n (snd f) ;;
          Ok (tag_meta :: bm ++ bv)
      | None => serialise_forced n (snd f)
      end).
Proof. reflexivity. Qed.

Lemma sf_eq : forall n w, serialise_forced (S n) w =
  (match w with
      | Unit => Ok [tag_null]
      | BoolTrue => Ok [tag_true]
      | BoolFalse => Ok [tag_false]
      | Boxed _ payload =>
          f <- force payload ;;
          match value_native (snd f) with
          | Some n => encode_scalar n
          | None => Err (NotSerialisable "opaque boxed value")
          end
      | ListNil => Ok (tag_list :: le_bytes 4 0)
      | ListCons _ _ =>
          p <- list_items n w ;; Ok (tag_list :: le_bytes 4 (fst p) ++ snd p)
      | Block kvs =>
          f <- force kvs ;;
          p <- block_items n (snd f) ;; Ok (tag_block :: le_bytes 4 (fst p) ++ snd p)
      | TypeData payload =>
          f <- force payload ;;
          match value_native (snd f) with
          | Some (Str s) => Ok (tag_typedata :: write_len_bytes s)
          | Some _ => Err (NotSerialisable "type-data value")
          | None => Err (NotSerialisable "opaque boxed value")
          end
      | IoConstructor => Err (NotSerialisable "IO action")
      | Clause => Err (NotSerialisable "conditional clause")
      | BlockPair _ _ | BlockKvList _ => Err (NotSerialisable "bare block-internal value")
      | UnknownData => Err (NotSerialisable "unknown value")
      | _ =>
          match value_native w with
          | Some n => encode_scalar n
          | None => Err (NotSerialisable "function")
          end
      end).
Proof. reflexivity. Qed.

Lemma li_eq : forall n cell, list_items (S n) cell =
  (match cell with
      | ListNil => Ok (0%N, [])
      | ListCons h t =>
          b <- force_and_serialise n h ;;
          f <- force t ;;
          p <- list_items n (snd f) ;;
          Ok ((fst p + 1)%N, b ++ snd p)
      | _ => Err (NotSerialisable "improper list")
      end).
Proof. reflexivity. Qed.

Lemma bi_eq : forall n cell, block_items (S n) cell =
  (match cell with
      | ListNil => Ok (0%N, [])
      | ListCons kv t =>
          fp <- force kv ;;
          match field_native (snd fp) 0 with
          | None => Err (NotSerialisable "non-scalar block key")
          | Some key =>
              bk <- encode_scalar key ;;
              match data_field (snd fp) 1 with
              | None => Err (Corrupt "block value")
              | Some x =>
                  bx <- force_and_serialise n x ;;
                  f <- force t ;;
                  p <- block_items n (snd f) ;;
                  Ok ((fst p + 1)%N, bk ++ bx ++ snd p)
              end
          end
      | _ => Err (NotSerialisable "malformed block")
      end).
Proof. reflexivity. Qed.

Lemma fits_part : forall v w, incl (natives w) (natives v) -> size w <= size v -> fits v -> fits w.
Proof.
  intros v w I S' [F B]. split.
  - eapply incl_Forall; eauto.
  - lia.
Qed.

Lemma encode_scalar_enc : forall n bs, encode_scalar n = Ok bs -> n <> Opaque /\ bs = enc_native n.
Proof.
  intros n bs H. unfold Codec.enc_native. rewrite H. split; [|reflexivity]. intros ->. discriminate.
Qed.

Lemma encode_scalar_ok : forall n, n <> Opaque -> encode_scalar n = Ok (enc_native n).
Proof. intros n H. unfold Codec.enc_native. destruct n; try reflexivity. now elim H. Qed.

Lemma value_native_in : forall w n, value_native w = Some n -> In n (natives w).
Proof.
  intros w n H. destruct w; cbn in H; try discriminate;
    try (injection H as <-; now left); unfold field_native in H; cbn [data_field] in H;
    match type of H with (match ?p with Native _ => _ | _ => _ end) = _ => destruct p end;
    try discriminate; injection H as <-; cbn [natives app]; now left.
Qed.

(** Bare block entries. *)
Definition bare_entry (e : native * data) : native * data := (fst e, bare (snd e)).

Definition writes (v : value) (bs : list byte) (d' : data) : Prop :=
  bs = enc d' /\ okd d' /\ one_layer d' = true /\ (forall d, means v d -> bare d' = bare d).

Definition plain (d : data) : Prop := (match d with DWith _ _ => false | _ => true end) = true.

Theorem encoded : forall n,
  (forall v bs, force_and_serialise n v = Ok bs -> fits v -> exists d', writes v bs d') /\
  (forall w bs, serialise_forced n w = Ok bs -> gives w w -> fits w ->
     exists d', writes w bs d' /\ plain d') /\
  (forall w c bs, list_items n w = Ok (c, bs) -> gives w w -> fits w ->
     exists ds', c = N.of_nat (length ds') /\ bs = flat_map enc ds' /\ length ds' <= size w /\
       Forall okd ds' /\ forallb one_layer ds' = true /\
       (forall ds, elements w ds -> map bare ds' = map bare ds)) /\
  (forall w c bs, block_items n w = Ok (c, bs) -> gives w w -> fits w ->
     exists es', c = N.of_nat (length es') /\
       bs = flat_map (fun e => enc_native (fst e) ++ enc (snd e)) es' /\ length es' <= size w /\
       Forall (fun e => storable (fst e) /\ fst e <> Opaque) es' /\
       Forall (fun e => okd (snd e)) es' /\
       forallb (fun e => one_layer (snd e)) es' = true /\
       (forall es, entries w es -> map bare_entry es' = map bare_entry es)).
Proof.
  induction n as [|n (IHv & IHf & IHl & IHb)]; (split; [|split; [|split]]).
  1-4: intros; discriminate.
  - intros v bs H F. rewrite fas_eq in H.
    destruct (force v) as [[r w]|e] eqn:Ef; [|discriminate H]. cbn [bind fst snd] in H.
    destruct (force_register _ _ _ Ef) as [G R].
    assert (Fw : fits w) by (eapply fits_part; [eapply gives_natives, G|eapply gives_size, G|exact F]).
    assert (Bw : forall d' , (forall d, means w d -> bare d' = bare d) -> forall d, means v d -> bare d' = bare d).
    { intros d' Hb d M. destruct (means_gives _ _ G _ M) as (dw & Mw & <-). auto. }
    destruct r as [m|].
    + destruct (R m eq_refl) as [Im Sm].
      destruct (force_and_serialise n m) as [bm|e] eqn:Em; [|discriminate H]. cbn [bind] in H.
      destruct (serialise_forced n w) as [bw|e] eqn:Ew; [|discriminate H]. cbn [bind] in H.
      injection H as <-.
      assert (Fm : fits m) by (eapply fits_part; [exact Im|lia|exact F]).
      destruct (IHv _ _ Em Fm) as (dm & E1 & O1 & L1 & _).
      destruct (IHf _ _ Ew (gives_idem _ _ G) Fw) as (dw & (E2 & O2 & L2 & B2) & P2).
      exists (DWith dm dw). unfold writes. cbn [Codec.enc one_layer bare]. subst bm bw.
      repeat split.
      * now constructor.
      * rewrite L1, L2. exact P2.
      * now apply Bw.
    + destruct (IHf _ _ H (gives_idem _ _ G) Fw) as (dw & (E2 & O2 & L2 & B2) & P2).
      exists dw. repeat split; auto.
  - intros w bs H G F. rewrite sf_eq in H.
    assert (Sc : forall p k d0, force p = Ok d0 -> value_native (snd d0) = Some k ->
               incl (natives p) (natives w) -> storable k).
    { intros p k [r x] d0 Hk I. apply force_register in d0. destruct d0 as [Gp _].
      destruct F as [F _]. rewrite Forall_forall in F. apply F, I.
      eapply gives_natives; [exact Gp|]. now apply value_native_in. }
    destruct w; cbn iota in H; try (inversion G; fail).
    + exfalso. inversion G; subst. match goal with X : gives _ _ |- _ => apply gives_size in X; cbn [size] in X; lia end.
    + exfalso. inversion G; subst. match goal with X : gives _ _ |- _ => apply gives_size in X; cbn [size] in X; lia end.
    + exfalso. inversion G; subst. match goal with X : gives _ _ |- _ => apply gives_size in X; cbn [size] in X; lia end.
    + cbn [value_native] in H. apply encode_scalar_enc in H. destruct H as [NO ->].
      exists (DScalar n0). unfold writes. cbn [Codec.enc one_layer]. repeat split.
      * constructor; [|exact NO]. destruct F as [F _]. inversion F; assumption.
      * intros d M. inversion M; subst. reflexivity.
    + discriminate.
    + injection H as <-. exists DNull. unfold writes. repeat split; [constructor|].
      intros d M. inversion M; subst. reflexivity.
    + injection H as <-. exists (DBool true). unfold writes. repeat split; [constructor|].
      intros d M. inversion M; subst. reflexivity.
    + injection H as <-. exists (DBool false). unfold writes. repeat split; [constructor|].
      intros d M. inversion M; subst. reflexivity.
    + destruct (force w) as [[r x]|e] eqn:Ef; [|discriminate H]. cbn [bind snd] in H.
      destruct (value_native x) as [k|] eqn:Ek; [|discriminate H].
      apply encode_scalar_enc in H. destruct H as [NO ->].
      exists (DScalar k). unfold writes. cbn [Codec.enc one_layer]. repeat split.
      * constructor; [|exact NO]. eapply Sc; [exact Ef|exact Ek|apply incl_refl].
      * intros d M. inversion M as [| | | |? ? k' Gp| | | | | | |]; subst.
        apply force_register in Ef. destruct Ef as [Gx _].
        rewrite (gives_det _ _ Gx _ Gp) in Ek. injection Ek as <-. reflexivity.
    + destruct (force w) as [[r x]|e] eqn:Ef; [|discriminate H]. cbn [bind snd] in H.
      destruct (value_native x) as [k|] eqn:Ek; [|discriminate H].
      destruct k; try discriminate. injection H as <-.
      pose proof (Sc _ _ _ Ef Ek (incl_refl _)) as [S1 S2].
      exists (DType s). unfold writes. repeat split.
      * now constructor.
      * intros d M. inversion M as [| | | | |? s' Gp| | | | | |]; subst.
        apply force_register in Ef. destruct Ef as [Gx _].
        rewrite (gives_det _ _ Gx _ Gp) in Ek. injection Ek as <-. reflexivity.
    + injection H as <-. exists (DList []). unfold writes. repeat split.
      * constructor; [reflexivity|constructor].
      * intros d M. inversion M; subst. reflexivity.
    + destruct (list_items n (ListCons w1 w2)) as [[c bs']|e] eqn:El; [|discriminate H].
      cbn [bind fst snd] in H. injection H as <-.
      destruct (IHl _ _ _ El G F) as (ds & -> & -> & Ln & O & L & B).
      exists (DList ds). unfold writes. repeat split.
      * constructor; [|exact O]. destruct F as [_ F]. lia.
      * exact L.
      * intros d M. inversion M; subst. cbn [bare]. f_equal.
        apply B. econstructor; [constructor|eassumption|assumption].
    + destruct (force w) as [[r x]|e] eqn:Ef; [|discriminate H]. cbn [bind snd] in H.
      destruct (block_items n x) as [[c bs']|e] eqn:El; [|discriminate H].
      cbn [bind fst snd] in H. injection H as <-.
      apply force_register in Ef. destruct Ef as [Gx _].
      assert (Fx : fits x).
      { eapply fits_part; [| |exact F]; [cbn [natives]; apply gives_natives, Gx|].
        apply gives_size in Gx. cbn [size]. lia. }
      destruct (IHb _ _ _ El (gives_idem _ _ Gx) Fx) as (es & -> & -> & Ln & O1 & O2 & L & B).
      exists (DBlock es). unfold writes. repeat split.
      * constructor; [|exact O1|exact O2]. destruct Fx as [_ Fx]. lia.
      * exact L.
      * intros d M. inversion M; subst. cbn [bare]. f_equal.
        apply B. eapply entries_gives; eassumption.
    + discriminate.
    + discriminate.
    + discriminate.
    + discriminate.
    + discriminate.
  - intros w c bs H G F. rewrite li_eq in H. destruct w; try discriminate.
    + injection H as <- <-. exists []. repeat split; try constructor; [cbn [length]; lia|].
      intros ds E. inversion E as [? G'|? h t ? ? G']; subst; [reflexivity|inversion G'].
    + destruct (force_and_serialise n w1) as [b|e] eqn:E1; [|discriminate H]. cbn [bind] in H.
      destruct (force w2) as [[r t]|e] eqn:E2; [|discriminate H]. cbn [bind snd] in H.
      destruct (list_items n t) as [[c' bs']|e] eqn:E3; [|discriminate H]. cbn [bind fst snd] in H.
      injection H as <- <-. apply force_register in E2. destruct E2 as [Gt _].
      assert (F1 : fits w1) by (eapply fits_part; [| |exact F]; [apply incl_appl, incl_refl|cbn [size]; lia]).
      assert (Ft : fits t).
      { eapply fits_part; [| |exact F].
        - cbn [natives]. apply incl_appr. eapply gives_natives, Gt.
        - apply gives_size in Gt. cbn [size]. lia. }
      destruct (IHv _ _ E1 F1) as (d & -> & O & L & B).
      destruct (IHl _ _ _ E3 (gives_idem _ _ Gt) Ft) as (ds & -> & -> & Ln & Os & Ls & Bs).
      exists (d :: ds). apply gives_size in Gt as Szt. repeat split.
      * cbn [length]. lia.
      * cbn [length size]. lia.
      * now constructor.
      * cbn [forallb]. now rewrite L, Ls.
      * intros es E. inversion E as [? G'|? h t' ? ? G' Mh Et]; subst; inversion G'; subst.
        cbn [map]. f_equal; [now apply B|]. apply Bs. eapply elements_gives; eassumption.
  - intros w c bs H G F. rewrite bi_eq in H. destruct w; try discriminate.
    + injection H as <- <-. exists []. repeat split; try constructor; [cbn [length]; lia|].
      intros ds E. inversion E as [? G'|? ? ? ? ? ? ? G'|? ? ? ? ? ? ? ? ? ? ? G']; subst;
        [reflexivity|inversion G'|inversion G'].
    + destruct (force w1) as [[rp p]|e] eqn:E0; [|discriminate H]. cbn [bind snd] in H.
      destruct (field_native p 0) as [k|] eqn:Ek; [|discriminate H].
      destruct (encode_scalar k) as [bk|e] eqn:Eb; [|discriminate H]. cbn [bind] in H.
      destruct (data_field p 1) as [x|] eqn:Ex; [|discriminate H].
      destruct (force_and_serialise n x) as [b|e] eqn:E1; [|discriminate H]. cbn [bind] in H.
      destruct (force w2) as [[r t]|e] eqn:E2; [|discriminate H]. cbn [bind snd] in H.
      destruct (block_items n t) as [[c' bs']|e] eqn:E3; [|discriminate H]. cbn [bind fst snd] in H.
      injection H as <- <-. apply force_register in E2. destruct E2 as [Gt _].
      apply force_register in E0. destruct E0 as [Gp _].
      apply encode_scalar_enc in Eb. destruct Eb as [NO ->].
      assert (Ip : In k (natives p) /\ incl (natives x) (natives p) /\ size x <= size p).
      { unfold field_native in Ek.
        destruct p; cbn [data_field] in Ek, Ex; try discriminate;
          injection Ex as <-; (destruct p1; try discriminate; injection Ek as <-);
          cbn [natives size]; (split; [now left|split; [apply incl_tl, incl_refl|lia]]). }
      destruct Ip as (Ik & Ix & Sx).
      assert (Gpn := gives_natives _ _ Gp). assert (Gps := gives_size _ _ Gp).
      assert (Sk : storable k).
      { destruct F as [F _]. rewrite Forall_forall in F. apply F. cbn [natives].
        apply in_or_app. left. now apply Gpn. }
      assert (F1 : fits x).
      { eapply fits_part; [| |exact F].
        - cbn [natives]. apply incl_appl. eapply incl_tran; eassumption.
        - cbn [size]. lia. }
      assert (Ft : fits t).
      { eapply fits_part; [| |exact F].
        - cbn [natives]. apply incl_appr. eapply gives_natives, Gt.
        - apply gives_size in Gt. cbn [size]. lia. }
      destruct (IHv _ _ E1 F1) as (d & -> & O & L & B).
      destruct (IHb _ _ _ E3 (gives_idem _ _ Gt) Ft) as (es & -> & -> & Ln & Ks & Os & Ls & Bs).
      exists ((k, d) :: es). apply gives_size in Gt as Szt. repeat split.
      * cbn [length]. lia.
      * cbn [flat_map fst snd]. now rewrite <- app_assoc.
      * cbn [length size]. lia.
      * constructor; [now split|assumption].
      * now constructor.
      * cbn [forallb snd]. now rewrite L, Ls.
      * intros es' E.
        inversion E as [? G'|? ? t' k' x' d' ? G' Gq Kk Mx Et|? ? ? ? ? ? ? ? ? ? ? G' Gq]; subst; inversion G'; subst.
        -- rewrite (gives_det _ _ Gp _ Gq) in *. cbn in Ek, Ex.
           injection Ek as <-. injection Ex as <-.
           cbn [map]. f_equal; [unfold bare_entry; cbn [fst snd]; f_equal; now apply B|].
           apply Bs. eapply entries_gives; eassumption.
        -- rewrite (gives_det _ _ Gp _ Gq) in *. discriminate Ex.
Qed.

(** ** Values that cross whole are written whole *)

Definition enc_entries (es : list (native * data)) : list byte :=
  flat_map (fun e => enc_native (fst e) ++ enc (snd e)) es.

Lemma not_ready_annotated : forall m b, ~ gives (Annotated m b) (Annotated m b).
Proof. intros m b G. inversion G; subst. match goal with X : gives _ _ |- _ => apply gives_size in X; cbn [size] in X; lia end. Qed.

Lemma not_ready_ran : forall v, ~ gives (Ran v) (Ran v).
Proof. intros v G. inversion G; subst. match goal with X : gives _ _ |- _ => apply gives_size in X; cbn [size] in X; lia end. Qed.

Theorem sends_encoded :
  (forall v d, sends v d ->
    (forall n, 3 * size v <= n -> force_and_serialise n v = Ok (enc d)) /\
    (gives v v -> forall n, 3 * size v <= S n -> serialise_forced n v = Ok (enc d))) /\
  (forall v ds, sends_elements v ds -> forall w n, gives v w -> 3 * size w <= S (S n) ->
    list_items n w = Ok (N.of_nat (length ds), flat_map enc ds)) /\
  (forall v es, sends_entries v es -> forall w n, gives v w -> 3 * size w <= S (S n) ->
    block_items n w = Ok (N.of_nat (length es), enc_entries es)).
Proof.
  assert (Rd : forall v d, gives v v ->
    (forall n, 3 * size v <= S n -> serialise_forced n v = Ok (enc d)) ->
    (forall n, 3 * size v <= n -> force_and_serialise n v = Ok (enc d)) /\
    (gives v v -> forall n, 3 * size v <= S n -> serialise_forced n v = Ok (enc d))).
  { intros v d G H. split; [|auto]. intros n Hn. pose proof (size_pos v).
    destruct n as [|n]; [lia|]. rewrite fas_eq.
    rewrite ready_force by exact G. cbn [bind fst snd]. apply H. lia. }
  set (P := fun v d =>
    (forall n, 3 * size v <= n -> force_and_serialise n v = Ok (enc d)) /\
    (gives v v -> forall n, 3 * size v <= S n -> serialise_forced n v = Ok (enc d))).
  set (P0 := fun v ds => forall w n, gives v w -> 3 * size w <= S (S n) ->
    list_items n w = Ok (N.of_nat (length ds), flat_map enc ds)).
  set (P1 := fun v es => forall w n, gives v w -> 3 * size w <= S (S n) ->
    block_items n w = Ok (N.of_nat (length es), enc_entries es)).
  assert (C1 : P Unit DNull).
  { apply Rd; [constructor|]. intros [|n] Hn; [cbn in Hn; lia|reflexivity]. }
  assert (C2 : P BoolTrue (DBool true)).
  { apply Rd; [constructor|]. intros [|n] Hn; [cbn in Hn; lia|reflexivity]. }
  assert (C3 : P BoolFalse (DBool false)).
  { apply Rd; [constructor|]. intros [|n] Hn; [cbn in Hn; lia|reflexivity]. }
  assert (C4 : forall n, n <> Opaque -> P (Native n) (DScalar n)).
  { intros k NO. apply Rd; [constructor|]. intros [|n] Hn; [cbn in Hn; lia|].
    rewrite sf_eq. cbn [value_native]. now apply encode_scalar_ok. }
  assert (C5 : forall b p n, gives p (Native n) -> n <> Opaque -> P (Boxed b p) (DScalar n)).
  { intros b p k Gp NO. apply Rd; [constructor|]. intros [|n] Hn; [cbn in Hn; lia|].
    rewrite sf_eq. destruct (gives_force _ _ Gp) as [r ->]. cbn [bind snd value_native].
    now apply encode_scalar_ok. }
  assert (C6 : forall p s, gives p (Native (Str s)) -> P (TypeData p) (DType s)).
  { intros p s Gp. apply Rd; [constructor|]. intros [|n] Hn; [cbn in Hn; lia|].
    rewrite sf_eq. destruct (gives_force _ _ Gp) as [r ->]. reflexivity. }
  assert (C7 : P ListNil (DList [])).
  { apply Rd; [constructor|]. intros [|n] Hn; [cbn in Hn; lia|reflexivity]. }
  assert (C8 : forall h t d ds, sends h d -> P h d -> sends_elements t ds -> P0 t ds ->
                 forall n, 3 * size (ListCons h t) <= S (S n) ->
                 list_items n (ListCons h t) = Ok (N.of_nat (length (d :: ds)), flat_map enc (d :: ds))).
  { intros h t d ds _ [Ph _] St Pt n Hn. cbn [size] in Hn. pose proof (size_pos h). pose proof (size_pos t).
    destruct n as [|n]; [lia|]. rewrite li_eq. rewrite Ph by lia. cbn [bind].
    assert (Gt : exists w, gives t w) by (inversion St; subst; eauto). destruct Gt as [w Gt].
    destruct (gives_force _ _ Gt) as [r ->]. cbn [bind snd].
    apply gives_size in Gt as Szt. rewrite (Pt w n Gt) by lia. cbn [bind fst snd flat_map length].
    f_equal. f_equal. lia. }
  assert (C9 : forall h t d ds, sends h d -> P h d -> sends_elements t ds -> P0 t ds ->
                 P (ListCons h t) (DList (d :: ds))).
  { intros h t d ds Sh Ph St Pt. apply Rd; [constructor|].
    intros [|n] Hn; [cbn [size] in Hn; lia|]. rewrite sf_eq.
    rewrite (C8 h t d ds) by (assumption || lia). reflexivity. }
  assert (C10 : forall kvs es, sends_entries kvs es -> P1 kvs es -> P (Block kvs) (DBlock es)).
  { intros kvs es Sk Pk. apply Rd; [constructor|].
    intros [|n] Hn; [cbn [size] in Hn; lia|]. rewrite sf_eq.
    assert (Gt : exists w, gives kvs w) by (inversion Sk; subst; eauto). destruct Gt as [w Gt].
    destruct (gives_force _ _ Gt) as [r ->]. cbn [bind snd].
    apply gives_size in Gt as Szt. cbn [size] in Hn. rewrite (Pk w n Gt) by lia. reflexivity. }
  assert (C11 : forall m b dm db, sends m dm -> P m dm -> ready b -> sends b db -> P b db ->
                  P (Annotated m b) (DWith dm db)).
  { intros m b dm db _ [Pm _] Rb _ [_ Pb]. split.
    - intros n Hn. cbn [size] in Hn. destruct n as [|n]; [lia|]. rewrite fas_eq.
      unfold force. cbn [run].
      assert (E : run (Some m) b = Ok (Some m, b)).
      { unfold ready in Rb. inversion Rb; subst; try reflexivity; apply gives_size in H; cbn [size] in H; lia. }
      rewrite E. cbn [bind fst snd]. pose proof (size_pos m). rewrite Pm by lia. cbn [bind].
      rewrite Pb by (assumption || lia). reflexivity.
    - intros G. now elim (not_ready_annotated m b). }
  assert (C12 : forall v d, sends v d -> P v d -> P (Ran v) d).
  { intros v d _ [Pv _]. split.
    - intros n Hn. cbn [size] in Hn. destruct n as [|n]; [lia|].
      rewrite <- (Pv (S n)) by lia. reflexivity.
    - intros G. now elim (not_ready_ran v). }
  assert (C13 : forall v, gives v ListNil -> P0 v []).
  { intros v Gv w n Gw Hn. rewrite <- (gives_det _ _ Gv _ Gw) in *. destruct n as [|n]; [cbn in Hn; lia|]. reflexivity. }
  assert (C14 : forall v h t d ds, gives v (ListCons h t) -> sends h d -> P h d ->
                  sends_elements t ds -> P0 t ds -> P0 v (d :: ds)).
  { intros v h t d ds Gv Sh Ph St Pt w n Gw Hn. rewrite <- (gives_det _ _ Gv _ Gw) in *.
    now apply C8. }
  assert (C15 : forall v, gives v ListNil -> P1 v []).
  { intros v Gv w n Gw Hn. rewrite <- (gives_det _ _ Gv _ Gw) in *. destruct n as [|n]; [cbn in Hn; lia|]. reflexivity. }
  assert (C16 : forall v kv t k x d es, gives v (ListCons kv t) -> gives kv (BlockPair (Native k) x) ->
                  key k -> sends x d -> P x d -> sends_entries t es -> P1 t es -> P1 v ((k, d) :: es)).
  { intros v kv t k x d es Gv Gkv Kk _ [Px _] St Pt w n Gw Hn. rewrite <- (gives_det _ _ Gv _ Gw) in *.
    cbn [size] in Hn. apply gives_size in Gkv as Szk. cbn [size] in Szk.
    pose proof (size_pos t). destruct n as [|n]; [lia|]. rewrite bi_eq.
    destruct (gives_force _ _ Gkv) as [rk ->]. cbn [bind snd].
    unfold field_native. cbn [data_field]. rewrite encode_scalar_ok by (intros ->; exact Kk).
    cbn [bind]. rewrite Px by lia. cbn [bind].
    assert (Gt : exists w', gives t w') by (inversion St; subst; eauto). destruct Gt as [w' Gt].
    destruct (gives_force _ _ Gt) as [r ->]. cbn [bind snd].
    apply gives_size in Gt as Szt. rewrite (Pt w' n Gt) by lia. cbn [bind fst snd length].
    unfold enc_entries. cbn [flat_map fst snd]. rewrite <- app_assoc. f_equal. f_equal. lia. }
  split; [|split].
  - apply (sends_mut P P0 P1 C1 C2 C3 C4 C5 C6 C7 C9 C10 C11 C12 C13 C14 C15 C16).
  - apply (sends_elements_mut P P0 P1 C1 C2 C3 C4 C5 C6 C7 C9 C10 C11 C12 C13 C14 C15 C16).
  - apply (sends_entries_mut P P0 P1 C1 C2 C3 C4 C5 C6 C7 C9 C10 C11 C12 C13 C14 C15 C16).
Qed.

End Encode.
