(** * The codec always ends; what may not cross is refused *)

From Coq Require Import String List NArith ZArith Bool Arith Lia.
From Verif Require Import Parallel.Model Parallel.Spec Parallel.Codec Parallel.Encode.
Import ListNotations.
Open Scope nat_scope.

Lemma sends_means :
  (forall v d, sends v d -> means v d) /\
  (forall v ds, sends_elements v ds -> elements v ds) /\
  (forall v es, sends_entries v es -> entries v es).
Proof.
  set (P := means). set (P0 := elements). set (P1 := entries).
  assert (A1 := means_null). assert (A2 := means_true). assert (A3 := means_false).
  assert (C : forall h t d ds, sends h d -> P h d -> sends_elements t ds -> P0 t ds ->
                P (ListCons h t) (DList (d :: ds))) by (intros; constructor; assumption).
  assert (B : forall kvs es, sends_entries kvs es -> P1 kvs es -> P (Block kvs) (DBlock es))
    by (intros; constructor; assumption).
  assert (M : forall m b dm db, sends m dm -> P m dm -> ready b -> sends b db -> P b db ->
                P (Annotated m b) (DWith dm db)) by (intros; constructor; assumption).
  assert (R : forall v d, sends v d -> P v d -> P (Ran v) d) by (intros; constructor; assumption).
  assert (E : forall v h t d ds, gives v (ListCons h t) -> sends h d -> P h d ->
                sends_elements t ds -> P0 t ds -> P0 v (d :: ds))
    by (intros; eapply elements_cons; eassumption).
  assert (F : forall v kv t k x d es, gives v (ListCons kv t) -> gives kv (BlockPair (Native k) x) ->
                key k -> sends x d -> P x d -> sends_entries t es -> P1 t es -> P1 v ((k, d) :: es))
    by (intros; eapply entries_pair; eassumption).
  split; [|split].
  - apply (sends_mut P P0 P1 A1 A2 A3 means_native means_boxed means_type means_nil C B M R
             elements_nil E entries_nil F).
  - apply (sends_elements_mut P P0 P1 A1 A2 A3 means_native means_boxed means_type means_nil C B M R
             elements_nil E entries_nil F).
  - apply (sends_entries_mut P P0 P1 A1 A2 A3 means_native means_boxed means_type means_nil C B M R
             elements_nil E entries_nil F).
Qed.

Section Total.

Variable utf8 : list byte -> bool.
Variable to_rfc3339 : N -> list byte.
Variable from_rfc3339 : list byte -> option N.

Notation storable := (storable utf8 to_rfc3339 from_rfc3339).
Notation fits := (fits utf8 to_rfc3339 from_rfc3339).
Notation okd := (okd utf8 to_rfc3339 from_rfc3339).
Notation enc := (enc to_rfc3339).
Notation encode_scalar := (encode_scalar to_rfc3339).
Notation force_and_serialise := (force_and_serialise to_rfc3339).
Notation serialise_forced := (serialise_forced to_rfc3339).
Notation list_items := (list_items to_rfc3339).
Notation block_items := (block_items to_rfc3339).
Notation deserialise := (deserialise utf8 from_rfc3339).
Notation items := (items utf8 from_rfc3339).
Notation pairs := (pairs utf8 from_rfc3339).
Notation serialise := (serialise to_rfc3339).
Notation deserialise_value := (deserialise_value utf8 from_rfc3339).
Notation map_element := (map_element utf8 to_rfc3339 from_rfc3339).

(** ** Data of a value that fits *)

Definition fine (d : data) : Prop := okd d /\ keys_ok d = true /\ one_layer d = true.

Lemma fits_gives : forall v w, gives v w -> fits v -> fits w.
Proof. intros v w G. apply fits_part; [apply gives_natives, G|apply gives_size, G]. Qed.

Lemma fits_native : forall v n, gives v (Native n) -> fits v -> storable n.
Proof. intros v n G F. apply (fits_gives _ _ G) in F. destruct F as [F _]. inversion F; assumption. Qed.

Lemma fits_left : forall a b, fits (ListCons a b) -> fits a.
Proof. intros a b. apply fits_part; [apply incl_appl, incl_refl|cbn [size]; lia]. Qed.

Lemma fits_right : forall a b, fits (ListCons a b) -> fits b.
Proof. intros a b. apply fits_part; [apply incl_appr, incl_refl|cbn [size]; lia]. Qed.

Theorem sends_fine :
  (forall v d, sends v d -> fits v -> fine d) /\
  (forall v ds, sends_elements v ds -> fits v -> Forall fine ds /\ length ds <= size v) /\
  (forall v es, sends_entries v es -> fits v ->
     Forall (fun e => storable (fst e) /\ keyb (fst e) = true /\ fine (snd e)) es /\ length es <= size v).
Proof.
  set (P := fun v d => fits v -> fine d).
  set (P0 := fun v ds => fits v -> Forall fine ds /\ length ds <= size v).
  set (P1 := fun v es => fits v ->
     Forall (fun e => storable (fst e) /\ keyb (fst e) = true /\ fine (snd e)) es /\ length es <= size v).
  assert (A1 : P Unit DNull) by (intros _; repeat split; constructor).
  assert (A2 : P BoolTrue (DBool true)) by (intros _; repeat split; constructor).
  assert (A3 : P BoolFalse (DBool false)) by (intros _; repeat split; constructor).
  assert (A4 : forall n, n <> Opaque -> P (Native n) (DScalar n)).
  { intros n NO F. repeat split. constructor; [|exact NO]. eapply fits_native; [constructor|exact F]. }
  assert (A5 : forall b p n, gives p (Native n) -> n <> Opaque -> P (Boxed b p) (DScalar n)).
  { intros b p n G NO F. repeat split. constructor; [|exact NO]. eapply fits_native; [exact G|].
    eapply fits_part; [| |exact F]; [apply incl_refl|cbn [size]; lia]. }
  assert (A6 : forall p s, gives p (Native (Str s)) -> P (TypeData p) (DType s)).
  { intros p s G F. assert (S' : storable (Str s)).
    { eapply fits_native; [exact G|]. eapply fits_part; [| |exact F]; [apply incl_refl|cbn [size]; lia]. }
    destruct S' as [S1 S2]. repeat split. now constructor. }
  assert (A7 : P ListNil (DList [])).
  { intros _. repeat split. constructor; [reflexivity|constructor]. }
  assert (LL : forall v ds, fits v -> Forall fine ds -> length ds <= size v -> fine (DList ds)).
  { intros v ds [_ F] O L. unfold fine in O. rewrite Forall_forall in O. repeat split.
    - constructor; [lia|]. apply Forall_forall. intros d I. now apply O.
    - cbn [keys_ok]. apply forallb_forall. intros d I. now apply O.
    - cbn [one_layer]. apply forallb_forall. intros d I. now apply O. }
  assert (CC : forall h t d ds, P h d -> P0 t ds -> fits (ListCons h t) ->
             Forall fine (d :: ds) /\ length (d :: ds) <= size (ListCons h t)).
  { intros h t d ds Ph Pt F. destruct (Pt (fits_right _ _ F)) as [O L].
    split; [constructor; [apply Ph; eapply fits_left, F|exact O]|cbn [length size]; lia]. }
  assert (A8 : forall h t d ds, sends h d -> P h d -> sends_elements t ds -> P0 t ds ->
                P (ListCons h t) (DList (d :: ds))).
  { intros h t d ds _ Ph _ Pt F. destruct (CC h t d ds Ph Pt F). eapply LL; eassumption. }
  assert (A9 : forall kvs es, sends_entries kvs es -> P1 kvs es -> P (Block kvs) (DBlock es)).
  { intros kvs es _ Pk F. assert (Fk : fits kvs).
    { eapply fits_part; [| |exact F]; [apply incl_refl|cbn [size]; lia]. }
    destruct (Pk Fk) as [O L]. unfold fine in O. rewrite Forall_forall in O. destruct Fk as [_ Fk].
    repeat split.
    - constructor; [lia| |].
      + apply Forall_forall. intros e I. destruct (O e I) as (S1 & S2 & _). split; [exact S1|].
        intros E. rewrite E in S2. discriminate.
      + apply Forall_forall. intros e I. apply O, I.
    - cbn [keys_ok]. apply forallb_forall. intros e I. destruct (O e I) as (_ & -> & _ & -> & _). reflexivity.
    - cbn [one_layer]. apply forallb_forall. intros e I. apply O, I. }
  assert (A10 : forall m b dm db, sends m dm -> P m dm -> ready b -> sends b db -> P b db ->
                P (Annotated m b) (DWith dm db)).
  { intros m b dm db _ Pm Rb Sb Pb F.
    assert (Fm : fits m) by (eapply fits_part; [| |exact F]; [apply incl_appl, incl_refl|cbn [size]; lia]).
    assert (Fb : fits b) by (eapply fits_part; [| |exact F]; [apply incl_appr, incl_refl|cbn [size]; lia]).
    destruct (Pm Fm) as (O1 & K1 & L1). destruct (Pb Fb) as (O2 & K2 & L2).
    repeat split.
    - now constructor.
    - cbn [keys_ok]. now rewrite K1, K2.
    - cbn [one_layer]. rewrite L1, L2. unfold ready in Rb.
      destruct Sb; try reflexivity;
      [now elim (not_ready_annotated m0 b)|now elim (not_ready_ran v)]. }
  assert (A11 : forall v d, sends v d -> P v d -> P (Ran v) d).
  { intros v d _ Pv F. apply Pv. eapply fits_part; [| |exact F]; [apply incl_refl|cbn [size]; lia]. }
  assert (A12 : forall v, gives v ListNil -> P0 v []).
  { intros v _ _. split; [constructor|cbn [length]; lia]. }
  assert (A13 : forall v h t d ds, gives v (ListCons h t) -> sends h d -> P h d ->
                sends_elements t ds -> P0 t ds -> P0 v (d :: ds)).
  { intros v h t d ds G _ Ph _ Pt F. apply gives_size in G as Sz. apply (fits_gives _ _ G) in F.
    destruct (CC h t d ds Ph Pt F). split; [assumption|lia]. }
  assert (A14 : forall v, gives v ListNil -> P1 v []).
  { intros v _ _. split; [constructor|cbn [length]; lia]. }
  assert (A15 : forall v kv t k x d es, gives v (ListCons kv t) -> gives kv (BlockPair (Native k) x) ->
                key k -> sends x d -> P x d -> sends_entries t es -> P1 t es -> P1 v ((k, d) :: es)).
  { intros v kv t k x d es G Gk Kk _ Px _ Pt F. apply gives_size in G as Sz. apply (fits_gives _ _ G) in F.
    destruct (Pt (fits_right _ _ F)) as [O L]. pose proof (fits_left _ _ F) as Fk.
    apply (fits_gives _ _ Gk) in Fk. cbn [size] in Sz.
    split; [|cbn [length]; lia]. constructor; [|exact O]. cbn [fst snd]. split; [|split].
    - destruct Fk as [Fk _]. inversion Fk; assumption.
    - destruct k; cbn in Kk; tauto.
    - apply Px. eapply fits_part; [| |exact Fk]; [apply incl_appr, incl_refl|cbn [size]; lia]. }
  split; [|split].
  - apply (sends_mut P P0 P1 A1 A2 A3 A4 A5 A6 A7 A8 A9 A10 A11 A12 A13 A14 A15).
  - apply (sends_elements_mut P P0 P1 A1 A2 A3 A4 A5 A6 A7 A8 A9 A10 A11 A12 A13 A14 A15).
  - apply (sends_entries_mut P P0 P1 A1 A2 A3 A4 A5 A6 A7 A8 A9 A10 A11 A12 A13 A14 A15).
Qed.

(** ** The round trip *)

Lemma deserialise_value_enc : forall d rest, okd d ->
  deserialise_value (enc d ++ rest) = decoded d rest.
Proof.
  intros d rest O. unfold Model.deserialise_value. apply decode_enc with (to_rfc3339 := to_rfc3339); [exact O|].
  rewrite app_length. lia.
Qed.

Theorem round_trip : forall v d, sends v d -> fits v -> forall rest,
  exists bs, serialise v = Ok bs /\ deserialise_value (bs ++ rest) = Ok (rebuild d, rest) /\
             sends (rebuild d) d.
Proof.
  intros v d S' F rest. destruct (proj1 sends_fine _ _ S' F) as (O & K & L).
  exists (enc d). split; [|split].
  - apply (proj1 (sends_encoded to_rfc3339) v d S'). unfold lt. lia.
  - rewrite deserialise_value_enc by exact O. unfold decoded. now rewrite K.
  - eapply rebuild_sends; eassumption.
Qed.

Theorem map_element_means : forall v v' d, map_element v = Ok v' -> fits v -> means v d ->
  exists d', means v' d' /\ bare d' = bare d.
Proof.
  intros v v' d H F M. unfold Model.map_element in H.
  destruct (serialise v) as [bs|e] eqn:E; [|discriminate H]. cbn [bind] in H.
  destruct (proj1 (encoded utf8 to_rfc3339 from_rfc3339 _) _ _ E F) as (d' & -> & O & L & B).
  pose proof (deserialise_value_enc d' [] O) as D. rewrite app_nil_r in D. rewrite D in H.
  unfold decoded in H. destruct (keys_ok d') eqn:K; [|discriminate H].
  cbn [bind fst] in H. injection H as <-. exists d'. split; [|now apply B].
  apply (proj1 sends_means). eapply rebuild_sends; eassumption.
Qed.

(** ** Decoding ends on all bytes *)

Lemma take_rest : forall cur n a rest, take cur n = Ok (a, rest) -> length rest <= length cur.
Proof.
  intros cur n a rest H. unfold take in H. destruct (_ <? _)%N; [discriminate H|].
  injection H as <- <-. rewrite skipn_length. lia.
Qed.

Lemma take_fuel : forall cur n, take cur n <> Err OutOfFuel.
Proof. intros cur n H. unfold take in H. destruct (_ <? _)%N; discriminate. Qed.

Lemma read_u8_rest : forall cur b rest, read_u8 cur = Ok (b, rest) -> length cur = S (length rest).
Proof. intros [|x cur] b rest H; [discriminate|]. injection H as <- <-. reflexivity. Qed.

Lemma read_u8_fuel : forall cur, read_u8 cur <> Err OutOfFuel.
Proof. intros [|x cur]; discriminate. Qed.

Lemma read_u32_rest : forall cur n rest, read_u32 cur = Ok (n, rest) -> length rest <= length cur.
Proof.
  intros cur n rest H. unfold read_u32 in H. destruct (take cur 4) as [[a r]|e] eqn:E; [|discriminate H].
  injection H as <- <-. cbn [snd]. eapply take_rest, E.
Qed.

Lemma read_u32_fuel : forall cur, read_u32 cur <> Err OutOfFuel.
Proof.
  intros cur H. unfold read_u32 in H. destruct (take cur 4) as [[a r]|e] eqn:E; [discriminate H|].
  cbn [bind] in H. injection H as ->. exact (take_fuel _ _ E).
Qed.

Lemma read_u64_rest : forall cur n rest, read_u64 cur = Ok (n, rest) -> length rest <= length cur.
Proof.
  intros cur n rest H. unfold read_u64 in H. destruct (take cur 8) as [[a r]|e] eqn:E; [|discriminate H].
  injection H as <- <-. cbn [snd]. eapply take_rest, E.
Qed.

Lemma read_u64_fuel : forall cur, read_u64 cur <> Err OutOfFuel.
Proof.
  intros cur H. unfold read_u64 in H. destruct (take cur 8) as [[a r]|e] eqn:E; [discriminate H|].
  cbn [bind] in H. injection H as ->. exact (take_fuel _ _ E).
Qed.

Notation read_str := (read_str utf8).

Lemma read_str_rest : forall cur s rest, read_str cur = Ok (s, rest) -> length rest <= length cur.
Proof.
  intros cur s rest H. unfold Model.read_str, read_len_bytes in H.
  destruct (read_u32 cur) as [[n r]|e] eqn:E; [|discriminate H]. cbn [bind fst snd] in H.
  destruct (take r n) as [[a r']|e] eqn:E'; [|discriminate H]. cbn [bind fst snd] in H.
  destruct (utf8 a); [|discriminate H]. injection H as <- <-.
  apply read_u32_rest in E. apply take_rest in E'. lia.
Qed.

Lemma read_str_fuel : forall cur, read_str cur <> Err OutOfFuel.
Proof.
  intros cur H. unfold Model.read_str, read_len_bytes in H.
  destruct (read_u32 cur) as [[n r]|e] eqn:E; cbn [bind fst snd] in H.
  - destruct (take r n) as [[a r']|e] eqn:E'; cbn [bind fst snd] in H.
    + destruct (utf8 a); discriminate.
    + injection H as ->. exact (take_fuel _ _ E').
  - injection H as ->. exact (read_u32_fuel _ E).
Qed.

Lemma decode_number_rest : forall cur x rest, decode_number cur = Ok (x, rest) -> length rest <= length cur.
Proof.
  intros cur x rest H. unfold decode_number in H.
  destruct (read_u8 cur) as [[k r]|e] eqn:E; [|discriminate H]. cbn [bind fst snd] in H.
  apply read_u8_rest in E.
  destruct (k =? num_u64)%N; [|destruct (k =? num_i64)%N; [|destruct (k =? num_f64)%N; [|discriminate H]]];
    (destruct (read_u64 r) as [[u r']|e] eqn:E'; [|discriminate H]); apply read_u64_rest in E';
    cbn [bind fst snd] in H; try destruct (finite u); try discriminate H; injection H as <- <-; lia.
Qed.

Lemma decode_number_fuel : forall cur, decode_number cur <> Err OutOfFuel.
Proof.
  intros cur H. unfold decode_number in H.
  destruct (read_u8 cur) as [[k r]|e] eqn:E; cbn [bind fst snd] in H;
    [|injection H as ->; exact (read_u8_fuel _ E)].
  destruct (k =? num_u64)%N; [|destruct (k =? num_i64)%N; [|destruct (k =? num_f64)%N; [|discriminate H]]];
    (destruct (read_u64 r) as [[u r']|e] eqn:E'; cbn [bind fst snd] in H;
      [try destruct (finite u); discriminate H|injection H as ->; exact (read_u64_fuel _ E')]).
Qed.

Notation deserialise_key := (deserialise_key utf8).

Lemma key_rest : forall cur x rest, deserialise_key cur = Ok (x, rest) -> length rest <= length cur.
Proof.
  intros cur x rest H. unfold Model.deserialise_key in H.
  destruct (read_u8 cur) as [[k r]|e] eqn:E; [|discriminate H]. cbn [bind fst snd] in H.
  apply read_u8_rest in E.
  destruct (k =? tag_sym)%N; [|destruct (k =? tag_str)%N; [|discriminate H]];
    (destruct (read_str r) as [[u r']|e] eqn:E'; [|discriminate H]); apply read_str_rest in E';
    cbn [bind fst snd] in H; injection H as <- <-; lia.
Qed.

Lemma key_fuel : forall cur, deserialise_key cur <> Err OutOfFuel.
Proof.
  intros cur H. unfold Model.deserialise_key in H.
  destruct (read_u8 cur) as [[k r]|e] eqn:E; cbn [bind fst snd] in H;
    [|injection H as ->; exact (read_u8_fuel _ E)].
  destruct (k =? tag_sym)%N; [|destruct (k =? tag_str)%N; [|discriminate H]];
    (destruct (read_str r) as [[u r']|e] eqn:E'; cbn [bind fst snd] in H;
      [discriminate H|injection H as ->; exact (read_str_fuel _ E')]).
Qed.

Definition ends {A} (r : result (A * list byte)) (bound : nat) : Prop :=
  match r with
  | Ok (_, rest) => length rest <= bound
  | Err e => e <> OutOfFuel
  end.

Lemma ends_bind : forall A B (r : result (A * list byte)) (f : A * list byte -> result (B * list byte)) b c,
  ends r b -> (forall x rest, length rest <= b -> ends (f (x, rest)) c) -> ends (bind r f) c.
Proof. intros A B [[x rest]|e] f b c H F; cbn [bind]; [now apply F|exact H]. Qed.

Lemma ends_of : forall A (r : result (A * list byte)) b,
  (forall x rest, r = Ok (x, rest) -> length rest <= b) -> r <> Err OutOfFuel -> ends r b.
Proof. intros A [[x rest]|e] b H N; cbn; [eauto|]. intros ->. now apply N. Qed.

Theorem decode_ends : forall n,
  (forall cur, 2 * length cur + 1 <= n -> ends (deserialise n cur) (length cur - 1)) /\
  (forall c cur, 2 * length cur + 2 <= n -> ends (items n c cur) (length cur)) /\
  (forall c cur, 2 * length cur + 2 <= n -> ends (pairs n c cur) (length cur)).
Proof.
  induction n as [|n (IHd & IHi & IHp)]; (split; [|split]).
  1-3: intros; lia.
  - intros cur Hn. destruct cur as [|t cur]; [cbn; discriminate|]. cbn [length] in Hn |- *.
    replace (S (length cur) - 1) with (length cur) by lia.
    change (deserialise (S n) (t :: cur)) with
      (let tag := t in
       if (tag =? tag_null)%N then Ok (Unit, cur)
       else if (tag =? tag_true)%N then Ok (BoolTrue, cur)
       else if (tag =? tag_false)%N then Ok (BoolFalse, cur)
       else if (tag =? tag_num)%N then
         p <- decode_number cur ;; Ok (Boxed BoxNumber (Native (Num (fst p))), snd p)
       else if (tag =? tag_str)%N then
         p <- read_str cur ;; Ok (Boxed BoxString (Native (Str (fst p))), snd p)
       else if (tag =? tag_sym)%N then
         p <- read_str cur ;; Ok (Boxed BoxSymbol (Native (Sym (fst p))), snd p)
       else if (tag =? tag_zdt)%N then
         p <- read_str cur ;;
         match from_rfc3339 (fst p) with
         | Some d => Ok (Boxed BoxZdt (Native (Zdt d)), snd p)
         | None => Err (Corrupt "bad rfc3339")
         end
       else if (tag =? tag_typedata)%N then
         p <- read_str cur ;; Ok (TypeData (Native (Str (fst p))), snd p)
       else if (tag =? tag_list)%N then
         c <- read_u32 cur ;;
         p <- items n (fst c) (snd c) ;; Ok (build_list (fst p), snd p)
       else if (tag =? tag_block)%N then
         c <- read_u32 cur ;;
         p <- pairs n (fst c) (snd c) ;; Ok (Block (build_list (fst p)), snd p)
       else if (tag =? tag_meta)%N then
         m <- deserialise n cur ;;
         b <- deserialise n (snd m) ;; Ok (Annotated (fst m) (fst b), snd b)
       else Err (Corrupt "unknown value tag")).
    cbv zeta.
    assert (Str' : ends (read_str cur) (length cur)).
    { apply ends_of; [apply read_str_rest|apply read_str_fuel]. }
    assert (U : ends (read_u32 cur) (length cur)).
    { apply ends_of; [apply read_u32_rest|apply read_u32_fuel]. }
    destruct (t =? tag_null)%N; [cbn; lia|]. destruct (t =? tag_true)%N; [cbn; lia|].
    destruct (t =? tag_false)%N; [cbn; lia|].
    destruct (t =? tag_num)%N.
    { eapply ends_bind; [apply ends_of; [apply decode_number_rest|apply decode_number_fuel]|].
      intros x rest L. exact L. }
    destruct (t =? tag_str)%N. { eapply ends_bind; [exact Str'|]. intros x rest L. exact L. }
    destruct (t =? tag_sym)%N. { eapply ends_bind; [exact Str'|]. intros x rest L. exact L. }
    destruct (t =? tag_zdt)%N.
    { eapply ends_bind; [exact Str'|]. intros x rest L. cbn [fst snd].
      destruct (from_rfc3339 x); [exact L|discriminate]. }
    destruct (t =? tag_typedata)%N. { eapply ends_bind; [exact Str'|]. intros x rest L. exact L. }
    destruct (t =? tag_list)%N.
    { eapply ends_bind; [exact U|]. intros c rest L. cbn [fst snd].
      eapply ends_bind; [apply IHi; lia|]. intros x rest' L'. cbn [ends snd]. lia. }
    destruct (t =? tag_block)%N.
    { eapply ends_bind; [exact U|]. intros c rest L. cbn [fst snd].
      eapply ends_bind; [apply IHp; lia|]. intros x rest' L'. cbn [ends snd]. lia. }
    destruct (t =? tag_meta)%N; [|discriminate].
    eapply ends_bind; [apply IHd; lia|]. intros m rest L. cbn [fst snd].
    eapply ends_bind; [apply IHd; lia|]. intros x rest' L'. cbn [ends snd]. lia.
  - intros c cur Hn.
    change (items (S n) c cur) with
      (if (c =? 0)%N then Ok ([], cur)
       else p <- deserialise n cur ;; q <- items n (c - 1)%N (snd p) ;; Ok (fst p :: fst q, snd q)).
    destruct (c =? 0)%N; [cbn; lia|]. destruct cur as [|t cur].
    + assert (E : exists e, deserialise n [] = Err e /\ e <> OutOfFuel).
      { destruct n as [|n]; [cbn [length] in Hn; lia|]. exists (Corrupt "short read"). split; [reflexivity|discriminate]. }
      destruct E as (e & -> & NE). exact NE.
    + cbn [length] in *. eapply ends_bind; [apply IHd; cbn [length]; lia|]. intros x rest L. cbn [fst snd length] in *.
      eapply ends_bind; [apply IHi; lia|]. intros y rest' L'. cbn [ends snd]. lia.
  - intros c cur Hn.
    change (pairs (S n) c cur) with
      (if (c =? 0)%N then Ok ([], cur)
       else k <- deserialise_key cur ;; p <- deserialise n (snd k) ;; q <- pairs n (c - 1)%N (snd p) ;;
            Ok (BlockPair (fst k) (fst p) :: fst q, snd q)).
    destruct (c =? 0)%N; [cbn; lia|]. destruct cur as [|t cur]; [cbn; discriminate|].
    eapply ends_bind; [apply ends_of; [apply key_rest|apply key_fuel]|]. intros k rest L. cbn [fst snd length] in *.
    destruct rest as [|b rest].
    + assert (E : exists e, deserialise n [] = Err e /\ e <> OutOfFuel).
      { destruct n as [|n]; [lia|]. exists (Corrupt "short read"). split; [reflexivity|discriminate]. }
      destruct E as (e & -> & NE). exact NE.
    + cbn [length] in *. eapply ends_bind; [apply IHd; cbn [length]; lia|]. intros x rest' L'. cbn [fst snd length] in *.
      eapply ends_bind; [apply IHp; lia|]. intros y rest'' L''. cbn [ends snd]. lia.
Qed.

Theorem deserialise_value_ends : forall cur,
  (exists v rest, deserialise_value cur = Ok (v, rest) /\ length rest < length cur) \/
  (exists e, deserialise_value cur = Err e /\ e <> OutOfFuel).
Proof.
  intros cur. unfold Model.deserialise_value.
  pose proof (proj1 (decode_ends (2 * length cur + 1)) cur (le_n _)) as H. unfold ends in H.
  destruct (deserialise (2 * length cur + 1) cur) as [[v rest]|e] eqn:E.
  - left. exists v, rest. split; [reflexivity|]. destruct cur as [|b cur]; [discriminate E|].
    cbn [length] in *. lia.
  - right. eauto.
Qed.

(** ** Encoding ends on all values *)

Lemma encode_scalar_fuel : forall n, encode_scalar n <> Err OutOfFuel.
Proof. intros []; discriminate. Qed.

Theorem encode_ends : forall n,
  (forall v, 3 * size v <= n -> force_and_serialise n v <> Err OutOfFuel) /\
  (forall w, 3 * size w <= S n -> serialise_forced n w <> Err OutOfFuel) /\
  (forall w, 3 * size w <= S (S n) -> list_items n w <> Err OutOfFuel) /\
  (forall w, 3 * size w <= S (S n) -> block_items n w <> Err OutOfFuel).
Proof.
  induction n as [|n (IHv & IHf & IHl & IHb)]; (split; [|split; [|split]]).
  - intros v Hn. pose proof (size_pos v). lia.
  - intros v Hn. pose proof (size_pos v). lia.
  - intros v Hn. pose proof (size_pos v). lia.
  - intros v Hn. pose proof (size_pos v). lia.
  - intros v Hn. rewrite fas_eq. destruct (force v) as [[r w]|e] eqn:E; cbn [bind fst snd].
    + destruct (force_register _ _ _ E) as [G R]. apply gives_size in G. destruct r as [m|].
      * destruct (R m eq_refl) as [_ Sz]. pose proof (size_pos w). pose proof (size_pos m).
        destruct (force_and_serialise n m) as [bm|e] eqn:Em; cbn [bind].
        -- pose proof (IHf w ltac:(lia)) as N. destruct (serialise_forced n w); cbn [bind]; [discriminate|congruence].
        -- pose proof (IHv m ltac:(lia)) as N. rewrite Em in N. congruence.
      * apply IHf. lia.
    + destruct (force_raised _ _ E) as [k ->]. discriminate.
  - intros w Hn. rewrite sf_eq.
    destruct w; cbn [size] in Hn; try discriminate; try apply encode_scalar_fuel.
    + destruct (force w) as [[r x]|e] eqn:E; cbn [bind snd].
      * destruct (value_native x); [apply encode_scalar_fuel|discriminate].
      * destruct (force_raised _ _ E) as [k ->]. discriminate.
    + destruct (force w) as [[r x]|e] eqn:E; cbn [bind snd].
      * destruct (value_native x) as [[]|]; discriminate.
      * destruct (force_raised _ _ E) as [k ->]. discriminate.
    + pose proof (IHl (ListCons w1 w2) ltac:(cbn [size]; lia)) as N.
      destruct (list_items n (ListCons w1 w2)); cbn [bind]; [discriminate|congruence].
    + destruct (force w) as [[r x]|e] eqn:E; cbn [bind snd].
      * destruct (force_register _ _ _ E) as [G _]. apply gives_size in G.
        pose proof (IHb x ltac:(lia)) as N. destruct (block_items n x); cbn [bind]; [discriminate|congruence].
      * destruct (force_raised _ _ E) as [k ->]. discriminate.
  - intros w Hn. rewrite li_eq. destruct w; cbn [size] in Hn; try discriminate.
    pose proof (size_pos w1). pose proof (size_pos w2).
    pose proof (IHv w1 ltac:(lia)) as N1. destruct (force_and_serialise n w1); cbn [bind]; [|congruence].
    destruct (force w2) as [[r t]|e] eqn:E; cbn [bind snd].
    + destruct (force_register _ _ _ E) as [G _]. apply gives_size in G.
      pose proof (IHl t ltac:(lia)) as N2. destruct (list_items n t); cbn [bind]; [discriminate|congruence].
    + destruct (force_raised _ _ E) as [k ->]. discriminate.
  - intros w Hn. rewrite bi_eq. destruct w; cbn [size] in Hn; try discriminate.
    pose proof (size_pos w1). pose proof (size_pos w2).
    destruct (force w1) as [[rp p]|e] eqn:Ep; cbn [bind snd].
    2: { destruct (force_raised _ _ Ep) as [k ->]. discriminate. }
    destruct (field_native p 0) as [k|]; [|discriminate].
    pose proof (encode_scalar_fuel k) as Nk. destruct (encode_scalar k); cbn [bind]; [|congruence].
    destruct (data_field p 1) as [y|] eqn:Ex; [|discriminate].
    assert (Sx : size y <= size w1).
    { destruct (force_register _ _ _ Ep) as [G _]. apply gives_size in G.
      destruct p; cbn in Ex; try discriminate; injection Ex as <-; cbn [size] in G; lia. }
    pose proof (IHv y ltac:(lia)) as N1. destruct (force_and_serialise n y); cbn [bind]; [|congruence].
    destruct (force w2) as [[r t]|e] eqn:E; cbn [bind snd].
    + destruct (force_register _ _ _ E) as [G _]. apply gives_size in G.
      pose proof (IHb t ltac:(lia)) as N2. destruct (block_items n t); cbn [bind]; [discriminate|congruence].
    + destruct (force_raised _ _ E) as [k' ->]. discriminate.
Qed.

Theorem serialise_ends : forall v, serialise v <> Err OutOfFuel.
Proof. intros v. apply (proj1 (encode_ends _)). lia. Qed.

(** ** What may not cross is refused *)

Theorem refused :
  (forall v w, inside v w -> unsendable w -> forall n bs, force_and_serialise n v <> Ok bs) /\
  (forall l w, member l w -> unsendable w -> forall n p, list_items n l <> Ok p) /\
  (forall l w, entry l w -> unsendable w -> forall n p, block_items n l <> Ok p).
Proof.
  set (P := fun v w => unsendable w -> forall n bs, force_and_serialise n v <> Ok bs).
  set (P0 := fun l w => unsendable w -> forall n p, list_items n l <> Ok p).
  set (P1 := fun l w => unsendable w -> forall n p, block_items n l <> Ok p).
  assert (Lift : forall v w, gives v w -> (forall n bs, serialise_forced n w <> Ok bs) ->
            forall n bs, force_and_serialise n v <> Ok bs).
  { intros v w G N [|n] bs; [discriminate|]. rewrite fas_eq. destruct (gives_force _ _ G) as [r ->].
    cbn [bind fst snd]. destruct r as [m|]; [|apply N].
    destruct (force_and_serialise n m); [|discriminate]. cbn [bind].
    pose proof (N n) as Nn. destruct (serialise_forced n w) as [b|e]; [now elim (Nn b)|discriminate]. }
  assert (A1 : forall v w, gives v w -> P v w).
  { intros v w G U. apply Lift with w; [exact G|]. intros [|n] bs; [discriminate|]. rewrite sf_eq.
    destruct w; cbn in U; try contradiction; try discriminate.
    - destruct n0; try contradiction. discriminate.
    - destruct w; try contradiction. destruct n0; try contradiction. discriminate. }
  assert (A2 : forall v l w, gives v l -> member l w -> P0 l w -> P v w).
  { intros v l w G M IH U. apply Lift with l; [exact G|]. intros [|n] bs; [discriminate|]. rewrite sf_eq.
    destruct M; pose proof (IH U n) as N;
      (destruct (list_items n (ListCons h t)) as [p|e]; [now elim (N p)|discriminate]). }
  assert (A3 : forall v kvs l w, gives v (Block kvs) -> gives kvs l -> entry l w -> P1 l w -> P v w).
  { intros v kvs l w G Gl M IH U. apply Lift with (Block kvs); [exact G|].
    intros [|n] bs; [discriminate|]. rewrite sf_eq. destruct (gives_force _ _ Gl) as [r ->]. cbn [bind snd].
    pose proof (IH U n) as N. destruct (block_items n l) as [p|e]; [now elim (N p)|discriminate]. }
  assert (A4 : forall h t w, inside h w -> P h w -> P0 (ListCons h t) w).
  { intros h t w _ IH U [|n] p; [discriminate|]. rewrite li_eq. pose proof (IH U n) as N.
    destruct (force_and_serialise n h) as [b|e]; [now elim (N b)|discriminate]. }
  assert (A5 : forall h t l w, gives t l -> member l w -> P0 l w -> P0 (ListCons h t) w).
  { intros h t l w G _ IH U [|n] p; [discriminate|]. rewrite li_eq.
    destruct (force_and_serialise n h); [|discriminate]. cbn [bind].
    destruct (gives_force _ _ G) as [r ->]. cbn [bind snd]. pose proof (IH U n) as N.
    destruct (list_items n l) as [q|e]; [now elim (N q)|discriminate]. }
  assert (A6 : forall kv t k x w, gives kv (BlockPair k x) -> inside x w -> P x w -> P1 (ListCons kv t) w).
  { intros kv t k x w G _ IH U [|n] p; [discriminate|]. rewrite bi_eq.
    destruct (gives_force _ _ G) as [r ->]. cbn [bind snd].
    destruct (field_native (BlockPair k x) 0); [|discriminate].
    destruct (encode_scalar n0); [|discriminate]. cbn [bind data_field].
    pose proof (IH U n) as N. destruct (force_and_serialise n x) as [b|e]; [now elim (N b)|discriminate]. }
  assert (A7 : forall kv t l w, gives t l -> entry l w -> P1 l w -> P1 (ListCons kv t) w).
  { intros kv t l w G _ IH U [|n] p; [discriminate|]. rewrite bi_eq.
    destruct (force kv) as [fp|]; [|discriminate]. cbn [bind].
    destruct (field_native (snd fp) 0); [|discriminate].
    destruct (encode_scalar n0); [|discriminate]. cbn [bind].
    destruct (data_field (snd fp) 1); [|discriminate].
    destruct (force_and_serialise n v); [|discriminate]. cbn [bind].
    destruct (gives_force _ _ G) as [r ->]. cbn [bind snd]. pose proof (IH U n) as N.
    destruct (block_items n l) as [q|e]; [now elim (N q)|discriminate]. }
  split; [|split].
  - apply (inside_mut P P0 P1 A1 A2 A3 A4 A5 A6 A7).
  - apply (member_mut P P0 P1 A1 A2 A3 A4 A5 A6 A7).
  - apply (entry_mut P P0 P1 A1 A2 A3 A4 A5 A6 A7).
Qed.

End Total.
