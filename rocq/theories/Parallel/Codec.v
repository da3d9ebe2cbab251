(** * The codec: bytes written are the bytes read *)

From Coq Require Import String List NArith ZArith Bool Arith Lia.
From Verif Require Import Parallel.Model Parallel.Spec.
Import ListNotations.
Open Scope nat_scope.

(** ** Integers *)

Lemma le_bytes_length : forall k n, length (le_bytes k n) = k.
Proof. induction k as [|k IH]; intros n; [reflexivity|]. cbn [le_bytes length]. now rewrite IH. Qed.

Lemma from_le_bytes : forall k n, (n < 256 ^ N.of_nat k)%N -> from_le (le_bytes k n) = n.
Proof.
  induction k as [|k IH]; intros n H.
  - change (256 ^ N.of_nat 0)%N with 1%N in H. cbn. lia.
  - cbn [le_bytes from_le]. rewrite IH.
    + pose proof (N.div_mod' n 256). lia.
    + rewrite Nat2N.inj_succ, N.pow_succ_r' in H.
      apply N.div_lt_upper_bound; [lia|exact H].
Qed.

Lemma take_app : forall a b n, n = N.of_nat (length a) -> take (a ++ b) n = Ok (a, b).
Proof.
  intros a b n ->. unfold take. rewrite app_length.
  destruct (N.of_nat (length a + length b) <? N.of_nat (length a))%N eqn:E.
  - apply N.ltb_lt in E. lia.
  - rewrite Nat2N.id, firstn_app, firstn_all, skipn_app, skipn_all, Nat.sub_diag.
    cbn [firstn skipn]. now rewrite app_nil_r.
Qed.

Lemma read_u32_le : forall n rest, (n < 2 ^ 32)%N -> read_u32 (le_bytes 4 n ++ rest) = Ok (n, rest).
Proof.
  intros n rest H. unfold read_u32. rewrite take_app by now rewrite le_bytes_length.
  cbn [bind fst snd]. now rewrite from_le_bytes.
Qed.

Lemma read_u64_le : forall n rest, (n < 2 ^ 64)%N -> read_u64 (le_bytes 8 n ++ rest) = Ok (n, rest).
Proof.
  intros n rest H. unfold read_u64. rewrite take_app by now rewrite le_bytes_length.
  cbn [bind fst snd]. now rewrite from_le_bytes.
Qed.

Lemma read_len_bytes_write : forall s rest, short s ->
  read_len_bytes (write_len_bytes s ++ rest) = Ok (s, rest).
Proof.
  intros s rest H. unfold read_len_bytes, write_len_bytes. rewrite <- app_assoc, read_u32_le by exact H.
  cbn [bind fst snd]. now apply take_app.
Qed.

Lemma i64_round : forall i, (- 2 ^ 63 <= i < 0)%Z ->
  (i64_bits i < 2 ^ 64)%N /\ number_of_i64 (bits_i64 (i64_bits i)) = NegInt i.
Proof.
  intros i H. unfold i64_bits, bits_i64, two64.
  assert (M : (i mod 2 ^ 64 = i + 2 ^ 64)%Z).
  { symmetry. apply (Z.mod_unique_pos _ _ (-1)); lia. }
  rewrite M. rewrite Z2N.id by lia. split; [lia|].
  destruct (i + 2 ^ 64 <? 2 ^ 63)%Z eqn:E; [apply Z.ltb_lt in E; lia|].
  replace (i + 2 ^ 64 - 2 ^ 64)%Z with i by lia. unfold number_of_i64.
  destruct (i <? 0)%Z eqn:F; [reflexivity|]. apply Z.ltb_ge in F. lia.
Qed.

Section Codec.

Variable utf8 : list byte -> bool.
Variable to_rfc3339 : N -> list byte.
Variable from_rfc3339 : list byte -> option N.

Notation storable := (storable utf8 to_rfc3339 from_rfc3339).
Notation read_str := (read_str utf8).
Notation encode_scalar := (encode_scalar to_rfc3339).
Notation deserialise := (deserialise utf8 from_rfc3339).
Notation items := (items utf8 from_rfc3339).
Notation pairs := (pairs utf8 from_rfc3339).
Notation deserialise_key := (deserialise_key utf8).
Notation force_and_serialise := (force_and_serialise to_rfc3339).
Notation serialise_forced := (serialise_forced to_rfc3339).
Notation list_items := (list_items to_rfc3339).
Notation block_items := (block_items to_rfc3339).

Lemma read_str_write : forall s rest, short s -> utf8 s = true ->
  read_str (write_len_bytes s ++ rest) = Ok (s, rest).
Proof.
  intros s rest H U. unfold Model.read_str. rewrite read_len_bytes_write by exact H.
  cbn [bind fst]. now rewrite U.
Qed.

Lemma is_number_finite b : is_number b -> finite b = true.
Proof.
  unfold is_number, finite. rewrite negb_true_iff, N.eqb_neq.
  rewrite N.shiftr_div_pow2. change 2047%N with (N.ones 11). rewrite N.land_ones. exact (fun h => h).
Qed.

Lemma decode_encode_number : forall n rest, storable (Num n) ->
  exists tl, encode_number n = tag_num :: tl /\ decode_number (tl ++ rest) = Ok (n, rest).
Proof.
  intros [u|i|bits] rest H; cbn [Spec.storable] in H; unfold encode_number;
    (eexists; split; [reflexivity|]); unfold decode_number; cbn [app read_u8 bind fst snd].
  - change (num_u64 =? num_u64)%N with true. cbn iota.
    now rewrite read_u64_le by exact H.
  - change (num_i64 =? num_u64)%N with false. change (num_i64 =? num_i64)%N with true. cbn iota.
    destruct (i64_round i H) as [H1 H2]. rewrite read_u64_le by exact H1.
    cbn [bind fst snd]. now rewrite H2.
  - change (num_f64 =? num_u64)%N with false. change (num_f64 =? num_i64)%N with false.
    change (num_f64 =? num_f64)%N with true. cbn iota.
    destruct H as [H F]. rewrite read_u64_le by exact H. cbn [bind fst snd]. now rewrite (is_number_finite _ F).
Qed.

(** ** Data as bytes, and the value the bytes become *)

Definition enc_native (n : native) : list byte :=
  match encode_scalar n with Ok b => b | Err _ => [] end.

Fixpoint enc (d : data) : list byte :=
  match d with
  | DNull => [tag_null]
  | DBool b => [if b then tag_true else tag_false]
  | DScalar n => enc_native n
  | DType s => tag_typedata :: write_len_bytes s
  | DList ds => tag_list :: le_bytes 4 (N.of_nat (length ds)) ++ flat_map enc ds
  | DBlock es =>
      tag_block :: le_bytes 4 (N.of_nat (length es))
        ++ flat_map (fun e => enc_native (fst e) ++ enc (snd e)) es
  | DWith m b => tag_meta :: enc m ++ enc b
  end.

Definition rebuild_scalar (n : native) : value :=
  match n with
  | Num _ => Boxed BoxNumber (Native n)
  | Str _ => Boxed BoxString (Native n)
  | Sym _ => Boxed BoxSymbol (Native n)
  | Zdt _ => Boxed BoxZdt (Native n)
  | Opaque => Unit
  end.

Fixpoint rebuild (d : data) : value :=
  match d with
  | DNull => Unit
  | DBool b => if b then BoolTrue else BoolFalse
  | DScalar n => rebuild_scalar n
  | DType s => TypeData (Native (Str s))
  | DList ds => build_list (map rebuild ds)
  | DBlock es => Block (build_list (map (fun e => BlockPair (Native (fst e)) (rebuild (snd e))) es))
  | DWith m b => Annotated (rebuild m) (rebuild b)
  end.

Definition keyb (n : native) : bool := match n with Sym _ | Str _ => true | _ => false end.

Fixpoint keys_ok (d : data) : bool :=
  match d with
  | DList ds => forallb keys_ok ds
  | DBlock es => forallb (fun e => keyb (fst e) && keys_ok (snd e)) es
  | DWith m b => keys_ok m && keys_ok b
  | _ => true
  end.

Inductive okd : data -> Prop :=
| okd_null : okd DNull
| okd_bool : forall b, okd (DBool b)
| okd_scalar : forall n, storable n -> n <> Opaque -> okd (DScalar n)
| okd_type : forall s, short s -> utf8 s = true -> okd (DType s)
| okd_list : forall ds, (N.of_nat (length ds) < 2 ^ 32)%N -> Forall okd ds -> okd (DList ds)
| okd_block : forall es, (N.of_nat (length es) < 2 ^ 32)%N ->
    Forall (fun e => storable (fst e) /\ fst e <> Opaque) es ->
    Forall (fun e => okd (snd e)) es -> okd (DBlock es)
| okd_with : forall m b, okd m -> okd b -> okd (DWith m b).

(** Induction over data. *)
Lemma data_ind' : forall P : data -> Prop,
  P DNull -> (forall b, P (DBool b)) -> (forall n, P (DScalar n)) -> (forall s, P (DType s)) ->
  (forall ds, Forall P ds -> P (DList ds)) ->
  (forall es, Forall (fun e => P (snd e)) es -> P (DBlock es)) ->
  (forall m b, P m -> P b -> P (DWith m b)) ->
  forall d, P d.
Proof.
  intros P H1 H2 H3 H4 H5 H6 H7. fix IH 1. intros [|b|n|s|ds|es|m b].
  - exact H1.
  - apply H2.
  - apply H3.
  - apply H4.
  - apply H5. induction ds as [|d ds IHds]; constructor; [apply IH|exact IHds].
  - apply H6. induction es as [|e es IHes]; constructor; [apply IH|exact IHes].
  - apply H7; apply IH.
Qed.

(** ** Decoding encoded data *)

Lemma de_list : forall n cur, deserialise (S n) (tag_list :: cur) =
  (c <- read_u32 cur ;; p <- items n (fst c) (snd c) ;; Ok (build_list (fst p), snd p)).
Proof. reflexivity. Qed.

Lemma de_block : forall n cur, deserialise (S n) (tag_block :: cur) =
  (c <- read_u32 cur ;; p <- pairs n (fst c) (snd c) ;; Ok (Block (build_list (fst p)), snd p)).
Proof. reflexivity. Qed.

Lemma de_meta : forall n cur, deserialise (S n) (tag_meta :: cur) =
  (m <- deserialise n cur ;; b <- deserialise n (snd m) ;; Ok (Annotated (fst m) (fst b), snd b)).
Proof. reflexivity. Qed.

Lemma de_num : forall n cur, deserialise (S n) (tag_num :: cur) =
  (p <- decode_number cur ;; Ok (Boxed BoxNumber (Native (Num (fst p))), snd p)).
Proof. reflexivity. Qed.

Lemma de_str : forall n cur, deserialise (S n) (tag_str :: cur) =
  (p <- read_str cur ;; Ok (Boxed BoxString (Native (Str (fst p))), snd p)).
Proof. reflexivity. Qed.

Lemma de_sym : forall n cur, deserialise (S n) (tag_sym :: cur) =
  (p <- read_str cur ;; Ok (Boxed BoxSymbol (Native (Sym (fst p))), snd p)).
Proof. reflexivity. Qed.

Lemma de_zdt : forall n cur, deserialise (S n) (tag_zdt :: cur) =
  (p <- read_str cur ;;
   match from_rfc3339 (fst p) with
   | Some d => Ok (Boxed BoxZdt (Native (Zdt d)), snd p)
   | None => Err (Corrupt "bad rfc3339")
   end).
Proof. reflexivity. Qed.

Lemma de_type : forall n cur, deserialise (S n) (tag_typedata :: cur) =
  (p <- read_str cur ;; Ok (TypeData (Native (Str (fst p))), snd p)).
Proof. reflexivity. Qed.

Lemma de_scalar : forall k n rest, storable k -> k <> Opaque ->
  deserialise (S n) (enc_native k ++ rest) = Ok (rebuild_scalar k, rest).
Proof.
  intros k n rest H NO. unfold enc_native, Model.encode_scalar. destruct k as [x|s|s|d|]; cbn [rebuild_scalar].
  - destruct (decode_encode_number x rest H) as (tl & -> & D). cbn [app].
    rewrite de_num, D. reflexivity.
  - destruct H as [H U]. cbn [app]. rewrite de_str, read_str_write by assumption. reflexivity.
  - destruct H as [H U]. cbn [app]. rewrite de_sym, read_str_write by assumption. reflexivity.
  - destruct H as (H & U & R). cbn [app]. rewrite de_zdt, read_str_write by assumption.
    cbn [bind fst snd]. now rewrite R.
  - now elim NO.
Qed.

Definition bad_key {A} : result A := Err (Corrupt "bad block key tag").

Lemma de_key : forall k rest, storable k -> k <> Opaque ->
  deserialise_key (enc_native k ++ rest) =
  if keyb k then Ok (Native k, rest) else bad_key.
Proof.
  intros k rest H NO. unfold enc_native, Model.encode_scalar, Model.deserialise_key.
  destruct k as [x|s|s|d|]; cbn [keyb].
  - unfold encode_number. destruct x; reflexivity.
  - destruct H as [H U]. cbn [app read_u8 bind fst snd].
    change (tag_str =? tag_sym)%N with false. change (tag_str =? tag_str)%N with true. cbn iota.
    now rewrite read_str_write.
  - destruct H as [H U]. cbn [app read_u8 bind fst snd].
    change (tag_sym =? tag_sym)%N with true. cbn iota.
    now rewrite read_str_write.
  - reflexivity.
  - now elim NO.
Qed.

Lemma enc_native_nonempty : forall k, k <> Opaque -> 1 <= length (enc_native k).
Proof.
  intros k NO. unfold enc_native. destruct k; cbn [Model.encode_scalar]; try (cbn [length]; lia).
  - unfold encode_number. cbn [length]. lia.
  - now elim NO.
Qed.

Lemma enc_nonempty : forall d, okd d -> 1 <= length (enc d).
Proof.
  intros d H. destruct H; cbn [enc length]; try lia. now apply enc_native_nonempty.
Qed.

Definition decoded (d : data) (rest : list byte) : result (value * list byte) :=
  if keys_ok d then Ok (rebuild d, rest) else bad_key.

Lemma of_nat_succ_eqb : forall n, (N.of_nat (S n) =? 0)%N = false.
Proof. intros n. apply N.eqb_neq. lia. Qed.

Lemma of_nat_succ_pred : forall n, (N.of_nat (S n) - 1)%N = N.of_nat n.
Proof. intros n. lia. Qed.

Lemma items_enc : forall ds,
  Forall (fun d => okd d -> forall n rest, 2 * length (enc d) + 1 <= n ->
                   deserialise n (enc d ++ rest) = decoded d rest) ds ->
  Forall okd ds -> forall n rest, 2 * length (flat_map enc ds) + 2 <= n ->
  items n (N.of_nat (length ds)) (flat_map enc ds ++ rest) =
  if forallb keys_ok ds then Ok (map rebuild ds, rest) else bad_key.
Proof.
  induction ds as [|d ds IH]; intros F O n rest Hn.
  - destruct n as [|n]; [lia|]. reflexivity.
  - inversion F as [|? ? F1 F2]; subst. inversion O as [|? ? O1 O2]; subst.
    cbn [flat_map] in Hn |- *. rewrite app_length in Hn. pose proof (enc_nonempty d O1) as NE.
    destruct n as [|n]; [lia|]. cbn [Model.items length].
    rewrite of_nat_succ_eqb, of_nat_succ_pred, <- app_assoc, F1 by (assumption || lia).
    unfold decoded. cbn [forallb map]. destruct (keys_ok d); [|reflexivity].
    cbn [bind fst snd andb]. rewrite IH by (assumption || lia).
    destruct (forallb keys_ok ds); reflexivity.
Qed.

Lemma pairs_enc : forall es,
  Forall (fun e => okd (snd e) -> forall n rest, 2 * length (enc (snd e)) + 1 <= n ->
                   deserialise n (enc (snd e) ++ rest) = decoded (snd e) rest) es ->
  Forall (fun e => storable (fst e) /\ fst e <> Opaque) es -> Forall (fun e => okd (snd e)) es ->
  forall n rest, 2 * length (flat_map (fun e => enc_native (fst e) ++ enc (snd e)) es) + 2 <= n ->
  pairs n (N.of_nat (length es)) (flat_map (fun e => enc_native (fst e) ++ enc (snd e)) es ++ rest) =
  if forallb (fun e => keyb (fst e) && keys_ok (snd e)) es
  then Ok (map (fun e => BlockPair (Native (fst e)) (rebuild (snd e))) es, rest) else bad_key.
Proof.
  induction es as [|e es IH]; intros F K O n rest Hn.
  - destruct n as [|n]; [lia|]. reflexivity.
  - inversion F as [|? ? F1 F2]; subst. inversion O as [|? ? O1 O2]; subst.
    inversion K as [|? ? [K1 K1'] K2]; subst.
    cbn [flat_map] in Hn |- *. rewrite !app_length in Hn. pose proof (enc_nonempty _ O1) as NE.
    destruct n as [|n]; [lia|]. cbn [Model.pairs length].
    rewrite of_nat_succ_eqb, of_nat_succ_pred, <- !app_assoc, de_key by assumption.
    cbn [forallb map]. destruct (keyb (fst e)); [|reflexivity].
    cbn [bind fst snd andb]. rewrite F1 by (assumption || lia). unfold decoded.
    destruct (keys_ok (snd e)); [|reflexivity].
    cbn [bind fst snd andb]. rewrite IH by (assumption || lia).
    destruct (forallb _ es); reflexivity.
Qed.

Theorem decode_enc : forall d, okd d -> forall n rest, 2 * length (enc d) + 1 <= n ->
  deserialise n (enc d ++ rest) = decoded d rest.
Proof.
  induction d as [|b|k|s|ds IH|es IH|m b IHm IHb] using data_ind'; intros O n rest Hn;
    (destruct n as [|n]; [lia|]); unfold decoded.
  - reflexivity.
  - destruct b; reflexivity.
  - inversion O; subst. cbn [enc keys_ok rebuild]. now apply de_scalar.
  - inversion O; subst. cbn [enc app]. rewrite de_type, read_str_write by assumption. reflexivity.
  - inversion O; subst. cbn [enc] in Hn |- *. cbn [length app] in Hn |- *.
    rewrite app_length, le_bytes_length in Hn.
    rewrite <- app_assoc, de_list, read_u32_le by assumption. cbn [bind fst snd].
    rewrite items_enc by (assumption || lia). cbn [keys_ok rebuild].
    destruct (forallb keys_ok ds); reflexivity.
  - inversion O; subst. cbn [enc] in Hn |- *. cbn [length app] in Hn |- *.
    rewrite app_length, le_bytes_length in Hn.
    rewrite <- app_assoc, de_block, read_u32_le by assumption. cbn [bind fst snd].
    rewrite pairs_enc by (assumption || lia). cbn [keys_ok rebuild].
    destruct (forallb _ es); reflexivity.
  - inversion O; subst. cbn [enc] in Hn |- *. cbn [length app] in Hn |- *. rewrite app_length in Hn.
    rewrite <- app_assoc, de_meta, IHm by (assumption || lia). unfold decoded. cbn [keys_ok rebuild].
    destruct (keys_ok m); [|reflexivity]. cbn [bind fst snd andb].
    rewrite IHb by (assumption || lia). unfold decoded. destruct (keys_ok b); reflexivity.
Qed.

(** ** What the rebuilt value means *)

Lemma gives_build_list : forall l, gives (build_list l) (build_list l).
Proof. intros [|x l]; constructor. Qed.

Lemma rebuild_sends_elements : forall ds,
  Forall (fun d => sends (rebuild d) d) ds -> sends_elements (build_list (map rebuild ds)) ds.
Proof.
  induction ds as [|d ds IH]; intros F.
  - constructor. constructor.
  - inversion F; subst. eapply sends_elements_cons; [constructor|assumption|auto].
Qed.

(** No metadata directly on data that has metadata. *)
Fixpoint one_layer (d : data) : bool :=
  match d with
  | DList ds => forallb one_layer ds
  | DBlock es => forallb (fun e => one_layer (snd e)) es
  | DWith m b => one_layer m && one_layer b && (match b with DWith _ _ => false | _ => true end)
  | _ => true
  end.

Lemma ready_rebuild : forall d, (match d with DWith _ _ => false | _ => true end) = true -> ready (rebuild d).
Proof.
  unfold ready. intros [|[]|[]|s|[|d ds]|es|m b] H; cbn; try discriminate; constructor.
Qed.

Theorem rebuild_sends : forall d, okd d -> keys_ok d = true -> one_layer d = true -> sends (rebuild d) d.
Proof.
  induction d as [|b|k|s|ds IH|es IH|m b IHm IHb] using data_ind'; intros O K L.
  - constructor.
  - destruct b; constructor.
  - inversion O; subst. cbn [rebuild]. destruct k; cbn [rebuild_scalar];
      try (apply sends_boxed; [constructor|assumption]). now elim H1.
  - inversion O; subst. constructor. constructor.
  - inversion O as [| | | |? ? O'| |]; subst. cbn [keys_ok one_layer] in K, L.
    rewrite forallb_forall in K, L. rewrite Forall_forall in IH, O'.
    assert (F : Forall (fun d => sends (rebuild d) d) ds).
    { apply Forall_forall. intros d I. apply IH; auto. }
    cbn [rebuild]. destruct ds as [|d ds]; [constructor|]. inversion F; subst.
    cbn [map]. apply sends_cons; [assumption|]. now apply rebuild_sends_elements.
  - inversion O as [| | | | |? Hl O1 O2|]; subst. cbn [keys_ok one_layer] in K, L.
    cbn [rebuild]. constructor. clear O Hl.
    induction es as [|e es IHes]; [constructor; constructor|].
    inversion IH; subst. inversion O1 as [|? ? [S1 S2]]; subst. inversion O2; subst.
    cbn [forallb] in K, L. apply andb_prop in K. destruct K as [K1 K2].
    apply andb_prop in K1. destruct K1 as [K0 K1]. apply andb_prop in L. destruct L as [L1 L2].
    destruct e as [k d]. cbn [fst snd] in *. cbn [map]. eapply sends_entries_pair.
    + constructor.
    + constructor.
    + destruct k; cbn in *; try discriminate; exact Logic.I.
    + auto.
    + apply IHes; assumption.
  - inversion O; subst. cbn [keys_ok one_layer] in K, L.
    apply andb_prop in K. destruct K as [K1 K2]. apply andb_prop in L. destruct L as [L1 L3].
    apply andb_prop in L1. destruct L1 as [L1 L2].
    cbn [rebuild]. constructor; auto. now apply ready_rebuild.
Qed.

End Codec.
