From Coq Require Import ZArith NArith List Bool Lia Floats.SpecFloat.
From Verif Require Import Numbers.Model Numbers.Spec Numbers.Floats Printf.Model Printf.Spec Printf.Proofs.
Import ListNotations.
Open Scope N_scope.

Section Props.

(** Rust's printing of doubles and the limit of its format arguments, whatever they are. *)
Variable float_text : notation -> option N -> spec_float -> text.
Variable limit : option N.

Notation fmt := (fmt float_text limit).

Lemma usable_within n : usable limit n -> within limit n = true.
Proof. intros [_ H]. unfold within. destruct limit; [now apply N.leb_le|reflexivity]. Qed.

Lemma sizes r : sizes_usable limit r -> sizes_hold r /\ within limit (min_width r) = true /\
  match option_map (value_in 10) (precise r) with Some p => within limit p | None => true end = true.
Proof.
  intros [U P]. unfold sizes_hold. pose proof (usable_within _ U). destruct U as [U _].
  destruct (precise r) as [p|]; cbn [option_map]; auto. pose proof (usable_within _ P). destruct P. auto.
Qed.

Lemma conv_letter r : well_formed r -> exists x, letter (conv r) = Some x.
Proof. intros (_ & _ & _ & _ & _ & H). now apply letter_some. Qed.

(** ** C92: reading a specifier, and formatting text *)

(** A string or symbol is cut to the precision and put in its field; nothing else changes. *)
Theorem C92_text r s : well_formed r -> sizes_usable limit r ->
  (precise r = None -> usable limit (byte_len s)) ->
  exists out, fmt (spelled r) (Text s) = Done out /\ text_field r (kept r s) out.
Proof.
  intros W U B. destruct (sizes r U) as (S & W1 & W2). destruct (conv_letter r W) as [x X].
  cbn [Model.fmt]. rewrite <- (app_nil_r (spelled r)), (parse_spelled r [] x W S X).
  cbn [argument_of aflags width precision]. unfold write_str. rewrite W1.
  destruct (precise r) as [p|] eqn:P; cbn [option_map] in *.
  - rewrite W2. cbn [andb]. eexists. split; [reflexivity|]. unfold kept. rewrite P. apply padded_text.
  - rewrite (usable_within _ (B eq_refl)). cbn [andb]. eexists. split; [reflexivity|]. unfold kept. rewrite P.
    unfold pad_str. rewrite firstn_all2; [apply padded_text|]. pose proof (byte_len_length s). lia.
Qed.

(** A text or number is refused with a format error exactly when the format does not begin with a
    specifier. *)
Theorem C92_refused s v : (exists t, v = Text t) \/ (exists x, v = Num x) ->
  (fmt s v = BadFormat <-> ~ exists r rest, well_formed r /\ s = spelled r ++ rest).
Proof.
  intros V.
  assert (E : fmt s v = BadFormat <-> parse_format s = None).
  { destruct V as [[t ->]|[x ->]]; cbn [Model.fmt]; destruct (parse_format s) as [a|]; try tauto.
    - unfold write_str. split; [|discriminate]. destruct (_ && _); discriminate.
    - split; [|discriminate]. destruct a as [f w p y]. cbn [write_numeric].
      assert (R : forall u b, write_radix limit f w p u b x <> BadFormat).
      { intros u b. unfold write_radix. destruct (as_i64 x); [destruct (_ && _)|]; discriminate. }
      assert (D : forall n, write_double float_text limit f w p n x <> BadFormat).
      { intros n. unfold write_double. destruct (_ && _); discriminate. }
      destruct y as [| | |[]| | | |]; intros K; exfalso; first [exact (R _ _ K) | exact (D _ K)]. }
  rewrite E. split.
  - intros N (r & rest & W & ->).
    (* a specifier whose numbers wrap is still read *)
    destruct W as (Hm & Hw & Hw0 & Hp & Hl & Hc). destruct (letter_some _ Hc) as [x X].
    revert N. rewrite spelled_app. cbn [parse_format]. change (37 =? PERCENT) with true. cbn iota.
    destruct (tail_head r rest Hl Hc) as (T1 & T2 & T3).
    set (mid := match precise r with None => [] | Some p => 46 :: p end ++ tail_of r rest).
    assert (M1 : ~ flag_char (hd 0 mid)).
    { unfold mid. destruct (precise r); [cbn [app hd]; unfold flag_char; cbn [In]; intuition discriminate|exact T1]. }
    assert (M2 : ~ digit_char (hd 0 mid)).
    { unfold mid. destruct (precise r); [cbn [app hd]; unfold digit_char; lia|exact T2]. }
    rewrite parse_flags_app; [|exact Hm|now apply digit_not_flag_head].
    pose proof (parse_width_rest (wide r) 0 mid Hw M2) as PW.
    destruct (parse_width 0 (wide r ++ mid)) as [n mid'] eqn:E1. cbn [snd] in PW. subst mid'.
    assert (P : snd (parse_precision mid) = tail_of r rest).
    { unfold mid. destruct (precise r) as [p|]; cbn [app].
      - cbn [parse_precision]. change (46 =? DOT) with true. cbn iota.
        pose proof (parse_width_rest p 0 (tail_of r rest) Hp T2).
        destruct (parse_width 0 (p ++ tail_of r rest)). exact H.
      - destruct (tail_of r rest) as [|c t] eqn:ET; [reflexivity|]. cbn [parse_precision hd] in *.
        destruct (N.eqb_spec c DOT); [contradiction|reflexivity]. }
    destruct (parse_precision mid) as [q t]. cbn [snd] in P. subst t.
    unfold tail_of. rewrite parse_length_app by assumption. cbn [hd]. rewrite X. discriminate.
  - intros N. destruct (parse_format s) as [a|] eqn:P; [|reflexivity].
    exfalso. apply N. exact (parse_spelling s a P).
Qed.

(** But what follows the specifier is dropped without a word: formatting 5 (as text) with
    "%s items" gives "5". *)
Theorem C92_rest_refuted : usable limit 1 ->
  exists s rest, rest <> [] /\ fmt (s ++ rest) (Text [53]) = Done [53] /\ fmt s (Text [53]) = Done [53].
Proof.
  intros U. pose proof (usable_within _ U) as W.
  assert (W0 : within limit 0 = true).
  { apply usable_within. destruct U. split; [lia|]. destruct limit; lia. }
  exists [37; 115], [32; 105; 116; 101; 109; 115].
  split; [discriminate|]. split; cbn [Model.fmt];
    match goal with |- context [parse_format ?x] => let y := eval vm_compute in (parse_format x) in change (parse_format x) with y end;
    cbn [aflags width precision]; unfold write_str; change (byte_len [53]) with 1; rewrite W, W0; reflexivity.
Qed.

(** And booleans and null take no notice of the format: they are not padded, and any format will
    do. *)
Theorem C92_constants_refuted s : fmt s (Bool true) = Done TRUE /\ fmt s (Bool false) = Done FALSE /\ fmt s Unit = Done NULL.
Proof. repeat split; reflexivity. Qed.

(** With Rust 1.87 or later, whose limit is 65535, no format can be used on a longer text: "%s"
    panics. *)
Theorem C92_long_refuted : limit = Some 65535 -> exists s, fmt [37; 115] (Text s) = Panic.
Proof.
  intros L. exists (repeat 97 (N.to_nat 65536)). cbn [Model.fmt].
  match goal with |- context [parse_format ?x] => let y := eval vm_compute in (parse_format x) in change (parse_format x) with y end.
  cbn [aflags width precision]. unfold write_str.
  assert (E : forall n, byte_len (repeat 97 n) = N.of_nat n).
  { induction n as [|n IH]; [reflexivity|]. cbn [repeat byte_len fold_right]. fold (byte_len (repeat 97 n)).
    rewrite IH. change (utf8_len 97) with 1. lia. }
  rewrite E, N2Nat.id. unfold within. rewrite L. reflexivity.
Qed.

(** ** C93: hexadecimal and octal *)

(** Base and case of the letters. *)
Definition base_of (c : N) : option (bool * N) :=
  if c =? 111 then Some (false, 8) else if c =? 120 then Some (false, 16)
  else if c =? 88 then Some (true, 16) else None.

Lemma base_specifier c u b x : base_of c = Some (u, b) -> letter c = Some x ->
  2 <= b <= 16 /\ forall f w p y, write_numeric float_text limit (mkArgument f w p x) y = write_radix limit f w p u b y.
Proof.
  unfold base_of. destruct (N.eqb_spec c 111) as [->|]; [|destruct (N.eqb_spec c 120) as [->|]; [|destruct (N.eqb_spec c 88) as [->|]]];
    intros [= <- <-] [= <-]; split; try lia; reflexivity.
Qed.

(** The numeral, in that base, of the integer's 64-bit two's complement. *)
Theorem C93_radix r x z upper base : well_formed r -> sizes_usable limit r ->
  base_of (conv r) = Some (upper, base) -> integer x z -> (z < 2 ^ 63)%Z ->
  exists sign body out, fmt (spelled r) (Num x) = Done out /\
    numeral upper base (Z.to_N (z mod 2 ^ 64)) body /\
    sign_of r False sign /\ number_field r sign body out.
Proof.
  intros W U B I L. destruct (sizes r U) as (S & W1 & W2). destruct (conv_letter r W) as [y Y].
  destruct (base_specifier _ _ _ _ B Y) as [Bb E].
  cbn [Model.fmt]. rewrite <- (app_nil_r (spelled r)), (parse_spelled r [] y W S Y).
  unfold argument_of. rewrite E. unfold write_radix.
  assert (A : as_i64 x = Some z).
  { destruct I; cbn [as_i64]; [|reflexivity].
    replace (in_i64 n) with true; [reflexivity|]. symmetry. unfold in_i64, i64_min, i64_max.
    apply andb_true_iff. split; apply Z.leb_le; lia. }
  rewrite A, W1, W2. cbn [andb].
  eexists _, _, _. split; [reflexivity|]. split; [now apply radix_numeral|]. split; [|apply padded].
  unfold flags_with. cbn [prepend_plus no_flags orb]. unfold sign_of.
  destruct (existsb (N.eqb 43) (marks r)) eqn:K.
  - apply existsb_in in K. repeat split; tauto.
  - apply existsb_out in K. repeat split; tauto.
Qed.

(** Numbers that are not integers below 2^63 are refused; for integers from 2^63 that is a loss. *)
Theorem C93_refused r x upper base : well_formed r -> sizes_usable limit r -> proper x ->
  base_of (conv r) = Some (upper, base) ->
  (fmt (spelled r) (Num x) = BadNumericType <-> ~ exists z, integer x z /\ (z < 2 ^ 63)%Z).
Proof.
  intros W U P B. split.
  - intros F (z & I & L). destruct (C93_radix r x z upper base W U B I L) as (? & ? & ? & F' & _). congruence.
  - intros N. destruct (sizes r U) as (S & W1 & W2). destruct (conv_letter r W) as [y Y].
    destruct (base_specifier _ _ _ _ B Y) as [Bb E].
    cbn [Model.fmt]. rewrite <- (app_nil_r (spelled r)), (parse_spelled r [] y W S Y).
    unfold argument_of. rewrite E. unfold write_radix.
    replace (as_i64 x) with (@None Z); [reflexivity|]. symmetry.
    destruct x as [n|n|f]; cbn [as_i64]; [| |reflexivity].
    + destruct (in_i64 n) eqn:K; [|reflexivity]. exfalso. apply N. exists n.
      unfold in_i64, i64_max in K. apply andb_true_iff in K. destruct K as [_ K]. apply Z.leb_le in K.
      destruct P as [z I]. inversion I; subst. split; [exact I|lia].
    + exfalso. apply N. exists n. destruct P as [z I]. inversion I; subst. split; [exact I|lia].
Qed.

(** The documented alternate form, 0x before the digits, is not there: "%#x" of 255 gives "ff". *)
Theorem C93_alternate_refuted : usable limit 0 ->
  fmt [37; 35; 120] (Num (PosInt 255)) = Done [102; 102] /\
  fmt [37; 35; 120] (Num (PosInt 255)) = fmt [37; 120] (Num (PosInt 255)).
Proof.
  intros U. pose proof (usable_within _ U) as W. cbn [Model.fmt].
  repeat match goal with |- context [parse_format ?x] => let y := eval vm_compute in (parse_format x) in change (parse_format x) with y end.
  cbn [write_numeric]. unfold write_radix. change (as_i64 (PosInt 255)) with (Some 255%Z). cbn iota. rewrite W.
  split; reflexivity.
Qed.

(** ** C94: decimal *)

Definition in_radix (c : N) : bool := match base_of c with Some _ => true | None => false end.
Definition exponent (c : N) : bool := (c =? 101) || (c =? 69).

Lemma plain_specifier c x : in_radix c = false -> exponent c = false -> letter c = Some x ->
  forall f w p y, write_numeric float_text limit (mkArgument f w p x) y = write_double float_text limit f w p Plain y.
Proof.
  intros R E L. pose proof (letter_in _ _ L) as I. unfold letters in I. cbn [In] in I.
  decompose [or] I; try contradiction; subst c; try discriminate; injection L as <-; reflexivity.
Qed.

Definition notation_of (c : N) : notation :=
  if c =? 101 then LowerExp else if c =? 69 then UpperExp else Plain.

Lemma double_written r x : well_formed r -> sizes_usable limit r -> in_radix (conv r) = false ->
  fmt (spelled r) (Num x) =
  write_double float_text limit (flags_with no_flags (marks r)) (min_width r)
    (option_map (value_in 10) (precise r)) (notation_of (conv r)) x.
Proof.
  intros W U B. destruct (sizes r U) as (S & _ & _). destruct (conv_letter r W) as [y Y].
  cbn [Model.fmt]. rewrite <- (app_nil_r (spelled r)), (parse_spelled r [] y W S Y). unfold argument_of, notation_of.
  destruct (N.eqb_spec (conv r) 101) as [E|N1]; [rewrite E in Y; injection Y as <-; reflexivity|].
  destruct (N.eqb_spec (conv r) 69) as [E|N2]; [rewrite E in Y; injection Y as <-; reflexivity|].
  apply (plain_specifier (conv r)); auto. unfold exponent.
  apply orb_false_iff. split; now apply N.eqb_neq.
Qed.

(** A number is Rust's text of its absolute value as a double, with its sign, in its field. *)
Theorem C94_field r x : well_formed r -> sizes_usable limit r -> in_radix (conv r) = false ->
  exists sign out, fmt (spelled r) (Num x) = Done out /\
    sign_of r (is_negative (as_f64 x) = true) sign /\
    number_field r sign
      (float_text (notation_of (conv r))
         (option_map (value_in 10) (precise r)) (SFabs (as_f64 x))) out.
Proof.
  intros W U B. destruct (sizes r U) as (S & W1 & W2).
  rewrite (double_written r x W U B). unfold write_double. rewrite W1, W2. cbn [andb].
  eexists _, _. split; [reflexivity|]. split; [|apply padded].
  unfold flags_with. cbn [prepend_plus no_flags orb]. unfold sign_of.
  destruct (is_negative (as_f64 x)).
  - repeat split; tauto.
  - destruct (existsb (N.eqb 43) (marks r)) eqn:K.
    + apply existsb_in in K. repeat split; try tauto; discriminate.
    + apply existsb_out in K. repeat split; try tauto; discriminate.
Qed.

(** So with d, i, u, f, F, g, G, s or c and no precision, an integer of at most 2^53 in size is its
    decimal numeral with its sign.  Missing: larger integers, see below. *)
Theorem C94_decimal_partial r x z : prints_whole float_text ->
  well_formed r -> sizes_usable limit r -> in_radix (conv r) = false -> exponent (conv r) = false ->
  precise r = None -> integer x z -> (- 2 ^ 53 <= z <= 2 ^ 53)%Z ->
  exists sign body out, fmt (spelled r) (Num x) = Done out /\
    numeral false 10 (Z.to_N (Z.abs z)) body /\
    sign_of r (z < 0)%Z sign /\ number_field r sign body out.
Proof.
  intros PW W U R X P I B. destruct (C94_field r x W U R) as (sign & out & F & G & N).
  unfold exponent in X. apply orb_false_iff in X. destruct X as [X1 X2]. unfold notation_of in N. rewrite X1, X2, P in N. cbn [option_map] in N.
  assert (A : as_f64 x = f_of_int z) by (destruct I; reflexivity). rewrite A in *.
  assert (D : double (f_of_int z)) by (apply f_of_int_double; lia).
  pose proof (f_of_int_exact z B) as Un. pose proof scale_pos as Sp.
  eexists _, _, _. split; [exact F|]. split; [|split; [|exact N]].
  - apply PW; [now apply double_abs| |lia].
    rewrite units_abs, Un, Z.abs_mul, (Z.abs_eq scale) by lia. rewrite Z2N.id by lia. reflexivity.
  - assert (Q : is_negative (f_of_int z) = true <-> (z < 0)%Z).
    { split.
      - intros Ng. destruct (Z.lt_trichotomy z 0) as [|[->|Gt]]; [assumption|discriminate Ng|].
        rewrite positive_units in Ng; [discriminate|exact D|]. rewrite Un. apply Z.mul_pos_pos; lia.
      - intros L. apply negative_units; [exact D|]. rewrite Un. apply Z.mul_neg_pos; lia. }
    unfold sign_of in *. rewrite <- Q. exact G.
Qed.

(** Beyond that, different integers are written alike: 2^53 and 2^53 + 1, which are exact as numbers,
    give the same text under "%d", and under every format but hexadecimal and octal. *)
Theorem C94_exact_refuted r : well_formed r -> sizes_usable limit r -> in_radix (conv r) = false ->
  integer (PosInt (2 ^ 53)) (2 ^ 53) /\ integer (PosInt (2 ^ 53 + 1)) (2 ^ 53 + 1) /\
  exists out, fmt (spelled r) (Num (PosInt (2 ^ 53))) = Done out /\
    fmt (spelled r) (Num (PosInt (2 ^ 53 + 1))) = Done out.
Proof.
  intros W U R. split; [constructor; lia|]. split; [constructor; lia|].
  destruct (C94_field r (PosInt (2 ^ 53)) W U R) as (sign & out & F & _). exists out. split; [exact F|].
  rewrite <- F, !(double_written r) by assumption. unfold write_double.
  assert (A : as_f64 (PosInt (2 ^ 53 + 1)) = as_f64 (PosInt (2 ^ 53))) by (vm_compute; reflexivity).
  rewrite A. reflexivity.
Qed.

(** All those letters mean the same for a number: "%d" of 1.5 is not an integer, "%g" never
    chooses scientific notation, "%u" of a negative number keeps its sign. *)
Theorem C94_letters_refuted r c x : well_formed r -> sizes_usable limit r ->
  In c [100; 105; 117; 102; 70; 103; 71; 97; 65; 115; 99] ->
  fmt (spelled (mkRequest (marks r) (wide r) (precise r) (long r) c)) (Num x) =
  fmt (spelled (mkRequest (marks r) (wide r) (precise r) (long r) 102)) (Num x).
Proof.
  intros W U C.
  assert (K : forall c', In c' [100; 105; 117; 102; 70; 103; 71; 97; 65; 115; 99] ->
    fmt (spelled (mkRequest (marks r) (wide r) (precise r) (long r) c')) (Num x) =
    write_double float_text limit (flags_with no_flags (marks r)) (min_width r)
      (option_map (value_in 10) (precise r)) Plain x).
  { intros c' C'. set (q := mkRequest (marks r) (wide r) (precise r) (long r) c').
    assert (Wq : well_formed q).
    { destruct W as (A1 & A2 & A3 & A4 & A5 & _). unfold q. repeat split; auto. cbn [conv].
      cbn [In] in C' |- *. intuition. }
    assert (Uq : sizes_usable limit q) by exact U.
    destruct (sizes q Uq) as (S & _ & _). destruct (conv_letter q Wq) as [y Y].
    cbn [Model.fmt]. rewrite <- (app_nil_r (spelled q)), (parse_spelled q [] y Wq S Y). unfold argument_of.
    apply (plain_specifier (conv q)); auto; unfold q; cbn [conv]; cbn [In] in C';
      decompose [or] C'; try contradiction; subst c'; reflexivity. }
  rewrite !K by (exact C || (cbn; auto 10)). reflexivity.
Qed.

End Props.

(** ** The hypotheses are met *)

(** "%-6.2s" of "abc" is "ab    ". *)
Example C92_example :
  let r := mkRequest [45] [54] (Some [50]) [] 115 in
  well_formed r /\ sizes_usable (Some 65535) r /\ spelled r = [37; 45; 54; 46; 50; 115] /\
  kept r [97; 98; 99] = [97; 98] /\
  fmt (fun _ _ _ => []) (Some 65535) (spelled r) (Text [97; 98; 99]) = Done [97; 98; 32; 32; 32; 32].
Proof.
  cbn zeta. split; [|split; [|split; [|split]]]; try reflexivity.
  - unfold well_formed, decimal_digits. cbn [marks wide precise long conv hd In].
    repeat split; auto 20; try discriminate; repeat constructor; try lia.
  - unfold sizes_usable, usable, min_width. cbn. lia.
Qed.

(** "%+06x" of 255 is "+000ff", and of -1 "+ffffffffffffffff". *)
Example C93_example :
  let r := mkRequest [43; 48] [54] None [] 120 in
  well_formed r /\ sizes_usable None r /\ base_of (conv r) = Some (false, 16) /\
  fmt (fun _ _ _ => []) None (spelled r) (Num (PosInt 255)) = Done [43; 48; 48; 48; 102; 102] /\
  fmt (fun _ _ _ => []) None (spelled r) (Num (NegInt (-1))) = Done (43 :: repeat 102 16).
Proof.
  cbn zeta. split; [|split; [|split; [|split]]]; try (vm_compute; reflexivity).
  - unfold well_formed, decimal_digits. cbn [marks wide precise long conv hd In].
    repeat split; auto 20; try discriminate; repeat constructor; try lia.
  - unfold sizes_usable, usable, min_width. cbn. repeat split; lia.
Qed.

(** A printer of doubles that prints whole numbers in full exists. *)
Definition whole_printer (_ : notation) (_ : option N) (f : spec_float) : text :=
  radix_text false 10 (Z.abs (units f) / scale).

Lemma whole_printer_prints : prints_whole whole_printer.
Proof.
  intros f n _ U B. unfold whole_printer. rewrite U.
  pose proof scale_pos as Sp. rewrite Z.abs_eq by lia. rewrite Z.div_mul by lia.
  pose proof (radix_numeral false 10 (Z.of_N n) ltac:(lia)) as R.
  rewrite Z.mod_small in R by lia. rewrite N2Z.id in R. exact R.
Qed.

(** "%06d" of -42 is "-00042". *)
Example C94_example :
  let r := mkRequest [48] [54] None [] 100 in
  prints_whole whole_printer /\ well_formed r /\ sizes_usable None r /\ in_radix (conv r) = false /\
  integer (NegInt (-42)) (-42) /\
  fmt whole_printer None (spelled r) (Num (NegInt (-42))) = Done [45; 48; 48; 48; 52; 50].
Proof.
  cbn zeta. split; [exact whole_printer_prints|]. split; [|split; [|split; [|split]]]; try (vm_compute; reflexivity).
  - unfold well_formed, decimal_digits. cbn [marks wide precise long conv hd In].
    repeat split; auto 20; try discriminate; repeat constructor; try lia.
  - unfold sizes_usable, usable, min_width. cbn. repeat split; lia.
  - constructor. lia.
Qed.

Print Assumptions C92_text.
Print Assumptions C92_refused.
Print Assumptions C92_rest_refuted.
Print Assumptions C92_constants_refuted.
Print Assumptions C92_long_refuted.
Print Assumptions C93_radix.
Print Assumptions C93_refused.
Print Assumptions C93_alternate_refuted.
Print Assumptions C94_field.
Print Assumptions C94_decimal_partial.
Print Assumptions C94_exact_refuted.
Print Assumptions C94_letters_refuted.
