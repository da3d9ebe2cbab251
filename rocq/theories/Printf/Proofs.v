From Coq Require Import ZArith NArith List Bool Lia Floats.SpecFloat.
From Verif Require Import Numbers.Model Numbers.Spec Numbers.Floats Printf.Model Printf.Spec.
Import ListNotations.
Open Scope N_scope.

(** ** Flags *)

Definition flags_with (f : flags) (m : text) : flags :=
  let has c := existsb (N.eqb c) m in
  mkFlags (left_align f || has 45) (prepend_plus f || has 43) (prepend_zero f || has 48)
    (prepend_space f || has 32) (grouping f || has 39) (alternate f || has 35).

Definition flag_char (c : N) : Prop := In c [45; 43; 32; 48; 39; 35].

Lemma flags_with_nil f : flags_with f [] = f.
Proof. destruct f. unfold flags_with. cbn. now rewrite !orb_false_r. Qed.

Lemma parse_flags_app m : forall f rest, Forall flag_char m -> ~ flag_char (hd 0 rest) ->
  parse_flags f (m ++ rest) = (flags_with f m, rest).
Proof.
  induction m as [|c m IH]; intros f rest Hm Hr.
  - rewrite flags_with_nil. cbn [app]. destruct rest as [|c r]; [reflexivity|]. cbn [hd] in Hr.
    cbn [parse_flags]. unfold flag_char in Hr. cbn [In] in Hr.
    destruct (N.eqb_spec c MINUS); [subst; exfalso; apply Hr; auto 10|].
    destruct (N.eqb_spec c PLUS); [subst; exfalso; apply Hr; auto 10|].
    destruct (N.eqb_spec c SPACE); [subst; exfalso; apply Hr; auto 10|].
    destruct (N.eqb_spec c ZERO); [subst; exfalso; apply Hr; auto 10|].
    destruct (N.eqb_spec c QUOTE); [subst; exfalso; apply Hr; auto 10|].
    destruct (N.eqb_spec c HASH); [subst; exfalso; apply Hr; auto 10|]. reflexivity.
  - inversion Hm as [|? ? Hc Hm']; subst. cbn [app parse_flags].
    unfold flag_char in Hc. cbn [In] in Hc.
    decompose [or] Hc; try contradiction; subst c;
      match goal with |- context [?a =? MINUS] => cbn [N.eqb Pos.eqb MINUS PLUS SPACE ZERO QUOTE HASH] end;
      rewrite (IH _ _ Hm' Hr); unfold flags_with; destruct f; cbn;
      rewrite ?orb_true_r, ?orb_false_r; reflexivity.
Qed.

Lemma parse_flags_splits s :
  exists m rest, s = m ++ rest /\ Forall flag_char m /\ ~ flag_char (hd 0 rest).
Proof.
  induction s as [|c s IH].
  - exists [], []. repeat split; auto. cbn. unfold flag_char. cbn [In]. intuition discriminate.
  - destruct (in_dec N.eq_dec c [45; 43; 32; 48; 39; 35]) as [I|I].
    + destruct IH as (m & rest & -> & Hm & Hr). exists (c :: m), rest. auto.
    + exists [], (c :: s). auto.
Qed.

(** ** Decimal numbers *)

Lemma value_app base a : forall b,
  value_in base (a ++ b) = value_in base a * base ^ N.of_nat (length b) + value_in base b.
Proof.
  induction a as [|c a IH]; intros b; [reflexivity|].
  cbn [app value_in]. rewrite IH, app_length, Nat2N.inj_add, N.pow_add_r. ring.
Qed.

Lemma land_digit c : 48 <= c <= 57 -> N.land c 15 = c - 48.
Proof.
  intros H. assert (E : exists d, c = 48 + d /\ d < 10) by (exists (c - 48); lia).
  destruct E as (d & -> & Hd).
  assert (D : In d [0; 1; 2; 3; 4; 5; 6; 7; 8; 9]) by (cbn; lia).
  cbn [In] in D. decompose [or] D; try contradiction; subst d; reflexivity.
Qed.

Lemma digit_of_decimal c : 48 <= c <= 57 -> digit_of c = c - 48.
Proof. intros H. unfold digit_of. destruct (N.leb_spec c 57); lia. Qed.

Definition digit_char (c : N) : Prop := 48 <= c <= 57.

Lemma digit_charb c : (ZERO <=? c) && (c <=? NINE) = true <-> digit_char c.
Proof. unfold digit_char, ZERO, NINE. rewrite andb_true_iff, !N.leb_le. tauto. Qed.

Lemma parse_width_app ds : forall w rest, decimal_digits ds -> ~ digit_char (hd 0 rest) ->
  w * 10 ^ N.of_nat (length ds) + value_in 10 ds < 2 ^ 64 ->
  parse_width w (ds ++ rest) = (w * 10 ^ N.of_nat (length ds) + value_in 10 ds, rest).
Proof.
  induction ds as [|c ds IH]; intros w rest Hd Hr B.
  - cbn [app length value_in N.of_nat]. replace (w * 10 ^ 0 + 0) with w by (cbn; lia).
    destruct rest as [|c r]; [reflexivity|]. cbn [parse_width].
    destruct (_ && _) eqn:E; [|reflexivity]. apply digit_charb in E. contradiction.
  - inversion Hd as [|? ? Hc Hd']; subst. cbn [app parse_width].
    pose proof Hc as Hc'. apply digit_charb in Hc'. rewrite Hc'.
    cbn [length value_in] in B |- *. rewrite Nat2N.inj_succ, N.pow_succ_r' in B |- *.
    rewrite digit_of_decimal in B |- * by exact Hc. rewrite land_digit by exact Hc.
    set (P := 10 ^ N.of_nat (length ds)) in *.
    assert (P1 : 1 <= P) by (apply N.lt_pred_le, N.neq_0_lt_0, N.pow_nonzero; discriminate).
    assert (X : w * (10 * P) + ((c - 48) * P + value_in 10 ds) = (w * 10 + (c - 48)) * P + value_in 10 ds) by ring.
    rewrite X in B |- *.
    assert (w * 10 + (c - 48) < 2 ^ 64) by nia.
    rewrite N.mod_small by assumption.
    rewrite IH by assumption. reflexivity.
Qed.

Lemma digits_split s : exists ds rest, s = ds ++ rest /\ decimal_digits ds /\ ~ digit_char (hd 0 rest).
Proof.
  induction s as [|c s IH].
  - exists [], []. repeat split; [constructor|]. unfold digit_char. cbn. lia.
  - destruct ((ZERO <=? c) && (c <=? NINE)) eqn:E.
    + apply digit_charb in E. destruct IH as (ds & rest & -> & H & Hr).
      exists (c :: ds), rest. repeat split; auto. now constructor.
    + exists [], (c :: s). repeat split; [constructor|]. cbn [hd]. intros H. apply digit_charb in H. congruence.
Qed.

Lemma parse_width_rest ds : forall w rest, decimal_digits ds -> ~ digit_char (hd 0 rest) ->
  snd (parse_width w (ds ++ rest)) = rest.
Proof.
  induction ds as [|c ds IH]; intros w rest Hd Hr.
  - destruct rest as [|c r]; [reflexivity|]. cbn [app parse_width].
    destruct (_ && _) eqn:E; [|reflexivity]. apply digit_charb in E. contradiction.
  - inversion Hd as [|? ? Hc Hd']; subst. cbn [app parse_width].
    apply digit_charb in Hc. rewrite Hc. now apply IH.
Qed.

(** ** The rest of the specifier *)

Definition letters : list N := [100; 105; 117; 111; 120; 88; 102; 70; 101; 69; 103; 71; 97; 65; 115; 99].

Lemma letter_some c : In c letters -> exists x, letter c = Some x.
Proof.
  intros H. unfold letters in H. cbn [In] in H.
  decompose [or] H; try contradiction; subst c; eexists; reflexivity.
Qed.

Lemma letter_in c x : letter c = Some x -> In c letters.
Proof.
  unfold letter, letters. intros H.
  repeat (match type of H with context [match ?p with _ => _ end] => destruct p end;
    try discriminate H); cbn [In]; auto 20.
Qed.

Lemma letter_plain c : In c letters -> ~ flag_char c /\ ~ digit_char c /\ c <> 46 /\
  c <> 104 /\ c <> 108 /\ c <> 122 /\ c <> 116.
Proof.
  intros H. unfold letters in H. cbn [In] in H. unfold flag_char, digit_char. cbn [In].
  decompose [or] H; try contradiction; subst c; repeat split; try discriminate; try lia; intuition discriminate.
Qed.

Definition lengths : list text := [[]; [104]; [104; 104]; [108]; [108; 108]; [122]; [116]].

Lemma parse_length_app l c rest : In l lengths -> In c letters ->
  parse_length (l ++ c :: rest) = c :: rest.
Proof.
  intros Hl Hc. pose proof Hc as H. unfold letters in H. cbn [In] in H.
  unfold lengths in Hl. cbn [In] in Hl.
  decompose [or] Hl; try contradiction; subst l; decompose [or] H; try contradiction; subst c; reflexivity.
Qed.

Lemma parse_length_split s : exists l, In l lengths /\ s = l ++ parse_length s.
Proof.
  unfold lengths. destruct s as [|c r]; [exists []; cbn; auto|].
  destruct (N.eq_dec c 104) as [->|N1].
  { destruct r as [|d r]; [exists [104]; cbn; auto 10|].
    destruct (N.eq_dec d 104) as [->|N2]; [exists [104; 104]; cbn; auto 10|].
    exists [104]. split; [cbn; auto 10|]. cbn [parse_length].
    cbn [app]. f_equal. symmetry.
    destruct d as [|p]; [reflexivity|]. repeat (destruct p as [p|p|]; try reflexivity). now contradiction N2. }
  destruct (N.eq_dec c 108) as [->|N2].
  { destruct r as [|d r]; [exists [108]; cbn; auto 10|].
    destruct (N.eq_dec d 108) as [->|N3]; [exists [108; 108]; cbn; auto 10|].
    exists [108]. split; [cbn; auto 10|]. cbn [parse_length].
    cbn [app]. f_equal. symmetry.
    destruct d as [|p]; [reflexivity|]. repeat (destruct p as [p|p|]; try reflexivity). now contradiction N3. }
  destruct (N.eq_dec c 122) as [->|N3]; [exists [122]; cbn; auto 10|].
  destruct (N.eq_dec c 116) as [->|N4]; [exists [116]; cbn; auto 10|].
  exists []. split; [cbn; auto|]. cbn [app]. symmetry. unfold parse_length.
  destruct c as [|p]; [reflexivity|]. repeat (destruct p as [p|p|]; try reflexivity); exfalso; auto.
Qed.

(** ** Whole specifiers *)

Definition tail_of (r : request) (rest : text) : text := long r ++ conv r :: rest.

Lemma tail_head r rest : In (long r) lengths -> In (conv r) letters ->
  ~ flag_char (hd 0 (tail_of r rest)) /\ ~ digit_char (hd 0 (tail_of r rest)) /\ hd 0 (tail_of r rest) <> 46.
Proof.
  intros Hl Hc. destruct (letter_plain _ Hc) as (A & B & C & _). unfold tail_of, lengths in *. cbn [In] in Hl.
  unfold flag_char, digit_char in *.
  decompose [or] Hl; try contradiction; match goal with E : _ = long r |- _ => rewrite <- E end; cbn [app hd];
    auto; cbn [In]; repeat split; try lia; intuition discriminate.
Qed.

Lemma spelled_app r rest : spelled r ++ rest =
  37 :: marks r ++ wide r ++ match precise r with None => [] | Some p => 46 :: p end ++ tail_of r rest.
Proof.
  unfold spelled, tail_of. cbn [app]. f_equal. rewrite <- !app_assoc. reflexivity.
Qed.

Definition sizes_hold (r : request) : Prop :=
  min_width r < 2 ^ 64 /\ match precise r with None => True | Some p => value_in 10 p < 2 ^ 64 end.

Definition argument_of (r : request) (x : specifier) : argument :=
  mkArgument (flags_with no_flags (marks r)) (min_width r) (option_map (value_in 10) (precise r)) x.

Lemma digit_not_flag_head ds rest : decimal_digits ds -> hd 0 ds <> 48 ->
  ~ flag_char (hd 0 rest) -> ~ flag_char (hd 0 (ds ++ rest)).
Proof.
  intros D H R. destruct ds as [|c ds]; [exact R|]. cbn [app hd] in *.
  inversion D; subst. unfold flag_char. cbn [In]. intuition (subst; lia).
Qed.

Lemma parse_spelled r rest x : well_formed r -> sizes_hold r -> letter (conv r) = Some x ->
  parse_format (spelled r ++ rest) = Some (argument_of r x).
Proof.
  intros (Hm & Hw & Hw0 & Hp & Hl & Hc) [S1 S2] X.
  rewrite spelled_app. cbn [parse_format]. change (37 =? PERCENT) with true. cbn iota.
  destruct (tail_head r rest Hl Hc) as (T1 & T2 & T3).
  set (mid := match precise r with None => [] | Some p => 46 :: p end ++ tail_of r rest).
  assert (M1 : ~ flag_char (hd 0 mid)).
  { unfold mid. destruct (precise r); [cbn [app hd]; unfold flag_char; cbn [In]; intuition discriminate|exact T1]. }
  assert (M2 : ~ digit_char (hd 0 mid)).
  { unfold mid. destruct (precise r); [cbn [app hd]; unfold digit_char; lia|exact T2]. }
  rewrite parse_flags_app; [|exact Hm|now apply digit_not_flag_head].
  rewrite parse_width_app; [|exact Hw|exact M2|]. 2:{ cbn [N.mul]. exact S1. }
  rewrite N.mul_0_l, N.add_0_l. fold (min_width r).
  assert (P : parse_precision mid = (option_map (value_in 10) (precise r), tail_of r rest)).
  { unfold mid. destruct (precise r) as [p|]; cbn [app].
    - cbn [parse_precision]. change (46 =? DOT) with true. cbn iota.
      rewrite parse_width_app; [|exact Hp|exact T2|]. 2:{ cbn [N.mul]. exact S2. }
      rewrite N.mul_0_l, N.add_0_l. reflexivity.
    - destruct (tail_of r rest) as [|c t] eqn:E; [reflexivity|]. cbn [parse_precision hd] in *.
      destruct (N.eqb_spec c DOT); [contradiction|reflexivity]. }
  rewrite P. unfold tail_of. rewrite parse_length_app by assumption. cbn [hd]. rewrite X. reflexivity.
Qed.

(** Anything that is accepted is such a specifier, with more after it perhaps. *)
Lemma parse_spelling s a : parse_format s = Some a -> exists r rest, well_formed r /\ s = spelled r ++ rest.
Proof.
  destruct s as [|c s]; [discriminate|]. cbn [parse_format].
  destruct (N.eqb_spec c PERCENT) as [->|]; [|discriminate].
  destruct (parse_flags_splits s) as (m & s1 & -> & Hm & H1).
  rewrite parse_flags_app by assumption.
  destruct (digits_split s1) as (w & s2 & -> & Hw & H2).
  pose proof (parse_width_rest w 0 s2 Hw H2) as PW.
  destruct (parse_width 0 (w ++ s2)) as [n s2'] eqn:E. cbn [snd] in PW. subst s2'.
  assert (W0 : hd 0 w <> 48).
  { destruct w as [|d w]; [discriminate|]. cbn [app hd] in *. intros ->. apply H1. unfold flag_char. cbn [In]. auto. }
  assert (P : exists p s3, s2 = match p with None => [] | Some p => 46 :: p end ++ s3 /\
            match p with None => True | Some p => decimal_digits p end /\ snd (parse_precision s2) = s3).
  { destruct s2 as [|d s2]; [exists None, []; auto|]. cbn [parse_precision].
    destruct (N.eqb_spec d DOT) as [->|].
    - destruct (digits_split s2) as (p & s3 & -> & Hp & H3).
      pose proof (parse_width_rest p 0 s3 Hp H3) as PW. exists (Some p), s3. cbn [app]. repeat split; auto.
      destruct (parse_width 0 (p ++ s3)). exact PW.
    - exists None, (d :: s2). auto. }
  destruct P as (p & s3 & -> & Hp & P).
  destruct (parse_precision _) as [q s3'] eqn:E2. cbn [snd] in P. subst s3'.
  destruct (parse_length_split s3) as (l & Hl & E3).
  destruct (parse_length s3) as [|c rest] eqn:E4; [discriminate|]. cbn [hd].
  destruct (letter c) as [x|] eqn:X; [|discriminate]. intros _.
  exists (mkRequest m w p l c), rest. split.
  - repeat split; auto. exact (letter_in _ _ X).
  - rewrite spelled_app. cbn [marks wide precise]. unfold tail_of. cbn [long conv]. rewrite E3. reflexivity.
Qed.

(** ** Fields *)

Lemma fills_padding c w (n : nat) (a b body : text) :
  (length a + length b)%nat = n -> length body = n ->
  fills w body (a ++ padding c w n ++ b).
Proof.
  intros E1 E2. unfold fills, padding. rewrite !app_length, repeat_length. lia.
Qed.

Lemma existsb_in c m : existsb (N.eqb c) m = true <-> In c m.
Proof.
  rewrite existsb_exists. split; [intros (x & H & E); apply N.eqb_eq in E; now subst|].
  intros H. exists c. split; [exact H|apply N.eqb_refl].
Qed.

Lemma existsb_out c m : existsb (N.eqb c) m = false <-> ~ In c m.
Proof. rewrite <- existsb_in. destruct (existsb _ _); intuition congruence. Qed.

Lemma pad_left w sign body : on_left w (sign ++ body) (pad Left w sign body).
Proof.
  cbn [pad]. rewrite app_assoc. split.
  - rewrite <- (app_nil_r (padding _ _ _)). apply fills_padding; [apply Nat.add_0_r|reflexivity].
  - eexists. reflexivity.
Qed.

Lemma pad_right w sign body : on_right w (sign ++ body) (pad Right w sign body).
Proof.
  cbn [pad]. split.
  - change (padding SPACE w (length (sign ++ body)) ++ sign ++ body) with
      ([] ++ padding SPACE w (length (sign ++ body)) ++ (sign ++ body)). now apply fills_padding.
  - eexists. reflexivity.
Qed.

Lemma pad_zero w sign body : zero_filled w sign body (pad SignAware w sign body).
Proof.
  cbn [pad]. split; [|eexists; reflexivity]. apply fills_padding; [now rewrite app_length|reflexivity].
Qed.

Lemma padded r sign body :
  number_field r sign body (pad (numeric_align (flags_with no_flags (marks r))) (min_width r) sign body).
Proof.
  unfold numeric_align, flags_with. cbn [left_align prepend_zero no_flags orb]. unfold number_field.
  destruct (existsb (N.eqb 45) (marks r)) eqn:L.
  - apply existsb_in in L. split; [intros _; apply pad_left|split; contradiction].
  - apply existsb_out in L. destruct (existsb (N.eqb 48) (marks r)) eqn:Z.
    + apply existsb_in in Z. split; [contradiction|split; [intros; apply pad_zero|contradiction]].
    + apply existsb_out in Z. split; [contradiction|split; [contradiction|intros; apply pad_right]].
Qed.

Lemma padded_text r body :
  text_field r body (pad (if left_align (flags_with no_flags (marks r)) then Left else Right) (min_width r) [] body).
Proof.
  unfold flags_with. cbn [left_align no_flags orb]. unfold text_field.
  destruct (existsb (N.eqb 45) (marks r)) eqn:L.
  - apply existsb_in in L. split; [intros _; exact (pad_left _ [] body)|contradiction].
  - apply existsb_out in L. split; [contradiction|intros _; exact (pad_right _ [] body)].
Qed.

Lemma byte_len_length s : N.of_nat (length s) <= byte_len s.
Proof.
  induction s as [|c s IH]; [cbn; lia|]. cbn [length byte_len fold_right]. fold (byte_len s).
  assert (1 <= utf8_len c) by (unfold utf8_len; repeat destruct (_ <? _); lia). lia.
Qed.

(** ** Numerals *)

Lemma digit_good upper base d : 2 <= base <= 16 -> d < base ->
  is_digit upper base (digit upper d) /\ digit_of (digit upper d) = d.
Proof.
  intros B D. unfold digit, is_digit, digit_of.
  destruct (N.ltb_spec d 10).
  - destruct (N.leb_spec (48 + d) 57); [|lia]. split; [|lia]. split; [left; lia|lia].
  - destruct upper.
    + destruct (N.leb_spec (55 + d) 57); [lia|]. destruct (N.leb_spec (55 + d) 70); [|lia].
      split; [|lia]. split; [right; lia|lia].
    + destruct (N.leb_spec (87 + d) 57); [lia|]. destruct (N.leb_spec (87 + d) 70); [lia|].
      split; [|lia]. split; [right; lia|lia].
Qed.

Lemma digit_zero upper d : d < 16 -> digit upper d = 48 -> d = 0.
Proof. unfold digit. intros D. destruct (N.ltb_spec d 10); destruct upper; lia. Qed.

Lemma digits_good upper base : 2 <= base <= 16 ->
  forall fuel n acc, n < 2 ^ N.of_nat fuel -> fuel <> O ->
  Forall (is_digit upper base) acc ->
  exists front, digits upper base fuel n acc = front ++ acc /\ front <> [] /\
    Forall (is_digit upper base) front /\ value_in base front = n /\ (hd 0 front = 48 -> front = [48]).
Proof.
  intros B. induction fuel as [|fuel IH]; intros n acc Hn Hf Hacc; [contradiction|].
  assert (M : n mod base < base) by (apply N.mod_lt; lia).
  destruct (digit_good upper base _ B M) as [G1 G2].
  pose proof (N.div_mod' n base) as DM.
  cbn [digits]. destruct (N.eqb_spec (n / base) 0) as [Z|NZ].
  - exists [digit upper (n mod base)]. repeat split; auto.
    + discriminate.
    + cbn [value_in length]. rewrite G2. cbn [N.of_nat]. rewrite N.pow_0_r. rewrite Z in DM. lia.
    + cbn [hd]. intros E. now rewrite E.
  - destruct (IH (n / base) (digit upper (n mod base) :: acc)) as (front & E & Ne & Hd & V & H0).
    + rewrite Nat2N.inj_succ, N.pow_succ_r' in Hn.
      apply N.div_lt_upper_bound; [lia|]. nia.
    + intros ->. cbn [N.of_nat] in Hn. change (2 ^ N.of_nat 1) with 2 in Hn.
      apply NZ. apply N.div_small. lia.
    + constructor; assumption.
    + exists (front ++ [digit upper (n mod base)]). rewrite E, <- app_assoc. repeat split.
      * destruct front; discriminate.
      * apply Forall_app. auto.
      * rewrite value_app. cbn [value_in length]. rewrite V, G2. cbn [N.of_nat].
        change (N.of_nat 1) with 1. rewrite N.pow_0_r, N.pow_1_r. lia.
      * intros H. destruct front as [|c front]; [contradiction|]. cbn [app hd] in *.
        specialize (H0 H). exfalso. injection H0 as -> ->. cbn in V. apply NZ. now symmetry.
Qed.

Lemma radix_numeral upper base z : 2 <= base <= 16 ->
  numeral upper base (Z.to_N (z mod 2 ^ 64)) (radix_text upper base z).
Proof.
  intros B. unfold radix_text. set (n := Z.to_N (z mod 2 ^ 64)).
  destruct (digits_good upper base B (S (N.to_nat (N.log2 n))) n []) as (front & E & Ne & Hd & V & H0); auto.
  - rewrite Nat2N.inj_succ, N2Nat.id. destruct (N.eq_dec n 0) as [->|]; [reflexivity|].
    apply N.log2_spec. lia.
  - rewrite E, app_nil_r. repeat split; auto.
Qed.

(** ** Signs of whole numbers *)

Lemma units_abs f : units (SFabs f) = Z.abs (units f).
Proof.
  destruct f as [s|s| |s m e]; cbn [SFabs units]; try reflexivity.
  destruct s; unfold cond_Zopp; rewrite ?Z.abs_opp; symmetry; apply Z.abs_eq; apply Z.mul_nonneg_nonneg; try lia;
    apply Z.pow_nonneg; lia.
Qed.

Lemma double_abs f : double f -> double (SFabs f).
Proof. intros [A B]. destruct f; try discriminate A; split; auto. Qed.

Lemma negative_units f : double f -> (units f < 0)%Z -> is_negative f = true.
Proof.
  intros [A _] H. destruct f as [s|s| |s m e]; try discriminate A; cbn [units is_negative] in *; [lia|].
  destruct s; [reflexivity|]. unfold cond_Zopp in H.
  assert (0 <= Zpos m * 2 ^ (e + 1074))%Z by (apply Z.mul_nonneg_nonneg; [lia|apply Z.pow_nonneg; lia]). lia.
Qed.

Lemma positive_units f : double f -> (0 < units f)%Z -> is_negative f = false.
Proof.
  intros [A _] H. destruct f as [s|s| |s m e]; try discriminate A; cbn [units is_negative] in *; [lia|].
  destruct s; [|reflexivity]. unfold cond_Zopp in H.
  assert (0 <= Zpos m * 2 ^ (e + 1074))%Z by (apply Z.mul_nonneg_nonneg; [lia|apply Z.pow_nonneg; lia]). lia.
Qed.
