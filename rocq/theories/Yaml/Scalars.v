From Coq Require Import String List NArith Bool Ascii Lia.
From Verif Require Import Yaml.Model Yaml.Spec.
Import ListNotations.
Open Scope string_scope.

Definition mem (cs : string) (c : ascii) : bool := existsb (Ascii.eqb c) (chars cs).

Lemma mem_in cs c : mem cs c = true <-> In c (chars cs).
Proof.
  unfold mem. rewrite existsb_exists. split.
  - intros (x & I & E). apply Ascii.eqb_eq in E. now subst.
  - intros I. exists c. split; [exact I|apply Ascii.eqb_refl].
Qed.

Lemma digit_mem c : digit c = mem decimal c.
Proof. destruct c as [[] [] [] [] [] [] [] []]; reflexivity. Qed.
Lemma octal_mem c : octal c = mem "01234567" c.
Proof. destruct c as [[] [] [] [] [] [] [] []]; reflexivity. Qed.
Lemma hex_mem c : hex c = mem "0123456789abcdefABCDEF" c.
Proof. destruct c as [[] [] [] [] [] [] [] []]; reflexivity. Qed.

Lemma all_made p cs s : (forall c, p c = mem cs c) -> all p s = true <-> made_of cs s.
Proof.
  intros E. induction s as [|c s IH]; cbn.
  - split; [intros _ c []|reflexivity].
  - rewrite andb_true_iff, IH, E, mem_in. split.
    + intros [H1 H2] x [<-|I]; [exact H1|now apply H2].
    + intros H. split; [apply H; now left|]. intros x I. apply H. now right.
Qed.

Lemma some_number p cs s : (forall c, p c = mem cs c) -> some p s = true <-> number_of cs s.
Proof.
  intros E. unfold some. rewrite andb_true_iff, (all_made p cs) by exact E. rewrite negb_true_iff, String.eqb_neq. reflexivity.
Qed.

Lemma all_app p a b : all p (a ++ b) = all p a && all p b.
Proof. induction a as [|c a IH]; cbn; [reflexivity|]. now rewrite IH, andb_assoc. Qed.

Lemma app_nil_r' s : s ++ "" = s.
Proof. induction s; cbn; congruence. Qed.
Lemma app_assoc' a b c : (a ++ b) ++ c = a ++ (b ++ c).
Proof. induction a; cbn; congruence. Qed.

(** ** Prefixes and suffixes *)

Lemma prefix_starts p s : String.prefix p s = true <-> starts p s.
Proof.
  revert s; induction p as [|c p IH]; intros s.
  - split; [intros _; exists s; reflexivity|destruct s; reflexivity].
  - destruct s as [|d s]; cbn.
    + split; [discriminate|intros [r E]; discriminate].
    + destruct (ascii_dec c d) as [->|N].
      * rewrite IH. split; intros [r E]; exists r; cbn in *; congruence.
      * split; [discriminate|]. intros [r E]. cbn in E. congruence.
Qed.

Lemma ends_finishes p s : ends p s = true <-> finishes p s.
Proof.
  induction s as [|c s IH]; cbn [ends]; rewrite orb_true_iff, String.eqb_eq.
  - split; [intros [E|E]; [exists ""; exact E|discriminate]|].
    intros [[|x r] E]; [now left|discriminate].
  - rewrite IH. split.
    + intros [E|[r E]]; [exists ""; exact E|exists (String c r); cbn; congruence].
    + intros [[|x r] E]; [now left|right; exists r; cbn in E; congruence].
Qed.

Lemma contains_within p s : contains p s = true <-> within p s.
Proof.
  induction s as [|c s IH]; cbn [contains]; rewrite orb_true_iff, prefix_starts.
  - split; [intros [[r E]|E]; [exists "", r; exact E|discriminate]|].
    intros ([|x a] & b & E); [left; exists b; exact E|discriminate].
  - rewrite IH. split.
    + intros [[r E]|(a & b & E)]; [exists "", r; exact E|exists (String c a), b; cbn; congruence].
    + intros ([|x a] & b & E); [left; exists b; exact E|right; exists a, b; cbn in E; congruence].
Qed.

(** ** Signs, runs of digits, exponents *)

Lemma strip_sign_split s : exists g, sign g /\ s = g ++ strip_sign s.
Proof.
  destruct s as [|c s]; [exists ""; split; [now left|reflexivity]|]. cbn.
  destruct (Ascii.eqb_spec c "-") as [->|_]; [exists "-"; split; [right; now left|reflexivity]|].
  destruct (Ascii.eqb_spec c "+") as [->|_]; [exists "+"; split; [right; now right|reflexivity]|].
  exists "". split; [now left|reflexivity].
Qed.

Lemma digit_not_sign c : digit c = true -> Ascii.eqb c "-" || Ascii.eqb c "+" = false.
Proof. destruct c as [[] [] [] [] [] [] [] []]; cbn; congruence. Qed.

Definition begins (p : ascii -> bool) (s : string) : bool := match s with "" => false | String c _ => p c end.

Lemma strip_sign_app g d : sign g -> begins (fun c => Ascii.eqb c "-" || Ascii.eqb c "+") d = false -> strip_sign (g ++ d) = d.
Proof.
  intros [-> | [-> | ->]] B; try reflexivity. destruct d as [|c d]; [reflexivity|]. cbn in *. now rewrite B.
Qed.

Lemma number_begins d r : number_of decimal d -> begins digit (d ++ r) = true.
Proof.
  intros [N D]. destruct d as [|c d]; [contradiction|]. cbn. rewrite digit_mem. apply mem_in, D. now left.
Qed.

Lemma begins_digit_sign s : begins digit s = true -> begins (fun c => Ascii.eqb c "-" || Ascii.eqb c "+") s = false.
Proof. destruct s; cbn; [discriminate|apply digit_not_sign]. Qed.

Lemma span_split s : forall d r, span s = (d, r) -> s = d ++ r /\ made_of decimal d.
Proof.
  induction s as [|c s IH]; intros d r E; cbn in E.
  - injection E as <- <-. split; [reflexivity|intros ? []].
  - destruct (digit c) eqn:D.
    + destruct (span s) as [d' q]. injection E as <- <-. destruct (IH _ _ eq_refl) as [-> M]. split; [reflexivity|].
      intros x [<-|I]; [apply mem_in; now rewrite <- digit_mem|now apply M].
    + injection E as <- <-. split; [reflexivity|intros ? []].
Qed.

Lemma span_app d r : made_of decimal d -> begins digit r = false -> span (d ++ r) = (d, r).
Proof.
  induction d as [|c d IH]; intros M B; cbn.
  - destruct r as [|x r]; [reflexivity|]. cbn in *. now rewrite B.
  - assert (digit c = true) as -> by (rewrite digit_mem; apply mem_in, M; now left).
    rewrite IH; [reflexivity| |exact B]. intros x I. apply M. now right.
Qed.

Lemma exponent_power s : exponent s = true <-> power s.
Proof.
  split.
  - destruct s as [|c s]; [constructor|]. cbn. rewrite andb_true_iff, orb_true_iff, !Ascii.eqb_eq.
    intros [C S]. destruct (strip_sign_split s) as (g & G & E). rewrite E.
    apply (some_number digit decimal _ digit_mem) in S.
    change (String c (g ++ strip_sign s)) with (String c "" ++ g ++ strip_sign s).
    apply power_some; [destruct C as [-> | ->]; auto|exact G|exact S].
  - intros [|e g d E G D]; [reflexivity|].
    assert (X : some digit (strip_sign (g ++ d)) = true).
    { rewrite strip_sign_app; [now apply (some_number digit decimal _ digit_mem)|exact G|].
      apply begins_digit_sign. rewrite <- (app_nil_r' d). now apply number_begins. }
    destruct E as [-> | ->]; cbn; exact X.
Qed.

Lemma power_begins p : power p -> begins digit p = false.
Proof. intros [|e s d [-> | ->] _ _]; reflexivity. Qed.

(** ** The patterns *)

Definition dot {A} (s : string) (f : string -> A) (other : A) : A :=
  match s with String c r => if Ascii.eqb c "." then f r else other | "" => other end.

Lemma pat_decimal_eq s : pat_decimal s =
  let (d, r) := span (strip_sign s) in
  if String.eqb d "" then dot r (fun r' => let (e, q) := span r' in negb (String.eqb e "") && exponent q) false
  else dot r (fun r' => let (_, q) := span r' in exponent q) (exponent r).
Proof.
  unfold pat_decimal. destruct (span (strip_sign s)) as [d r].
  destruct d as [|x d]; cbn [String.eqb]; destruct r as [|c r]; try reflexivity;
    destruct c as [[] [] [] [] [] [] [] []]; reflexivity.
Qed.

Lemma json_number_eq s : json_number s =
  let s := match s with String c r => if Ascii.eqb c "-" then r else s | "" => s end in
  let (d, r) := span s in
  negb (String.eqb d "") &&
  (match d with String c (String _ _) => negb (Ascii.eqb c "0") | _ => true end) &&
  dot r (fun r' => let (e, q) := span r' in negb (String.eqb e "") && exponent q) (exponent r).
Proof.
  unfold json_number. cbv zeta.
  assert (S : match s with String "-" r => r | _ => s end =
              match s with String c r => if Ascii.eqb c "-" then r else s | "" => s end).
  { destruct s as [|c s]; [reflexivity|]. destruct c as [[] [] [] [] [] [] [] []]; reflexivity. }
  rewrite S. destruct (span _) as [d r].
  assert (D : match d with String "0" (String _ _) => false | _ => true end =
              match d with String c (String _ _) => negb (Ascii.eqb c "0") | _ => true end).
  { destruct d as [|c [|x d]]; try reflexivity; destruct c as [[] [] [] [] [] [] [] []]; reflexivity. }
  rewrite D. f_equal. destruct r as [|c r]; [reflexivity|]. destruct c as [[] [] [] [] [] [] [] []]; reflexivity.
Qed.

Lemma pat_int_sound s : pat_int s = true -> schema_int s.
Proof.
  unfold pat_int. rewrite orb_true_iff. intros [S|S].
  - apply (some_number digit decimal _ digit_mem) in S. destruct (strip_sign_split s) as (g & G & E). rewrite E. now constructor.
  - destruct s as [|c s]; [discriminate|]. destruct s as [|c' s].
    { destruct c as [[] [] [] [] [] [] [] []]; discriminate. }
    assert (E : c = "0"%char /\ (c' = "o"%char /\ some octal s = true \/ c' = "x"%char /\ some hex s = true)).
    { destruct c as [[] [] [] [] [] [] [] []]; try discriminate S.
      destruct c' as [[] [] [] [] [] [] [] []]; try discriminate S; auto. }
    destruct E as [-> [[-> E]|[-> E]]].
    + apply (some_number octal "01234567" _ octal_mem) in E. exact (int_octal s E).
    + apply (some_number hex "0123456789abcdefABCDEF" _ hex_mem) in E. exact (int_hex s E).
Qed.

Lemma dot_true s f o : dot s f o = true -> (exists r, s = "." ++ r /\ f r = true) \/ o = true.
Proof.
  destruct s as [|c s]; cbn; [auto|]. destruct (Ascii.eqb_spec c ".") as [->|_]; [|auto]. intros H. left. now exists s.
Qed.

Lemma pat_decimal_sound s : pat_decimal s = true -> schema_float s.
Proof.
  rewrite pat_decimal_eq. destruct (strip_sign_split s) as (g & G & E).
  destruct (span (strip_sign s)) as [d r] eqn:SP. destruct (span_split _ _ _ SP) as [ES M]. rewrite E, ES.
  destruct (String.eqb_spec d "") as [->|N]; intros H; apply dot_true in H; destruct H as [(r' & -> & H)|H]; try discriminate.
  - destruct (span r') as [e q] eqn:SP'. apply andb_true_iff in H. destruct H as [N H]. apply exponent_power in H.
    destruct (span_split _ _ _ SP') as [-> M']. apply float_point; [exact G| |exact H]. split; [|exact M'].
    destruct e; [discriminate|discriminate].
  - destruct (span r') as [e q] eqn:SP'. apply exponent_power in H.
    destruct (span_split _ _ _ SP') as [-> M']. apply float_mixed; auto. now split.
  - apply exponent_power in H. apply float_whole; auto. now split.
Qed.

Lemma pat_inf_sound s : pat_inf s = true -> schema_float s.
Proof.
  unfold pat_inf. cbv zeta. rewrite !orb_true_iff, !String.eqb_eq. destruct (strip_sign_split s) as (g & G & E). intros H.
  rewrite E. apply float_inf; [exact G|]. cbn. intuition auto.
Qed.

(** ** Words *)

Lemma other_word p s w : all p s = true -> all p w = false -> String.eqb s w = false.
Proof. intros S W. destruct (String.eqb_spec s w) as [->|]; [congruence|reflexivity]. Qed.
Lemma other_start p s w : all p s = true -> all p w = false -> String.prefix w s = false.
Proof.
  intros S W. destruct (String.prefix w s) eqn:H; [|reflexivity]. apply prefix_starts in H. destruct H as [r ->].
  rewrite all_app, W in S. discriminate.
Qed.
Lemma other_end p s w : all p s = true -> all p w = false -> ends w s = false.
Proof.
  intros S W. destruct (ends w s) eqn:H; [|reflexivity]. apply ends_finishes in H. destruct H as [r ->].
  rewrite all_app, W, andb_false_r in S. discriminate.
Qed.

Lemma not_word p s : all p s = true -> s <> "" ->
  forallb (fun w => negb (all p w)) ["null"; "Null"; "NULL"; "~"; "true"; "True"; "false"; "False"; "TRUE"; "FALSE"] = true ->
  pat_null s = false /\ pat_bool s = false.
Proof.
  intros S N W. rewrite forallb_forall in W.
  assert (X : forall w, In w ["null"; "Null"; "NULL"; "~"; "true"; "True"; "false"; "False"; "TRUE"; "FALSE"] -> all p w = false).
  { intros w I. apply negb_true_iff. now apply W. }
  unfold pat_null, pat_bool. apply String.eqb_neq in N. rewrite N.
  rewrite !(other_word p s) by (try exact S; apply X; cbn; tauto).
  rewrite (other_start p s), (other_end p s) by (try exact S; apply X; cbn; tauto). auto.
Qed.

(** ** Numbers of JSON *)

Lemma json_integer_number i : json_integer i -> number_of decimal i.
Proof.
  intros [|c d C D].
  - split; [discriminate|]. intros x [<-|[]]. cbn. tauto.
  - split; [discriminate|]. intros x [<-|I]; [|now apply D]. cbn in C |- *. intuition auto.
Qed.

Lemma json_integer_zero i : json_integer i -> match i with String c (String _ _) => negb (Ascii.eqb c "0") | _ => true end = true.
Proof.
  intros [|c d C D]; [reflexivity|]. destruct d; [reflexivity|]. cbn in C.
  repeat (destruct C as [<-|C]; [reflexivity|]). destruct C.
Qed.

Definition json_char : ascii -> bool := mem "0123456789.+-eE".

Lemma made_all cs s : made_of cs s -> all (mem cs) s = true.
Proof. intros M. now apply (all_made (mem cs) cs). Qed.

Lemma all_weaken p q s : (forall c, p c = true -> q c = true) -> all p s = true -> all q s = true.
Proof.
  intros H. induction s as [|c s IH]; [reflexivity|]. cbn. rewrite !andb_true_iff. intros [A B]. auto.
Qed.

Lemma decimal_json c : mem decimal c = true -> json_char c = true.
Proof. destruct c as [[] [] [] [] [] [] [] []]; cbn; congruence. Qed.

Lemma made_json s : made_of decimal s -> all json_char s = true.
Proof. intros M. apply (all_weaken (mem decimal)); [apply decimal_json|now apply made_all]. Qed.

Lemma power_json p : power p -> all json_char p = true.
Proof.
  intros [|e g d E G [_ D]]; [reflexivity|]. rewrite !all_app, (made_json d D).
  destruct E as [-> | ->], G as [-> | [-> | ->]]; reflexivity.
Qed.

Lemma json_facts t : json_text t -> all json_char t = true /\ t <> "" /\ pat_decimal t = true /\ json_number t = true.
Proof.
  intros H.
  assert (exists m i f, (m = "" \/ m = "-") /\ json_integer i /\ t = m ++ i ++ f /\ all json_char f = true /\
            begins digit f = false /\
            (exponent f = true /\ begins (fun c => Ascii.eqb c ".") f = false \/
             exists d p, f = "." ++ d ++ p /\ number_of decimal d /\ power p)) as (m & i & f & Hm & Hi & Et & Jf & Bf & F).
  { destruct H as [m i p Hm Hi Hp|m i d p Hm Hi Hd Hp].
    - exists m, i, p. split; [exact Hm|]. split; [exact Hi|]. split; [reflexivity|]. split; [now apply power_json|].
      split; [now apply power_begins|]. left. split; [now apply exponent_power|]. destruct Hp as [|e g d [-> | ->] _ _]; reflexivity.
    - exists m, i, ("." ++ d ++ p). split; [exact Hm|]. split; [exact Hi|]. split; [reflexivity|]. split.
      + cbn. rewrite all_app, (made_json d (proj2 Hd)), (power_json p Hp). reflexivity.
      + split; [reflexivity|]. right. now exists d, p. }
  clear H. subst t. pose proof (json_integer_number i Hi) as [Ni Di].
  assert (B : begins digit (i ++ f) = true) by (apply number_begins; now split).
  split; [|split; [|split]].
  - rewrite !all_app, (made_json i Di), Jf. destruct Hm as [-> | ->]; reflexivity.
  - destruct Hm as [-> | ->]; [|discriminate]. destruct i; [contradiction|discriminate].
  - rewrite pat_decimal_eq.
    rewrite strip_sign_app; [|destruct Hm as [-> | ->]; [now left|right; now left]|now apply begins_digit_sign].
    rewrite span_app by assumption. apply String.eqb_neq in Ni. rewrite Ni.
    destruct F as [[F1 F2]|(d & p & -> & D & P)].
    + destruct f as [|c f]; [reflexivity|]. cbn in F2 |- *. now rewrite F2.
    + cbn [dot append]. change (Ascii.eqb "." ".") with true. cbn iota.
      rewrite span_app by (apply D || now apply power_begins). now apply exponent_power.
  - rewrite json_number_eq. cbv zeta.
    assert (E : match m ++ i ++ f with String c r => if Ascii.eqb c "-" then r else m ++ i ++ f | "" => m ++ i ++ f end = i ++ f).
    { destruct Hm as [-> | ->]; [|reflexivity]. cbn [append]. apply begins_digit_sign in B.
      destruct (i ++ f) as [|c r]; [reflexivity|]. cbn in B. apply orb_false_iff in B. destruct B as [-> _]. reflexivity. }
    rewrite E, span_app by assumption. apply String.eqb_neq in Ni. rewrite Ni, (json_integer_zero i Hi). cbn [negb andb].
    destruct F as [[F1 F2]|(d & p & -> & D & P)].
    + destruct f as [|c f]; [reflexivity|]. cbn in F2 |- *. now rewrite F2.
    + cbn [dot append]. change (Ascii.eqb "." ".") with true. cbn iota.
      rewrite span_app by (apply D || now apply power_begins). destruct D as [D _]. apply String.eqb_neq in D. rewrite D.
      now apply exponent_power.
Qed.

Lemma length_app a b : String.length (a ++ b) = String.length a + String.length b.
Proof. induction a; cbn; congruence. Qed.

Lemma length_neq s w : String.length s <> String.length w -> String.eqb s w = false.
Proof. intros H. apply String.eqb_neq. congruence. Qed.

Section Scalars.

Variable is_timestamp : string -> bool.
Variable normalize : string -> string.
Variable in_range : string -> bool.
Variable parse_eu parse_eu_fn : string -> option (list string).
Variable data_only : bool.
Notation plain t := (convert_scalar is_timestamp normalize in_range parse_eu parse_eu_fn data_only t true None).

Lemma plain_number t : pat_null t = false -> pat_bool t = false ->
  pat_int t = true \/ pat_decimal t || pat_inf t || pat_nan t = true -> plain t = number in_range t.
Proof.
  intros N B P. unfold convert_scalar, infer_tag. rewrite N, B. destruct (pat_int t); [reflexivity|].
  destruct P as [P|P]; [discriminate|]. now rewrite P.
Qed.

Lemma json_plain t : json_text t -> plain t = if in_range t then Some (Num t) else None.
Proof.
  intros J. destruct (json_facts t J) as (A & N & D & U).
  destruct (not_word json_char t A N eq_refl) as [W1 W2].
  rewrite plain_number by (rewrite ?D; auto). unfold number. now rewrite U.
Qed.

Lemma other_plain t :
  ~ In t ["null"; "Null"; "NULL"; "~"; ""] -> ~ In t ["true"; "True"; "false"; "False"] ->
  ~ schema_int t -> ~ schema_float t ->
  ~ starts "TRUE" t -> ~ finishes "FALSE" t -> ~ starts ".nan" t -> ~ within ".NaN" t -> ~ finishes ".NAN" t ->
  plain t = Some (if is_timestamp t then if data_only then Str t else Time (normalize t) else Str t).
Proof.
  intros N B I F H1 H2 H3 H4 H5. unfold convert_scalar, infer_tag.
  assert (pat_null t = false) as ->.
  { unfold pat_null. apply not_true_is_false. rewrite !orb_true_iff, !String.eqb_eq. intros H. apply N. cbn. intuition auto. }
  assert (pat_bool t = false) as ->.
  { unfold pat_bool. apply not_true_is_false. rewrite !orb_true_iff, !String.eqb_eq, prefix_starts, ends_finishes. intros H.
    cbn in B. intuition auto. }
  assert (pat_int t = false) as -> by (apply not_true_is_false; intros H; now apply I, pat_int_sound).
  assert (pat_decimal t = false) as -> by (apply not_true_is_false; intros H; now apply F, pat_decimal_sound).
  assert (pat_inf t = false) as -> by (apply not_true_is_false; intros H; now apply F, pat_inf_sound).
  assert (pat_nan t = false) as ->.
  { unfold pat_nan. apply not_true_is_false. rewrite !orb_true_iff, !prefix_starts, ends_finishes, contains_within. intuition auto. }
  destruct (is_timestamp t); reflexivity.
Qed.

Lemma true_prefix r : r <> "" -> plain ("TRUE" ++ r) = Some (Bool false).
Proof.
  intros N. unfold convert_scalar, infer_tag. cbn [append].
  replace (pat_null _) with false by reflexivity.
  assert (pat_bool (String "T" (String "R" (String "U" (String "E" r)))) = true) as ->.
  { unfold pat_bool. rewrite (proj2 (prefix_starts "TRUE" _)) by (now exists r). rewrite !orb_true_r. reflexivity. }
  cbn iota. destruct r; [contradiction|]. reflexivity.
Qed.

Lemma false_suffix r : plain (r ++ "FALSE") = Some (Bool false).
Proof.
  assert (L : String.length (r ++ "FALSE") = String.length r + 5) by apply length_app.
  unfold convert_scalar, infer_tag. unfold pat_null, parse_bool.
  rewrite !(length_neq (r ++ "FALSE")) by (rewrite L; cbn; lia). cbn [orb].
  unfold pat_bool. rewrite (proj2 (ends_finishes "FALSE" _)) by (now exists r). now rewrite orb_true_r.
Qed.

Lemma nan_prefix r : ~ finishes "FALSE" r -> plain (".nan" ++ r) = None.
Proof.
  intros F. assert (ends "FALSE" r = false) as F' by (apply not_true_is_false; rewrite ends_finishes; exact F).
  rewrite plain_number.
  - reflexivity.
  - reflexivity.
  - unfold pat_bool.
    cbn [append]. cbn [ends]. rewrite F'. 
    destruct r as [|c r]; reflexivity.
  - right. unfold pat_nan. rewrite (proj2 (prefix_starts ".nan" _)) by (now exists r). now rewrite !orb_true_r.
Qed.

Definition hexish : ascii -> bool := mem "0123456789abcdefABCDEFxo+".
Lemma hexish_of cs s : forallb (fun c => hexish c) (chars cs) = true -> made_of cs s -> all hexish s = true.
Proof.
  intros H M. rewrite forallb_forall in H. apply (all_made hexish "0123456789abcdefABCDEFxo+"); [reflexivity|].
  intros c I. apply mem_in. apply H. now apply M.
Qed.

Lemma refuse t : all hexish t = true -> t <> "" -> pat_int t = true -> json_number t = false -> plain t = None.
Proof.
  intros A N P J. destruct (not_word hexish t A N eq_refl) as [W1 W2].
  rewrite plain_number by auto. unfold number. now rewrite J.
Qed.

Lemma octal_refused d : number_of "01234567" d -> plain ("0o" ++ d) = None.
Proof.
  intros [N M]. apply refuse; [|discriminate| |reflexivity].
  - rewrite all_app, (hexish_of "01234567" d eq_refl M). reflexivity.
  - unfold pat_int. cbn [append]. rewrite (proj2 (some_number octal _ d octal_mem)) by (now split). apply orb_true_r.
Qed.

Lemma hex_refused d : number_of "0123456789abcdefABCDEF" d -> plain ("0x" ++ d) = None.
Proof.
  intros [N M]. apply refuse; [|discriminate| |reflexivity].
  - rewrite all_app, (hexish_of "0123456789abcdefABCDEF" d eq_refl M). reflexivity.
  - unfold pat_int. cbn [append]. rewrite (proj2 (some_number hex _ d hex_mem)) by (now split). apply orb_true_r.
Qed.

Lemma plus_refused d : number_of decimal d -> plain ("+" ++ d) = None.
Proof.
  intros [N M]. apply refuse; [|discriminate| |reflexivity].
  - rewrite all_app, (hexish_of decimal d eq_refl M). reflexivity.
  - unfold pat_int. cbn [append strip_sign]. rewrite (proj2 (some_number digit _ _ digit_mem)); [reflexivity|now split].
Qed.

Lemma zero_refused d : number_of decimal d -> plain ("0" ++ d) = None.
Proof.
  intros [N M].
  assert (M0 : made_of decimal ("0" ++ d)) by (intros c [<-|I]; [cbn; tauto|now apply M]).
  apply refuse; [|discriminate| |].
  - rewrite all_app, (hexish_of decimal d eq_refl M). reflexivity.
  - unfold pat_int. change (strip_sign ("0" ++ d)) with ("0" ++ d).
    rewrite (proj2 (some_number digit _ _ digit_mem)); [reflexivity|]. split; [discriminate|exact M0].
  - rewrite json_number_eq. cbv zeta. change (match "0" ++ d with String c r => if Ascii.eqb c "-" then r else "0" ++ d | "" => "0" ++ d end) with ("0" ++ d).
    assert (S : span ("0" ++ d) = ("0" ++ d, "")).
    { rewrite <- (app_nil_r' ("0" ++ d)) at 1. now apply span_app. }
    rewrite S. destruct d; [contradiction|]. reflexivity.
Qed.

Lemma point_refused d : number_of decimal d -> plain ("." ++ d) = None.
Proof.
  intros [N M]. rewrite plain_number.
  - reflexivity.
  - reflexivity.
  - refine (proj2 (not_word json_char _ _ _ eq_refl)); [|discriminate]. rewrite all_app, (made_json d M). reflexivity.
  - right. rewrite pat_decimal_eq. change (strip_sign ("." ++ d)) with (String "." d).
    change (span (String "." d)) with ("", String "." d). cbn [String.eqb dot]. change (Ascii.eqb "." ".") with true. cbn iota.
    assert (S : span d = (d, "")).
    { rewrite <- (app_nil_r' d) at 1. now apply span_app. }
    rewrite S. destruct d; [contradiction|]. reflexivity.
Qed.

End Scalars.
