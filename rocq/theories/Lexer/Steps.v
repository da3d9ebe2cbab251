(** One step of the lexer: what it takes, and that it looks at no more than the next
    character. *)
From Coq Require Import List NArith Bool Lia Arith.
Import ListNotations.
From Verif.Text Require Import Model.
From Verif.Text Require Lexing Templates.
From Verif.Lexer Require Import Model Spec.
Open Scope N_scope.

(** ** Consuming *)

Lemma consume_spec : forall p s, exists a b, consume p s = (a, b) /\ s = a ++ b /\ Forall (fun c => p c = true) a /\ stops p b.
Proof.
  induction s as [|c s (a & b & E & -> & F & S)]; cbn. { exists [], []. cbn. auto. }
  destruct (p c) eqn:P.
  - rewrite E. exists (c :: a), b. auto.
  - exists [], (c :: a ++ b). cbn. auto.
Qed.

Lemma consume_frame : forall p a r, Forall (fun c => p c = true) a -> stops p r -> consume p (a ++ r) = (a, r).
Proof.
  induction a as [|c a IH]; intros r F S; cbn.
  - destruct r as [|c r]; auto. cbn in *. now rewrite S.
  - inversion F; subst. rewrite H1, IH; auto.
Qed.

Lemma delimited_spec : forall s, exists a b, delimited s = (a, b) /\ s = a ++ b /\
  ((exists n, a = n ++ [39] /\ ~ In 39 n) \/ (b = [] /\ ~ In 39 a)).
Proof.
  induction s as [|c s (a & b & E & -> & H)]; cbn. { exists [], []. split; [|split]; auto 8. }
  unfold SQUOTE. destruct (N.eqb_spec c 39) as [->|N].
  - exists [39], (a ++ b). repeat split; auto. left. exists []. auto.
  - rewrite E. exists (c :: a), b. repeat split; auto. destruct H as [(n & -> & NI)|[-> NI]].
    + left. exists (c :: n). split; auto. cbn. intuition.
    + right. split; auto. cbn. intuition.
Qed.

Lemma delimited_frame : forall n r, ~ In 39 n -> delimited ((n ++ [39]) ++ r) = (n ++ [39], r).
Proof.
  induction n as [|c n IH]; intros r NI; cbn in *; auto. unfold SQUOTE in *. rewrite (proj2 (N.eqb_neq c 39)) by tauto. rewrite IH; auto.
Qed.

(** ** Characters *)

Lemma ws_cases : forall c, is_whitespace c = true -> c = 9 \/ c = 10 \/ c = 11 \/ c = 12 \/ c = 13 \/ c = 32 \/ 128 <= c.
Proof.
  intros c H. unfold is_whitespace in H. rewrite !orb_true_iff, !andb_true_iff, !N.leb_le, !N.eqb_eq in H. lia.
Qed.

Lemma ascii_no : forall c, 128 <= c -> is_ascii c = false.
Proof. intros. unfold is_ascii. now apply N.ltb_ge. Qed.

Lemma one_of_no : forall cs c, Forall (fun x => x < 128) cs -> 128 <= c -> one_of cs c = false.
Proof.
  induction 1 as [|x l Hx F IH]; intros L; auto. unfold one_of in *. cbn [existsb]. rewrite IH; auto. rewrite (proj2 (N.eqb_neq c x)) by lia. auto.
Qed.

Ltac ascii H := destruct (ws_cases _ H) as [-> | [-> | [-> | [-> | [-> | [-> | ?]]]]]]; [reflexivity..|].

Section Unicode.
Context (U : tables) (HU : unicode U).

Lemma ws_bullet : is_whitespace 0x2022 = false.
Proof. reflexivity. Qed.

Lemma ws_start : forall c, is_whitespace c = true -> is_normal_start U c = false.
Proof.
  intros c H. ascii H. unfold is_normal_start, is_alphabetic. rewrite ascii_no by auto. destruct (HU c H) as (-> & _ & _).
  rewrite orb_false_r. unfold one_of. cbn. destruct (N.eqb_spec c 8226) as [->|]; [discriminate|].
  rewrite (proj2 (N.eqb_neq c 36)), (proj2 (N.eqb_neq c 63)), (proj2 (N.eqb_neq c 95)) by lia. reflexivity.
Qed.
Lemma ws_continuation : forall c, is_whitespace c = true -> is_normal_continuation U c = false.
Proof.
  intros c H. ascii H. unfold is_normal_continuation, is_alphanumeric. rewrite ascii_no by auto. destruct (HU c H) as (_ & -> & _).
  rewrite orb_false_r. apply one_of_no; auto. repeat constructor.
Qed.
Lemma ws_oper_start : forall c, is_whitespace c = true -> is_oper_start U c = false.
Proof. intros c H. ascii H. unfold is_oper_start, get_general_category. rewrite ascii_no by auto. destruct (HU c H) as (_ & _ & ->). reflexivity. Qed.
Lemma ws_oper_continuation : forall c, is_whitespace c = true -> is_oper_continuation U c = false.
Proof. intros c H. ascii H. unfold is_oper_continuation, get_general_category. rewrite ascii_no by auto. destruct (HU c H) as (_ & _ & ->). reflexivity. Qed.
Lemma ws_digit : forall c, is_whitespace c = true -> ascii_digit c = false.
Proof.
  intros c H. ascii H. unfold ascii_digit, between. rewrite (proj2 (N.leb_gt c 57)) by lia. apply andb_false_r.
Qed.
Lemma ws_not : forall c k, is_whitespace c = true -> In k [33; 34; 35; 39; 40; 41; 44; 45; 46; 58; 91; 93; 96; 123; 125] -> c <> k.
Proof.
  intros c k H I ->. destruct (ws_cases _ H) as [E | [E | [E | [E | [E | [E | L]]]]]]; subst; cbn in I; intuition (discriminate || lia).
Qed.

(** ** Frames *)

(** The first characters of two texts are the same to a token that does not end in a
    quotation or a comment: equal, or both whitespace or the end. *)
Definition blank (r : text) : Prop := match r with [] => True | c :: _ => is_whitespace c = true end.
Definition alike (r r' : text) : Prop := (blank r /\ blank r') \/ (exists c t t', r = c :: t /\ r' = c :: t').

Lemma stops_alike : forall p r r', (forall c, is_whitespace c = true -> p c = false) -> alike r r' -> stops p r -> stops p r'.
Proof.
  intros p r r' HP [[B B']|(c & t & t' & -> & ->)] S; auto. destruct r' as [|c r']; cbn in *; auto.
Qed.

(** Which texts may follow a token in place of [r]. *)
Definition fits (t : token) (r r' : text) : Prop :=
  match kind_of t with
  | COMMENT => r' = [] \/ exists r'', r' = 10 :: r''
  | WHITESPACE => (r = [] /\ r' = []) \/ (exists c u u', r = c :: u /\ r' = c :: u')
  | _ => alike r r'
  end.

(** The tokens of one step at [pos] on the text [u]. *)
Inductive Group (pos : nat) : text -> list token -> Prop :=
| Group_one : forall k u, u <> [] -> Shape U (mkTok k pos u) -> (forall q, k <> PATTERN_START q) -> Group pos u [mkTok k pos u]
| Group_pattern : forall q lead content ts, Shape U (mkTok (PATTERN_START q) pos lead) -> lex (is_c q) content = Some ts ->
    Group pos (lead ++ content ++ [34])
      (mkTok (PATTERN_START q) pos lead
       :: map (fun t => mkTok (pattern_kind (t_kind t)) (pos + length lead + t_start t) (t_text t)) ts
       ++ [mkTok (PATTERN_END q) (pos + length lead + length content) [34]]).

Definition final (toks : list token) : token := last toks (mkTok WHITESPACE 0 []).

(** What a step does: it takes [u] after the first character [c]. *)
Definition good (pos : nat) (c : N) (f : text -> option (list token * text)) (s : text) : Prop :=
  exists u toks rest, f s = Some (toks, rest) /\ s = u ++ rest /\ Group pos (c :: u) toks /\
    Maximal U (final toks) rest /\
    (Closed (final toks) \/ rest = []) /\
    (forall rest', Closed (final toks) -> fits (final toks) rest rest' -> f (u ++ rest') = Some (toks, rest')).

Lemma fits_alike : forall t r r', kind_of t <> COMMENT -> kind_of t <> WHITESPACE -> fits t r r' -> alike r r'.
Proof. intros [k p x] r r' N1 N2 F. unfold fits in F. cbn in *. destruct k; congruence || auto. Qed.

Lemma good_single : forall pos c k s, (forall q, k <> PATTERN_START q) -> k <> COMMENT -> k <> WHITESPACE -> Shape U (mkTok k pos [c]) -> Closed (mkTok k pos [c]) -> (forall rest, Maximal U (mkTok k pos [c]) rest) ->
  good pos c (fun s => single k pos c ([], s)) s.
Proof.
  intros. exists [], [mkTok k pos [c]], s. split; auto. split; auto. split; [constructor; auto; discriminate|]. repeat (split; [apply H4 || auto|]). auto.
Qed.

(** A token of a first character and all those after it that meet [p]. *)
Lemma good_consume : forall pos c k p s, (forall q, k <> PATTERN_START q) -> k <> COMMENT -> k <> WHITESPACE ->
  (forall a, Forall (fun c => p c = true) a -> Shape U (mkTok k pos (c :: a)) /\ Closed (mkTok k pos (c :: a)) /\ (forall rest, consume p s = (a, rest) -> s = a ++ rest -> stops p rest -> Maximal U (mkTok k pos (c :: a)) rest)) ->
  (forall c, is_whitespace c = true -> p c = false) ->
  good pos c (fun s => single k pos c (consume p s)) s.
Proof.
  intros pos c k p s NP NC NW HS HW. destruct (consume_spec p s) as (a & b & E & -> & F & S). destruct (HS a F) as (SH & CL & MX).
  exists a, [mkTok k pos (c :: a)], b. unfold single. rewrite E. split; auto. split; auto. split; [constructor; auto; discriminate|]. split; [apply MX; auto|]. cbn. split; [auto|].
  - intros r' _ A. apply fits_alike in A; cbn; auto. rewrite consume_frame; auto. eapply stops_alike; eauto.
Qed.

Definition digit_next (s : text) : bool := match s with d :: _ => ascii_digit d | [] => false end.
Lemma digit_next_stops : forall s, digit_next s = false -> stops ascii_digit s.
Proof. intros [|d s]; cbn; auto. Qed.

Lemma good_oper : forall pos c s, is_oper_start U c = true -> (c = 45 -> digit_next s = false) -> good pos c (oper U pos c) s.
Proof.
  intros pos c s O D. apply good_consume; try discriminate; auto using ws_oper_continuation. intros a F. split; [|split]; cbn; auto. { exists c, a. auto. }
  intros rest _ ES S. split; auto. intros Q. injection Q as -> ->. cbn in ES. subst rest. apply digit_next_stops. auto.
Qed.

Lemma is_digit : forall c, ascii_digit c = true <-> 48 <= c <= 57.
Proof. intros. unfold ascii_digit, between. rewrite andb_true_iff, !N.leb_le. reflexivity. Qed.
Lemma Forall_digit : forall a, Forall (fun c => ascii_digit c = true) a -> Forall (fun c => 48 <= c <= 57) a.
Proof. intros a F. eapply Forall_impl; [|exact F]. cbn. intros c. apply is_digit. Qed.

Lemma good_number : forall pos c s, ascii_digit c = true \/ (c = 45 /\ exists d t, s = d :: t /\ ascii_digit d = true) -> good pos c (number pos c) s.
Proof.
  intros pos c s HC. destruct (consume_spec ascii_digit s) as (a & b & E & -> & F & S).
  assert (HN : forall more, more = [] \/ (exists ds', more = 46 :: ds' /\ Forall (fun c => 48 <= c <= 57) ds') -> Numeral (c :: a ++ more)).
  { intros more M. destruct HC as [D|[-> (d & t & EQ & D)]].
    - exists [], (c :: a), more. repeat split; auto; try discriminate. constructor; [now apply is_digit|now apply Forall_digit].
    - exists [45], a, more. repeat split; auto using Forall_digit. intros ->. cbn in EQ. subst b. cbn in S. congruence. }
  assert (HN0 : Numeral (c :: a)) by (specialize (HN []); rewrite app_nil_r in HN; auto).
  destruct b as [|d b].
  - exists a, [mkTok NUMBER pos (c :: a)], []. unfold number. rewrite E. split; [reflexivity|]. split; auto. split; [constructor; cbn; auto; discriminate|]. split; [cbn; auto|]. split; [cbn; auto|].
    intros r' _ A. apply fits_alike in A; [|discriminate..]. rewrite consume_frame; auto; [|eapply stops_alike; eauto using ws_digit; exact I].
    destruct A as [[_ B]|(x & t & t' & X & _)]; [|discriminate X]. destruct r' as [|x r']; auto.
    unfold DOT. destruct (N.eqb_spec x 46) as [->|]; auto. discriminate B.
  - cbn in S. destruct (N.eqb_spec d 46) as [->|ND].
    + destruct (consume_spec ascii_digit b) as (a' & b' & E' & -> & F' & S'). exists (a ++ 46 :: a'), [mkTok NUMBER pos (c :: a ++ 46 :: a')], b'.
      unfold number. rewrite E. change (46 =? DOT) with true. cbn iota. rewrite E'. split; [reflexivity|]. rewrite <- app_assoc. split; auto. split; [|split; [|split; [cbn; auto|]]].
      * constructor; cbn; try discriminate. apply HN. right. exists a'. auto using Forall_digit.
      * cbn. split; auto. intros N. exfalso. apply N. right. apply in_or_app. right. now left.
      * intros r' _ A. apply fits_alike in A; [|discriminate..]. rewrite <- app_assoc. cbn [app]. rewrite consume_frame; auto. change (46 =? DOT) with true. cbn iota. rewrite consume_frame; auto. eapply stops_alike; eauto using ws_digit.
    + exists a, [mkTok NUMBER pos (c :: a)], (d :: b). unfold number. rewrite E. unfold DOT. rewrite (proj2 (N.eqb_neq d 46) ND). split; [reflexivity|]. split; auto.
      split; [constructor; cbn; auto; discriminate|]. split; [|split; [cbn; auto|]].
      * cbn -[N.eqb]. split; auto. intros _. apply N.eqb_neq. auto.
      * intros r' _ A. apply fits_alike in A; [|discriminate..]. rewrite consume_frame; auto; [|eapply stops_alike; eauto using ws_digit].
        destruct A as [[_ B]|(x & t & t' & X & ->)].
        -- destruct r' as [|x r']; auto. destruct (N.eqb_spec x 46) as [->|]; auto. discriminate B.
        -- injection X as <- <-. now rewrite (proj2 (N.eqb_neq d 46) ND).
Qed.

(** A step is good if it agrees with a good one where it matters. *)
Lemma good_if : forall pos c (b : text -> bool) f s,
  (forall u rest rest', s = u ++ rest -> alike rest rest' -> b (u ++ rest') = b s) ->
  good pos c f s -> (forall toks rest, f s = Some (toks, rest) -> kind_of (final toks) <> COMMENT /\ kind_of (final toks) <> WHITESPACE) ->
  forall g, (forall s', b s' = b s -> g s' = f s') -> good pos c g s.
Proof.
  intros pos c b f s HB (u & toks & rest & E & ES & G & M & O & FR) NC g HG. exists u, toks, rest.
  split; [rewrite HG; auto|]. repeat (split; [assumption|]). intros r' CL FT. rewrite HG; auto. destruct (NC _ _ E). eapply HB; eauto using fits_alike.
Qed.

Lemma digit_next_alike : forall u rest rest', alike rest rest' -> digit_next (u ++ rest') = digit_next (u ++ rest).
Proof.
  intros [|c u] r r' A; auto. cbn. destruct A as [[B B']|(c & t & t' & -> & ->)]; auto.
  destruct r as [|c r], r' as [|c' r']; cbn in *; auto; rewrite ?ws_digit; auto.
Qed.

Lemma good_minus : forall pos s, good pos 45 (minus U pos 45) s.
Proof.
  intros pos s. destruct (digit_next s) eqn:D.
  - eapply (good_if _ _ digit_next (number pos 45)).
    + intros u r r' ->. apply digit_next_alike.
    + apply good_number. right. split; auto. destruct s as [|d t]; try discriminate. exists d, t. auto.
    + intros toks rest E. unfold number in E. destruct (consume ascii_digit s) as [a [|d b]].
      * injection E as <- <-. now split.
      * destruct (d =? DOT); [destruct (consume ascii_digit b)|]; injection E as <- <-; now split.
    + intros s' E'. unfold minus. change (match s' with d :: _ => ascii_digit d | [] => false end) with (digit_next s'). now rewrite E', D.
  - eapply (good_if _ _ digit_next (oper U pos 45)).
    + intros u r r' ->. apply digit_next_alike.
    + apply good_oper; auto.
    + intros toks rest E. injection E as <- <-. now split.
    + intros s' E'. unfold minus. change (match s' with d :: _ => ascii_digit d | [] => false end) with (digit_next s'). now rewrite E', D.
Qed.

(** ** Quotations *)

Lemma Quote_no : forall q n, ~ In q n -> ~ Quote q (q :: n).
Proof. intros q n NI (m & E & _). injection E as ->. apply NI. apply in_or_app. right. now left. Qed.

Lemma good_quoted_identifier : forall pos s, good pos 39 (fun s => single SINGLE_QUOTE_IDENTIFIER pos 39 (delimited s)) s.
Proof.
  intros pos s. destruct (delimited_spec s) as (a & b & E & -> & [(n & -> & NI)|[-> NI]]); exists a || exists (n ++ [39]).
  all: eexists [_], _; unfold single; rewrite E; cbn [fst snd]; split; [reflexivity|].
  all: split; [reflexivity|split; [|split; [cbn; auto|]]].
  - constructor; try discriminate. left. exists n. auto.
  - split; [left; exists n; auto|]. intros r' _ _. rewrite delimited_frame; auto.
  - constructor; try discriminate. right. exists a. auto.
  - split; auto. intros r' CL _. exfalso. eapply Quote_no; eauto.
Qed.

Lemma good_colon : forall pos s, good pos 58 (colon U pos) s.
Proof.
  intros pos s. assert (BL : forall r, blank r -> colon U pos r = single COLON pos 58 ([], r)).
  { intros [|c r] B; auto. cbn in *. rewrite ws_start by auto. unfold SQUOTE. destruct (N.eqb_spec c 39) as [->|]; [discriminate|auto]. }
  assert (G0 : forall r, stops (is_normal_start U) r -> stops (N.eqb 39) r -> good pos 58 (colon U pos) r).
  { intros r S1 S2. assert (E : forall r, stops (is_normal_start U) r -> stops (N.eqb 39) r -> colon U pos r = single COLON pos 58 ([], r)).
    { intros [|x t] X1 X2; auto. cbn [stops colon] in *. rewrite X1. unfold SQUOTE. rewrite N.eqb_sym, X2. auto. }
    exists [], [mkTok COLON pos [58]], r. split; [now apply E|]. split; auto. split; [constructor; try discriminate; reflexivity|]. split; [now split|]. split; [left; exact I|].
    intros r' _ A. apply fits_alike in A; [|discriminate..]. cbn [app]. apply E; eapply stops_alike; eauto using ws_start.
    intros x X. destruct (N.eqb_spec 39 x) as [<-|]; auto; discriminate X. }
  destruct s as [|c s]. { now apply G0. }
  destruct (is_normal_start U c) eqn:NS.
  - destruct (consume_spec (is_normal_continuation U) s) as (a & b & E & -> & F & S).
    exists (c :: a), [mkTok SYMBOL pos (58 :: c :: a)], b. cbn [colon]. rewrite NS, E. split; [reflexivity|]. split; [reflexivity|]. split; [|split; [|split]].
    + constructor; try discriminate. exists (c :: a). split; auto. left. exists c, a. auto.
    + intros _. exact S.
    + left. intros s' Q. injection Q as -> ->. discriminate NS.
    + intros r' _ A. apply fits_alike in A; [|discriminate..]. cbn [app]. cbn [colon]. rewrite NS, consume_frame; auto. eapply stops_alike; eauto using ws_continuation.
  - destruct (N.eqb_spec c 39) as [->|NQ].
    + destruct (delimited_spec s) as (a & b & E & -> & [(n & -> & NI)|[-> NI]]).
      * exists (39 :: n ++ [39]), [mkTok SYMBOL pos (58 :: 39 :: n ++ [39])], b. cbn [colon]. rewrite NS. change (39 =? SQUOTE) with true. cbn iota. rewrite E. split; [reflexivity|]. split; [reflexivity|]. split; [|split; [|split]].
        -- constructor; try discriminate. exists (39 :: n ++ [39]). split; auto. right. left. exists n. auto.
        -- intros (x & y & Q & X & _). injection Q as <- <-. discriminate X.
        -- left. intros s' Q. injection Q as <-. exists n. auto.
        -- intros r' _ _. cbn [app colon]. rewrite NS. change (39 =? SQUOTE) with true. cbn iota. rewrite delimited_frame; auto.
      * exists (39 :: a), [mkTok SYMBOL pos (58 :: 39 :: a)], []. cbn [colon]. rewrite NS. change (39 =? SQUOTE) with true. cbn iota. rewrite E. split; [reflexivity|]. split; [reflexivity|]. split; [|split; [|split]]; auto.
        -- constructor; try discriminate. exists (39 :: a). split; auto. right. right. exists a. auto.
        -- intros _. exact I.
        -- intros r' CL _. exfalso. eapply Quote_no; [exact NI|]. apply CL. reflexivity.
    + apply G0; auto. cbn -[N.eqb]. apply N.eqb_neq. auto.
Qed.

Lemma scan_None : forall s, scan false s = None -> ~ In 34 s.
Proof.
  induction s as [|c s IH]; cbn; auto. unfold DQUOTE. destruct (N.eqb_spec c 34) as [->|N]; [discriminate|]. rewrite andb_false_r.
  destruct (scan false s) as [[t r]|]; [discriminate|]. intros _ [E|I]; [congruence|]. now apply IH.
Qed.
Lemma scan_c_None : forall n s, (length s <= n)%nat -> scan true s = None -> CContent s \/ exists n', s = n' ++ [92] /\ CContent n'.
Proof.
  induction n as [|n IH]; intros [|c s] L E; cbn in L; try lia; try (left; exact CContent_nil).
  cbn in E. unfold DQUOTE, BACKSLASH in E. destruct (N.eqb_spec c 34) as [->|N]; [discriminate|].
  destruct (N.eqb_spec c 92) as [->|N']; cbn in E.
  - destruct s as [|d s]. { right. exists []. split; auto. constructor. }
    destruct (scan true s) as [[t r]|] eqn:S; [discriminate|]. cbn in L. destruct (IH s) as [C|(n' & -> & C)]; auto; [lia| |].
    + left. now apply CContent_escape.
    + right. exists (92 :: d :: n'). split; auto. now apply CContent_escape.
  - destruct (scan true s) as [[t r]|] eqn:S; [discriminate|]. destruct (IH s) as [C|(n' & -> & C)]; auto; [lia| |].
    + left. now constructor.
    + right. exists (c :: n'). split; auto. now constructor.
Qed.
Lemma scan_c_content : forall n s t r, (length s <= n)%nat -> scan true s = Some (t, r) -> CContent t.
Proof.
  induction n as [|n IH]; intros [|c s] t r L E; cbn in L; try lia; try discriminate.
  cbn in E. unfold DQUOTE, BACKSLASH in E. destruct (N.eqb_spec c 34) as [->|N]. { injection E as <- <-. constructor. }
  destruct (N.eqb_spec c 92) as [->|N']; cbn in E.
  - destruct s as [|d s]; [discriminate|]. destruct (scan true s) as [[t' r']|] eqn:S; [|discriminate]. injection E as <- <-. cbn in L. apply CContent_escape. eapply IH; [|eauto]. lia.
  - destruct (scan true s) as [[t' r']|] eqn:S; [|discriminate]. injection E as <- <-. constructor; auto. eapply IH; [|eauto]. lia.
Qed.
Lemma scan_c_frame : forall t, CContent t -> forall r, scan true (t ++ 34 :: r) = Some (t, r).
Proof.
  induction 1; intros r; cbn; auto; unfold DQUOTE, BACKSLASH.
  - rewrite (proj2 (N.eqb_neq c 34)), (proj2 (N.eqb_neq c 92)), IHCContent by auto. auto.
  - now rewrite IHCContent.
Qed.

Lemma lex_total : forall cs s, exists ts, lex cs s = Some ts.
Proof.
  intros cs s. destruct (Lexing.Lexed_total cs _ (mkLex s 0 false false) (le_n _)) as [ts H]. exists ts. apply H. auto.
Qed.

Definition leading (p : string_prefix) : text :=
  match p with SText Plain => [34] | SText CString => [99; 34] | SText Raw => [114; 34] | TString => [116; 34] | SString => [115; 34] end.
Definition is_cs (p : string_prefix) : bool := match p with SText CString => true | _ => false end.

(** The tokens of a terminated string. *)
Definition body (p : string_prefix) (pos : nat) (lead content : text) : option (list token) :=
  let simple := Some [mkTok (simple_kind p) pos (lead ++ content ++ [DQUOTE])] in
  match p with
  | SText q =>
      if has_interpolation q content then
        let at_ := (pos + length lead)%nat in
        option_map (fun ts =>
          mkTok (PATTERN_START q) pos lead
           :: map (fun t => mkTok (pattern_kind (t_kind t)) (at_ + t_start t) (t_text t)) ts
           ++ [mkTok (PATTERN_END q) (at_ + length content) [DQUOTE]])
          (lex (is_c q) content)
      else simple
  | _ => simple
  end.
Lemma dquote_body : forall p pos lead s, dquote p pos lead s =
  match scan (is_cs p) s with
  | None => Some ([mkTok (simple_kind p) pos (lead ++ s)], [])
  | Some (content, rest) => option_map (fun ts => (ts, rest)) (body p pos lead content)
  end.
Proof.
  intros. unfold dquote. change (match p with SText CString => true | _ => false end) with (is_cs p).
  destruct (scan (is_cs p) s) as [[t r]|]; auto. unfold body. destruct p as [q| |]; auto.
  destruct (has_interpolation q t); auto. now destruct (lex (is_c q) t).
Qed.

Lemma final_app : forall a t, final (a ++ [t]) = t.
Proof. intros. apply last_last. Qed.

Lemma dquote_good : forall p pos s, exists u toks rest, dquote p pos (leading p) s = Some (toks, rest) /\ s = u ++ rest /\ Group pos (leading p ++ u) toks /\
    Maximal U (final toks) rest /\
    (Closed (final toks) \/ rest = []) /\
    (forall rest', Closed (final toks) -> dquote p pos (leading p) (u ++ rest') = Some (toks, rest')).
Proof.
  intros p pos s. rewrite dquote_body. destruct (scan (is_cs p) s) as [[t r]|] eqn:S.
  - assert (ES : s = t ++ 34 :: r) by (eapply Templates.scan_sound; eauto).
    assert (FR : forall r', scan (is_cs p) (t ++ 34 :: r') = Some (t, r')).
    { intros r'. destruct (is_cs p).
      - apply scan_c_frame. eapply scan_c_content; eauto.
      - apply Templates.scan_plain. eapply Templates.scan_plain_no_quote; eauto. }
    assert (CL : Closed (mkTok (simple_kind p) pos (leading p ++ t ++ [34])) /\ Shape U (mkTok (simple_kind p) pos (leading p ++ t ++ [34]))).
    { destruct p as [[]| |]; cbn in *;
        try (apply Templates.scan_plain_no_quote in S); try (eapply scan_c_content in S; eauto);
        repeat match goal with
        | |- _ /\ _ => split
        | |- exists p s', ?x :: ?y = p :: s' /\ _ => exists x, y
        | |- exists s', ?x :: ?y = _ :: s' /\ _ => exists y
        | |- _ \/ _ => left
        | |- Quote 34 _ => exists t
        | |- CQuote _ => exists t
        end; auto. }
    assert (B : exists toks, body p pos (leading p) t = Some toks /\ Group pos (leading p ++ t ++ [34]) toks /\ (forall r, Maximal U (final toks) r) /\ Closed (final toks)).
    { assert (SI : exists toks, Some [mkTok (simple_kind p) pos (leading p ++ t ++ [DQUOTE])] = Some toks /\ Group pos (leading p ++ t ++ [34]) toks /\ (forall r, Maximal U (final toks) r) /\ Closed (final toks)).
      { eexists. split; [reflexivity|]. destruct CL. split; [|split; auto]; [|intros x; destruct p as [[]| |]; exact I]. constructor; auto; destruct p as [[]| |]; discriminate. }
      unfold body. destruct p as [q| |]; auto. destruct (has_interpolation q t); auto. destruct (lex_total (is_c q) t) as [ts T]. rewrite T. cbn [option_map].
      eexists. split; [reflexivity|]. split; [|].
      - apply (Group_pattern pos q); auto. destruct q; reflexivity.
      - match goal with |- context [final (?x :: ?a ++ [?y])] => change (x :: a ++ [y]) with ((x :: a) ++ [y]) end. rewrite final_app. cbn. auto. }
    destruct B as (toks & B1 & B2 & B3 & B4). exists (t ++ [34]), toks, r. rewrite B1. cbn [option_map]. rewrite <- app_assoc. repeat (split; auto).
    intros r' _. rewrite <- app_assoc. cbn [app]. now rewrite dquote_body, FR, B1.
  - assert (CL : Shape U (mkTok (simple_kind p) pos (leading p ++ s)) /\ ~ Closed (mkTok (simple_kind p) pos (leading p ++ s))).
    { assert (NQ : is_cs p = false -> ~ In 34 s) by (intros H; rewrite H in S; now apply scan_None).
      assert (NC : is_cs p = true -> (CContent s \/ exists n', s = n' ++ [92] /\ CContent n') /\ ~ CQuote (34 :: s)).
      { intros H. rewrite H in S. split; [eapply scan_c_None; eauto|]. intros (n & Q & C). injection Q as ->. rewrite (scan_c_frame _ C []) in S. discriminate. }
      destruct p as [[]| |]; cbn in *; try (specialize (NQ eq_refl); split).
      - right. exists s. auto.
      - now apply Quote_no.
      - destruct (NC eq_refl) as [C1 C2]. split.
        + exists (34 :: s). split; auto. right. exists s. auto.
        + intros (x & y & Q & CQ). injection Q as <- <-. auto.
      - exists (34 :: s). split; auto. right. exists s. auto.
      - intros (x & y & Q & CQ). injection Q as <- <-. now apply (Quote_no _ _ NQ).
      - exists (34 :: s). split; auto. right. exists s. auto.
      - intros (x & y & Q & CQ). injection Q as <- <-. now apply (Quote_no _ _ NQ).
      - exists (34 :: s). split; auto. right. exists s. auto.
      - intros (x & y & Q & CQ). injection Q as <- <-. now apply (Quote_no _ _ NQ). }
    destruct CL as [C1 C2]. exists s, [mkTok (simple_kind p) pos (leading p ++ s)], []. rewrite app_nil_r. split; auto. split; auto. split; [|split; [|split]]; auto.
    + constructor; auto; destruct p as [[]| |]; discriminate.
    + destruct p as [[]| |]; exact I.
    + intros r' CL. contradiction.
Qed.

Lemma good_dquote : forall pos s, good pos 34 (dquote (SText Plain) pos [34]) s.
Proof.
  intros pos s. destruct (dquote_good (SText Plain) pos s) as (u & toks & rest & E & ES & G & M & O & FR).
  exists u, toks, rest. repeat (split; [assumption|]). auto.
Qed.

Definition string_of (c : N) : option string_prefix :=
  if c =? 99 then Some (SText CString) else if c =? 114 then Some (SText Raw) else if c =? 116 then Some TString else if c =? 115 then Some SString else None.

Definition opens (c : N) (s : text) : option (string_prefix * text) :=
  match s with x :: s' => if x =? 34 then option_map (fun p => (p, s')) (string_of c) else None | [] => None end.
Lemma normal_cases : forall pos c s, normal U pos c s =
  match opens c s with
  | Some (p, s') => dquote p pos [c; 34] s'
  | None => single UNQUOTED_IDENTIFIER pos c (consume (is_normal_continuation U) s)
  end.
Proof.
  intros pos c s. unfold normal, single. destruct (consume_spec (is_normal_continuation U) s) as (a & b & E & -> & F & S). rewrite E. cbn [fst snd].
  destruct a as [|x a].
  - cbn [app] in *. destruct b as [|q b]; auto. unfold DQUOTE, opens. destruct (N.eqb_spec q 34) as [->|NQ]; auto.
    unfold string_of. destruct (c =? 99); auto. destruct (c =? 114); auto. destruct (c =? 116); auto. destruct (c =? 115); auto.
  - cbn [app opens]. destruct (N.eqb_spec x 34) as [->|NQ]; auto. inversion F. discriminate.
Qed.

Lemma string_of_leading : forall c p, string_of c = Some p -> leading p = [c; 34].
Proof.
  intros c p. unfold string_of. 
  destruct (N.eqb_spec c 99) as [->|]; [now intros [= <-]|]. destruct (N.eqb_spec c 114) as [->|]; [now intros [= <-]|].
  destruct (N.eqb_spec c 116) as [->|]; [now intros [= <-]|]. destruct (N.eqb_spec c 115) as [->|]; [now intros [= <-]|]. discriminate.
Qed.

Lemma good_normal : forall pos c s, is_normal_start U c = true -> good pos c (normal U pos c) s.
Proof.
  intros pos c s NS.
  destruct (opens c s) as [[p s']|] eqn:O.
  - destruct s as [|x s]; [discriminate|]. cbn in O. destruct (N.eqb_spec x 34) as [->|]; [|discriminate]. destruct (string_of c) as [p'|] eqn:SO; [|discriminate]. cbn in O. injection O as -> ->.
    pose proof (string_of_leading _ _ SO) as LD. destruct (dquote_good p pos s') as (u & toks & rest & E & ES & G & M & O & FR).
    assert (NQ : forall t, normal U pos c (34 :: t) = dquote p pos [c; 34] t). { intros t. rewrite normal_cases. cbn. now rewrite SO. }
    rewrite LD in *. exists (34 :: u), toks, rest. rewrite NQ. split; [exact E|]. split; [now rewrite ES|]. split; [exact G|]. repeat (split; [tauto|]).
    intros r' CL _. cbn [app]. rewrite NQ. auto.
  - set (b := fun s => match opens c s with Some _ => true | None => false end).
    eapply (good_if _ _ b (fun s => single UNQUOTED_IDENTIFIER pos c (consume (is_normal_continuation U) s))).
    + intros u r r' ES A. subst s. destruct u as [|x u].
      * cbn [app] in *. destruct A as [[B B']|(x & t & t' & -> & ->)]; auto.
        -- assert (X : forall r, blank r -> b r = false). { intros [|x t] X; auto. unfold b, opens. destruct (N.eqb_spec x 34) as [->|N]; [discriminate X|auto]. }
           now rewrite !X.
        -- unfold b, opens. destruct (x =? 34); auto. now destruct (string_of c).
      * unfold b, opens. cbn. destruct (x =? 34); auto. now destruct (string_of c).
    + apply good_consume; try discriminate; auto using ws_continuation. intros a F. split; [|split]; cbn -[In]; auto. { exists c, a. auto. }
      intros rest _ ES S. split; auto. intros IN. destruct a as [|x a]; [|cbn in IN; intuition discriminate]. cbn in ES. subst rest. destruct s as [|x s]; [exact I|].
      cbn -[N.eqb]. destruct (N.eqb_spec 34 x) as [<-|]; auto. exfalso. cbn in IN. cbn in O. destruct IN as [Q|[Q|[Q|[Q|[]]]]]; injection Q as <-; discriminate O.
    + intros toks rest E. injection E as <- <-. now split.
    + intros s' E. rewrite normal_cases. unfold b in E. rewrite O in E. destruct (opens c s') as [[]|]; [discriminate|auto].
Qed.

(** ** The step *)

Lemma good_comment : forall pos s, good pos 35 (fun s => single COMMENT pos 35 (consume (fun c => negb (c =? 10)) s)) s.
Proof.
  intros pos s. destruct (consume_spec (fun c => negb (c =? 10)) s) as (a & b & E & -> & F & S).
  exists a, [mkTok COMMENT pos (35 :: a)], b. unfold single. rewrite E. split; auto. split; auto. split.
  { constructor; try discriminate. exists a. split; auto. intros I. rewrite Forall_forall in F. apply F in I. discriminate. }
  split; [exact S|]. split; [left; exact I|]. intros r' _ FT. cbn in FT. rewrite consume_frame; auto. destruct FT as [->|[r'' ->]]; cbn; auto.
Qed.

Lemma good_whitespace : forall pos c s, is_whitespace c = true -> good pos c (fun s => single WHITESPACE pos c (consume is_whitespace s)) s.
Proof.
  intros pos c s W. destruct (consume_spec is_whitespace s) as (a & b & E & -> & F & S).
  exists a, [mkTok WHITESPACE pos (c :: a)], b. unfold single. rewrite E. split; auto. split; auto. split.
  { constructor; try discriminate. split; [discriminate|]. constructor; auto. }
  split; [exact S|]. split; [left; exact I|]. intros r' _ FT. cbn in FT. rewrite consume_frame; auto.
  destruct FT as [[-> ->]|(x & t & t' & -> & ->)]; auto.
Qed.

Lemma step_good : forall m pos c s, good pos c (step U m pos c) s.
Proof.
  intros m pos c s. unfold step.
  unfold OPEN, CLOSE, SQUOTE, DQUOTE.
  destruct (N.eqb_spec c 123) as [->|N1]. { destruct (applied m); apply good_single; try discriminate; reflexivity || exact I || (intros; exact I). }
  destruct (N.eqb_spec c 125) as [->|N2]. { apply good_single; try discriminate; reflexivity || exact I || (intros; exact I). }
  destruct (N.eqb_spec c 91) as [->|N3]. { destruct (applied m); apply good_single; try discriminate; reflexivity || exact I || (intros; exact I). }
  destruct (N.eqb_spec c 93) as [->|N4]. { apply good_single; try discriminate; reflexivity || exact I || (intros; exact I). }
  destruct (N.eqb_spec c 40) as [->|N5]. { destruct (applied m); apply good_single; try discriminate; reflexivity || exact I || (intros; exact I). }
  destruct (N.eqb_spec c 41) as [->|N6]. { apply good_single; try discriminate; reflexivity || exact I || (intros; exact I). }
  destruct (N.eqb_spec c 44) as [->|N7]. { apply good_single; try discriminate; reflexivity || exact I || (intros; exact I). }
  destruct (N.eqb_spec c 96) as [->|N8]. { apply good_single; try discriminate; reflexivity || exact I || (intros; exact I). }
  destruct (N.eqb_spec c 58) as [->|N9]. { apply good_colon. }
  destruct (N.eqb_spec c 35) as [->|N10]. { apply good_comment. }
  destruct (N.eqb_spec c 39) as [->|N11]. { apply good_quoted_identifier. }
  destruct (N.eqb_spec c 34) as [->|N12]. { apply good_dquote. }
  destruct (N.eqb_spec c 45) as [->|N13]. { apply good_minus. }
  destruct (ascii_digit c) eqn:E1. { apply good_number. auto. }
  destruct (is_normal_start U c) eqn:E2. { now apply good_normal. }
  destruct (is_oper_start U c) eqn:E3. { apply good_oper; auto. intros ->. congruence. }
  destruct (is_whitespace c) eqn:E4. { now apply good_whitespace. }
  destruct (is_reserved_open U c) eqn:E5.
  { destruct (is_bracket_open U c) eqn:E6; apply good_single; try discriminate; try exact I; try (intros; exact I).
    exists c. split; auto. unfold is_bracket_open, is_ascii in E6. destruct (N.ltb_spec c 128); [discriminate|auto]. }
  destruct (is_reserved_close U c) eqn:E7.
  { destruct (is_bracket_close U c) eqn:E6; apply good_single; try discriminate; try exact I; try (intros; exact I).
    exists c. split; auto. unfold is_bracket_close, is_ascii in E6. destruct (N.ltb_spec c 128); [discriminate|auto]. }
  apply good_single; try discriminate; try exact I; intros; exact I.
Qed.

Lemma step_whitespace : forall m pos c s, is_whitespace c = true -> step U m pos c s = single WHITESPACE pos c (consume is_whitespace s).
Proof.
  intros m pos c s W. unfold step, OPEN, CLOSE, SQUOTE, DQUOTE.
  assert (N : forall k, In k [33; 34; 35; 39; 40; 41; 44; 45; 46; 58; 91; 93; 96; 123; 125] -> (c =? k) = false) by (intros; apply N.eqb_neq; eapply ws_not; eauto).
  rewrite !N by (cbn; tauto). rewrite ws_digit, ws_start, ws_oper_start, W; auto.
Qed.

End Unicode.
