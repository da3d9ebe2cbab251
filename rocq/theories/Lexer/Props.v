(** C73: lexing.  C74: conservative formatting. *)
From Coq Require Import String Ascii.
From Coq Require Import List NArith Bool Lia Arith.
Import ListNotations.
From Verif.Text Require Import Model.
From Verif.Lexer Require Import Model Spec Steps Runs Again Formats.
Open Scope N_scope.

(** ** C73: lexing *)

Section C73.
Context (U : tables) (HU : unicode U).

(** Every source has tokens. *)
Theorem C73_total : forall s, exists ts, tokens U s = Some ts.
Proof. intros s. destruct (tokens_Run U HU s) as (ts & E & _). eauto. Qed.

Lemma tokens_of : forall s ts, tokens U s = Some ts -> Run U (mkMem None false) 0 s ts.
Proof. intros s ts E. destruct (tokens_Run U HU s) as (ts' & E' & R). congruence. Qed.

(** Each token is the part of the source at its place; they come in order and do not overlap; and
    they leave out nothing but whitespace. *)
Theorem C73_source : forall s ts, tokens U s = Some ts ->
  Forall (slice s) ts /\ in_order 0 ts /\ visible (text_of_all ts) = visible s.
Proof.
  intros s ts E. apply tokens_of in E. destruct (Run_spans U _ _ _ _ E) as (O & _ & _ & V & _ & S). split; [exact (S [] eq_refl)|auto].
Qed.

(** Without interpolated strings they leave out nothing. *)
Theorem C73_lossless : forall s ts, tokens U s = Some ts ->
  (forall t q, In t ts -> kind_of t <> PATTERN_START q) -> text_of_all ts = s.
Proof. intros s ts E. apply tokens_of in E. eapply Run_lossless; eauto. Qed.

(** The kind of a token tells what its text looks like. *)
Theorem C73_shapes : forall s ts, tokens U s = Some ts -> Forall (Shape U) ts.
Proof. intros s ts E. apply tokens_of in E. now destruct (Run_spans U _ _ _ _ E) as (_ & _ & _ & _ & S & _). Qed.

(** Tokens are as long as they can be.  (Dots and colons in interpolated strings are tokens of
    their own.) *)
Theorem C73_maximal : forall s ts t, tokens U s = Some ts -> In t ts ->
  (kind_of t = OPERATOR_IDENTIFIER \/ kind_of t = COLON -> forall t' q, In t' ts -> kind_of t' <> PATTERN_START q) ->
  Maximal U t (skipn (start t + length (text_of t)) s).
Proof.
  intros s ts t E I N. apply tokens_of in E. pose proof (Run_maximal U _ _ _ _ E t I N) as M. now rewrite Nat.sub_0_r in M.
Qed.

(** A quotation that is not closed goes to the end of the source. *)
Theorem C73_unclosed : forall s pre t post, tokens U s = Some (pre ++ t :: post) -> ~ Closed t ->
  post = [] /\ (start t + length (text_of t) = length s)%nat.
Proof. intros s pre t post E N. apply tokens_of in E. now apply (Run_unclosed U _ _ _ _ E pre t post). Qed.

(** A parenthesis or square bracket is read as an application or a lookup exactly when it comes
    directly after an identifier, a closing bracket or an interpolated string; a brace is only then,
    and without interpolated strings exactly then. *)
Theorem C73_application : forall s pre t post, tokens U s = Some (pre ++ t :: post) ->
  let after_callable := exists pre' t', pre = pre' ++ [t'] /\ callable (kind_of t') = true in
  (kind_of t = OPEN_PAREN_APPLY \/ kind_of t = OPEN_SQUARE_APPLY \/ kind_of t = OPEN_BRACE_APPLY -> after_callable) /\
  (kind_of t = OPEN_PAREN \/ kind_of t = OPEN_SQUARE -> ~ after_callable) /\
  (kind_of t = OPEN_BRACE -> (forall t' q, In t' (pre ++ t :: post) -> kind_of t' <> PATTERN_START q) -> ~ after_callable).
Proof.
  intros s pre t post E AC. apply tokens_of in E.
  assert (IV : Inv (mkMem None false) None s) by now left.
  assert (ACE : prev_callable (last_of None pre) = true <-> AC).
  { unfold AC. destruct pre as [|x pre]. { split; [discriminate|]. intros (p & y & Q & _). now destruct p. }
    destruct (@exists_last _ (x :: pre) ltac:(discriminate)) as (p & y & ->). unfold last_of. rewrite map_app. cbn. rewrite last_last. cbn. split.
    - intros K. exists p, y. auto.
    - intros (p' & y' & Q & K). apply app_inj_tail in Q as [_ ->]. auto. }
  assert (NF : forall b, b = false -> (b = true <-> AC) -> ~ AC) by (intros b -> Q A; apply Q in A; discriminate).
  pose proof (Run_applied U false _ _ _ _ E ltac:(discriminate) None IV pre t post eq_refl) as B. unfold Bracketed in B.
  split; [|split].
  - intros [K|[K|K]]; rewrite K in B; now apply ACE.
  - intros [K|K]; rewrite K in B; exact (NF _ B ACE).
  - intros K NP. pose proof (Run_applied U true _ _ _ _ E (fun _ => NP) None IV pre t post eq_refl) as B'. unfold Bracketed in B'. rewrite K in B'. exact (NF _ (B' eq_refl) ACE).
Qed.

(** The check of quotes accepts every closed quotation, and rejects an unclosed one, other than a
    symbol, an opening quote alone, and a c-string that ends in an escaped quote. *)
Theorem C73_quotes_partial : forall s ts t, tokens U s = Some ts -> In t ts ->
  (Closed t -> unclosed_quote t = false) /\
  (~ Closed t -> kind_of t <> SYMBOL ->
   ~ In (text_of t) [[34]; [39]; [99; 34]; [114; 34]; [116; 34]; [115; 34]] ->
   (kind_of t = C_STRING -> forall x, text_of t <> x ++ [92; 34]) -> unclosed_quote t = true).
Proof.
  intros s ts t E I. pose proof (C73_shapes s ts E) as SH. rewrite Forall_forall in SH. specialize (SH t I). split.
  - now apply (closed_accepted U).
  - intros NC NS NI NE. destruct (unclosed_quote t) eqn:V; auto. exfalso. apply NC. eapply unclosed_rejected; eauto.
Qed.

End C73.

(** Tables of no letters or symbols beyond ASCII. *)
Definition ascii_only : tables := {| alphabetic := fun _ => false; alphanumeric := fun _ => false; general_category := fun _ => Other |}.
Lemma ascii_only_unicode : unicode ascii_only.
Proof. intros c _. now split. Qed.

Definition chars (s : string) : text := map N_of_ascii (list_ascii_of_string s).
Definition kinds (s : text) : option (list kind) := option_map (map kind_of) (tokens ascii_only s).

(** The check of quotes does not reject these, though none of them is closed. *)
Theorem C73_quotes_refuted : exists U, unicode U /\
  forall s, In s [[34]; [39]; chars ":'a"; chars "c" ++ [34; 97; 92; 34]] ->
  exists t, tokens U s = Some [t] /\ ~ Closed t /\ unclosed_quote t = false.
Proof.
  exists ascii_only. split; [exact ascii_only_unicode|]. intros s I. cbn in I.
  assert (Q : forall q n, ~ In q n -> ~ Quote q (q :: n)) by exact Quote_no.
  destruct I as [<-|[<-|[<-|[<-|[]]]]]; eexists; split; try reflexivity; split; try reflexivity; cbn.
  - apply Q. auto.
  - apply Q. auto.
  - intros H. apply (Q 39 [97]). { cbn. intuition discriminate. } apply H. reflexivity.
  - intros (p & s' & E & n & Q' & C). injection E as <- <-. injection Q' as Q'. destruct n as [|a [|b [|c n]]]; try discriminate; injection Q'; intros; subst; try discriminate.
    + inversion C as [| ? ? ? ? C2|]; subst. inversion C2; subst; congruence.
    + destruct n; discriminate.
Qed.

(** ** C74: conservative formatting *)

Section C74.
Context (U : tables) (HU : unicode U).

Notation tokens_of := (tokens_of U HU).

(** Formatting changes nothing but whitespace. *)
Theorem C74_visible : forall s, exists s', format U s = Some s' /\ visible s' = visible s.
Proof.
  intros s. destruct (tokens_Run U HU s) as (ts & E & R). unfold format. rewrite E. cbn. eexists. split; [reflexivity|].
  destruct (Run_spans U _ _ _ _ R) as (_ & _ & _ & V & SH & _). rewrite <- V, <- (conserve_visible U ts 0 SH).
  unfold finish. destruct (conserve 0 ts) as [|c x]; auto. destruct (ends_with 10 (c :: x)); auto. rewrite visible_app. cbn. apply app_nil_r.
Qed.

(** The output is empty or ends with a line end. *)
Theorem C74_newline : forall s s', format U s = Some s' -> s' = [] \/ exists x, s' = x ++ [10].
Proof.
  intros s s'. unfold format. destruct (tokens U s) as [ts|]; [|discriminate]. cbn. intros Q. injection Q as <-. unfold finish.
  destruct (conserve 0 ts) as [|c x]; auto. right. destruct (ends_with 10 (c :: x)) eqn:E; eauto. apply ends_with_sound; auto. discriminate.
Qed.

(** Where no token is an unclosed quotation, no hole contains whitespace, and no whitespace is
    made of carriage returns only: the output has the tokens of the source, but for the texts
    of whitespace and maybe a line end at the end.
    Missing: the sources with whitespace in the holes of strings, on which it fails
    ([C74_holes_refuted]); those with whitespace of carriage returns only
    ([C74_returns_refuted]); those with an unclosed quotation ([C74_unclosed_refuted]). *)
Theorem C74_preserves_partial : forall s ts s', tokens U s = Some ts -> format U s = Some s' ->
  Forall Closed ts -> text_of_all ts = s -> Forall (fun t => ~ only_returns t) ts ->
  exists ts', tokens U s' = Some ts' /\ words ts' = words ts /\
    (map kind_of ts' = map kind_of ts \/ map kind_of ts' = map kind_of ts ++ [WHITESPACE]).
Proof.
  intros s ts s' E F C L NR. unfold format in F. rewrite E in F. injection F as <-. apply tokens_of in E.
  destruct (format_lexed U HU s ts E L C NR) as (ps & extra & ts' & A & X & R' & ST & _). exists ts'. split; [now apply (Run_tokens U HU)|].
  destruct (Alt_words _ _ A) as [W K]. rewrite words_strip, ST, filter_app, W.
  replace (map kind_of ts') with (map fst (map strip ts')) by (rewrite map_map; reflexivity). rewrite ST, map_app, K.
  destruct X as [->|[-> _]]; cbn; rewrite !app_nil_r; auto.
Qed.

(** Formatting the output again changes nothing. *)
Theorem C74_idempotent_partial : forall s ts s', tokens U s = Some ts -> format U s = Some s' ->
  Forall Closed ts -> text_of_all ts = s -> Forall (fun t => ~ only_returns t) ts -> format U s' = Some s'.
Proof.
  intros s ts s' E F C L NR. unfold format in F. rewrite E in F. injection F as <-. apply tokens_of in E.
  destruct (format_lexed U HU s ts E L C NR) as (ps & extra & ts' & A & X & R' & ST & T).
  assert (L' : text_of_all ts' = finish (conserve 0 ts)).
  { destruct (Run_spans U _ _ _ _ R') as (_ & _ & LE & _). pose proof (conserve_Alt U ts 0) as CA. destruct (Run_spans U _ _ _ _ E) as (_ & _ & _ & _ & SH & _). destruct (CA SH NR) as (ps0 & A0 & E0 & T0).
    destruct (finish_Alt ts ps0 A0 T0) as (ps1 & ex1 & A1 & X1 & E1 & _). destruct (relex U HU _ _ _ _ E L C ps1 A1 ex1 X1 0%nat) as (ts1 & R1 & ST1).
    rewrite E0, E1 in R' |- *. rewrite (Run_fun U _ _ _ _ R1 _ R'), text_of_all_strip, ST1. reflexivity. }
  unfold format. rewrite (Run_tokens U HU _ _ R'). cbn. rewrite conserve_tidy, L', finish_idem; auto. now rewrite ST.
Qed.

(** The whitespace of the output has no tabs and no carriage returns. *)
Theorem C74_whitespace_partial : forall s ts s', tokens U s = Some ts -> format U s = Some s' ->
  Forall Closed ts -> text_of_all ts = s -> Forall (fun t => ~ only_returns t) ts ->
  exists ts', tokens U s' = Some ts' /\ forall t, In t ts' -> kind_of t = WHITESPACE -> ~ In 9 (text_of t) /\ ~ In 13 (text_of t).
Proof.
  intros s ts s' E F C L NR. unfold format in F. rewrite E in F. injection F as <-. apply tokens_of in E.
  destruct (format_lexed U HU s ts E L C NR) as (ps & extra & ts' & A & X & R' & ST & T). exists ts'. split; [now apply (Run_tokens U HU)|].
  intros t I K. rewrite <- ST in T. rewrite Forall_forall in T. apply (T (strip t)); auto. now apply in_map.
Qed.

(** Each token of the source stands in the output, in the column in which it is displayed in the
    source; and no line ends are lost or added before it. *)
Theorem C74_columns : forall s pre t post s', tokens U s = Some (pre ++ t :: post) -> format U s = Some s' ->
  kind_of t <> WHITESPACE -> text_of_all (pre ++ t :: post) = s ->
  Forall (fun t => kind_of t <> WHITESPACE -> ~ In 9 (text_of t) /\ ~ In 13 (text_of t)) pre ->
  exists before after, s' = before ++ text_of t ++ after /\
    display 0 before = display 0 (text_of_all pre) /\ lines before = lines (text_of_all pre).
Proof.
  intros s pre t post s' E F K L CL. unfold format in F. rewrite E in F. injection F as <-.
  rewrite conserve_app, conserve_cons. set (col := column 0 (conserve 0 pre)).
  replace (out col t) with (text_of t) by (unfold out; destruct (kind_of t); auto; congruence).
  assert (D : display 0 (conserve 0 pre) = display 0 (text_of_all pre)).
  { rewrite <- (conserve_column pre 0) by exact CL. symmetry. apply column_display.
    clear - CL. revert CL. generalize 0%nat. induction pre as [|x pre IH]; intros n CL; [split; auto|]. inversion CL as [|? ? C1 C2]; subst. rewrite conserve_cons.
    destruct (IH (column n (out n x)) C2) as [I1 I2]. assert (O : clean (out n x)).
    { unfold out. destruct (kind_of x) eqn:KX; try (apply C1; discriminate). apply normalize_clean. }
    destruct O as [O1 O2]. split; rewrite in_app_iff; tauto. }
  assert (FN : forall x, exists y, finish x = x ++ y).
  { intros [|c x]; [exists []; auto|]. unfold finish. destruct (ends_with 10 (c :: x)); [exists []; now rewrite app_nil_r|exists [10]; auto]. }
  destruct (FN (conserve 0 pre ++ text_of t ++ conserve (column col (text_of t)) post)) as [y ->].
  exists (conserve 0 pre), (conserve (column col (text_of t)) post ++ y). rewrite <- !app_assoc. split; auto. split; auto. apply conserve_lines.
Qed.

End C74.

(** Whitespace in a hole is lost, and with it the end of a name. *)
Theorem C74_holes_refuted : exists U s s' ts ts', unicode U /\ format U s = Some s' /\ tokens U s = Some ts /\ tokens U s' = Some ts' /\
  Forall Closed ts /\ words ts' <> words ts.
Proof.
  exists ascii_only, ([34] ++ chars "{x y}" ++ [34]). do 3 eexists. split; [exact ascii_only_unicode|]. split; [reflexivity|]. split; [reflexivity|]. split; [reflexivity|].
  split; [repeat constructor|]. cbn. discriminate.
Qed.

(** Carriage returns are deleted even where they separate tokens. *)
Theorem C74_returns_refuted : exists U s s' ts ts', unicode U /\ format U s = Some s' /\ tokens U s = Some ts /\ tokens U s' = Some ts' /\
  Forall Closed ts /\ text_of_all ts = s /\ words ts' <> words ts.
Proof.
  exists ascii_only, [97; 13; 98]. do 3 eexists. split; [exact ascii_only_unicode|]. split; [reflexivity|]. split; [reflexivity|]. split; [reflexivity|].
  split; [repeat constructor|]. split; [reflexivity|]. cbn. discriminate.
Qed.

(** A line end is added inside an unclosed symbol, which the check of quotes lets pass; and again
    and again. *)
Theorem C74_unclosed_refuted : exists U s s' s'', unicode U /\ format U s = Some s' /\ format U s' = Some s'' /\
  (exists t, tokens U s = Some [t] /\ unclosed_quote t = false /\ exists t', tokens U s' = Some [t'] /\ text_of t' <> text_of t).
Proof.
  exists ascii_only, (chars ":'a"). do 2 eexists. split; [exact ascii_only_unicode|]. split; [reflexivity|]. split; [reflexivity|].
  eexists. split; [reflexivity|]. split; [reflexivity|]. eexists. split; [reflexivity|]. cbn. discriminate.
Qed.

(** The documentation says that formatting removes trailing whitespace and makes all line ends
    line feeds.  It does not: a blank before a line end stays, and so does the carriage return
    after a comment. *)
Theorem C74_trailing_refuted : exists U s, unicode U /\ (exists x, s = x ++ [32; 10]) /\ format U s = Some s.
Proof. exists ascii_only, [97; 32; 10]. split; [exact ascii_only_unicode|]. split; [exists [97]; auto|reflexivity]. Qed.
Theorem C74_line_ends_refuted : exists U s, unicode U /\ (exists x, s = x ++ [13; 10]) /\ format U s = Some s.
Proof. exists ascii_only, [35; 97; 13; 10]. split; [exact ascii_only_unicode|]. split; [exists [35; 97]; auto|reflexivity]. Qed.

(** ** Examples *)

Example C73_example : kinds (chars "f(x) - -1 a-b :k") =
  Some [UNQUOTED_IDENTIFIER; OPEN_PAREN_APPLY; UNQUOTED_IDENTIFIER; CLOSE_PAREN; WHITESPACE; OPERATOR_IDENTIFIER; WHITESPACE; NUMBER; WHITESPACE; UNQUOTED_IDENTIFIER; WHITESPACE; SYMBOL].
Proof. reflexivity. Qed.
Example C73_example_operator : option_map (map text_of) (tokens ascii_only (chars "+# no comment")) = Some [chars "+#"; chars " "; chars "no"; chars " "; chars "comment"].
Proof. reflexivity. Qed.
Example C73_example_call : kinds (chars "'f'(x) (y)(z)") =
  Some [SINGLE_QUOTE_IDENTIFIER; OPEN_PAREN; UNQUOTED_IDENTIFIER; CLOSE_PAREN; WHITESPACE; OPEN_PAREN; UNQUOTED_IDENTIFIER; CLOSE_PAREN; OPEN_PAREN_APPLY; UNQUOTED_IDENTIFIER; CLOSE_PAREN].
Proof. reflexivity. Qed.
Example C73_example_pattern : kinds ([114; 34] ++ chars "a{x}" ++ [34] ++ chars "(1)") =
  Some [PATTERN_START Raw; STRING_LITERAL_CONTENT; OPEN_BRACE; STRING_INTERPOLATION_TARGET; CLOSE_BRACE; PATTERN_END Raw; OPEN_PAREN_APPLY; NUMBER; CLOSE_PAREN].
Proof. reflexivity. Qed.

(** The hypotheses of the theorems of C74 hold of this source, which the formatter changes. *)
Definition sample : text := chars "a:" ++ [9] ++ chars "f(1)" ++ [13; 10; 9] ++ [34] ++ chars "{x}" ++ [34] ++ chars " # c".
Example C74_example : format ascii_only sample = Some (chars "a:      f(1)" ++ [10] ++ chars "        " ++ [34] ++ chars "{x}" ++ [34] ++ chars " # c" ++ [10]).
Proof. reflexivity. Qed.
Example C74_example_hypotheses : exists ts, tokens ascii_only sample = Some ts /\ Forall Closed ts /\ text_of_all ts = sample /\ Forall (fun t => ~ only_returns t) ts.
Proof.
  eexists. split; [reflexivity|]. split; [|split; [reflexivity|]].
  - repeat constructor.
  - repeat (constructor; [intros [K F]; try discriminate K; inversion F; try discriminate; match goal with H : Forall _ (_ :: _) |- _ => inversion H; discriminate end|]). constructor.
Qed.

Print Assumptions C73_total.
Print Assumptions C73_source.
Print Assumptions C73_lossless.
Print Assumptions C73_shapes.
Print Assumptions C73_maximal.
Print Assumptions C73_unclosed.
Print Assumptions C73_application.
Print Assumptions C73_quotes_partial.
Print Assumptions C73_quotes_refuted.
Print Assumptions C74_visible.
Print Assumptions C74_newline.
Print Assumptions C74_preserves_partial.
Print Assumptions C74_idempotent_partial.
Print Assumptions C74_whitespace_partial.
Print Assumptions C74_columns.
Print Assumptions C74_holes_refuted.
Print Assumptions C74_returns_refuted.
Print Assumptions C74_unclosed_refuted.
Print Assumptions C74_trailing_refuted.
Print Assumptions C74_line_ends_refuted.
