(** String literals: escapes (C70), quoting for the shell (C71), interpolation (C72). *)
From Coq Require Import List NArith ZArith Bool Lia Arith.
Import ListNotations.
From Verif.Text Require Import Model Spec Escapes Shell Lexing Templates.
Open Scope N_scope.

(** ** C70: c-string escapes *)

(** A c-string's content is accepted exactly when it is a sequence of characters and
    well-formed escapes, and its value is the text they write. *)
Theorem C70_exact : forall s t, process_escapes s = Some (Ok t) <-> Spells s t.
Proof.
  intros s t. split.
  - intros E. destruct (escapes_spec (length s) s (le_n _)) as [(t' & E' & S)|(p & t' & r & e & E' & _)]; unfold process_escapes in E; rewrite E' in E; congruence.
  - intros S. now apply process_Spells.
Qed.

(** It is refused exactly when some malformed escape follows a well-formed beginning, and
    the error says what is wrong with that escape. *)
Theorem C70_errors : forall s e, process_escapes s = Some (Err e) <-> exists p t r, s = p ++ r /\ Spells p t /\ Fault r e.
Proof.
  intros s e. split.
  - intros E. destruct (escapes_spec (length s) s (le_n _)) as [(t' & E' & S)|(p & t' & r & e' & E' & Q)]; unfold process_escapes in E; rewrite E' in E; try congruence.
    injection E as <-. exists p, t', r. exact Q.
  - intros (p & t & r & -> & S & F). unfold process_escapes. eapply escapes_Fault; eauto.
Qed.

(** One or the other happens. *)
Theorem C70_decides : forall s, (exists t, Spells s t) \/ (exists p t r e, s = p ++ r /\ Spells p t /\ Fault r e).
Proof.
  intros s. destruct (escapes_total s) as [[t|e] E].
  - left. exists t. now apply C70_exact.
  - right. apply C70_errors in E as (p & t & r & Q). exists p, t, r, e. exact Q.
Qed.

(** A content has one value. *)
Theorem C70_one_value : forall s t t', Spells s t -> Spells s t' -> t = t'.
Proof. intros s t t' H H'. apply C70_exact in H, H'. congruence. Qed.

(** Every text can be written: with backslashes before the special characters the string
    ends where it should, has no holes, and reads back as the text. *)
Theorem C70_every_text : forall t rest,
  scan true (c_quote t ++ 34 :: rest) = Some (c_quote t, rest) /\
  has_interpolation CString (c_quote t) = false /\
  pieces CString (c_quote t) = Some (Ok [PText t]).
Proof.
  intros t rest. pose proof (c_quote_CSpells t) as C.
  assert (H : has_interpolation CString (c_quote t) = false).
  { cbn. pose proof (unescaped_CSpells _ _ C []) as U. rewrite app_nil_r in U. exact U. }
  repeat split; auto.
  - pose proof (scan_CSpells _ _ C (34 :: rest) [] rest eq_refl) as S. now rewrite app_nil_r in S.
  - unfold pieces. rewrite H. cbn. rewrite (process_Spells _ t); auto. now apply CSpells_Spells.
Qed.

(** Every text of Unicode scalar values can be written in ASCII. *)
Theorem C70_ascii : forall t, Forall scalar t -> exists s, Forall (fun c => c < 128) s /\ process_escapes s = Some (Ok t).
Proof. intros t F. destruct (ascii_exists t F) as (s & S & A). exists s. split; auto. now apply C70_exact. Qed.

(** Escapes are local: the value of two contents in a row is their values in a row. *)
Theorem C70_append : forall s s' t t', process_escapes s = Some (Ok t) -> process_escapes s' = Some (Ok t') -> process_escapes (s ++ s') = Some (Ok (t ++ t')).
Proof. intros s s' t t' H H'. apply C70_exact in H, H'. apply C70_exact. now apply Spells_app. Qed.

(** The value is made of Unicode scalar values. *)
Theorem C70_scalar : forall s t, Forall scalar s -> process_escapes s = Some (Ok t) -> Forall scalar t.
Proof. intros s t F H. apply C70_exact in H. eapply Spells_scalar; eauto. Qed.

(** [c"é\n\x41"] is é, newline, A; [\ud800] and [\q] are refused. *)
Example C70_example : process_escapes [92; 117; 48; 48; 101; 57; 92; 110; 92; 120; 52; 49] = Some (Ok [233; 10; 65]).
Proof. reflexivity. Qed.
Example C70_example_errors :
  process_escapes [97; 92; 117; 100; 56; 48; 48; 98] = Some (Err (InvalidCodePoint 0xD800)) /\
  process_escapes [97; 92; 113] = Some (Err (InvalidEscape 113)) /\
  process_escapes [92; 120; 52] = Some (Err TruncatedEscape) /\
  process_escapes [92; 120; 52; 103] = Some (Err (InvalidHexDigit 103)) /\
  process_escapes [97; 92] = Some (Err UnexpectedEndOfString).
Proof. repeat split. Qed.
Example C70_example_spec : Spells [92; 120; 52; 49; 98] [65; 98].
Proof.
  apply (Spells_cons [92; 120; 52; 49] 65 [98]).
  - apply (Unit_digits 120 2); [cbn; auto| |left; reflexivity].
    apply (Hex_snoc 1 [52] 49 4 1); [apply (Hex_snoc 0 [] 52 0 4); [constructor|left; split; reflexivity]|left; split; reflexivity].
  - apply (Spells_cons [98] 98 []); [|constructor]. constructor. discriminate.
Qed.
Example C70_example_quote : c_quote [123; 97; 92; 34] = [92; 123; 97; 92; 92; 92; 34].
Proof. reflexivity. Qed.

(** ** C71: quoting for the shell *)

(** The shell reads [str.shell-escape] of a text as one word, that text, and in no other
    way. *)
Theorem C71_shell_escape : forall s v, Word (shell_escape s) v <-> v = s.
Proof.
  intros s v.
  assert (W : Word (shell_escape s) s).
  { pose proof (sq_run [] s [] [] (fun x => x) Word_nil) as H. rewrite !app_nil_r in H. exact H. }
  split; [intros H; eapply Word_fun; eauto|intros ->; exact W].
Qed.

(** Inside double quotes it reads [str.dq-escape] of a text with every backslash doubled. *)
Theorem C71_dq_escape_exact : forall s v, Quoted (dq_escape s) v <-> v = double_backslashes s.
Proof. intros s v. split; [intros H; eapply Quoted_fun; eauto; apply dq_reads|intros ->; apply dq_reads]. Qed.

(** So it reads back the text if that has no backslash. *)
Theorem C71_dq_escape_partial : forall s v, ~ In 92 s -> Quoted (dq_escape s) v <-> v = s.
Proof. intros s v N. rewrite C71_dq_escape_exact, double_none; tauto. Qed.

(** And never if it has one: [dq-escape] turns one backslash into four, not two. *)
Theorem C71_dq_escape_refuted : forall s, In 92 s -> ~ Quoted (dq_escape s) s.
Proof. intros s I Q. apply C71_dq_escape_exact in Q. apply double_length in I. rewrite <- Q in I. lia. Qed.

Example C71_example : shell_escape [105; 116; 39; 115] = [39; 105; 116; 39; 92; 39; 39; 115; 39].
Proof. reflexivity. Qed.
Example C71_example_dq : dq_escape [97; 36; 34] = [97; 92; 36; 92; 34] /\ ~ In 92 [97; 36; 34].
Proof. split; [reflexivity|]. cbn. lia. Qed.
Example C71_example_backslash : dq_escape [92] = [92; 92; 92; 92] /\ Quoted [92; 92] [92].
Proof. split; [reflexivity|]. apply Quoted_escape; [cbn; auto|constructor]. Qed.

(** ** C72: interpolation *)

(** A plain or raw string made of text, with its braces doubled, and holes ends at its closing
    quote and compiles to pieces with the value of the template; provided that no text
    that follows a hole starts with a closing brace. *)
Theorem C72_template_partial : forall p is rest, p = Plain \/ p = Raw ->
  Forall (fun i => hole_ok i /\ plain_text i) is -> (forall s, follows is s -> ~ begins 125 s) ->
  scan false (source is ++ 34 :: rest) = Some (source is, rest) /\ means p (source is) is.
Proof.
  intros p is rest HP F FO. split; [now apply plain_scan|].
  destruct (plain_means p is) as (ps & E & V); auto. { destruct HP as [-> | ->]; auto. }
  exists ps. split; auto. intros show. eapply wlc_Value; eauto. discriminate.
Qed.

(** With no proviso: the closing braces at the start of the text after a hole are lost. *)
Theorem C72_template_exact : forall p is, p = Plain \/ p = Raw ->
  Forall (fun i => hole_ok i /\ plain_text i) is -> means p (source is) (without_leading_close false is).
Proof. intros p is HP F. apply plain_means; auto. destruct HP as [-> | ->]; auto. Qed.

(** So ["{{{x}}}"], a hole between braces, loses its last brace. *)
Theorem C72_brace_after_hole_refuted : exists is, Forall (fun i => hole_ok i /\ plain_text i) is /\
  source is = [123; 123; 123; 120; 125; 125; 125] /\ ~ means Plain (source is) is /\
  pieces Plain (source is) = Some (Ok [PText [123]; PHole (Name [120]) None]).
Proof.
  exists [Text [123; 123] [123]; Hole [[120]] None; Text [125; 125] [125]]. split; [|split; [reflexivity|split; [|reflexivity]]].
  - repeat constructor; cbn; try tauto; try lia; try discriminate; auto.
  - intros (ps & E & V). assert (P : pieces Plain [123; 123; 123; 120; 125; 125; 125] = Some (Ok [PText [123]; PHole (Name [120]) None])) by reflexivity.
    cbn [source map concat item_source join app] in E. rewrite P in E. injection E as <-. specialize (V (fun _ _ _ => [])). cbn in V.
    inversion V as [|? ? ? ? ? V1|]; subst. inversion V1 as [| |? ? ? ? ? ? ? V2]; subst. inversion V2 as [|? ? ? ? ? V3|]; subst.
    discriminate.
Qed.

(** A c-string made of text, written with any escapes and without bare braces, and holes
    ends at its closing quote and compiles to pieces with the value of the template;
    provided that, if it has holes, neither its start nor the text after a hole begins with a backslash. *)
Theorem C72_cstring_partial : forall is rest,
  Forall (fun i => hole_ok i /\ c_text i) is ->
  ((exists ns f, In (Hole ns f) is) -> ~ begins 92 (source is)) -> (forall s, follows is s -> ~ begins 92 s) ->
  scan true (source is ++ 34 :: rest) = Some (source is, rest) /\ means CString (source is) is.
Proof. intros is rest F NB FO. split; [now apply c_scan|]. now apply c_means. Qed.

(** The proviso is needed: an escaped brace before a hole is an error, and an escaped backslash
    before a hole makes it text. *)
Theorem C72_cstring_brace_refuted : exists is, Forall (fun i => hole_ok i /\ c_text i) is /\
  source is = [92; 123; 123; 120; 125] /\
  pieces CString (source is) = Some (Err (Desugar (BadEscape UnexpectedEndOfString))).
Proof.
  exists [Text [92; 123] [123]; Hole [[120]] None]. split; [|split; reflexivity].
  constructor; [|constructor; [|constructor]].
  - split; [exact I|]. apply (CSpells_cons [92; 123] 123 [] []); [apply Unit_letter; cbn; tauto|intros (b & _ & X); discriminate|constructor].
  - repeat constructor; cbn; try tauto; try discriminate; try lia.
Qed.
Theorem C72_cstring_backslash_refuted : exists is, Forall (fun i => hole_ok i /\ c_text i) is /\
  source is = [92; 92; 123; 120; 125] /\ ~ means CString (source is) is /\
  pieces CString (source is) = Some (Ok [PText [92; 123; 120]; PText [125]]).
Proof.
  exists [Text [92; 92] [92]; Hole [[120]] None]. split; [|split; [reflexivity|split; [|reflexivity]]].
  - constructor; [|constructor; [|constructor]].
    + split; [exact I|]. apply (CSpells_cons [92; 92] 92 [] []); [apply Unit_letter; cbn; tauto|intros (b & _ & X); discriminate|constructor].
    + repeat constructor; cbn; try tauto; try discriminate; try lia.
  - intros (ps & E & V). assert (P : pieces CString [92; 92; 123; 120; 125] = Some (Ok [PText [92; 123; 120]; PText [125]])) by reflexivity.
    cbn [source map concat item_source join app] in E. rewrite P in E. injection E as <-. specialize (V (fun _ _ _ => [])). cbn in V.
    inversion V as [|? ? ? ? ? V1|]; subst. inversion V1 as [| |? ? ? ? ? ? ? V2]; subst. inversion V2; subst. discriminate.
Qed.

(** Whatever the content, the string compiles or is refused; the parser never meets a token it
    does not expect, and its only complaint is a hole left open. *)
Theorem C72_total : forall p s, exists r, pieces p s = Some r /\
  (forall es, r = Err (Parse es) -> es = [UnclosedStringInterpolation]).
Proof. exact pieces_total. Qed.

(** The tokens are slices of the content, in order, and leave out only whitespace. *)
Theorem C72_tokens : forall cs s, exists ts, lex cs s = Some ts /\
  (forall t, In t ts -> t_text t <> [] /\ firstn (length (t_text t)) (skipn (t_start t) s) = t_text t) /\
  filter (fun c => negb (is_whitespace c)) (concat (map t_text ts)) = filter (fun c => negb (is_whitespace c)) s.
Proof.
  intros cs s. destruct (Lexed_total cs _ (mkLex s 0 false false) (le_n _)) as [ts HL]. exists ts. repeat split.
  - unfold lex. now rewrite (HL (length s) (le_n _)).
  - now apply (Lexed_spans _ _ _ HL [] eq_refl t).
  - now apply (Lexed_spans _ _ _ HL [] eq_refl t).
  - apply (Lexed_texts _ _ _ HL).
Qed.

(** Without whitespace nothing is left out; in a hole whitespace is, so the syntax tree does not
    have the text of the source. *)
Theorem C72_lossless_partial : forall cs s, Forall (fun c => is_whitespace c = false) s ->
  exists ts, lex cs s = Some ts /\ concat (map t_text ts) = s.
Proof.
  intros cs s F. destruct (Lexed_total cs _ (mkLex s 0 false false) (le_n _)) as [ts HL]. exists ts. split.
  - unfold lex. now rewrite (HL (length s) (le_n _)).
  - apply (Lexed_no_ws _ _ _ HL F).
Qed.
Theorem C72_lossless_refuted : exists s ts, lex false s = Some ts /\ concat (map t_text ts) <> s.
Proof. exists [123; 32; 120; 125]. eexists. split; [reflexivity|]. discriminate. Qed.

(** ["a{{b{x.y:%d} {0}{}"] *)
Example C72_example :
  let is := [Text [97; 123; 123; 98] [97; 123; 98]; Hole [[120]; [121]] (Some [37; 100]); Text [32] [32]; Hole [[48]] None; Hole [] None] in
  Forall (fun i => hole_ok i /\ plain_text i) is /\ (forall s, follows is s -> ~ begins 125 s) /\
  source is = [97; 123; 123; 98; 123; 120; 46; 121; 58; 37; 100; 125; 32; 123; 48; 125; 123; 125] /\
  pieces Plain (source is) = Some (Ok [PText [97]; PText [123]; PText [98]; PHole (Path [120] [[121]]) (Some [37; 100]); PText [32]; PHole (Numbered 0) None; PHole Anonymous None]).
Proof.
  cbv zeta. split; [|split; [|split; reflexivity]].
  - repeat constructor; cbn; try tauto; try discriminate; try lia.
    exists 37, [100]. repeat split; try discriminate. repeat constructor; cbn; lia.
  - intros s (pre & ns & f & post & E & ->).
    destruct pre as [|a [|b [|c [|d [|e pre]]]]]; cbn in E; injection E; intros; subst; try discriminate; intros [r X]; cbn in X; try discriminate.
    destruct pre; discriminate.
Qed.

(** [c"a\n{x}b\}"] *)
Example C72_example_c :
  let is := [Text [97; 92; 110] [97; 10]; Hole [[120]] None; Text [98; 92; 125] [98; 125]] in
  Forall (fun i => hole_ok i /\ c_text i) is /\ ~ begins 92 (source is) /\ (forall s, follows is s -> ~ begins 92 s) /\
  pieces CString (source is) = Some (Ok [PText [97; 10]; PHole (Name [120]) None; PText [98; 125]]).
Proof.
  cbv zeta. split; [|split; [|split; [|reflexivity]]].
  - constructor; [|constructor; [|constructor; [|constructor]]].
    + split; [exact I|]. apply (CSpells_cons [97] 97 [92; 110] [10]); [constructor; discriminate|intros (b & I & X); injection X as <-; cbn in I; intuition discriminate|].
      apply (CSpells_cons [92; 110] 10 [] []); [apply Unit_letter; cbn; tauto|intros (b & _ & X); discriminate|constructor].
    + repeat constructor; cbn; try tauto; try discriminate; try lia.
    + split; [exact I|]. apply (CSpells_cons [98] 98 [92; 125] [125]); [constructor; discriminate|intros (b & I & X); injection X as <-; cbn in I; intuition discriminate|].
      apply (CSpells_cons [92; 125] 125 [] []); [apply Unit_letter; cbn; tauto|intros (b & _ & X); discriminate|constructor].
  - intros [r X]. discriminate.
  - intros s (pre & ns & f & post & E & ->).
    destruct pre as [|a [|b [|c pre]]]; cbn in E; injection E; intros; subst; try discriminate; intros [r X]; cbn in X; try discriminate.
    destruct pre; discriminate.
Qed.

(** A format that starts with a dot is dropped without a word: ["{x:.2f}"]. *)
Example C72_format_dropped : pieces Plain [123; 120; 58; 46; 50; 102; 125] = Some (Ok [PHole (Name [120]) None]).
Proof. reflexivity. Qed.

Print Assumptions C70_exact.
Print Assumptions C70_errors.
Print Assumptions C70_decides.
Print Assumptions C70_one_value.
Print Assumptions C70_every_text.
Print Assumptions C70_ascii.
Print Assumptions C70_append.
Print Assumptions C70_scalar.
Print Assumptions C71_shell_escape.
Print Assumptions C71_dq_escape_exact.
Print Assumptions C71_dq_escape_partial.
Print Assumptions C71_dq_escape_refuted.
Print Assumptions C72_template_partial.
Print Assumptions C72_template_exact.
Print Assumptions C72_brace_after_hole_refuted.
Print Assumptions C72_cstring_partial.
Print Assumptions C72_cstring_brace_refuted.
Print Assumptions C72_cstring_backslash_refuted.
Print Assumptions C72_total.
Print Assumptions C72_tokens.
Print Assumptions C72_lossless_partial.
Print Assumptions C72_lossless_refuted.
