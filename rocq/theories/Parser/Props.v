(** C75: the parser ends, keeps every token, and does not panic on clear sources. *)
From Coq Require Import String Ascii.
From Coq Require Import List NArith Bool Arith Lia.
Import ListNotations.
From Verif.Text Require Import Model.
From Verif.Lexer Require Import Model Spec.
From Verif.Parser Require Import Model Spec Halts Builds Lexed.
From Verif.Lexer Require Props.
Open Scope nat_scope.

(** ** C75: parsing *)

(** The parser ends on any tokens. *)
Theorem C75_total : forall ws, parse_unit ws <> OutOfFuel /\ parse_expression ws <> OutOfFuel.
Proof. intros ws. split; [apply unit_halts|apply expression_halts]. Qed.

(** The leaves of the tree are the tokens: none is lost, added, changed or moved, whatever errors
    there are. *)
Theorem C75_lossless : forall ws t es, parse_unit ws = Parsed t es \/ parse_expression ws = Parsed t es -> leaves t = ws.
Proof.
  intros ws t es H. assert (F : forall r, finished ws r = Parsed t es -> leaves t = ws).
  { intros [a os es' used rest| |] E; try discriminate. cbn in E. destruct (build ws (concat (map events_of os)) rest) as [t'|] eqn:B; [|discriminate E]. injection E as -> _. eapply build_leaves. exact B. }
  destruct H as [H | H]; eapply F; exact H.
Qed.

(** On clear tokens the parser makes a tree of all of them, and the errors are about places in
    the source.  What is missing: it panics on some tokens that are not clear, see below; others
    it parses, and the condition is only sufficient. *)
Theorem C75_parses_partial : forall ws, clear ws ->
  (exists t es, parse_unit ws = Parsed t es /\ is_node UNIT t /\ leaves t = ws /\ Forall (located (width ws)) es) /\
  (exists t es, parse_expression ws = Parsed t es /\ is_node SOUP t /\ leaves t = ws /\ Forall (located (width ws)) es).
Proof.
  intros ws C. split.
  - destruct (unit_parses ws C) as (ts & es & E & T & F). exists (Node UNIT ts), es. split; [exact E|]. split; [eexists; reflexivity|]. auto.
  - destruct (expression_parses ws C) as (ts & es & E & T & F). exists (Node SOUP ts), es. split; [exact E|]. split; [eexists; reflexivity|]. auto.
Qed.

Section C75.
Context (U : tables) (HU : unicode U).

(** The same of sources: only colons and brackets matter. *)
Theorem C75_sources_partial : forall s ts, tokens U s = Some ts -> spaced (words_of ts) ->
  (exists t es, parse_unit (words_of ts) = Parsed t es /\ is_node UNIT t /\ leaves t = words_of ts /\ Forall (located (length s)) es) /\
  (exists t es, parse_expression (words_of ts) = Parsed t es /\ is_node SOUP t /\ leaves t = words_of ts /\ Forall (located (length s)) es).
Proof.
  intros s ts E S. pose proof (width_words U HU s ts E) as W. pose proof (lexed_clear U HU s ts E S) as C.
  assert (LE : forall es, Forall (located (width (words_of ts))) es -> Forall (located (length s)) es).
  { intros es F. eapply Forall_impl; [|exact F]. intros e [L1 L2]. split; [exact L1|lia]. }
  destruct (C75_parses_partial _ C) as [(t & es & H1 & H2 & H3 & H4) (t' & es' & H1' & H2' & H3' & H4')]. split; [exists t, es|exists t', es']; auto.
Qed.

(** The text of the tree is the source, but for spaces in the holes of strings. *)
Theorem C75_text : forall s ts t es, tokens U s = Some ts -> parse_unit (words_of ts) = Parsed t es \/ parse_expression (words_of ts) = Parsed t es ->
  visible (concat (map snd (leaves t))) = visible s /\
  ((forall t' q, In t' ts -> kind_of t' <> PATTERN_START q) -> concat (map snd (leaves t)) = s).
Proof.
  intros s ts t es E P. rewrite (C75_lossless _ _ _ P), text_of_words. split.
  - apply (Lexer.Props.C73_source U HU s ts E).
  - apply (Lexer.Props.C73_lossless U HU s ts E).
Qed.

End C75.

(** ** Where it panics *)

Definition chars (s : string) : text := map N_of_ascii (list_ascii_of_string s).
Definition guillemets : tables :=
  {| alphabetic := fun _ => false; alphanumeric := fun _ => false;
     general_category := fun c => if N.eqb c 171 then Initial else if N.eqb c 187 then Final else Other |}.
Lemma guillemets_unicode : unicode guillemets.
Proof.
  intros c W. repeat split. cbn. destruct (N.eqb c 171) eqn:E1; [apply N.eqb_eq in E1; subst; discriminate W|].
  destruct (N.eqb c 187) eqn:E2; [apply N.eqb_eq in E2; subst; discriminate W|reflexivity].
Qed.
Definition unit_of (s : text) : option outcome := option_map (fun ts => parse_unit (words_of ts)) (tokens guillemets s).
Definition expression_of (s : text) : option outcome := option_map (fun ts => parse_expression (words_of ts)) (tokens guillemets s).

(** It panics where a colon comes directly before a backtick; where only spaces come between two
    colons, or directly after the first an operator or parentheses; and at the end of a source
    with a bracket that is not closed. *)
Theorem C75_panics_refuted : unicode guillemets /\
  Forall (fun s => unit_of s = Some Panicked)
    [chars "a: :"; chars "a:+: 1"; chars "a:(b): 1"; chars "a:(b)(c): 1"; chars "a:`b c: 1"; [171%N; 120%N]; chars "{a: :}"] /\
  expression_of [171%N; 120%N] = Some Panicked.
Proof. split; [exact guillemets_unicode|]. split; [repeat constructor|reflexivity]. Qed.

(** Spaces in the holes of strings, which are not in any token, displace the places of later
    errors: two colons are reported where there are none. *)
Theorem C75_places_refuted : unicode guillemets /\
  exists s t r, unit_of s = Some (Parsed t [InvalidDoubleColon r]) /\ at_range r s <> chars "::".
Proof.
  split; [exact guillemets_unicode|]. exists ([34%N] ++ chars "{ x }" ++ [34%N] ++ chars " a:: b"). eexists _, _. split; [lazy; reflexivity|]. discriminate.
Qed.

(** ** Examples *)

(** Two declarations of a block, the first with metadata. *)
Example C75_example : exists t, unit_of (chars "`m f(x): x, b: [1]") = Some (Parsed t []) /\
  t = Node UNIT
    [Node DECLARATION
       [Node DECL_META [Node SOUP [Leaf BACKTICK (chars "`"); Node NAME [Leaf UNQUOTED_IDENTIFIER (chars "m")]; Leaf WHITESPACE (chars " ")]];
        Node DECL_HEAD [Node NAME [Leaf UNQUOTED_IDENTIFIER (chars "f")]; Node ARG_TUPLE [Leaf OPEN_PAREN_APPLY (chars "("); Node SOUP [Node NAME [Leaf UNQUOTED_IDENTIFIER (chars "x")]]; Leaf CLOSE_PAREN (chars ")")]];
        Leaf COLON (chars ":");
        Node DECL_BODY [Node SOUP [Leaf WHITESPACE (chars " "); Node NAME [Leaf UNQUOTED_IDENTIFIER (chars "x")]]]];
     Leaf COMMA (chars ","); Leaf WHITESPACE (chars " ");
     Node DECLARATION
       [Node DECL_HEAD [Node NAME [Leaf UNQUOTED_IDENTIFIER (chars "b")]];
        Leaf COLON (chars ":");
        Node DECL_BODY [Node SOUP [Leaf WHITESPACE (chars " "); Node LIST [Leaf OPEN_SQUARE (chars "["); Node SOUP [Node LITERAL [Leaf NUMBER (chars "1")]]; Leaf CLOSE_SQUARE (chars "]")]]]]].
Proof. eexists. split; lazy; reflexivity. Qed.

(** Its tokens are clear: each colon is followed by a space and then by what is neither a colon nor
    a bracket that is applied. *)
Lemma not_crowded : forall w v b, is_trivial (fst w) = true -> is_trivial (fst v) = false -> fst v <> COLON -> ~ applies (fst v) -> ~ crowded (w :: v :: b).
Proof.
  intros w v b W V1 V2 V3 [(x & b' & E & K) | (h & x & b' & E & K & H)].
  - injection E as -> _. rewrite K in W. discriminate W.
  - destruct H as [(y & l & -> & H) | (y & tr & l & -> & _ & T & H)].
    + injection E as <- _. destruct (fst w); try discriminate W; destruct H as [H | H]; cbn in H; intuition discriminate.
    + injection E as <- E. destruct tr as [|z tr].
      * destruct H as [-> | (z & l' & -> & H)]; injection E as <- _; contradiction.
      * injection E as <- _. inversion T as [|? ? T1 _]. rewrite T1 in V1. discriminate V1.
Qed.
Example C75_example_spaced : exists ts, tokens guillemets (chars "`m f(x): x, b: [1]") = Some ts /\ spaced (words_of ts).
Proof.
  eexists. split; [lazy; reflexivity|]. intros a w b E.
  assert (NC : forall k s k' s' b, is_trivial k = true -> is_trivial k' = false -> k' <> COLON -> ~ applies k' -> ~ crowded ((k, s) :: (k', s') :: b)) by (intros; apply not_crowded; assumption).
  repeat (destruct a as [|? a]; [injection E as <- <-; first [exact I | apply NC; [reflexivity|reflexivity|discriminate|cbn; intuition discriminate]]|injection E as _ E]).
  destruct a; discriminate E.
Qed.

Print Assumptions C75_total.
Print Assumptions C75_lossless.
Print Assumptions C75_parses_partial.
Print Assumptions C75_sources_partial.
Print Assumptions C75_text.
Print Assumptions C75_panics_refuted.
Print Assumptions C75_places_refuted.
