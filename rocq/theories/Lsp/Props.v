(** * C104, C105: positions, references and renaming in the language server *)
From Coq Require Import List NArith Arith Bool Lia.
From Verif.Lsp Require Import Model Spec Places Tokens.
Import ListNotations.

(** ** C104: positions and offsets *)

(** The position of the place after [p] in a text is the lines ended in [p] and the UTF-16 units since;
    and from it the place is found again. *)
Theorem C104_position : forall p q, to_position (p ++ q) (bytes p) = place p.
Proof. exact to_position_place. Qed.

Theorem C104_offset : forall p q, to_offset (p ++ q) (place p) = bytes p.
Proof. exact to_offset_place. Qed.

(** So different places of a text have different positions. *)
Theorem C104_injective : forall p q p' q', p ++ q = p' ++ q' -> place p = place p' -> p = p'.
Proof.
  intros p q p' q' E P.
  assert (bytes p = bytes p') as B by (rewrite <- (to_offset_place p q), <- (to_offset_place p' q'), E, P; reflexivity).
  rewrite <- (upto_app p q), <- (upto_app p' q'), E, B. reflexivity.
Qed.

(** A character beyond the end of its line means the end of the line, a line beyond the last the end
    of the text. *)
Theorem C104_clamped : forall a b q n, line_begins a -> one_line b -> line_ends q -> units b <= n ->
  to_offset (a ++ b ++ q) (fst (place a), n) = bytes (a ++ b).
Proof. exact to_offset_past. Qed.

Theorem C104_beyond : forall t l n, fst (place t) < l -> to_offset t (l, n) = bytes t.
Proof. exact to_offset_beyond. Qed.

(** The two ways in which the server computes positions agree. *)
Theorem C104_alias : forall p q, alias_position (p ++ q) (bytes p) = to_position (p ++ q) (bytes p).
Proof. intros. rewrite to_position_place. apply (pos_for_place p q 0 0 0). Qed.

(** The protocol also ends lines at a lone carriage return; the server does not. *)
Theorem C104_return_refuted : ~ forall p q, fst (to_position (p ++ q) (bytes p)) = protocol_lines p.
Proof. intros H. specialize (H [97; 13; 98]%N [99%N]). discriminate. Qed.

(** Two lines, a character of two bytes, and one of two UTF-16 units. *)
Example C104_example :
  to_position [97; 10; 233; 128512; 98; 99]%N 8 = (1, 3) /\ to_offset [97; 10; 233; 128512; 98; 99]%N (1, 3) = 8.
Proof. split; reflexivity. Qed.
Example C104_clamped_example : line_begins [97; 10]%N /\ one_line [98%N] /\ line_ends [10; 99]%N /\ units [98%N] <= 7.
Proof.
  split; [right; exists [97%N]; reflexivity | ]. split; [intros [E | []]; discriminate | ].
  split; [right; exists [99%N]; reflexivity | cbn; lia].
Qed.

(** ** C105: references and renaming *)

Lemma edits_some : forall before src start t after new, is_identifier t = true ->
  edits_from src start (before ++ t :: after) (identifier_text t) new <> [].
Proof.
  induction before as [ | b before IH]; intros src start t after new I; cbn [app edits_from].
  - rewrite I. replace (text_eqb (identifier_text t) (identifier_text t)) with true
      by (symmetry; apply text_eqb_eq; reflexivity). discriminate.
  - intros Z. apply app_eq_nil in Z. destruct Z as [_ Z]. exact (IH _ _ _ _ _ I Z).
Qed.

(** With the cursor on or at either end of an identifier, one that touches the cursor is chosen, and
    the edits, applied by an editor, change every identifier of its name to the new name, in quotes
    where it was in quotes, and nothing else. *)
Theorem C105_rename : forall toks p q new, well_formed toks -> source toks = p ++ q ->
  ((exists t, touches toks (bytes p) t) <-> rename toks (place p) new <> None)
  /\ (forall es, rename toks (place p) new = Some es ->
      exists t old outs, touches toks (bytes p) t /\ names t old
        /\ Forall2 (renamed old new) toks outs /\ edited [] (source toks) es (concat outs)).
Proof.
  intros toks p q new W E. unfold rename.
  assert (to_offset (source toks) (place p) = bytes p) as -> by (rewrite E; apply to_offset_place).
  destruct (find_identifier_at toks (bytes p)) as [t | ] eqn:F.
  - pose proof (find_sound _ _ _ F) as T. pose proof T as (before & after & Et & K & L).
    assert (ok t) as Ot by (apply (proj1 (Forall_forall _ _) W); rewrite Et; apply in_elt).
    assert (is_identifier t = true) as I by (unfold is_identifier; destruct (tkind t); congruence || reflexivity).
    pose proof (identifier_names t Ot I) as N.
    destruct (edits_edited toks [] [] [] (identifier_text t) new W eq_refl) as (outs & R & D).
    cbn [app source map concat bytes] in D. fold (source toks) in D.
    assert (edits_from (source toks) 0 toks (identifier_text t) new <> []) as NE.
    { rewrite Et. apply edits_some; assumption. }
    split.
    + split; [ | eauto]. intros _. destruct (edits_from (source toks) 0 toks (identifier_text t) new); congruence || discriminate.
    + intros es H. exists t, (identifier_text t), outs.
      destruct (edits_from (source toks) 0 toks (identifier_text t) new) eqn:X; [contradiction | ].
      injection H as <-. auto.
  - split; [ | discriminate]. split; [ | congruence]. intros [t T].
    destruct (find_complete toks (bytes p) t W T) as [u U]. congruence.
Qed.

(** References: the ranges of all the identifiers of that name, without those in the heads of
    declarations if they are not asked for. *)
Theorem C105_references : forall toks p q decls rs, well_formed toks -> source toks = p ++ q ->
  find_references toks (place p) decls = Some rs ->
  exists t name, touches toks (bytes p) t /\ names t name
    /\ ranges_of (fun u => names u name /\ (decls = false -> in_head u = false)) [] toks rs.
Proof.
  intros toks p q decls rs W E. unfold find_references.
  assert (to_offset (source toks) (place p) = bytes p) as -> by (rewrite E; apply to_offset_place).
  destruct (find_identifier_at toks (bytes p)) as [t | ] eqn:F; [ | discriminate]. intros H.
  pose proof (find_sound _ _ _ F) as T. pose proof T as (before & after & Et & K & L).
  assert (ok t) as Ot by (apply (proj1 (Forall_forall _ _) W); rewrite Et; apply in_elt).
  assert (is_identifier t = true) as I by (unfold is_identifier; destruct (tkind t); congruence || reflexivity).
  exists t, (identifier_text t). split; [exact T | ]. split; [apply identifier_names; assumption | ].
  pose proof (locations_ranges toks [] (identifier_text t) decls W) as R.
  cbn [app source map concat bytes] in R. fold (source toks) in R.
  destruct (locations_from (source toks) 0 toks (identifier_text t) decls); [discriminate | ].
  injection H as <-. exact R.
Qed.

(** If the new name is not in use, identifiers had the same name before exactly if they have after. *)
Theorem C105_fresh : forall old new t x a u y b a' b',
  renamed old new t x -> names t a -> renamed old new u y -> names u b -> a <> new -> b <> new ->
  names (Token (tkind t) x (in_head t)) a' -> names (Token (tkind u) y (in_head u)) b' ->
  (a' = b' <-> a = b).
Proof.
  assert (forall old new t x a a', renamed old new t x -> names t a ->
    names (Token (tkind t) x (in_head t)) a' -> a = old /\ a' = new \/ a <> old /\ a' = a) as K.
  { intros old new t x a a' R N0 N'. pose proof (names_identifier _ _ N0) as [I N].
    apply names_identifier in N'. destruct N' as [I' N'].
    destruct R as [t K E | t K E | t R].
    - left. unfold identifier_text in *. cbn in *. destruct K as [K | K]; rewrite K in *; subst; auto.
    - left. assert (names t old) as M by (apply n_quoted; assumption). apply names_identifier in M.
      destruct M as [_ M]. split; [congruence | ].
      assert (names (Token (tkind t) (39%N :: new ++ [39%N]) (in_head t)) new) as M' by (apply n_quoted; [exact K | reflexivity]).
      apply names_identifier in M'. destruct M' as [_ M']. congruence.
    - right. assert (identifier_text (Token (tkind t) (ttext t) (in_head t)) = identifier_text t) as Q by reflexivity.
      split; [ | congruence]. intros ->. exact (R N0). }
  intros old new t x a u y b a' b' R1 N1 R2 N2 A B N1' N2'.
  destruct (K _ _ _ _ _ _ R1 N1 N1') as [[-> ->] | [X ->]];
    destruct (K _ _ _ _ _ _ R2 N2 N2') as [[-> ->] | [Y ->]]; split; intros; congruence.
Qed.

(** But a new name that is in use already is not refused, and then different names become one:
    renaming x to y. *)
Definition two : list token :=
  [Token Unquoted [120%N] true; Token Other [58; 49; 10]%N false; Token Unquoted [121%N] true; Token Other [58; 50]%N false].
Theorem C105_capture_refuted : ~ forall toks p q old new t es, well_formed toks -> source toks = p ++ q ->
  touches toks (bytes p) t -> names t old -> old <> new ->
  rename toks (place p) new = Some es -> forall u, In u toks -> ~ names u new.
Proof.
  intros H.
  assert (well_formed two) as W.
  { repeat constructor; try discriminate; cbn; intros E; discriminate. }
  refine (H two [] (source two) [120%N] [121%N] (Token Unquoted [120%N] true) _ W eq_refl _ _ _ eq_refl
            (Token Unquoted [121%N] true) _ _).
  - exists [], (tl two). split; [reflexivity | ]. split; [discriminate | cbn; lia].
  - apply (n_plain (Token Unquoted [120%N] true)). left. reflexivity.
  - discriminate.
  - right. right. left. reflexivity.
  - apply (n_plain (Token Unquoted [121%N] true)). left. reflexivity.
Qed.

(** The new name need not be a name: spaces are accepted where there are no quotes. *)
Theorem C105_unchecked_refuted : ~ forall toks p q new es, well_formed toks -> source toks = p ++ q ->
  rename toks (place p) new = Some es -> forall r, In (r, new) es -> ~ In 32%N new.
Proof.
  intros H.
  assert (well_formed two) as W.
  { repeat constructor; try discriminate; cbn; intros E; discriminate. }
  refine (H two [] (source two) [97; 32; 98]%N _ W eq_refl eq_refl ((0, 0), (0, 1)) _ _).
  - left. reflexivity.
  - right. left. reflexivity.
Qed.

Example C105_example :
  rename two (place [120; 58; 49; 10]%N) [122; 122]%N = Some [(((1, 0), (1, 1)), [122; 122]%N)]
  /\ find_references two (place []) false = None /\ find_references two (place [120%N]) true = Some [((0, 0), (0, 1))].
Proof. repeat split. Qed.

Print Assumptions C104_position.
Print Assumptions C104_offset.
Print Assumptions C104_injective.
Print Assumptions C104_clamped.
Print Assumptions C104_beyond.
Print Assumptions C104_alias.
Print Assumptions C104_return_refuted.
Print Assumptions C105_rename.
Print Assumptions C105_references.
Print Assumptions C105_fresh.
Print Assumptions C105_capture_refuted.
Print Assumptions C105_unchecked_refuted.
