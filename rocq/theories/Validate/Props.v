(** C77: which sources are accepted. *)
From Coq Require Import String Ascii.
From Coq Require Import List NArith Bool Arith Lia.
Import ListNotations.
From Verif.Text Require Import Model.
From Verif.Lexer Require Import Model Spec.
From Verif.Parser Require Import Model Spec Grammar Trees.
From Verif.Parser Require Props GrammarProps.
From Verif.Validate Require Import Model Spec Sound Accepts.
Open Scope nat_scope.

(** ** C77: accepted sources *)

(** The kind of a declaration is the form of its head. *)
Theorem C77_heads : forall hs k, classify hs = inl k <-> Heads hs k.
Proof. intros hs k. split; [apply classify_sound|apply classify_complete]. Qed.
Theorem C77_one_kind : forall hs k k', Heads hs k -> Heads hs k' -> k = k'.
Proof. intros hs k k' H H'. apply C77_heads in H, H'. congruence. Qed.

Section C77.
Context (U : tables) (mirrored : N -> option N) (zdt : text -> bool).
Notation validate := (validate U mirrored zdt).
Notation accepted := (accepted U mirrored zdt).

(** There is no complaint about a tree exactly if all the parts of it that are looked at are in order. *)
Theorem C77_complaints : forall t, validate t = [] <-> forall n ts, Reached t (Node n ts) -> InOrder U mirrored zdt n ts.
Proof. exact (validate_reached U mirrored zdt). Qed.

(** What is accepted is the tree of all the tokens; the parser had no error, and all that is looked
    at is in order. *)
Theorem C77_accepted : forall ws t, accepted (parse_unit ws) = Some t \/ accepted (parse_expression ws) = Some t ->
  leaves t = ws /\ (parse_unit ws = Parsed t [] \/ parse_expression ws = Parsed t []) /\ forall n ts, Reached t (Node n ts) -> InOrder U mirrored zdt n ts.
Proof.
  assert (G : forall o t, accepted o = Some t -> o = Parsed t [] /\ validate t = []).
  { intros [t' es| |] t; cbn; try discriminate. destruct es; [|discriminate]. destruct (validate t') eqn:V; [|discriminate]. intros E. injection E as <-. now split. }
  intros ws t [H | H]; apply G in H; destruct H as [P V]; (split; [eapply Parser.Props.C75_lossless; eauto|]); (split; [auto|now apply C77_complaints]).
Qed.

Lemma accepted_good : forall o t, o = Parsed t [] -> Good t ->
  (accepted o = Some t <-> forall n ts, Reached t (Node n ts) -> Proper U mirrored zdt n ts).
Proof.
  intros o t -> G. unfold Model.accepted, check. split.
  - destruct (validate t) eqn:V; [|discriminate]. intros _ n ts R. apply in_order_proper. apply (proj1 (C77_complaints t) V). exact R.
  - intros H. rewrite (proj2 (C77_complaints t)); [reflexivity|]. intros n ts R. apply good_in_order; [eapply good_reached; eassumption|now apply H].
Qed.

(** A source by the grammar is accepted exactly if each declaration that is looked at has a head
    of one of the forms, and each literal, name and pair of brackets is proper. *)
Theorem C77_accepts : forall t, Unit t ->
  (accepted (parse_unit (leaves t)) = Some t <-> forall n ts, Reached t (Node n ts) -> Proper U mirrored zdt n ts).
Proof. intros t H. apply accepted_good; [now apply GrammarProps.C76_parses|now apply good_unit]. Qed.
(** The same of an expression, that has an element. *)
Theorem C77_accepts_expression : forall ts e, Mixed ts -> In e ts -> Element e ->
  (accepted (parse_expression (leaves (Node SOUP ts))) = Some (Node SOUP ts) <-> forall n us, Reached (Node SOUP ts) (Node n us) -> Proper U mirrored zdt n us).
Proof.
  intros ts e M I E. apply accepted_good; [apply GrammarProps.C76_parses; now apply expression_of_mixed|]. apply (mixed_good [] ts e); auto. intros ? [].
Qed.

End C77.

(** ** What is accepted and should not be *)

Definition guillemet (c : N) : option N := if N.eqb c 171 then Some 187%N else None.
Definition accepts (s : text) : option tree :=
  match tokens Props.guillemets s with
  | Some ts => accepted Props.guillemets guillemet (fun _ => false) (parse_unit (words_of ts))
  | None => None
  end.
Notation chars := Parser.Props.chars.

(** A list that is not closed is accepted, at the end of the source. *)
Theorem C77_unclosed_refuted : unicode Props.guillemets /\
  Forall (fun s => accepts s <> None) [chars "x: [1, 2"; chars "x: [1, [2"; chars "x: f[1"] /\
  Forall (fun s => accepts s = None) [chars "x: (1"; chars "x: f(1"; chars "x: {a: 1"; chars "x: [1, 2}"].
Proof. split; [exact Props.guillemets_unicode|]. split; repeat constructor; vm_compute; discriminate. Qed.

(** Something of the source was set aside, and is not looked at. *)
Inductive Aside : tree -> Prop :=
| aside_here : forall ts, Aside (Node ERROR_STOWAWAYS ts)
| aside_below : forall n ts t, In t ts -> Aside t -> Aside (Node n ts).
Fixpoint aside (t : tree) : bool :=
  match t with Leaf _ _ => false | Node ERROR_STOWAWAYS _ => true | Node _ ts => existsb aside ts end.
Lemma aside_spec : forall t, aside t = true -> Aside t.
Proof.
  fix IH 1. intros [n ts|k s] E; [|discriminate E]. destruct (node_eq_dec n ERROR_STOWAWAYS) as [-> | NE]; [apply aside_here|].
  assert (X : existsb aside ts = true) by (destruct n; try exact E; congruence). clear E NE.
  enough (H : exists t, In t ts /\ Aside t) by (destruct H as (t & I & A); eapply aside_below; eassumption).
  revert ts X. fix IHl 1. intros [|t ts] X; [discriminate X|]. cbn [existsb] in X. destruct (aside t) eqn:E.
  - exists t. split; [now left|apply IH; exact E].
  - destruct (IHl ts X) as (u & I & A). exists u. split; [now right|exact A].
Qed.
(** Words after a comma, in a block in brackets other than braces and in the pattern of a
    parameter: they are dropped, and the source is accepted. *)
Theorem C77_dropped_refuted : unicode Props.guillemets /\
  Forall (fun s => exists t, accepts s = Some t /\ Aside t)
    [chars "x: " ++ [171%N] ++ chars "a: 1, b c" ++ [187%N]; chars "f({a: 1, b c}): 1"] /\
  accepts (chars "x: {a: 1, b c}") = None.
Proof.
  split; [exact Props.guillemets_unicode|]. split; [|vm_compute; reflexivity].
  repeat constructor; (eexists; split; [vm_compute; reflexivity|]; apply aside_spec; vm_compute; reflexivity).
Qed.

(** ** Examples *)

Example C77_example : accepts (chars "{} `m f(x): g{a: x}, b: [1: y]") = Some GrammarProps.example_tree.
Proof. vm_compute. reflexivity. Qed.
(** Heads of each form. *)
Example C77_example_heads : accepts (chars "x: 1 f(x, {y}, [z]): 1 (!): 1 (! x): 1 (x !): 1 (x + y): 1 ") <> None /\
  accepts ([171%N] ++ chars "x" ++ [187%N] ++ chars ": 1") <> None /\ accepts (chars "f(1): 1") = None /\ accepts (chars "(x y): 1") = None.
Proof. repeat split; vm_compute; try discriminate; reflexivity. Qed.

Print Assumptions C77_heads.
Print Assumptions C77_one_kind.
Print Assumptions C77_complaints.
Print Assumptions C77_accepted.
Print Assumptions C77_accepts.
Print Assumptions C77_accepts_expression.
Print Assumptions C77_unclosed_refuted.
Print Assumptions C77_dropped_refuted.
