(** Properties C01-C04: operator resolution. *)
From Coq Require Import List ZArith NArith Bool Permutation.
From Verif.Shunt Require Import Model Spec Proofs Proofs2 Proofs3.
Import ListNotations.
Open Scope Z_scope.

(** ** C01: precedence and associativity *)

(** An infix expression resolves to the one tree that reads as written and
    obeys precedence and associativity. *)
Theorem C01_infix_textbook : forall toks t,
  infix_expr toks ->
  (shunt_tree toks = Done t <-> reading t = toks /\ textbook t).
Proof. exact shunt_infix. Qed.
Print Assumptions C01_infix_textbook.

Theorem C01_infix_total : forall toks,
  infix_expr toks -> exists t, shunt_tree toks = Done t.
Proof. exact shunt_infix_total. Qed.
Print Assumptions C01_infix_total.

(** With prefix, postfix and nullary operators, provided no prefix operator is
    looser than the operator directly to its left. *)
Theorem C01_entitled : forall toks t,
  operand_next toks -> prefixes_tight None toks ->
  (shunt_tree toks = Done t <-> arities_ok t /\ entitled t /\ reading t = toks).
Proof. exact shunt_tree_iff. Qed.
Print Assumptions C01_entitled.

Theorem C01_total : forall toks,
  operand_next toks -> prefixes_tight None toks ->
  exists t, shunt_tree toks = Done t /\ arities_ok t /\ entitled t /\ reading t = toks.
Proof. exact shunt_tree_sound. Qed.
Print Assumptions C01_total.

(** The expression produced is what that tree means. *)
Theorem C01_expression : forall merge toks t,
  operand_next toks -> shunt_tree toks = Done t ->
  shunt_expr merge toks
  = match meaning merge t with Some e => Done e | None => PanicApply end.
Proof. exact shunt_expr_meaning. Qed.
Print Assumptions C01_expression.

Definition num (n : N) : tok := TVal (EOther n n).
Definition infl (p : Z) (n : N) := mkOp n InfixLeft p (EOther n n).
Definition infr (p : Z) (n : N) := mkOp n InfixRight p (EOther n n).
Definition pre (p : Z) (n : N) := mkOp n UnaryPrefix p (EOther n n).
Definition post (p : Z) (n : N) := mkOp n UnaryPostfix p (EOther n n).

(** 1 + 2 * 3 ^ 4 ^ 5 - 6 *)
Definition sample : list tok :=
  [num 1; TOp (infl 75 10); num 2; TOp (infl 80 11); num 3; TOp (infr 90 12);
   num 4; TOp (infr 90 12); num 5; TOp (infl 75 13); num 6].
Example sample_infix : infix_expr sample.
Proof. unfold sample. infix_soup. Qed.
Example sample_resolves :
  shunt_tree sample
  = Done (Bin (infl 75 13)
           (Bin (infl 75 10) (Leaf (EOther 1 1))
             (Bin (infl 80 11) (Leaf (EOther 2 2))
               (Bin (infr 90 12) (Leaf (EOther 3 3))
                 (Bin (infr 90 12) (Leaf (EOther 4 4)) (Leaf (EOther 5 5))))))
           (Leaf (EOther 6 6))).
Proof. reflexivity. Qed.

(** - 1 ! + - 2 * 3, with [-] prefix 88 and [!] postfix 89 *)
Definition sample2 : list tok :=
  [TOp (pre 88 20); num 1; TOp (post 89 21); TOp (infl 75 10); TOp (pre 88 20); num 2;
   TOp (infl 80 11); num 3].
Example sample2_filled : operand_next sample2.
Proof. unfold sample2. filled_soup. Qed.
Example sample2_tight : prefixes_tight None sample2.
Proof. cbn. repeat split; intros H; exact (H eq_refl). Qed.
Example sample2_resolves :
  shunt_tree sample2
  = Done (Bin (infl 75 10)
            (Pre (pre 88 20) (Post (post 89 21) (Leaf (EOther 1 1))))
            (Bin (infl 80 11) (Pre (pre 88 20) (Leaf (EOther 2 2))) (Leaf (EOther 3 3)))).
Proof. reflexivity. Qed.

(** ** C02: nothing lost, nothing reordered *)

(** Any complete soup that resolves uses each of its tokens exactly once. *)
Theorem C02_no_token_lost : forall toks t,
  operand_next toks -> shunt_tree toks = Done t -> Permutation (reading t) toks.
Proof. exact shunt_tree_perm. Qed.
Print Assumptions C02_no_token_lost.

(** Order is kept when no prefix operator is looser than its left neighbour. *)
Theorem C02_order_partial : forall toks t,
  operand_next toks -> prefixes_tight None toks ->
  shunt_tree toks = Done t -> reading t = toks.
Proof. intros toks t H1 H2 H3. exact (proj2 (proj2 (proj1 (shunt_tree_iff toks t H1 H2) H3))). Qed.
Print Assumptions C02_order_partial.

(** Without that proviso it is false: [x + y * neg b] with a loose [neg]
    resolves, without an error, to [(x * y) + (neg b)]. *)
Theorem C02_order_refuted : exists toks t,
  operand_next toks /\ shunt_tree toks = Done t /\ reading t <> toks.
Proof.
  exists [num 1; TOp (infl 10 10); num 2; TOp (infl 50 11); TOp (pre 20 12); num 3].
  eexists. split; [filled_soup|]. split; [reflexivity|]. discriminate.
Qed.
Print Assumptions C02_order_refuted.

Example C02_refuted_tree :
  shunt_tree [num 1; TOp (infl 10 10); num 2; TOp (infl 50 11); TOp (pre 20 12); num 3]
  = Done (Bin (infl 10 10) (Bin (infl 50 11) (Leaf (EOther 1 1)) (Leaf (EOther 2 2)))
                           (Pre (pre 20 12) (Leaf (EOther 3 3)))).
Proof. reflexivity. Qed.

(** ** C03: resolution ends, without panicking *)

(** For every non-empty soup, malformed or not, and any amount of fuel above a
    linear bound the loop ends with the same outcome, which is not the "empty
    output" panic. *)
Theorem C03_terminates : forall merge toks n,
  (n >= 2 * length toks + 3)%nat ->
  shunt_fuel (fun e => e) o_body form_apply1 (form_apply2 merge) n toks = shunt_expr merge toks
  /\ shunt_expr merge toks <> NoFuel.
Proof. intros merge toks n. exact (shunt_fuel_enough _ _ _ _ toks n). Qed.
Print Assumptions C03_terminates.

Theorem C03_no_empty_panic : forall merge toks,
  toks <> [] -> shunt_expr merge toks <> PanicEmpty.
Proof. intros merge toks H. exact (proj2 (shunt_expr_ends merge toks H)). Qed.
Print Assumptions C03_no_empty_panic.

(** A complete soup in which calls have their arguments and nothing binds
    tighter than a call is resolved. *)
Theorem C03_resolves_partial : forall merge toks,
  operand_next toks -> prefixes_tight None toks -> calls_ok toks ->
  exists e, shunt_expr merge toks = Done e.
Proof. exact shunt_expr_safe. Qed.
Print Assumptions C03_resolves_partial.

(** The last proviso is needed: [f(x) op y] with an operator of precedence 95
    panics. *)
Theorem C03_no_panic_refuted : exists merge toks,
  operand_next toks /\ prefixes_tight None toks /\ shunt_expr merge toks = PanicApply.
Proof.
  exists N.max, [num 1; call; TVal (EArgTuple 2 [EOther 3 3]); TOp (infl 95 10); num 4].
  split; [filled_soup|]. split; [cbn; auto|]. reflexivity.
Qed.
Print Assumptions C03_no_panic_refuted.

(** f(x) + y *)
Definition sample3 : list tok :=
  [num 1; call; TVal (EArgTuple 2 [EOther 3 3]); TOp (infl 75 10); num 4].
Example sample3_ok : operand_next sample3 /\ prefixes_tight None sample3 /\ calls_ok sample3.
Proof.
  split; [filled_soup|]. split; [cbn; auto|].
  apply calls_ok_val, calls_ok_op; [|apply calls_ok_val, calls_ok_op].
  - split; [reflexivity|]. intros _. eexists _, _, _. split; [reflexivity|].
    intros b after'' E2. injection E2 as <- _. discriminate.
  - split; [|discriminate]. intros [H|[H|H]]; discriminate.
  - apply calls_ok_val, calls_ok_nil.
Qed.
Example sample3_resolves :
  shunt_expr N.max sample3
  = Done (EApp 10 (EOther 10 10) [EApp 2 (EOther 1 1) [EOther 3 3]; EOther 4 4]).
Proof. reflexivity. Qed.

(** ** C04: filling gaps *)

(** The result of filling alternates operands and operators properly. *)
Theorem C04_filled : forall xs out,
  xs <> [] -> fill_gaps xs = Some out -> operand_next out.
Proof. exact fill_gaps_filled. Qed.
Print Assumptions C04_filled.

(** It contains the original soup in order, plus only fillers. *)
Theorem C04_only_adds : forall xs out, fill_gaps xs = Some out -> ins xs xs out.
Proof. exact fill_gaps_ins. Qed.
Print Assumptions C04_only_adds.

(** A soup without gaps is left alone. *)
Theorem C04_no_gap_no_change : forall xs, operand_next xs -> fill_gaps xs = Some xs.
Proof. exact fill_gaps_id. Qed.
Print Assumptions C04_no_gap_no_change.

(** It fails exactly when some gap has no source id to name it by. *)
Theorem C04_error_iff : forall xs,
  fill_gaps xs = None
  <-> xs <> [] /\ exists l r, neighbours xs l r /\ unnameable l r.
Proof. exact fill_gaps_err. Qed.
Print Assumptions C04_error_iff.

(** The resolver fills gaps itself: resolving the raw soup and the filled soup
    is the same. *)
Theorem C04_fill_then_shunt : forall merge toks out,
  fill_gaps toks = Some out -> shunt_expr merge toks = shunt_expr merge out.
Proof. intros merge toks out. exact (shunt_fill _ _ _ _ toks out). Qed.
Print Assumptions C04_fill_then_shunt.

(** + f x *)
Example fill_sample :
  fill_gaps [TOp (infl 75 10); num 1; num 2]
  = Some [TVal (EAnaphor 10 SideLeft); TOp (infl 75 10); num 1; cat; num 2].
Proof. reflexivity. Qed.
Example fill_error_sample : fill_gaps [num 1; dot] = None.
Proof. reflexivity. Qed.
