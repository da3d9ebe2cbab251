(** The parser ends. *)
From Coq Require Import List NArith ZArith Bool Arith Lia.
Import ListNotations.
From Verif.Text Require Import Model.
From Verif.Lexer Require Import Model.
From Verif.Parser Require Import Model Spec.
Open Scope nat_scope.

(** Arithmetic, with [word] unfolded. *)
Ltac la := unfold word in *; lia.

Lemma bind_peek : forall A (f : option word -> parser A) used rest, (w <- peek;; f w) used rest = f (hd_error rest) used rest.
Proof. intros. unfold bind, peek. destruct (f (hd_error rest) used rest); reflexivity. Qed.
Lemma bind_look : forall A B (g : list word -> B) (f : B -> parser A) used rest,
  (w <- (fun used rest => Ret (g rest) [] [] used rest);; f w) used rest = f (g rest) used rest.
Proof. intros. unfold bind. destruct (f (g rest) used rest); reflexivity. Qed.

(** [halts n m s]: with at most [n] tokens to come [m] does not run out of fuel, and leaves no more
    tokens than there were, and fewer if [s] says so of its value. *)
Definition halts {A} (n : nat) (m : parser A) (s : A -> bool) : Prop :=
  forall used rest, length rest <= n ->
    match m used rest with
    | Ret a _ _ _ rest' => length rest' <= length rest /\ (s a = true -> length rest' < length rest)
    | Panic => True
    | Stuck => False
    end.
Definition never {A} (_ : A) : bool := false.

Lemma halts_bind : forall A B n (m : parser A) (f : A -> parser B) s,
  halts n m never -> (forall a, halts n (f a) s) -> halts n (bind m f) s.
Proof.
  intros A B n m f s M F used rest L. unfold bind. specialize (M used rest L).
  destruct (m used rest) as [a os es u r| |]; auto. destruct M as [M _].
  specialize (F a u r ltac:(la)). destruct (f a u r); auto. destruct F as [F1 F2]. split; [la|].
  intros E. specialize (F2 E). la.
Qed.
(** The first part consumes. *)
Lemma halts_bind_first : forall A B n (m : parser A) (f : A -> parser B) s s',
  halts n m s -> (forall a, halts n (f a) (if s a then never else s')) -> halts n (bind m f) s'.
Proof.
  intros A B n m f s s' M F used rest L. unfold bind. specialize (M used rest L).
  destruct (m used rest) as [a os es u r| |]; auto. destruct M as [M1 M2].
  specialize (F a u r ltac:(la)). destruct (f a u r); auto. destruct F as [F1 F2].
  destruct (s a) eqn:E; [specialize (M2 eq_refl)|]; split; try la; intros E'; try (specialize (F2 E'); la); la.
Qed.
(** After the first part there are fewer tokens. *)
Lemma halts_bind_less : forall A B n (m : parser A) (f : A -> parser B) s s',
  halts n m s -> (forall a, s a = true -> forall n', n' < n -> halts n' (f a) never) -> (forall a, s a = false -> halts n (f a) s') ->
  halts n (bind m f) s'.
Proof.
  intros A B n m f s s' M F G used rest L. unfold bind. specialize (M used rest L).
  destruct (m used rest) as [a os es u r| |]; auto. destruct M as [M1 M2].
  destruct (s a) eqn:E.
  - specialize (M2 eq_refl). specialize (F a E (length r) ltac:(la) u r (le_n _)). destruct (f a u r); auto. destruct F as [F1 _]. split; [la|intros; la].
  - specialize (G a E u r ltac:(la)). destruct (f a u r); auto. destruct G as [G1 G2]. split; [la|intros E'; specialize (G2 E'); la].
Qed.
Lemma halts_weaken : forall A n (m : parser A) s, halts n m s -> halts n m never.
Proof. intros A n m s M used rest L. specialize (M used rest L). destruct (m used rest); auto. split; [la|discriminate]. Qed.
Lemma halts_fewer : forall A n n' (m : parser A) s, halts n m s -> n' <= n -> halts n' m s.
Proof. intros A n n' m s M L used rest L'. apply M. la. Qed.

Lemma halts_ret : forall A n (a : A) s, s a = false -> halts n (ret a) s.
Proof. intros A n a s E used rest L. cbn. rewrite E. split; [la|discriminate]. Qed.
Lemma halts_start : forall n k, halts n (start k) never.
Proof. intros n k used rest L. cbn. split; [la|discriminate]. Qed.
Lemma halts_finish : forall n, halts n finish never.
Proof. intros n used rest L. cbn. split; [la|discriminate]. Qed.
Lemma halts_report : forall n e, halts n (report e) never.
Proof. intros n e used rest L. cbn. split; [la|discriminate]. Qed.
Lemma halts_peek : forall n, halts n peek never.
Proof. intros n used rest L. cbn. split; [la|discriminate]. Qed.
Lemma halts_take : forall n, halts n take never.
Proof. intros n used rest L. destruct rest; cbn; split; try la; discriminate. Qed.
Lemma halts_skip : forall n, halts n skip never.
Proof. intros n used rest L. destruct rest; cbn; split; try la; discriminate. Qed.
Lemma halts_next_range : forall n, halts n next_range never.
Proof. intros n used rest L. destruct rest; cbn; auto. split; [la|discriminate]. Qed.
Lemma halts_look : forall A n (f : list word -> A), halts n (fun used rest => Ret (f rest) [] [] used rest) never.
Proof. intros A n f used rest L. cbn. split; [la|discriminate]. Qed.
Lemma halts_scanned : forall A n (f : list word -> list word -> A * scan),
  (forall used rest, length (snd (snd (f used rest))) <= length rest) ->
  halts n (fun used rest => let '(a, s) := f used rest in scanned a s) never.
Proof.
  intros A n f H used rest L. specialize (H used rest). destruct (f used rest) as [a [[os u] r]]. cbn in *. split; [la|discriminate].
Qed.
Lemma also_rest : forall os s, snd (also os s) = snd s.
Proof. intros os [[o u] r]. reflexivity. Qed.

Lemma halts_trivia : forall n, halts n trivia never.
Proof.
  intros n used rest L. unfold trivia. revert used L. assert (H : forall rest used, length (snd (trivia_scan used rest)) <= length rest).
  { clear. induction rest as [|w rest IH]; intros used; cbn; [la|]. destruct (is_trivial (fst w)); cbn; [|la]. rewrite also_rest. specialize (IH (w :: used)). la. }
  intros used L. specialize (H rest used). destruct (trivia_scan used rest) as [[os u] r]. cbn in *. split; [la|discriminate].
Qed.
Lemma halts_recover : forall n c st, halts n (recover c st) never.
Proof.
  intros n c st used rest L. unfold recover.
  assert (H : forall rest used d b, length (snd (recover_scan c st d b used rest)) <= length rest).
  { clear. induction rest as [|w rest IH]; intros used d b; cbn; [la|].
    destruct (is (fst w) c && (d =? 0)); cbn; [la|]. destruct (among st (fst w)); cbn; [la|]. rewrite also_rest.
    match goal with |- length (snd (recover_scan _ _ ?d' _ _ _)) <= _ => specialize (IH (w :: used) d' true) end. la. }
  specialize (H rest used 0 false). destruct (recover_scan c st 0 false used rest) as [[os u] r]. cbn in *. split; [la|discriminate].
Qed.
Lemma halts_recover_args : forall n, halts n recover_args never.
Proof.
  intros n used rest L. unfold recover_args.
  assert (H : forall rest used, length (snd (args_scan used rest)) <= length rest).
  { clear. induction rest as [|w rest IH]; intros used; cbn [args_scan]; [cbn; la|].
    destruct (is (fst w) CLOSE_PAREN); [cbn; la|]. destruct (among _ (fst w)); [cbn; la|]. rewrite also_rest. specialize (IH (w :: used)). cbn; la. }
  specialize (H rest used). destruct (args_scan used rest) as [[os u] r]. cbn in *. split; [la|discriminate].
Qed.
Lemma halts_dots : forall n, halts n dots never.
Proof.
  intros n used rest L. unfold dots.
  assert (H : forall k rest used, length rest <= k -> length (snd (dots_scan used rest)) <= length rest).
  { clear. induction k as [|k IH]; intros rest used L; destruct rest as [|w rest]; cbn [dots_scan]; cbn in L |- *; try la.
    destruct (is (fst w) OPERATOR_IDENTIFIER && is_dot (snd w)); [|cbn; la]. destruct rest as [|v rest]; [cbn; la|].
    destruct (is (fst v) STRING_INTERPOLATION_TARGET); [|cbn; la]. rewrite also_rest. specialize (IH rest (v :: w :: used)). cbn in L |- *. la. }
  specialize (H _ rest used (le_n _)). destruct (dots_scan used rest) as [[os u] r]. cbn in *. split; [la|discriminate].
Qed.
Lemma halts_stray : forall n, halts n stray never.
Proof.
  intros n. apply halts_scanned. intros used rest. revert used. induction rest as [|w rest IH]; intros used; cbn [stray_scan]; [cbn; la|].
  destruct (is (fst w) CLOSE_BRACE); [cbn; la|]. destruct (among _ (fst w)); [cbn; la|]. specialize (IH (w :: used)).
  destruct (stray_scan (w :: used) rest) as [b s]. cbn [snd] in *. rewrite also_rest. cbn. la.
Qed.

Create HintDb halting.
#[export] Hint Resolve halts_start halts_finish halts_report halts_peek halts_take halts_skip halts_next_range halts_look
  halts_trivia halts_recover halts_recover_args halts_dots halts_stray : halting.
#[export] Hint Extern 1 (halts _ (ret _) _) => apply halts_ret; reflexivity : halting.

Ltac step := first [ solve [eauto 2 with halting] | apply halts_bind; [|intros] | match goal with |- halts _ (if ?b then _ else _) _ => destruct b end ].
Ltac steps := repeat step.

Lemma halts_accept : forall n k, halts n (accept k) (fun b => b).
Proof.
  intros n k used rest L. unfold accept, peek, bind. destruct rest as [|[k' t] rest]; cbn; [split; [la|discriminate]|].
  destruct (is k' k); cbn; split; try la; discriminate.
Qed.
Lemma halts_expect : forall n k, halts n (expect k) (fun b => b).
Proof.
  intros n k used rest L. unfold expect, peek, bind. destruct rest as [|[k' t] rest]; cbn; [split; [la|discriminate]|].
  destruct (is k' k); cbn; split; try la; discriminate.
Qed.
Lemma halts_accept' : forall n k, halts n (accept k) never.
Proof. intros. eapply halts_weaken, halts_accept. Qed.
Lemma halts_expect' : forall n k, halts n (expect k) never.
Proof. intros. eapply halts_weaken, halts_expect. Qed.
#[export] Hint Resolve halts_accept' halts_expect' : halting.

Lemma halts_close : forall n k st, halts n (close_or_recover k st) never.
Proof. intros. unfold close_or_recover. steps. Qed.
Lemma halts_leaf : forall n k, halts n (leaf k) never.
Proof. intros. unfold leaf. steps. Qed.
#[export] Hint Resolve halts_close halts_leaf : halting.

Lemma halts_hole_content : forall n, halts n hole_content never.
Proof.
  intros. unfold hole_content. steps; match goal with |- context [match ?a with Some _ => _ | None => _ end] => destruct a as [[[] ?]|] end; steps;
  match goal with |- context [match ?a with Some _ => _ | None => _ end] => destruct a as [[[] ?]|] end; steps.
Qed.
#[export] Hint Resolve halts_hole_content : halting.
(** With a token to come, a first token is taken. *)
Definition halts1 {A} (n : nat) (m : parser A) : Prop :=
  forall used rest, rest <> [] -> length rest <= S n ->
    match m used rest with Ret _ _ _ _ rest' => length rest' < length rest | Panic => True | Stuck => False end.
Lemma halts1_bind : forall A B n (m : parser A) (f : A -> parser B),
  halts1 n m -> (forall a, halts n (f a) never) -> halts1 n (bind m f).
Proof.
  intros A B n m f M F used rest NE L. unfold bind. specialize (M used rest NE L). destruct (m used rest) as [a os es u r| |]; auto.
  specialize (F a u r ltac:(la)). destruct (f a u r); auto. la.
Qed.
Lemma halts1_pre : forall A B n (m : parser A) (f : A -> parser B),
  (forall used rest, match m used rest with Ret _ _ _ _ rest' => rest' = rest | Panic => True | Stuck => False end) ->
  (forall a, halts1 n (f a)) -> halts1 n (bind m f).
Proof.
  intros A B n m f M F used rest NE L. unfold bind. specialize (M used rest). destruct (m used rest) as [a os es u r| |]; auto. subst r.
  specialize (F a u rest NE L). destruct (f a u rest); auto.
Qed.
Lemma halts1_take : forall n, halts1 n take.
Proof. intros n used [|w rest] NE L; [contradiction|cbn; la]. Qed.
Lemma halts1_skip : forall n, halts1 n skip.
Proof. intros n used [|w rest] NE L; [contradiction|cbn; la]. Qed.

Lemma halts1_hole : forall n, halts1 n hole.
Proof.
  intros n. unfold hole. apply halts1_pre; [intros; destruct rest; cbn; auto|]. intros r.
  apply halts1_pre; [intros; reflexivity|]. intros _. apply halts1_bind; [apply halts1_take|]. intros _. steps.
  destruct a0 as [[k t]|]; [destruct k|]; steps; destruct a0; steps.
Qed.
Lemma halts1_leaf : forall n k, halts1 n (leaf k).
Proof. intros. unfold leaf. apply halts1_pre; [reflexivity|]. intros _. apply halts1_bind; [apply halts1_take|]. intros; steps. Qed.

Lemma halts_pattern_loop : forall fuel p n, n < fuel -> halts n (pattern_loop fuel p) never.
Proof.
  induction fuel as [|fuel IH]; intros p n L; [la|]. intros used rest LR. cbn [pattern_loop]. rewrite bind_peek.
  destruct rest as [|[k t] rest]; cbn [hd_error]; [cbn; split; [la|discriminate]|].
  destruct (is k (PATTERN_END p)); [cbn; split; [la|discriminate]|].
  assert (B : forall m : parser unit, halts1 (length rest) m ->
    match (m;; pattern_loop fuel p) used ((k, t) :: rest) with
    | Ret a _ _ _ rest' => length rest' <= length ((k, t) :: rest) /\ (never a = true -> length rest' < length ((k, t) :: rest))
    | Panic => True | Stuck => False end).
  { intros m M. unfold bind. specialize (M used ((k, t) :: rest) ltac:(discriminate) ltac:(cbn; la)).
    destruct (m used ((k, t) :: rest)) as [a os es u r| |]; auto. cbn in M, LR. specialize (IH p (length r) ltac:(la) u r (le_n _)).
    destruct (pattern_loop fuel p u r); auto. destruct IH as [IH _]. split; [cbn; la|discriminate]. }
  destruct k; apply B; first [apply halts1_leaf|apply halts1_hole|apply halts1_skip].
Qed.
Lemma halts_string_pattern : forall n p, halts1 n (string_pattern p).
Proof.
  intros n p. unfold string_pattern. apply halts1_pre; [reflexivity|]. intros _. apply halts1_bind; [apply halts1_take|]. intros _.
  apply halts_bind; [|intros; steps]. intros used rest L. apply (halts_pattern_loop (S (length rest)) p (length rest) ltac:(la) used rest (le_n _)).
Qed.
Lemma halts1_ret : forall A B n (m : parser A) (b : B), halts1 n m -> halts1 n (m;; ret b).
Proof. intros. apply halts1_bind; auto. intros. apply halts_ret. reflexivity. Qed.

(** The same, of a parser that says whether it took anything. *)
Lemma halts1_true : forall n (m : parser unit), halts1 n m -> forall used rest, rest <> [] -> length rest <= S n ->
  match (m;; ret true) used rest with Ret a _ _ _ rest' => length rest' <= length rest /\ (a = true -> length rest' < length rest) | Panic => True | Stuck => False end.
Proof. intros n m M used rest NE L. unfold bind. specialize (M used rest NE L). destruct (m used rest); auto. cbn. split; la. Qed.

Lemma halts_atom : forall n, halts n atom (fun b => b).
Proof.
  intros n used rest L. unfold atom. rewrite bind_peek. destruct rest as [|[k t] rest]; cbn [hd_error]; [cbn; split; [la|discriminate]|].
  assert (F : forall m : parser unit, halts1 (length rest) m ->
    match (m;; ret true) used ((k, t) :: rest) with
    Ret a _ _ _ rest' => length rest' <= length ((k, t) :: rest) /\ (a = true -> length rest' < length ((k, t) :: rest)) | Panic => True | Stuck => False end).
  { intros m M. apply (halts1_true _ m M); [discriminate|cbn; la]. }
  assert (D : (exists p, k = PATTERN_START p) \/ forall p, k <> PATTERN_START p) by (destruct k; [ .. | left; eauto | | | | | | | | | | | | | ]; right; discriminate).
  destruct D as [[p ->] | D]; [apply F, halts_string_pattern|].
  replace (match k with
           | PATTERN_START p => string_pattern p;; ret true
           | _ => if literal_terminal k then leaf LITERAL;; ret true else if name_terminal k then leaf NAME;; ret true else ret false
           end) with (if literal_terminal k then leaf LITERAL;; ret true else if name_terminal k then leaf NAME;; ret true else ret false)
    by (destruct k; try reflexivity; exfalso; eapply D; reflexivity).
  destruct (literal_terminal k); [apply F, halts1_leaf|]. destruct (name_terminal k); [apply F, halts1_leaf|]. cbn. split; [la|discriminate].
Qed.

(** The same, given the kind of the next token. *)
Definition halts_at {A} (k : kind) (n : nat) (m : parser A) : Prop :=
  forall used t rest, length rest <= n ->
    match m used ((k, t) :: rest) with Ret _ _ _ _ rest' => length rest' <= length rest | Panic => True | Stuck => False end.
Lemma halts_at_bind : forall A B k n (m : parser A) (f : A -> parser B),
  halts_at k n m -> (forall a, halts n (f a) never) -> halts_at k n (bind m f).
Proof.
  intros A B k n m f M F used t rest L. unfold bind. specialize (M used t rest L). destruct (m used ((k, t) :: rest)) as [a os es u r| |]; auto.
  specialize (F a u r ltac:(la)). destruct (f a u r); auto. destruct F. la.
Qed.
Lemma halts_at_pre : forall A B k n (m : parser A) (f : A -> parser B),
  (forall used rest, match m used rest with Ret _ _ _ _ rest' => rest' = rest | Panic => True | Stuck => False end) ->
  (forall a, halts_at k n (f a)) -> halts_at k n (bind m f).
Proof.
  intros A B k n m f M F used t rest L. unfold bind. specialize (M used ((k, t) :: rest)). destruct (m used ((k, t) :: rest)) as [a os es u r| |]; auto. subst r.
  specialize (F a u t rest L). destruct (f a u ((k, t) :: rest)); auto.
Qed.
Lemma halts_at_never : forall A k n (m : parser A), halts_at k n m -> forall used t rest, length rest <= n ->
  match m used ((k, t) :: rest) with
  | Ret a _ _ _ rest' => length rest' <= length ((k, t) :: rest) /\ (never a = true -> length rest' < length ((k, t) :: rest))
  | Panic => True | Stuck => False end.
Proof. intros A k n m M used t rest L. specialize (M used t rest L). destruct (m used ((k, t) :: rest)); auto. split; [cbn; la|discriminate]. Qed.
Lemma is_refl : forall k, is k k = true.
Proof. intros k. unfold is. destruct (kind_eq_dec k k); congruence. Qed.
Lemma halts_at_expect : forall k n, halts_at k n (expect k).
Proof. intros k n used t rest L. unfold expect. rewrite bind_peek. cbn [hd_error]. rewrite is_refl. cbn. la. Qed.
Lemma halts_at_take : forall k n, halts_at k n take.
Proof. intros k n used t rest L. cbn. la. Qed.
(** Like [start]: it takes nothing. *)
Ltac pre := apply halts_at_pre; [intros; reflexivity|intros].
Ltac eat := apply halts_at_bind; [first [apply halts_at_expect|apply halts_at_take]|intros].

Lemma halts_content : forall n (m : parser unit), halts n m never -> halts n (content m) never.
Proof.
  intros n m M used rest L. unfold content. specialize (M used rest L). destruct (m used rest) as [a os es u r| |]; auto.
  destruct (sink_ops _ os); auto. destruct (complete s) as [[e es']|]; auto.
Qed.
Lemma halts_soup : forall n (m : parser unit), halts n m never -> halts n (soup m) never.
Proof. intros n m M. unfold soup. steps. Qed.
Lemma halts_try_soup : forall n (m : parser unit), halts n m never -> halts n (try_soup m) never.
Proof. intros n m M. unfold try_soup. apply halts_bind; [apply halts_peek|]. intros a. destruct (match a with Some (k, _) => _ | None => false end); steps. Qed.

#[export] Hint Resolve halts_content halts_soup halts_try_soup : halting.

Lemma halts_block_colon : forall n, halts_at COLON n block_colon.
Proof.
  intros n used t rest L. unfold block_colon.
  assert (E : match (take;; trivia) used ((COLON, t) :: rest) with Ret _ _ _ _ rest' => length rest' <= length rest | Panic => True | Stuck => False end).
  { apply (halts_at_bind _ _ COLON n take (fun _ => trivia)); auto; [apply halts_at_take|intros; apply halts_trivia]. }
  destruct rest as [|[k t'] rest]; [exact E|]. destruct k; try exact E.
  match goal with |- match ?m used _ with _ => _ end => assert (H : halts_at COLON n m) end.
  { pre. pre. eat. steps. }
  apply H. exact L.
Qed.

Lemma halts_loops : forall fuel n,
  (5 * n + 1 <= fuel -> halts n (element fuel) (fun b => b)) /\
  (5 * n + 2 <= fuel -> halts n (elements fuel) never) /\
  (5 * n + 2 <= fuel -> halts n (soup_loop fuel) never) /\
  (5 * n + 3 <= fuel -> forall tl, halts n (items fuel tl) never) /\
  (5 * n + 2 <= fuel -> forall c, halts n (block_loop fuel c) never).
Proof.
  induction fuel as [|fuel IH]; intros n; [split; [intros; la|split; [intros; la|split; [intros; la|split; intros; la]]]|].
  split; [|split; [|split; [|split]]].
  - intros L used rest LR. cbn [element]. rewrite bind_peek.
    destruct rest as [|[k t] rest]; cbn [hd_error]; [cbn; split; [la|discriminate]|].
    assert (B : forall m : parser unit, halts_at k (length rest) m ->
      match (m;; ret true) used ((k, t) :: rest) with Ret a _ _ _ rest' => length rest' <= length ((k, t) :: rest) /\ (a = true -> length rest' < length ((k, t) :: rest)) | Panic => True | Stuck => False end).
    { intros m M. unfold bind. specialize (M used t rest (le_n _)). destruct (m used ((k, t) :: rest)); auto. cbn. split; la. }
    assert (C : forall m : parser bool, halts_at k (length rest) m ->
      match m used ((k, t) :: rest) with Ret a _ _ _ rest' => length rest' <= length ((k, t) :: rest) /\ (a = true -> length rest' < length ((k, t) :: rest)) | Panic => True | Stuck => False end).
    { intros m M. specialize (M used t rest (le_n _)). destruct (m used ((k, t) :: rest)); auto. cbn. split; la. }
    cbn in LR. destruct (IH (length rest)) as (IH1 & IH2 & IH3 & IH4 & IH5).
    specialize (IH3 ltac:(la)). specialize (IH4 ltac:(la)). specialize (IH5 ltac:(la)).
    assert (AT := halts_atom (S (length rest)) used ((k, t) :: rest) (le_n _)).
    destruct k; try exact AT; apply C; clear B C AT.
    + pre. eat. steps.
    + pre. pre. pre. eat. steps.
    + pre. eat. steps.
    + pre. pre. pre. eat. steps.
    + pre. eat. steps.
    + pre. eat. steps.
    + pre. eat. steps.
    + pre. apply halts_at_bind.
      * destruct a; pre; eat; steps.
      * intros. steps.
  - intros L. cbn [elements].
    apply halts_bind_less with (s := fun b => b); [apply IH; la|..]; intros b E; rewrite E; [|apply halts_ret; reflexivity].
    intros n' LN. steps. apply IH. la.
  - intros L used rest LR. cbn [soup_loop]. rewrite bind_peek.
    destruct rest as [|[k t] rest]; cbn [hd_error]; [cbn; split; [la|discriminate]|].
    destruct n as [|n]; [cbn in LR; la|].
    assert (H : forall n', n' < S n -> halts n' (soup_loop fuel) never) by (intros; apply IH; la).
    destruct (is_trivial k).
    + assert (D : halts_at k n (take;; soup_loop fuel)) by (eat; apply H; la).
      apply (halts_at_never _ _ _ _ D). cbn in LR. la.
    + assert (D : halts (S n) (b <- element fuel;; if b then soup_loop fuel else ret tt) never).
      { apply halts_bind_less with (s := fun b => b); [apply IH; la|..]; intros b E; rewrite E; [exact H|apply halts_ret; reflexivity]. }
      apply D. exact LR.
  - intros L tl. cbn [items].
    assert (H : halts n (try_soup (elements fuel)) never) by (apply halts_try_soup, IH; la).
    apply halts_bind; [exact H|]. intros b. destruct b; [|apply halts_ret; reflexivity].
    apply halts_bind_less with (s := fun b => b); [apply halts_accept|..]; intros c E; rewrite E.
    + intros n' LN. steps. apply IH. la.
    + destruct tl; [|apply halts_ret; reflexivity]. apply halts_bind; [apply halts_accept'|]. intros d. destruct d; steps.
  - intros L c used rest LR. cbn [block_loop]. rewrite bind_peek.
    destruct rest as [|[k t] rest]; cbn [hd_error]; [cbn; split; [la|discriminate]|].
    destruct n as [|n]; [cbn in LR; la|].
    assert (H : forall n', n' < S n -> halts n' (block_loop fuel c) never) by (intros; apply IH; la).
    destruct (is k COLON) eqn:EC.
    + assert (k = COLON) as -> by (unfold is in EC; destruct (kind_eq_dec k COLON); congruence).
      assert (D : halts_at COLON n (block_colon;; block_loop fuel c)) by (apply halts_at_bind; [apply halts_block_colon|intros; apply H; la]).
      apply (halts_at_never _ _ _ _ D). cbn in LR. la.
    + destruct (among _ k).
      * assert (D : halts_at k n (take;; trivia;; block_loop fuel c)) by (eat; steps; apply H; la).
        apply (halts_at_never _ _ _ _ D). cbn in LR. la.
      * destruct (is k c); [cbn; split; [la|discriminate]|].
        assert (D : halts (S n) (b <- element fuel;; if b then block_loop fuel c else ret tt) never).
        { apply halts_bind_less with (s := fun b => b); [apply IH; la|..]; intros b E; rewrite E; [exact H|apply halts_ret; reflexivity]. }
        apply D. exact LR.
Qed.

Theorem unit_halts : forall ws, parse_unit ws <> OutOfFuel.
Proof.
  intros ws. unfold parse_unit, finished.
  assert (H : halts (length ws) (start UNIT;; trivia;; content (block_loop (enough ws) CLOSE_BRACE);; trivia;; finish) never).
  { steps. apply halts_content. apply halts_loops. unfold enough. la. }
  specialize (H [] ws (le_n _)). destruct ((start UNIT;; trivia;; content (block_loop (enough ws) CLOSE_BRACE);; trivia;; finish) [] ws); try discriminate; try contradiction.
  destruct (build _ _ _); discriminate.
Qed.
Theorem expression_halts : forall ws, parse_expression ws <> OutOfFuel.
Proof.
  intros ws. unfold parse_expression, finished.
  assert (H : halts (length ws) (soup (soup_loop (enough ws))) never).
  { apply halts_soup. apply halts_loops. unfold enough. la. }
  specialize (H [] ws (le_n _)). destruct (soup (soup_loop (enough ws)) [] ws); try discriminate; try contradiction.
  destruct (build _ _ _); discriminate.
Qed.
