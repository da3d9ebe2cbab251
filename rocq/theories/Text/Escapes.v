(** Proofs about c-string escapes. *)
From Coq Require Import List NArith ZArith Bool Lia Arith.
Import ListNotations.
From Verif.Text Require Import Model Spec.
Open Scope N_scope.

Lemma eqb_true : forall a b, (a =? b) = true -> a = b. Proof. intros; now apply N.eqb_eq. Qed.
Lemma eqb_false : forall a b, (a =? b) = false -> a <> b. Proof. intros; now apply N.eqb_neq. Qed.

(** ** Hexadecimal digits *)

Lemma hex_digit_spec : forall c d, hex_digit c = Some d <-> Digit c d.
Proof.
  intros c d. unfold hex_digit, Digit.
  destruct ((48 <=? c) && (c <=? 57)) eqn:A; [|destruct ((97 <=? c) && (c <=? 102)) eqn:B; [|destruct ((65 <=? c) && (c <=? 70)) eqn:C]].
  - apply andb_true_iff in A as [A1 A2]. apply N.leb_le in A1, A2. split; intro H; [injection H as <-; lia|f_equal; lia].
  - apply andb_true_iff in B as [A1 A2]. apply N.leb_le in A1, A2. apply andb_false_iff in A. rewrite !N.leb_gt in A. split; intro H; [injection H as <-; lia|f_equal; lia].
  - apply andb_true_iff in C as [A1 A2]. apply N.leb_le in A1, A2. apply andb_false_iff in A, B. rewrite !N.leb_gt in A, B. split; intro H; [injection H as <-; lia|f_equal; lia].
  - apply andb_false_iff in A, B, C. rewrite !N.leb_gt in A, B, C. split; intro H; [discriminate|lia].
Qed.

Lemma hex_digit_none : forall c, hex_digit c = None <-> forall d, ~ Digit c d.
Proof.
  intros c. split.
  - intros H d D. apply hex_digit_spec in D. congruence.
  - intros H. destruct (hex_digit c) as [d|] eqn:E; auto. apply hex_digit_spec in E. destruct (H _ E).
Qed.

Lemma digit_not_special : forall c d, Digit c d -> c <> 34 /\ c <> 92 /\ c <> 123 /\ c <> 125.
Proof. unfold Digit. intros. lia. Qed.

Lemma Hex_length : forall n s v, Hex n s v -> length s = n.
Proof. induction 1; auto. rewrite app_length. cbn. lia. Qed.

Lemma Hex_zero : forall s v, Hex 0 s v -> s = [] /\ v = 0.
Proof. intros s v H. inversion H. auto. Qed.

Lemma Hex_digits : forall n s v, Hex n s v -> Forall (fun c => exists d, Digit c d) s.
Proof. induction 1; auto. apply Forall_app. split; auto. constructor; eauto. Qed.

(** Reading [n] digits continues the value [v] of the [k] digits before. *)
Lemma read_hex_ok : forall n k p v s w r, Hex k p v -> read_hex n v s = Ok (w, r) -> exists ds, s = ds ++ r /\ Hex (k + n) (p ++ ds) w.
Proof.
  induction n as [|n IH]; cbn; intros k p v s w r H E.
  - injection E as <- <-. exists []. rewrite app_nil_r, Nat.add_0_r. auto.
  - destruct s as [|c s]; try discriminate. destruct (hex_digit c) as [d|] eqn:D; try discriminate.
    apply hex_digit_spec in D. destruct (IH (S k) (p ++ [c]) (v * 16 + d) s w r) as (ds & -> & Hd); auto.
    + rewrite (N.mul_comm v). now apply Hex_snoc.
    + exists (c :: ds). split; auto. rewrite <- app_assoc in Hd. cbn in Hd. replace (k + S n)%nat with (S k + n)%nat by lia. auto.
Qed.

Lemma Hex_split : forall m p w, Hex m p w -> forall a b, p = a ++ b -> exists v, Hex (length a) a v.
Proof.
  induction 1; intros a b E.
  - symmetry in E. apply app_eq_nil in E as [-> ->]. exists 0. constructor.
  - destruct b as [|x b] using rev_ind.
    + rewrite app_nil_r in E. subst a. rewrite app_length. cbn. rewrite (Hex_length _ _ _ H). replace (n + 1)%nat with (S n) by lia. eexists. constructor; eauto.
    + rewrite app_assoc in E. apply app_inj_tail in E as [E _]. eauto.
Qed.

Lemma Hex_fun : forall n s v, Hex n s v -> forall w, Hex n s w -> v = w.
Proof.
  induction 1; intros w Hw; inversion Hw; subst; auto.
  match goal with E : _ ++ [_] = _ ++ [_] |- _ => apply app_inj_tail in E as [-> ->] end.
  assert (v = v0) by auto. subst. apply hex_digit_spec in H0. match goal with D : Digit c _ |- _ => apply hex_digit_spec in D end. congruence.
Qed.

Lemma Digit_fun : forall c d d', Digit c d -> Digit c d' -> d = d'.
Proof. intros c d d' A B. apply hex_digit_spec in A, B. congruence. Qed.

Lemma read_hex_complete : forall n k p v ds w r, Hex k p v -> length ds = n -> Hex (k + n) (p ++ ds) w -> read_hex n v (ds ++ r) = Ok (w, r).
Proof.
  induction n as [|n IH]; intros k p v ds w r H L HW.
  - destruct ds; try discriminate. cbn. rewrite app_nil_r, Nat.add_0_r in HW. now rewrite (Hex_fun _ _ _ H _ HW).
  - destruct ds as [|c ds]; try discriminate. cbn in L. injection L as L. cbn.
    destruct (Hex_split _ _ _ HW (p ++ [c]) ds) as [u Hu]. { now rewrite <- app_assoc. }
    inversion Hu as [E0|n0 s0 c0 v0 d0 H0 D0 E0 E1]. { destruct p; discriminate. }
    apply app_inj_tail in E1 as [-> ->]. rewrite app_length in E0. cbn in E0.
    assert (n0 = k). { rewrite (Hex_length _ _ _ H) in E0. lia. } subst n0.
    assert (v = v0) by (eapply Hex_fun; eauto). subst v0. rewrite (proj2 (hex_digit_spec _ _) D0).
    apply (IH (S k) (p ++ [c])); auto.
    + rewrite (N.mul_comm v). now apply Hex_snoc.
    + rewrite <- app_assoc. cbn [app]. replace (S k + n)%nat with (k + S n)%nat by lia. auto.
Qed.

Lemma read_hex_err : forall n k p v s e, Hex k p v -> read_hex n v s = Err e ->
  exists j ds w, (j < n)%nat /\ Hex (k + j) (p ++ ds) w /\ length ds = j /\
    ((s = ds /\ e = TruncatedEscape) \/ (exists c r, s = ds ++ c :: r /\ e = InvalidHexDigit c /\ forall d, ~ Digit c d)).
Proof.
  induction n as [|n IH]; cbn; intros k p v s e H E; try discriminate.
  destruct s as [|c s].
  - injection E as <-. exists 0%nat, [], v. rewrite Nat.add_0_r, app_nil_r. repeat split; auto; lia.
  - destruct (hex_digit c) as [d|] eqn:D.
    + apply hex_digit_spec in D. destruct (IH (S k) (p ++ [c]) (v * 16 + d) s e) as (j & ds & w & Lj & Hd & Ld & Q); auto.
      { rewrite (N.mul_comm v). now apply Hex_snoc. }
      exists (S j), (c :: ds), w. rewrite <- app_assoc in Hd. cbn in Hd. replace (k + S j)%nat with (S k + j)%nat by lia.
      repeat split; auto; try lia. { cbn; lia. }
      destruct Q as [[-> ->]|(c' & r & -> & -> & N)]; [left; auto|right; exists c', r; auto].
    + injection E as <-. exists 0%nat, [], v. rewrite Nat.add_0_r, app_nil_r. repeat split; auto; try lia.
      right. exists c, s. repeat split; auto. now apply hex_digit_none.
Qed.

Lemma read_hex_fault_short : forall n k ds v, Hex k ds v -> (k < n)%nat -> read_hex n 0 ds = Err TruncatedEscape.
Proof.
  intros n k ds v H L. destruct (read_hex n 0 ds) as [[w r]|e] eqn:E.
  - apply (read_hex_ok n 0 [] 0) in E; [|constructor]. destruct E as (ds' & -> & H'). apply Hex_length in H, H'. rewrite app_length in H. cbn in H'. lia.
  - apply (read_hex_err n 0 [] 0) in E; [|constructor]. destruct E as (j & ds' & w & _ & _ & _ & [[_ ->]|(c & r & -> & -> & N)]); auto.
    apply Hex_digits in H. apply Forall_app in H as [_ H]. inversion H as [|? ? [d D]]. destruct (N _ D).
Qed.

Lemma app_split_at : forall (P : N -> Prop) (a a' : text) c r c' r', Forall P a -> Forall P a' -> ~ P c -> ~ P c' ->
  a ++ c :: r = a' ++ c' :: r' -> a = a' /\ c = c' /\ r = r'.
Proof.
  induction a as [|x a IH]; intros [|y a'] c r c' r' FA FA' NC NC' E; cbn in E.
  - injection E as -> ->. auto.
  - injection E as -> ->. inversion FA'. contradiction.
  - injection E as -> E. inversion FA. contradiction.
  - injection E as -> E. inversion FA; inversion FA'; subst. destruct (IH a' c r c' r') as (-> & -> & ->); auto.
Qed.

Lemma read_hex_fault_digit : forall n k ds v c s, Hex k ds v -> (k < n)%nat -> (forall d, ~ Digit c d) -> read_hex n 0 (ds ++ c :: s) = Err (InvalidHexDigit c).
Proof.
  intros n k ds v c s H L NC. apply Hex_digits in H as HD. apply Hex_length in H as HL.
  assert (NC' : ~ exists d, Digit c d) by (intros [d D]; destruct (NC _ D)).
  destruct (read_hex n 0 (ds ++ c :: s)) as [[w r]|e] eqn:E.
  - apply (read_hex_ok n 0 [] 0) in E; [|constructor]. destruct E as (ds' & E & H'). cbn in H'. apply Hex_digits in H' as HD'. apply Hex_length in H'.
    assert (In c ds'). { apply (f_equal (firstn n)) in E. rewrite (firstn_app n ds' r), H', Nat.sub_diag in E. cbn in E. rewrite app_nil_r, <- H', firstn_all in E. rewrite <- E, H', firstn_app. apply in_app_iff. right. destruct (n - length ds)%nat eqn:Z; [lia|]. left. auto. }
    rewrite Forall_forall in HD'. destruct NC'. auto.
  - apply (read_hex_err n 0 [] 0) in E; [|constructor]. destruct E as (j & ds' & w & _ & H' & _ & [[E ->]|(c' & r & E & -> & N)]).
    + cbn in H'. apply Hex_digits in H'. rewrite <- E in H'. apply Forall_app in H' as [_ H']. inversion H'. contradiction.
    + cbn in H'. apply Hex_digits in H'. apply (app_split_at (fun c => exists d, Digit c d)) in E as (_ & -> & _); auto. intros [d D]. destruct (N _ D).
Qed.

(** ** Code points *)

Lemma cfcp_ok : forall n c, char_from_code_point n = Ok c <-> c = n /\ scalar n.
Proof.
  intros n c. unfold char_from_code_point, scalar. destruct (_ || _) eqn:E.
  - apply orb_true_iff in E. rewrite andb_true_iff, !N.ltb_lt, N.leb_le in E. split; [injection 1; auto|intros [-> _]; auto].
  - apply orb_false_iff in E. rewrite andb_false_iff, !N.ltb_ge, N.leb_gt in E. split; [discriminate|lia].
Qed.
Lemma cfcp_err : forall n e, char_from_code_point n = Err e <-> e = InvalidCodePoint n /\ ~ scalar n.
Proof.
  intros n e. unfold char_from_code_point, scalar. destruct (_ || _) eqn:E.
  - apply orb_true_iff in E. rewrite andb_true_iff, !N.ltb_lt, N.leb_le in E. split; [discriminate|lia].
  - apply orb_false_iff in E. rewrite andb_false_iff, !N.ltb_ge, N.leb_gt in E. split; [injection 1 as <-; split; auto; lia|intros [-> _]; auto].
Qed.

(** The value of two digits is a byte. *)
Lemma Hex_bound : forall n s v, Hex n s v -> v < 16 ^ N.of_nat n.
Proof.
  induction 1 as [|n s c v d H IH D]. { reflexivity. }
  rewrite Nat2N.inj_succ, N.pow_succ_r'. unfold Digit in D. lia.
Qed.
Lemma byte_scalar : forall s v, Hex 2 s v -> scalar v.
Proof. intros s v H. apply Hex_bound in H. change (16 ^ N.of_nat 2) with 256 in H. left. lia. Qed.

(** ** One unit at a time *)

Lemma simple_escape_spec : forall e c, simple_escape e = Some c <-> In (e, c) letter_escapes.
Proof.
  intros e c. unfold simple_escape, letter_escapes, BACKSLASH, DQUOTE, OPEN, CLOSE. cbn [In].
  repeat match goal with |- context [e =? ?k] => destruct (N.eqb_spec e k); [subst; split; intro H;
    [injection H as <-; tauto | f_equal; repeat (destruct H as [H|H]; [injection H; intros; subst; congruence|]); contradiction]|] end.
  split; [discriminate|]. intro H. repeat (destruct H as [H|H]; [injection H; intros; subst; congruence|]). contradiction.
Qed.

Lemma simple_escape_none : forall e, simple_escape e = None <-> ~ In e (map fst letter_escapes).
Proof.
  intros e. split.
  - intros H I. apply in_map_iff in I as ((e' & c) & E & I). cbn in E. subst. apply simple_escape_spec in I. congruence.
  - intros H. destruct (simple_escape e) as [c|] eqn:E; auto. destruct H. apply simple_escape_spec in E. apply in_map_iff. now exists (e, c).
Qed.

Definition digits_of (e : N) : option nat :=
  if e =? 120 then Some 2%nat else if e =? 117 then Some 4%nat else if e =? 85 then Some 8%nat else None.
Lemma digits_of_spec : forall e n, digits_of e = Some n <-> In (e, n) digit_escapes.
Proof.
  intros e n. unfold digits_of, digit_escapes. cbn [In].
  repeat match goal with |- context [e =? ?k] => destruct (N.eqb_spec e k); [subst; split; intro H;
    [injection H as <-; tauto | f_equal; repeat (destruct H as [H|H]; [injection H; intros; subst; congruence|]); contradiction]|] end.
  split; [discriminate|]. intro H. repeat (destruct H as [H|H]; [injection H; intros; subst; congruence|]). contradiction.
Qed.
Lemma digits_of_none : forall e, digits_of e = None <-> ~ In e (map fst digit_escapes).
Proof.
  intros e. split.
  - intros H I. apply in_map_iff in I as ((e' & c) & E & I). cbn in E. subst. apply digits_of_spec in I. congruence.
  - intros H. destruct (digits_of e) as [c|] eqn:E; auto. destruct H. apply digits_of_spec in E. apply in_map_iff. now exists (e, c).
Qed.
Lemma digits_not_letter : forall e n, In (e, n) digit_escapes -> simple_escape e = None.
Proof. unfold digit_escapes. cbn. intros e n [H|[H|[H|[]]]]; injection H as <- <-; reflexivity. Qed.

(** One step of the loop. *)
Definition step (s : text) : result escape_error (option (N * text)) :=
  match s with
  | [] => Ok None
  | c :: s =>
      if c =? BACKSLASH then
        match s with
        | [] => Err UnexpectedEndOfString
        | e :: s =>
            match simple_escape e with
            | Some c => Ok (Some (c, s))
            | None =>
                match digits_of e with
                | Some n => rbind (read_hex n 0 s) (fun '(v, s) => rbind (char_from_code_point v) (fun c => Ok (Some (c, s))))
                | None => Err (InvalidEscape e)
                end
            end
        end
      else Ok (Some (c, s))
  end.

Lemma escapes_step : forall fuel s, s <> [] -> escapes (S fuel) s =
  match step s with
  | Err e => Some (Err e)
  | Ok None => Some (Ok [])
  | Ok (Some (c, r)) => option_map (fun r => rbind r (fun t => Ok (c :: t))) (escapes fuel r)
  end.
Proof.
  intros fuel [|c s] NE; [congruence|]. cbn [escapes step]. destruct (c =? BACKSLASH); auto.
  destruct s as [|e s]; auto. destruct (simple_escape e) as [x|]; auto. unfold digits_of.
  destruct (e =? 120) eqn:E1; [|destruct (e =? 117) eqn:E2; [|destruct (e =? 85) eqn:E3]]; auto.
  - destruct (read_hex 2 0 s) as [[v r]|x] eqn:R; cbn [rbind]; auto.
    assert (S : scalar v). { apply (read_hex_ok 2 0 [] 0) in R; [|constructor]. destruct R as (ds & _ & H). eapply byte_scalar; eauto. }
    rewrite (proj2 (cfcp_ok v v)); auto.
  - destruct (read_hex 4 0 s) as [[v r]|x]; cbn [rbind]; auto. destruct (char_from_code_point v); auto.
  - destruct (read_hex 8 0 s) as [[v r]|x]; cbn [rbind]; auto. destruct (char_from_code_point v); auto.
Qed.

Lemma step_unit : forall s c r, step s = Ok (Some (c, r)) <-> exists u, s = u ++ r /\ Unit_ u c.
Proof.
  intros s c r. split.
  - destruct s as [|x s]; cbn; try discriminate. destruct (N.eqb_spec x BACKSLASH) as [->|NE].
    2: { injection 1 as <- <-. exists [x]. split; auto. constructor. auto. }
    destruct s as [|e s]; try discriminate. destruct (simple_escape e) as [y|] eqn:SE.
    + injection 1 as <- <-. exists [92; e]. split; auto. constructor. now apply simple_escape_spec.
    + destruct (digits_of e) as [n|] eqn:DO; try discriminate. destruct (read_hex n 0 s) as [[v r']|x] eqn:R; cbn; try discriminate.
      destruct (char_from_code_point v) as [z|] eqn:C; cbn; try discriminate. injection 1 as <- <-.
      apply cfcp_ok in C as [-> SC]. apply (read_hex_ok n 0 [] 0) in R; [|constructor]. destruct R as (ds & -> & H).
      exists (92 :: e :: ds). split; auto. apply digits_of_spec in DO. econstructor; eauto.
  - intros (u & -> & U). inversion U; subst; cbn.
    + destruct (N.eqb_spec c BACKSLASH); [contradiction|auto].
    + apply simple_escape_spec in H. rewrite H. auto.
    + rewrite (digits_not_letter _ _ H), (proj2 (digits_of_spec _ _) H).
      rewrite (read_hex_complete n 0 [] 0 s c r); cbn; auto; [|constructor|eapply Hex_length; eauto]. rewrite (proj2 (cfcp_ok c c)); auto.
Qed.

Lemma step_fault : forall s e, step s = Err e <-> Fault s e.
Proof.
  intros s e. split.
  - destruct s as [|x s]; cbn; try discriminate. destruct (N.eqb_spec x BACKSLASH) as [->|NE]; try discriminate.
    destruct s as [|d s]. { injection 1 as <-. constructor. }
    destruct (simple_escape d) as [y|] eqn:SE; try discriminate.
    destruct (digits_of d) as [n|] eqn:DO.
    2: { injection 1 as <-. constructor; [now apply simple_escape_none|now apply digits_of_none]. }
    apply digits_of_spec in DO. destruct (read_hex n 0 s) as [[v r']|x] eqn:R; cbn.
    + destruct (char_from_code_point v) as [z|] eqn:C; cbn; try discriminate. injection 1 as <-. apply cfcp_err in C as [-> C].
      apply (read_hex_ok n 0 [] 0) in R; [|constructor]. destruct R as (ds & -> & H). econstructor; eauto.
    + injection 1 as <-. apply (read_hex_err n 0 [] 0) in R; [|constructor].
      destruct R as (j & ds & w & L & H & _ & [[-> ->]|(c & r & -> & -> & N)]); cbn in H; [eapply Fault_short; eauto|eapply Fault_digit; eauto].
  - intros F. inversion F as [| x s0 N1 N2 | x n k ds v I H L | x n k ds v c s0 I H L N1 | x n ds v s0 I H N1]; subst; cbn.
    + auto.
    + rewrite (proj2 (simple_escape_none _)), (proj2 (digits_of_none _)); auto.
    + rewrite (digits_not_letter _ _ I), (proj2 (digits_of_spec _ _) I), (read_hex_fault_short n k ds v); auto.
    + rewrite (digits_not_letter _ _ I), (proj2 (digits_of_spec _ _) I), (read_hex_fault_digit n k ds v); auto.
    + rewrite (digits_not_letter _ _ I), (proj2 (digits_of_spec _ _) I), (read_hex_complete n 0 [] 0 ds v s0); cbn; auto; [|constructor|eapply Hex_length; eauto].
      rewrite (proj2 (cfcp_err v (InvalidCodePoint v))); auto.
Qed.

Lemma Unit_nonempty : forall u c, Unit_ u c -> (0 < length u)%nat.
Proof. intros u c U. inversion U; cbn; lia. Qed.

Lemma escapes_nil : forall fuel, escapes fuel [] = Some (Ok []).
Proof. intros [|fuel]; reflexivity. Qed.

(** The fuel suffices, and the result is described by [Spells] and [Fault]. *)
Lemma escapes_spec : forall fuel s, (length s <= fuel)%nat ->
  (exists t, escapes fuel s = Some (Ok t) /\ Spells s t) \/
  (exists p t r e, escapes fuel s = Some (Err e) /\ s = p ++ r /\ Spells p t /\ Fault r e).
Proof.
  induction fuel as [|fuel IH]; intros s L.
  - destruct s; [|cbn in L; lia]. left. exists []. split; auto. constructor.
  - destruct (list_eq_dec N.eq_dec s []) as [->|NE]. { left. exists []. split; auto. constructor. }
    rewrite escapes_step; auto. destruct (step s) as [[[c r]|]|e] eqn:E.
    + apply step_unit in E as (u & -> & U). pose proof (Unit_nonempty _ _ U). rewrite app_length in L.
      destruct (IH r) as [(t & -> & S)|(p & t & r' & e & -> & -> & S & F)]; [lia| |].
      * left. exists (c :: t). split; auto. now constructor.
      * right. exists (u ++ p), (c :: t), r', e. rewrite <- app_assoc. repeat split; auto. now constructor.
    + destruct s; [congruence|]. cbn in E. destruct (_ =? _); try discriminate. destruct s; try discriminate.
      destruct (simple_escape _); try discriminate. destruct (digits_of _); try discriminate.
      destruct (read_hex _ _ _) as [[? ?]|]; cbn in E; try discriminate. destruct (char_from_code_point _); discriminate.
    + right. exists [], [], s, e. repeat split; auto; [constructor|]. now apply step_fault.
Qed.

Lemma escapes_Spells : forall s t, Spells s t -> forall fuel, (length s <= fuel)%nat -> escapes fuel s = Some (Ok t).
Proof.
  induction 1 as [|u c s t U S IH]; intros fuel L. { apply escapes_nil. }
  pose proof (Unit_nonempty _ _ U). rewrite app_length in L. destruct fuel as [|fuel]; [lia|].
  rewrite escapes_step; [|destruct u; cbn in *; [lia|discriminate]]. rewrite (proj2 (step_unit (u ++ s) c s)); [|eauto].
  rewrite IH; [reflexivity|lia].
Qed.

Lemma escapes_Fault : forall p t, Spells p t -> forall r e fuel, Fault r e -> (length (p ++ r) <= fuel)%nat -> escapes fuel (p ++ r) = Some (Err e).
Proof.
  induction 1 as [|u c s t U S IH]; intros r e fuel F L.
  - assert (NE : r <> []) by (destruct F; discriminate). cbn in *. destruct fuel as [|fuel]; [destruct r; [congruence|cbn in L; lia]|].
    rewrite escapes_step; auto. now rewrite (proj2 (step_fault r e)).
  - pose proof (Unit_nonempty _ _ U). rewrite <- app_assoc in *. rewrite app_length in L. destruct fuel as [|fuel]; [lia|].
    rewrite escapes_step; [|destruct u; cbn in *; [lia|discriminate]]. rewrite (proj2 (step_unit (u ++ s ++ r) c (s ++ r))); [|eauto].
    rewrite (IH r e); auto. lia.
Qed.

Lemma Spells_app : forall s t s' t', Spells s t -> Spells s' t' -> Spells (s ++ s') (t ++ t').
Proof. induction 1; intros; cbn; auto. rewrite <- app_assoc. constructor; auto. Qed.
Lemma Spells_unit : forall u c, Unit_ u c -> Spells u [c].
Proof. intros u c U. rewrite <- (app_nil_r u). constructor; auto. constructor. Qed.
