(** Proofs about templates: what a string with holes compiles to. *)
From Coq Require Import List NArith ZArith Bool Lia Arith.
Import ListNotations.
From Verif.Text Require Import Model Spec Escapes Lexing Numbers.
Open Scope N_scope.

(** [Good p s Q]: outside an interpolation, the characters [s] lex, parse and desugar, to
    pieces satisfying [Q]. *)
Definition Good (p : prefix) (s : text) (Q : list piece -> Prop) : Prop :=
  forall pos, exists ts cs ps, Lexed (is_c p) (mkLex s pos false false) ts /\ Parsed ts cs [] /\
    desugar_chunks p cs = Some (Ok ps) /\ Q ps.

Lemma Good_weaken : forall p s (Q Q' : list piece -> Prop), (forall ps, Q ps -> Q' ps) -> Good p s Q -> Good p s Q'.
Proof. intros p s Q Q' I G pos. destruct (G pos) as (ts & cs & ps & H). exists ts, cs, ps. intuition. Qed.

Lemma Good_nil : forall p (Q : list piece -> Prop), Q [] -> Good p [] Q.
Proof.
  intros p Q H pos. exists [], [], []. repeat split; auto.
  - now apply Lexed_end.
  - intros [|?]; auto.
Qed.

Lemma Parsed_literal : forall pos s ts cs, Parsed ts cs [] -> Parsed (mkTok KLiteral pos s :: ts) (CLiteral s :: cs) [].
Proof. intros pos s ts cs H [|fuel] L; cbn in L; [lia|]. cbn. rewrite (H fuel); auto. lia. Qed.
Lemma Parsed_escaped : forall pos s ts cs, Parsed ts cs [] ->
  Parsed (mkTok KEscapedOpen pos s :: ts) (CEscapedOpen :: cs) [] /\ Parsed (mkTok KEscapedClose pos s :: ts) (CEscapedClose :: cs) [].
Proof. intros pos s ts cs H. split; intros [|fuel] L; cbn in L; try lia; cbn; rewrite (H fuel); auto; lia. Qed.

(** A literal token. *)
Lemma Good_literal : forall p c a b v (Q : list piece -> Prop), c <> 123 -> c <> 125 ->
  literal_content (is_c p) (a ++ b) = (a, b) -> desugar_chunk p (CLiteral (c :: a)) = Some (Ok (PText v)) ->
  Good p b (fun ps => Q (PText v :: ps)) -> Good p (c :: a ++ b) Q.
Proof.
  intros p c a b v Q N1 N2 LC D G pos. destruct (G (pos + S (length a))%nat) as (ts & cs & ps & HL & HP & HD & HQ).
  exists (mkTok KLiteral pos (c :: a) :: ts), (CLiteral (c :: a) :: cs), (PText v :: ps). repeat split; auto.
  - eapply Lexed_step; [|exact HL]. unfold next. cbn [l_interp l_rest l_pos l_spec].
    rewrite (proj2 (N.eqb_neq c OPEN) N1), (proj2 (N.eqb_neq c CLOSE) N2), LC. cbn. now rewrite Nat.add_0_r.
  - now apply Parsed_literal.
  - cbn [desugar_chunks]. rewrite D, HD. reflexivity.
Qed.

(** A doubled brace of a plain string. *)
Lemma Good_brace : forall p c b (Q : list piece -> Prop), is_c p = false -> c = 123 \/ c = 125 ->
  Good p b (fun ps => Q (PText [c] :: ps)) -> Good p (c :: c :: b) Q.
Proof.
  intros p c b Q NC HC G pos. destruct (G (pos + 2)%nat) as (ts & cs & ps & HL & HP & HD & HQ). destruct HC as [-> | ->].
  - exists (mkTok KEscapedOpen pos [123; 123] :: ts), (CEscapedOpen :: cs), (PText [123] :: ps). repeat split; auto.
    + eapply Lexed_step; [|exact HL]. unfold next. cbn. rewrite NC. cbn. now rewrite Nat.add_0_r.
    + now apply Parsed_escaped.
    + cbn [desugar_chunks desugar_chunk]. rewrite HD. reflexivity.
  - exists (mkTok KEscapedClose pos [125; 125] :: ts), (CEscapedClose :: cs), (PText [125] :: ps). repeat split; auto.
    + eapply Lexed_step; [|exact HL]. unfold next. cbn. rewrite NC. cbn. now rewrite Nat.add_0_r.
    + now apply Parsed_escaped.
    + cbn [desugar_chunks desugar_chunk]. rewrite HD. reflexivity.
Qed.

(** ** Text of plain strings *)

Definition brace (c : N) : bool := existsb (N.eqb c) [123; 125].
Lemma brace_spec : forall c, brace c = true <-> c = 123 \/ c = 125.
Proof. intros c. unfold brace. cbn. rewrite !orb_true_iff, !N.eqb_eq. intuition discriminate. Qed.
Lemma brace_false : forall c, brace c = false <-> c <> 123 /\ c <> 125.
Proof. intros c. unfold brace. cbn. rewrite !orb_false_iff, !N.eqb_neq. intuition. Qed.

Lemma double_app : forall a b, double_braces (a ++ b) = double_braces a ++ double_braces b.
Proof. intros. apply flat_map_app. Qed.
Lemma double_plain : forall a, Forall (fun c => brace c = false) a -> double_braces a = a.
Proof. induction 1 as [|c a B F IH]; auto. cbn [double_braces flat_map]. unfold brace in B. rewrite B. cbn. f_equal. exact IH. Qed.
Lemma double_cons : forall c v, double_braces (c :: v) = (if brace c then [c; c] else [c]) ++ double_braces v.
Proof. reflexivity. Qed.

(** The end of the text: nothing, or the start of a hole. *)
Definition edge (s : text) : Prop := s = [] \/ begins 123 s.

(** The longest prefix without braces. *)
Lemma split_braces : forall v : text, exists a b, v = a ++ b /\ Forall (fun c => brace c = false) a /\ match b with [] => True | c :: _ => brace c = true end.
Proof.
  induction v as [|c v (a & b & -> & F & B)]. { exists [], []. auto. }
  destruct (brace c) eqn:E; [exists [], (c :: a ++ b)|exists (c :: a), b]; auto.
Qed.

(** Pieces whose value begins with [v]. *)
Definition after (v : text) (R : (nat -> target -> option text -> text) -> nat -> text -> Prop) (ps : list piece) : Prop :=
  forall show k, exists t, joined show k ps = v ++ t /\ R show k t.

Lemma after_text : forall v w R ps, after w R ps -> after (v ++ w) R (PText v :: ps).
Proof. intros v w R ps A show k. destruct (A show k) as (t & E & H). exists t. cbn. rewrite E, app_assoc. auto. Qed.

Lemma plain_run : forall p R, is_c p = false -> forall n v s, (length v <= n)%nat -> edge s ->
  Good p s (after [] R) -> Good p (double_braces v ++ s) (after v R).
Proof.
  intros p R NC. induction n as [|n IH]; intros v s L ES G; destruct v as [|c v]; cbn in L; try lia; try exact G.
  destruct (brace c) eqn:B.
  - rewrite double_cons, B. cbn [app]. apply Good_brace; auto. { now apply brace_spec. }
    eapply Good_weaken; [|apply (IH v s); auto; lia]. intros ps A. apply (after_text [c] v). auto.
  - destruct (split_braces v) as (a & b & -> & F & HB). rewrite double_cons, B, double_app, (double_plain a F), <- !app_assoc. cbn [app].
    rewrite app_length in L. apply brace_false in B as B'. destruct B' as [B1 B2].
    apply Good_literal with (v := c :: a); auto.
    + unfold literal_content. rewrite NC. apply consume_app.
      * eapply Forall_impl; [|exact F]. intros x X. apply brace_false in X as [X1 X2]. unfold OPEN, CLOSE.
        rewrite (proj2 (N.eqb_neq x 123) X1), (proj2 (N.eqb_neq x 125) X2). auto.
      * destruct b as [|y b].
        -- cbn. destruct ES as [->|[s' ->]]; auto.
        -- rewrite double_cons, HB. cbn. apply brace_spec in HB as [-> | ->]; auto.
    + cbn. rewrite NC. auto.
    + eapply Good_weaken; [|apply (IH b s); auto; lia]. intros ps A. apply (after_text (c :: a) b). auto.
Qed.

(** ** Text of c-strings *)

Lemma CSpells_Spells : forall s t, CSpells s t -> Spells s t.
Proof. induction 1; constructor; auto. Qed.
Lemma CSpells_app : forall s t s' t', CSpells s t -> CSpells s' t' -> CSpells (s ++ s') (t ++ t').
Proof. induction 1; intros; cbn; auto. rewrite <- app_assoc. constructor; auto. Qed.

(** The unit starts with a character that is no bare brace or quote; an escape's letters
    after the first are hexadecimal digits. *)
Lemma unit_cases : forall u c, Unit_ u c -> (u = [c] /\ c <> 92) \/ (exists e ds, u = 92 :: e :: ds /\ Forall (fun x => exists d, Digit x d) ds).
Proof.
  intros u c U. inversion U; subst; auto.
  - right. exists e, []. auto.
  - right. exists e, s. split; auto. eapply Hex_digits; eauto.
Qed.

Lemma c_literal_digits : forall ds r a b, Forall (fun x => exists d, Digit x d) ds -> c_literal r = (a, b) -> c_literal (ds ++ r) = (ds ++ a, b).
Proof.
  induction 1 as [|x ds [d D] F IH]; intros E; auto. apply digit_not_special in D as (_ & N1 & N2 & N3). cbn.
  unfold BACKSLASH, OPEN, CLOSE. rewrite (proj2 (N.eqb_neq x 92) N1), (proj2 (N.eqb_neq x 123) N2), (proj2 (N.eqb_neq x 125) N3). cbn. now rewrite IH.
Qed.

Lemma not_bare : forall c, ~ (exists b, In b [34; 123; 125] /\ [c] = [b]) -> c <> 34 /\ c <> 123 /\ c <> 125.
Proof. intros c N. repeat split; intros ->; apply N; [exists 34|exists 123|exists 125]; cbn; auto. Qed.

Lemma c_literal_CSpells : forall s t, CSpells s t -> forall r, edge r -> c_literal (s ++ r) = (s, r).
Proof.
  induction 1 as [|u c s t U NB CS IH]; intros r E.
  - destruct E as [->|[r' ->]]; auto.
  - specialize (IH r E). rewrite <- app_assoc. destruct (unit_cases _ _ U) as [[-> N]|(e & ds & -> & F)].
    + apply not_bare in NB as (_ & N2 & N3). cbn. unfold BACKSLASH, OPEN, CLOSE.
      rewrite (proj2 (N.eqb_neq c 92) N), (proj2 (N.eqb_neq c 123) N2), (proj2 (N.eqb_neq c 125) N3). cbn. now rewrite IH.
    + cbn [app c_literal]. change (92 =? BACKSLASH) with true. cbn iota. now rewrite (c_literal_digits ds (s ++ r) s r).
Qed.

Lemma process_Spells : forall s t, Spells s t -> process_escapes s = Some (Ok t).
Proof. intros s t H. unfold process_escapes. now apply escapes_Spells. Qed.

Lemma c_run : forall R s v r, CSpells s v -> ~ begins 92 s -> edge r ->
  Good CString r (after [] R) -> Good CString (s ++ r) (after v R).
Proof.
  intros R s v r CS NB E G. inversion CS as [|u c s' t U NBr CS' E1 E2]; subst. { exact G. }
  destruct (unit_cases _ _ U) as [[-> N]|(e & ds & -> & F)].
  2: { destruct NB. eexists. reflexivity. }
  apply not_bare in NBr as (N1 & N2 & N3). rewrite <- app_assoc. cbn [app].
  apply Good_literal with (v := c :: t); auto.
  - cbn [is_c literal_content]. eapply c_literal_CSpells; eauto.
  - cbn [desugar_chunk is_c]. change (c :: s') with ([c] ++ s'). rewrite (process_Spells _ (c :: t)); auto. constructor; auto. now apply CSpells_Spells.
  - eapply Good_weaken; [|exact G]. intros ps A. pose proof (after_text (c :: t) [] R ps A) as X. rewrite app_nil_r in X. exact X.
Qed.

(** ** Holes *)

Lemma next_inside : forall cs c s pos sp, is_whitespace c = false ->
  next cs (mkLex (c :: s) pos true sp) =
    (if c =? OPEN then if match s with d :: _ => (d =? c) && negb cs | [] => false end then Some (tok KEscapedOpen pos c (firstn 1 s, skipn 1 s) true sp) else Some (tok KOpen pos c ([], s) true false)
     else if c =? CLOSE then if match s with d :: _ => (d =? c) && negb cs | [] => false end then Some (tok KEscapedClose pos c (firstn 1 s, skipn 1 s) true sp) else Some (tok KClose pos c ([], s) false false)
     else if c =? COLON then Some (tok KColon pos c ([], s) true true)
     else if c =? DOT then Some (tok KDot pos c ([], s) true sp)
     else if sp then Some (tok KSpec pos c (consume spec_char s) true true)
     else Some (tok KTarget pos c (consume target_char s) true false)).
Proof. intros cs c s pos sp W. unfold next. cbn [l_interp l_rest l_pos l_spec consume]. rewrite W. cbn. rewrite Nat.add_0_r. destruct sp; reflexivity. Qed.

Definition target_end (s : text) : Prop := match s with c :: _ => In c [125; 58; 46] | [] => True end.

Lemma next_name : forall cs n s pos, name_ok n -> target_end s ->
  next cs (mkLex (n ++ s) pos true false) = Some (mkTok KTarget pos n, mkLex s (pos + length n) true false).
Proof.
  intros cs [|c n] s pos [NE F] TE; [congruence|]. inversion F as [|? ? [W NI] F' E1]; subst. cbn [app]. rewrite next_inside; auto.
  unfold OPEN, CLOSE, COLON, DOT. cbn [In] in NI.
  rewrite (proj2 (N.eqb_neq c 123)), (proj2 (N.eqb_neq c 125)), (proj2 (N.eqb_neq c 58)), (proj2 (N.eqb_neq c 46)) by (intros ->; tauto).
  rewrite consume_app; auto.
  - eapply Forall_impl; [|exact F']. intros x [Wx Nx]. unfold target_char, CLOSE, COLON, DOT. rewrite Wx. cbn [In] in Nx.
    rewrite (proj2 (N.eqb_neq x 125)), (proj2 (N.eqb_neq x 58)), (proj2 (N.eqb_neq x 46)) by (intros ->; tauto). auto.
  - destruct s as [|x s]; auto. cbn [target_end In] in TE. unfold target_char. destruct TE as [<-|[<-|[<-|[]]]]; auto.
Qed.

Lemma next_format : forall cs f s pos, format_ok f -> begins 125 s ->
  next cs (mkLex (f ++ s) pos true true) = Some (mkTok KSpec pos f, mkLex s (pos + length f) true true).
Proof.
  intros cs f s pos (c & f' & -> & W & ND & F) [s' ->]. inversion F as [|? ? NI F' E1]; subst. cbn [app]. rewrite next_inside; auto.
  unfold OPEN, CLOSE, COLON, DOT. cbn [In] in NI.
  rewrite (proj2 (N.eqb_neq c 123)), (proj2 (N.eqb_neq c 125)), (proj2 (N.eqb_neq c 58)), (proj2 (N.eqb_neq c 46)) by (intros ->; tauto).
  rewrite consume_app; auto.
  eapply Forall_impl; [|exact F']. intros x Nx. unfold spec_char, CLOSE, COLON. cbn [In] in Nx.
  rewrite (proj2 (N.eqb_neq x 125)), (proj2 (N.eqb_neq x 58)) by (intros ->; tauto). auto.
Qed.

(** The tokens of the names after the first. *)
Lemma dots_lex : forall cs ns s pos, Forall name_ok ns -> target_end s -> (forall r, s <> 46 :: r) ->
  exists toks, (forall ts, Lexed cs (mkLex s (pos + length (concat (map (cons 46) ns))) true false) ts -> Lexed cs (mkLex (concat (map (cons 46) ns) ++ s) pos true false) (toks ++ ts)) /\
    (forall ts, (forall t ts', ts = t :: ts' -> kind_is KDot t = false) -> dotted (toks ++ ts) = (ns, ts)) /\
    Forall (fun t => kind_is KDot t = true \/ kind_is KTarget t = true) toks /\ (ns <> [] -> existsb (kind_is KDot) toks = true) /\ (ns = [] -> toks = []).
Proof.
  intros cs. induction ns as [|n ns IH]; intros s pos F TE ND.
  - exists []. repeat split; auto; try congruence.
    + intros ts H. cbn in *. rewrite Nat.add_0_r in H. auto.
    + intros [|t ts] H; cbn [dotted app]; auto. now rewrite (H t ts).
  - inversion F as [|? ? N F']; subst. destruct (IH s (pos + 1 + length n)%nat F' TE ND) as (toks & HL & HD & HF & _ & _).
    exists (mkTok KDot pos [46] :: mkTok KTarget (pos + 1) n :: toks). repeat split.
    + intros ts H. cbn [map concat app]. rewrite <- app_assoc. eapply Lexed_step; [rewrite next_inside; reflexivity|].
      cbn [app length]. eapply Lexed_step; [apply next_name; auto|].
      { destruct ns as [|m ns]; cbn; auto. }
      apply HL. cbn [map concat] in H. rewrite app_length in H. cbn [length] in H.
      replace (pos + 1 + length n + length (concat (map (cons 46%N) ns)))%nat with (pos + S (length n + length (concat (map (cons 46%N) ns))))%nat by lia. exact H.
    + intros ts H. cbn [app dotted]. change (kind_is KDot (mkTok KDot pos [46])) with true. change (kind_is KTarget (mkTok KTarget (pos + 1) n)) with true. cbn iota. now rewrite (HD ts).
    + constructor; [now left|]. constructor; [now right|]. auto.
    + discriminate.
Qed.

Lemma join_cons : forall n ns, join [46] (n :: ns) = n ++ concat (map (cons 46) ns).
Proof.
  intros n ns. revert n. induction ns as [|m ns IH]; intros n. { cbn. now rewrite app_nil_r. }
  cbn [join]. f_equal. cbn [map concat]. cbn [app]. f_equal. apply IH.
Qed.

(** Closing braces that pair off before the one that closes. *)
Fixpoint pairs (j : nat) (s : text) : text := match j with O => s | S j => 125 :: 125 :: pairs j s end.

Lemma close_lex : forall cs j s pos sp, (cs = false -> ~ begins 125 s) -> (cs = true -> j = O) ->
  exists toks pos', (forall ts, Lexed cs (mkLex s pos' false false) ts -> Lexed cs (mkLex (pairs j (125 :: s)) pos true sp) (toks ++ ts)) /\
    (forall ts, close (toks ++ ts) = (ts, true)) /\ toks <> [] /\ Forall (fun t => kind_is KEscapedClose t = true \/ kind_is KClose t = true) toks.
Proof.
  intros cs j. induction j as [|j IH]; intros s pos sp NB J0.
  - exists [mkTok KClose pos [125]], (pos + 1)%nat. repeat split; auto; try discriminate.
    intros ts H. eapply Lexed_step; [|exact H]. cbn [pairs]. rewrite next_inside by reflexivity.
    change (125 =? OPEN) with false. change (125 =? CLOSE) with true. cbn iota.
    destruct s as [|d s]; auto. destruct (N.eqb_spec d 125) as [->|]; auto. destruct cs; auto. destruct NB; auto. eexists; eauto.
  - destruct cs; [specialize (J0 eq_refl); discriminate|].
    destruct (IH s (pos + 2)%nat sp NB) as (toks & pos' & HL & HC & NE & HF); [discriminate|].
    exists (mkTok KEscapedClose pos [125; 125] :: toks), pos'. repeat split; auto; try discriminate.
    intros ts H. cbn [app]. eapply Lexed_step; [|apply HL; exact H]. cbn [pairs]. rewrite next_inside by reflexivity. reflexivity.
Qed.

(** The target an interpolation names. *)
Definition refers (ns : list text) : target :=
  match ns with
  | [] => Anonymous
  | [n] => match parse_i32 n with Some z => Numbered z | None => Name n end
  | n :: more => Path n more
  end.
Lemma refers_spec : forall ns, Refers ns (refers ns).
Proof.
  intros [|n [|m more]]; cbn; try constructor. destruct (parse_i32 n) eqn:E; constructor; [now apply number_spec|].
  intros z X. apply number_spec in X. congruence.
Qed.

Definition chunk_of (ns : list text) (f : option text) : chunk :=
  match ns with
  | [] => CInterpolation None None f
  | [n] => CInterpolation None (Some n) f
  | _ => CInterpolation (Some ns) None f
  end.
Lemma chunk_of_desugar : forall p ns f, desugar_chunk p (chunk_of ns f) = Some (Ok (PHole (refers ns) f)).
Proof. intros p [|n [|m more]] f; reflexivity. Qed.

(** The source of a hole after its opening brace, up to the closing one. *)
Definition inner (ns : list text) (f : option text) : text :=
  join [46] ns ++ match f with None => [] | Some f => 58 :: f end.

Lemma format_lex : forall cs f s pos, match f with None => True | Some f => format_ok f end -> begins 125 s ->
  exists toks pos' sp, (forall ts, Lexed cs (mkLex s pos' true sp) ts -> Lexed cs (mkLex (match f with None => [] | Some f => 58 :: f end ++ s) pos true false) (toks ++ ts)) /\
    (forall ts, (forall t ts', ts = t :: ts' -> kind_is KColon t = false /\ kind_is KSpec t = false) ->
       match eat KColon (toks ++ ts) with
       | Some (_, r) => match eat KSpec r with Some (g, r) => (Some g, r) | None => (None, r) end
       | None => (None, toks ++ ts)
       end = (f, ts)) /\
    (forall t, hd_error toks = Some t -> kind_is KColon t = true).
Proof.
  intros cs [f|] s pos OK B.
  - exists [mkTok KColon pos [58]; mkTok KSpec (pos + 1) f], (pos + 1 + length f)%nat, true. repeat split; auto; try discriminate.
    + intros ts H. cbn [app]. eapply Lexed_step; [rewrite next_inside; reflexivity|]. cbn [app length]. eapply Lexed_step; [apply next_format; auto|]. exact H.
    + intros t. cbn. injection 1 as <-. reflexivity.
  - exists [], pos, false. repeat split; auto; try discriminate. intros [|t ts] H; cbn [eat app]; auto. destruct (H t ts eq_refl) as [-> _]. auto.
Qed.

Lemma take_while_app : forall A (p : A -> bool) a b, Forall (fun x => p x = true) a -> take_while p (a ++ b) = a ++ take_while p b.
Proof. induction 1; cbn; auto. rewrite H. now f_equal. Qed.

Lemma hole_lex : forall cs ns f j s pos, hole_ok (Hole ns f) -> (cs = false -> ~ begins 125 s) -> (cs = true -> j = O) ->
  exists toks pos', (forall ts, Lexed cs (mkLex s pos' false false) ts -> Lexed cs (mkLex (123 :: inner ns f ++ pairs j (125 :: s)) pos false false) (toks ++ ts)) /\
    (forall ts chs, Parsed ts chs [] -> Parsed (toks ++ ts) (chunk_of ns f :: chs) []).
Proof.
  intros cs ns f j s pos [ON OF] NB J0.
  assert (B : begins 125 (pairs j (125 :: s))). { destruct j; eexists; reflexivity. }
  assert (OPENS : forall r, (forall r', r <> 123 :: r') -> next cs (mkLex (123 :: r) pos false false) = Some (mkTok KOpen pos [123], mkLex r (pos + 1) true false)).
  { intros r NR. unfold next. cbn [l_interp l_rest l_pos l_spec]. change (123 =? OPEN) with true. cbn iota. cbn [length]. rewrite Nat.add_0_r.
    destruct r as [|d r]; auto. destruct (N.eqb_spec d 123) as [->|]; auto. destruct (NR r eq_refl). }
  (* the parser, given the tokens of the names, of the format and of the end *)
  assert (PARSE : forall nt ft et, 
    (forall ts, (forall t ts', ts = t :: ts' -> kind_is KDot t = false /\ kind_is KTarget t = false) ->
       (existsb (kind_is KDot) (take_while (fun t => negb (kind_is KClose t || kind_is KColon t)) ts) = false) ->
       (let has_dots := existsb (kind_is KDot) (take_while (fun t => negb (kind_is KClose t || kind_is KColon t)) (nt ++ ts)) in
        if has_dots then let '(first, r) := match eat KTarget (nt ++ ts) with Some (n, r) => ([n], r) | None => ([], nt ++ ts) end in
          let '(names, r) := dotted r in (Some (first ++ names), None, r)
        else match eat KTarget (nt ++ ts) with Some (n, r) => (None, Some n, r) | None => (None, None, nt ++ ts) end)
       = match ns with [] => (None, None, ts) | [n] => (None, Some n, ts) | _ => (Some ns, None, ts) end) ->
    (forall ts, (forall t ts', ts = t :: ts' -> kind_is KColon t = false /\ kind_is KSpec t = false) ->
       match eat KColon (ft ++ ts) with
       | Some (_, r) => match eat KSpec r with Some (g, r) => (Some g, r) | None => (None, r) end
       | None => (None, ft ++ ts)
       end = (f, ts)) ->
    (forall t, hd_error ft = Some t -> kind_is KColon t = true) ->
    et <> [] -> Forall (fun t => kind_is KEscapedClose t = true \/ kind_is KClose t = true) et ->
    (forall ts, close (et ++ ts) = (ts, true)) ->
    forall ts chs, Parsed ts chs [] -> Parsed ((mkTok KOpen pos [123] :: nt ++ ft ++ et) ++ ts) (chunk_of ns f :: chs) []).
  { intros nt ft et HN HF FH NE FE HC ts chs HP fuel L. cbn [app] in *. rewrite <- !app_assoc in *.
    destruct fuel as [|fuel]; [cbn in L; lia|]. cbn [parse t_kind].
    assert (KE : forall t ts', et ++ ts = t :: ts' -> kind_is KColon t = false /\ kind_is KSpec t = false /\ kind_is KDot t = false /\ kind_is KTarget t = false).
    { intros t ts' E. destruct et as [|e et]; [congruence|]. injection E as <- _. inversion FE as [|? ? K _]. unfold kind_is in *. destruct (t_kind e), K; try discriminate; auto. }
    assert (PC : parse_content (nt ++ ft ++ et ++ ts) = (chunk_of ns f, et ++ ts)).
    { unfold parse_content. cbv zeta. specialize (HN (ft ++ et ++ ts)). cbv zeta in HN. rewrite HN; clear HN.
      - specialize (HF (et ++ ts)). destruct ns as [|n [|m more]]; rewrite HF; try reflexivity; intros t ts' E; destruct (KE t ts' E); tauto.
      - intros t ts' E. destruct ft as [|x ft]; [cbn in E; destruct (KE t ts' E); tauto|]. injection E as <- _.
        specialize (FH x eq_refl). unfold kind_is in *. destruct (t_kind x); try discriminate; auto.
      - destruct ft as [|x ft].
        + cbn [app]. clear - FE HC. revert HC. induction FE as [|e et K FE IH]; intros HC. { specialize (HC [mkTok KLiteral 0 []]). discriminate. }
          cbn [app take_while]. unfold kind_is in K |- *. destruct (t_kind e) eqn:KE, K as [K|K]; try discriminate; cbn; auto.
          rewrite KE. apply IH. intros ts0. specialize (HC ts0). cbn [app close] in HC. unfold kind_is in HC. rewrite KE in HC. auto.
        + cbn [app take_while]. rewrite (FH x eq_refl), orb_true_r. auto. }
    rewrite PC, HC, (HP fuel); auto. cbn [length] in L. rewrite !app_length in L. lia. }
  destruct ns as [|n ns].
  - destruct (format_lex cs f (pairs j (125 :: s)) (pos + 1) OF B) as (ft & p1 & sp & FL & FP & FH).
    destruct (close_lex cs j s p1 sp NB J0) as (et & p2 & EL & EC & EN & EF).
    exists (mkTok KOpen pos [123] :: [] ++ ft ++ et), p2. split.
    + intros ts H. unfold inner. cbn [app join]. rewrite <- app_assoc. eapply Lexed_step; [apply OPENS|].
      * intros r' E. destruct f; [discriminate|]. destruct B as [b B]. cbn in E. congruence.
      * apply FL. apply EL. auto.
    + apply PARSE; auto.
      intros ts HT HD. cbn [app]. cbv zeta. rewrite HD. destruct ts as [|t ts]; auto. destruct (HT t ts eq_refl) as [_ K]. cbn [eat]. rewrite K. auto.
  - inversion ON as [|? ? N1 N2]; subst. set (tail := match f with None => [] | Some g => 58 :: g end ++ pairs j (125 :: s)).
    assert (TE : target_end tail). { unfold tail. destruct f; cbn; auto. destruct B as [b ->]. cbn. auto. }
    assert (TD : forall r, tail <> 46 :: r). { unfold tail. intros r. destruct f; try discriminate. destruct B as [b ->]. discriminate. }
    destruct (dots_lex cs ns tail (pos + 1 + length n) N2 TE TD) as (dt & DL & DD & DF & DE & DN).
    destruct (format_lex cs f (pairs j (125 :: s)) (pos + 1 + length n + length (concat (map (cons 46%N) ns))) OF B) as (ft & p1 & sp & FL & FP & FH).
    destruct (close_lex cs j s p1 sp NB J0) as (et & p2 & EL & EC & EN & EF).
    exists (mkTok KOpen pos [123] :: (mkTok KTarget (pos + 1) n :: dt) ++ ft ++ et), p2. split.
    + intros ts H. unfold inner. rewrite join_cons, <- !app_assoc. fold tail. cbn [app]. eapply Lexed_step; [apply OPENS|].
      * intros r' E. destruct N1 as [NE N1]. destruct n as [|c n]; [congruence|]. cbn in E. injection E as -> _. inversion N1 as [|? ? [_ X] _]. apply X. cbn. auto.
      * eapply Lexed_step; [apply next_name; auto|].
        { destruct ns; cbn; auto. }
        rewrite <- !app_assoc. apply DL. apply FL. apply EL. auto.
    + apply PARSE; auto. intros ts HT HD. cbn [app]. cbv zeta.
      assert (FA : Forall (fun t => negb (kind_is KClose t || kind_is KColon t) = true) dt).
      { eapply Forall_impl; [|exact DF]. intros t K. unfold kind_is in *. destruct (t_kind t), K; auto; discriminate. }
      set (P := fun t => negb (kind_is KClose t || kind_is KColon t)) in *.
      change (existsb (kind_is KDot) (take_while P (mkTok KTarget (pos + 1) n :: dt ++ ts))) with (existsb (kind_is KDot) (take_while P (dt ++ ts))).
      change (eat KTarget (mkTok KTarget (pos + 1) n :: dt ++ ts)) with (Some (n, dt ++ ts)).
      rewrite take_while_app, existsb_app, HD, orb_false_r by auto.
      assert (HT' : forall t ts', ts = t :: ts' -> kind_is KDot t = false) by (intros t ts' E; now destruct (HT t ts' E)).
      destruct ns as [|m ns].
      * rewrite (DN eq_refl). reflexivity.
      * rewrite DE by discriminate. rewrite (DD ts HT'). reflexivity.
Qed.

Lemma pairs_comm : forall j s, pairs j (125 :: s) = 125 :: pairs j s.
Proof. induction j as [|j IH]; intros s; cbn; auto. now rewrite IH. Qed.
Lemma pairs_add : forall i j s, pairs (i + j) s = pairs i (pairs j s).
Proof. induction i as [|i IH]; intros j s; cbn; auto. now rewrite IH. Qed.

Lemma pairs_app : forall j a s, pairs j a ++ s = pairs j (a ++ s).
Proof. induction j as [|j IH]; intros a s; cbn; auto. now rewrite IH. Qed.

Lemma hole_source : forall ns f s, item_source (Hole ns f) ++ s = 123 :: inner ns f ++ 125 :: s.
Proof. intros. unfold inner. cbn [item_source app]. f_equal. rewrite <- !app_assoc. reflexivity. Qed.

Lemma Good_hole : forall p ns f j s (Q : list piece -> Prop), hole_ok (Hole ns f) ->
  (is_c p = false -> ~ begins 125 s) -> (is_c p = true -> j = O) ->
  Good p s (fun ps => Q (PHole (refers ns) f :: ps)) -> Good p (item_source (Hole ns f) ++ pairs j s) Q.
Proof.
  intros p ns f j s Q OK NB J0 G pos. rewrite hole_source, <- pairs_comm.
  destruct (hole_lex (is_c p) ns f j s pos OK NB J0) as (toks & pos' & HL & HP).
  destruct (G pos') as (ts & cs & ps & GL & GP & GD & GQ). exists (toks ++ ts), (chunk_of ns f :: cs), (PHole (refers ns) f :: ps).
  repeat split; auto. cbn [desugar_chunks]. now rewrite chunk_of_desugar, GD.
Qed.

(** ** Plain and raw strings *)

Definition plain_items (is : list item) : Prop := Forall (fun i => hole_ok i /\ plain_text i) is.

(** The value of the template. *)
Definition valued (is : list item) : (nat -> target -> option text -> text) -> nat -> text -> Prop := fun show k t => Value show k is t.

Lemma drop_close_spec : forall v, exists j, v = repeat 125 j ++ drop_close v /\ double_braces v = pairs j (double_braces (drop_close v)) /\
  (drop_close v = [] \/ exists c v', drop_close v = c :: v' /\ c <> 125).
Proof.
  induction v as [|c v (j & E & D & H)]. { exists O. cbn. auto. }
  cbn [drop_close]. destruct (N.eqb_spec c 125) as [->|N].
  - exists (S j). cbn [repeat app pairs]. rewrite <- E, <- D. auto.
  - exists O. cbn [repeat app pairs]. repeat split; auto. right. eauto.
Qed.

Lemma split_after_hole : forall is, plain_items is -> exists j acc is1, (length is1 <= length is)%nat /\ plain_items is1 /\
  source is = pairs j (double_braces acc ++ source is1) /\ ~ begins 125 (double_braces acc ++ source is1) /\
  forall show k t, Value show k (without_leading_close false is1) t -> Value show k (without_leading_close true is) (acc ++ t).
Proof.
  induction 1 as [|i is [HO PT] F IH].
  - exists O, [], []. repeat split; auto; try constructor. cbn. intros [s' E]. discriminate.
  - destruct i as [s v|ns f].
    + destruct PT as [-> NQ]. destruct (drop_close_spec v) as (j & E & D & [H|(c & v' & H & N)]).
      * destruct IH as (j' & acc & is1 & L & P1 & E1 & NB & V). exists (j + j')%nat, acc, is1. repeat split; auto; cbn [length]; try lia.
        -- change (source (Text (double_braces v) v :: is)) with (double_braces v ++ source is). rewrite D, H, E1, pairs_add, pairs_app. reflexivity.
        -- intros show k t Hv. cbn [without_leading_close andb]. rewrite H. apply (Value_text show k _ [] _ (acc ++ t)). auto.
      * exists j, (drop_close v), is. repeat split; auto; cbn [length]; try lia.
        -- change (source (Text (double_braces v) v :: is)) with (double_braces v ++ source is). rewrite D, pairs_app. reflexivity.
        -- rewrite H. rewrite double_cons. intros [s' E']. apply N. destruct (brace c); cbn in E'; congruence.
        -- intros show k t Hv. cbn [without_leading_close andb]. rewrite H. now constructor.
    + exists O, [], (Hole ns f :: is). repeat split; auto.
      * constructor; auto.
      * cbn. intros [s' E]. discriminate.
Qed.

Lemma plain_good : forall p, is_c p = false -> forall n is acc, (length is <= n)%nat -> plain_items is ->
  Good p (double_braces acc ++ source is) (after acc (valued (without_leading_close false is))).
Proof.
  intros p NC. induction n as [|n IH]; intros is acc L F; (destruct is as [|i is]; [|cbn in L; try lia]).
  - apply (plain_run p _ NC _ acc [] (le_n _)); [now left|]. apply Good_nil. intros show k. exists []. split; auto. constructor.
  - apply (plain_run p _ NC _ acc [] (le_n _)); [now left|]. apply Good_nil. intros show k. exists []. split; auto. constructor.
  - inversion F as [|? ? [HO PT] F']; subst. destruct i as [s v|ns f].
    + destruct PT as [-> NQ]. change (source (Text (double_braces v) v :: is)) with (double_braces v ++ source is). rewrite app_assoc, <- double_app.
      eapply Good_weaken; [|apply (IH is (acc ++ v)); auto; lia]. intros ps A show k. destruct (A show k) as (t & E & V).
      exists (v ++ t). rewrite E, app_assoc. split; auto. constructor. exact V.
    + apply (plain_run p _ NC _ acc _ (le_n _)). { right. eexists. reflexivity. }
      destruct (split_after_hole is F') as (j & acc' & is1 & L1 & P1 & E1 & NB & V).
      change (source (Hole ns f :: is)) with (item_source (Hole ns f) ++ source is). rewrite E1. apply Good_hole; auto; [congruence|].
      eapply Good_weaken; [|apply (IH is1 acc'); auto; lia]. intros ps A show k. cbn [joined app].
      destruct (A show (S k)) as (t & E & Vt). exists (show k (refers ns) f ++ acc' ++ t). rewrite E. split; auto. cbn [without_leading_close].
      constructor; [apply refers_spec|]. apply V. exact Vt.
Qed.

Lemma Good_pieces : forall p s is, Good p s (after [] (valued is)) -> has_interpolation p s = true -> means p s is.
Proof.
  intros p s is G H. destruct (G O) as (ts & cs & ps & HL & HP & HD & HQ). exists ps. split.
  - unfold pieces. rewrite H. unfold lex. rewrite (HL (length s)) by auto. rewrite (HP (length ts)) by auto. now rewrite HD.
  - intros show. destruct (HQ show O) as (t & E & V). cbn in E. rewrite E. exact V.
Qed.

(** Without braces there are no holes, and the text is the value. *)
Lemma no_braces : forall is, plain_items is -> existsb (fun c => (c =? OPEN) || (c =? CLOSE)) (source is) = false ->
  forall show k, Value show k (without_leading_close false is) (source is).
Proof.
  induction 1 as [|i is [HO PT] F IH]; intros E show k. { constructor. }
  change (source (i :: is)) with (item_source i ++ source is) in *. rewrite existsb_app in E. apply orb_false_iff in E as [E1 E2].
  destruct i as [s v|ns f]; [|discriminate]. destruct PT as [-> NQ]. cbn [item_source] in *. cbn [without_leading_close andb].
  assert (double_braces v = v).
  { apply double_plain. apply Forall_forall. intros c I. destruct (brace c) eqn:B; auto. exfalso.
    assert (X : In c (double_braces v)). { apply in_flat_map. exists c. split; auto. unfold brace in B. rewrite B. now left. }
    assert (Y : existsb (fun c => (c =? OPEN) || (c =? CLOSE)) (double_braces v) = true).
    { apply existsb_exists. exists c. split; auto. apply orb_true_iff. rewrite !N.eqb_eq. now apply brace_spec. }
    congruence. }
  rewrite H at 2. constructor. auto.
Qed.

Lemma plain_means : forall p is, is_c p = false -> plain_items is -> means p (source is) (without_leading_close false is).
Proof.
  intros p is NC F. destruct (has_interpolation p (source is)) eqn:H.
  - apply Good_pieces; auto. apply (plain_good p NC (length is) is []); auto.
  - exists [PText (source is)]. split.
    + unfold pieces. rewrite H. cbn. now rewrite NC.
    + intros show. cbn. rewrite app_nil_r. apply no_braces; auto. unfold has_interpolation in H. now rewrite NC in H.
Qed.

(** ** c-strings *)

Definition c_items (is : list item) : Prop := Forall (fun i => hole_ok i /\ c_text i) is.

Lemma c_good : forall is s v, c_items is -> CSpells s v -> ~ begins 92 (s ++ source is) -> (forall x, follows is x -> ~ begins 92 x) ->
  Good CString (s ++ source is) (after v (valued is)).
Proof.
  induction is as [|i is IH]; intros s v F CS NB FO.
  - apply c_run; auto; [|now left|]. { cbn in NB. now rewrite app_nil_r in NB. }
    apply Good_nil. intros show k. exists []. split; auto. constructor.
  - inversion F as [|? ? [HO PT] F']; subst. change (source (i :: is)) with (item_source i ++ source is) in *.
    assert (FO' : forall x, follows is x -> ~ begins 92 x).
    { intros x (pre & ns & f & post & -> & ->). apply FO. exists (i :: pre), ns, f, post. auto. }
    destruct i as [s' v'|ns f].
    + cbn [item_source c_text] in *. rewrite app_assoc in *. eapply Good_weaken; [|apply (IH (s ++ s') (v ++ v')); auto; now apply CSpells_app].
      intros ps A show k. destruct (A show k) as (t & E & V). exists (v' ++ t). rewrite E, app_assoc. split; auto. now constructor.
    + apply c_run; auto.
      * intros [r ->]. apply NB. eexists. reflexivity.
      * right. eexists. reflexivity.
      * change (source is) with (pairs 0 (source is)). apply Good_hole; auto; [discriminate|].
        assert (NB' : ~ begins 92 (source is)). { apply FO. exists [], ns, f, is. auto. }
        eapply Good_weaken; [|apply (IH [] [] F' CSpells_nil NB' FO')].
        intros ps A show k. cbn [joined app]. destruct (A show (S k)) as (t & E & V). exists (show k (refers ns) f ++ t). rewrite E. split; auto.
        constructor; [apply refers_spec|exact V].
Qed.

Lemma unescaped_digits : forall ds r, Forall (fun x => exists d, Digit x d) ds -> unescaped_braces (ds ++ r) = unescaped_braces r.
Proof.
  induction 1 as [|x ds [d D] F IH]; auto. apply digit_not_special in D as (_ & N1 & N2 & N3). cbn [app unescaped_braces].
  unfold BACKSLASH, OPEN, CLOSE. rewrite (proj2 (N.eqb_neq x 92) N1), (proj2 (N.eqb_neq x 123) N2), (proj2 (N.eqb_neq x 125) N3). exact IH.
Qed.
Lemma unescaped_CSpells : forall s t, CSpells s t -> forall r, unescaped_braces (s ++ r) = unescaped_braces r.
Proof.
  induction 1 as [|u c s t U NB CS IH]; intros r; auto. rewrite <- app_assoc. destruct (unit_cases _ _ U) as [[-> N]|(e & ds & -> & F)].
  - apply not_bare in NB as (_ & N2 & N3). cbn [app unescaped_braces]. unfold BACKSLASH, OPEN, CLOSE.
    rewrite (proj2 (N.eqb_neq c 92) N), (proj2 (N.eqb_neq c 123) N2), (proj2 (N.eqb_neq c 125) N3). apply IH.
  - cbn [app unescaped_braces]. change (92 =? BACKSLASH) with true. cbn iota. rewrite unescaped_digits; auto.
Qed.

Definition holes (is : list item) : Prop := exists ns f, In (Hole ns f) is.

Lemma c_no_holes : forall is, c_items is -> unescaped_braces (source is) = false ->
  exists v, CSpells (source is) v /\ forall show k, Value show k is v.
Proof.
  induction 1 as [|i is [HO PT] F IH]; intros E. { exists []. split; [constructor|]. intros. constructor. }
  change (source (i :: is)) with (item_source i ++ source is) in *. destruct i as [s v|ns f]; [|discriminate].
  cbn [item_source c_text] in *. rewrite (unescaped_CSpells _ _ PT) in E. destruct (IH E) as (w & CW & V).
  exists (v ++ w). split; [now apply CSpells_app|]. intros. now constructor.
Qed.
Lemma c_holes : forall is, c_items is -> unescaped_braces (source is) = true -> holes is.
Proof.
  induction 1 as [|i is [HO PT] F IH]; intros E. { discriminate. }
  change (source (i :: is)) with (item_source i ++ source is) in *. destruct i as [s v|ns f]; [|exists ns, f; now left].
  cbn [item_source c_text] in *. rewrite (unescaped_CSpells _ _ PT) in E. destruct (IH E) as (ns & f & I). exists ns, f. now right.
Qed.

Lemma c_means : forall is, c_items is -> (holes is -> ~ begins 92 (source is)) -> (forall x, follows is x -> ~ begins 92 x) ->
  means CString (source is) is.
Proof.
  intros is F NB FO. destruct (has_interpolation CString (source is)) eqn:H.
  - apply Good_pieces; auto. apply (c_good is [] []); auto; [constructor|]. apply NB. now apply c_holes.
  - destruct (c_no_holes is F H) as (v & CS & V). exists [PText v]. split.
    + unfold pieces. rewrite H. cbn. rewrite (process_Spells _ v); auto. now apply CSpells_Spells.
    + intros show. cbn. rewrite app_nil_r. auto.
Qed.

(** ** Where a string ends *)

Lemma scan_sound : forall cs n s c r, (length s <= n)%nat -> scan cs s = Some (c, r) -> s = c ++ 34 :: r.
Proof.
  intros cs. induction n as [|n IH]; intros [|x s] c r L E; cbn in L, E; try lia; try discriminate.
  destruct (N.eqb_spec x DQUOTE) as [->|NQ]. { injection E as <- <-. auto. }
  destruct ((x =? BACKSLASH) && cs).
  - destruct s as [|d s]; try discriminate. destruct (scan cs s) as [[c' r']|] eqn:S; try discriminate. injection E as <- <-.
    cbn in *. apply IH in S; [|lia]. now rewrite S.
  - destruct (scan cs s) as [[c' r']|] eqn:S; try discriminate. injection E as <- <-. cbn in *. apply IH in S; [|lia]. now rewrite S.
Qed.

Lemma scan_plain : forall s r, ~ In 34 s -> scan false (s ++ 34 :: r) = Some (s, r).
Proof.
  induction s as [|x s IH]; intros r N; auto. cbn [app scan]. unfold DQUOTE.
  rewrite (proj2 (N.eqb_neq x 34)) by (intros ->; apply N; now left). rewrite andb_false_r, IH; auto. intro. apply N. now right.
Qed.
Lemma scan_plain_no_quote : forall s c r, scan false s = Some (c, r) -> ~ In 34 c.
Proof.
  induction s as [|x s IH]; intros c r E; cbn in E; try discriminate.
  destruct (N.eqb_spec x DQUOTE) as [->|NQ]. { injection E as <- <-. auto. }
  rewrite andb_false_r in E. destruct (scan false s) as [[c' r']|] eqn:S; try discriminate. injection E as <- <-.
  intros [I|I]; [exact (NQ I)|]. eapply IH; eauto.
Qed.

Lemma scan_skip : forall a s t r, Forall (fun c => c <> 34 /\ c <> 92) a -> scan true s = Some (t, r) -> scan true (a ++ s) = Some (a ++ t, r).
Proof.
  induction 1 as [|x a [N1 N2] F IH]; intros E; auto. cbn [app scan]. unfold DQUOTE, BACKSLASH.
  rewrite (proj2 (N.eqb_neq x 34) N1), (proj2 (N.eqb_neq x 92) N2), IH; auto.
Qed.
Lemma scan_CSpells : forall s t, CSpells s t -> forall s' t' r, scan true s' = Some (t', r) -> scan true (s ++ s') = Some (s ++ t', r).
Proof.
  induction 1 as [|u c s t U NB CS IH]; intros s' t' r E; auto. rewrite <- !app_assoc. specialize (IH _ _ _ E).
  destruct (unit_cases _ _ U) as [[-> N]|(e & ds & -> & F)].
  - apply not_bare in NB as (N1 & _ & _). apply scan_skip; auto.
  - cbn [app scan]. change (92 =? DQUOTE) with false. change (92 =? BACKSLASH) with true. cbn iota. cbn [andb].
    rewrite (scan_skip ds (s ++ s') (s ++ t') r); auto. eapply Forall_impl; [|exact F]. intros x [d D]. apply digit_not_special in D. tauto.
Qed.

Lemma hole_chars : forall ns f, hole_ok (Hole ns f) -> Forall (fun c => c <> 34 /\ c <> 92) (item_source (Hole ns f)).
Proof.
  intros ns f [ON OF].
  assert (J : Forall (fun c => c <> 34 /\ c <> 92) (join [46] ns)).
  { induction ON as [|n ns [_ F] FN IH]; [constructor|]. rewrite join_cons. apply Forall_app. split.
    - eapply Forall_impl; [|exact F]. intros x [_ N]. cbn in N. split; intros ->; tauto.
    - clear - FN. induction FN as [|m ms [_ F] FN IH]; [constructor|]. cbn [map concat]. constructor; [split; discriminate|]. apply Forall_app. split; auto.
      eapply Forall_impl; [|exact F]. intros x [_ N]. cbn in N. split; intros ->; tauto. }
  cbn [item_source]. apply Forall_app. split; [repeat constructor; discriminate|]. apply Forall_app. split; auto. apply Forall_app. split; [|repeat constructor; discriminate].
  destruct f as [f|]; [|constructor]. constructor; [split; discriminate|]. destruct OF as (c & f' & -> & _ & _ & F).
  eapply Forall_impl; [|exact F]. intros x N. cbn in N. split; intros ->; tauto.
Qed.

Lemma double_in : forall c v, In c (double_braces v) -> In c v.
Proof. intros c v I. apply in_flat_map in I as (x & I & J). destruct (existsb (N.eqb x) [123; 125]); cbn in J; intuition; subst; auto. Qed.

Lemma plain_scan : forall is rest, plain_items is -> scan false (source is ++ 34 :: rest) = Some (source is, rest).
Proof.
  intros is rest F. apply scan_plain. unfold source. intros I. apply in_concat in I as (x & I & J). apply in_map_iff in I as (i & <- & I).
  unfold plain_items in F. rewrite Forall_forall in F. destruct (F i I) as [HO PT]. destruct i as [s v|ns f].
  - destruct PT as [-> NQ]. apply NQ. now apply double_in.
  - apply hole_chars in HO. rewrite Forall_forall in HO. now apply HO in J.
Qed.

Lemma c_scan : forall is rest, c_items is -> scan true (source is ++ 34 :: rest) = Some (source is, rest).
Proof.
  intros is rest F. induction F as [|i is [HO CT] F IH]; auto.
  change (source (i :: is)) with (item_source i ++ source is). rewrite <- !app_assoc. destruct i as [s v|ns f].
  - eapply scan_CSpells; eauto.
  - apply scan_skip; auto. now apply hole_chars.
Qed.

Lemma wlc_Value : forall is b, plain_items is -> (b = true -> ~ begins 125 (source is)) -> (forall x, follows is x -> ~ begins 125 x) ->
  forall show k t, Value show k (without_leading_close b is) t -> Value show k is t.
Proof.
  induction is as [|i is IH]; intros b F NB FO show k t V. { exact V. }
  inversion F as [|? ? [HO PT] F']; subst.
  assert (FO' : forall x, follows is x -> ~ begins 125 x).
  { intros x (pre & ns & f & post & -> & ->). apply FO. exists (i :: pre), ns, f, post. auto. }
  destruct i as [s v|ns f]; cbn [without_leading_close] in V.
  - destruct PT as [-> NQ]. change (source (Text (double_braces v) v :: is)) with (double_braces v ++ source is) in NB.
    assert (D : (if b then drop_close v else v) = v).
    { destruct b; auto. destruct v as [|c v]; auto. cbn. destruct (N.eqb_spec c 125) as [->|]; auto. destruct NB; auto. eexists. reflexivity. }
    rewrite D in V. inversion V as [|? ? ? ? ? V'|]; subst. constructor. eapply IH; [| | |exact V']; auto.
    intros E. apply andb_true_iff in E as [-> E]. destruct v; [|discriminate]. apply NB. auto.
  - inversion V as [| |? ? ? ? ? ? R V']; subst. constructor; auto. eapply IH; [| | |exact V']; auto.
    intros _. apply FO. exists [], ns, f, is. auto.
Qed.

(** ** Quoting *)

Lemma c_quote_CSpells : forall t, CSpells (c_quote t) t.
Proof.
  induction t as [|c t IH]; [constructor|]. unfold c_quote in *. cbn [flat_map]. destruct (existsb (N.eqb c) [92; 34; 123; 125]) eqn:E; constructor; auto.
  - apply Unit_letter. cbn in E. rewrite !orb_true_iff, !N.eqb_eq in E. unfold letter_escapes. cbn. intuition (subst; tauto || discriminate).
  - intros (b & _ & X). discriminate.
  - constructor. cbn in E. rewrite !orb_false_iff, !N.eqb_neq in E. tauto.
  - intros (b & I & X). injection X as <-. cbn in E. rewrite !orb_false_iff, !N.eqb_neq in E. cbn in I. intuition congruence.
Qed.

Lemma Hex_exists : forall n v, v < 16 ^ N.of_nat n -> exists s, Hex n s v /\ Forall (fun c => c < 128) s.
Proof.
  induction n as [|n IH]; intros v L.
  - exists []. change (16 ^ N.of_nat 0) with 1 in L. replace v with 0 by lia. split; constructor.
  - rewrite Nat2N.inj_succ, N.pow_succ_r' in L. destruct (IH (v / 16)) as (s & H & F). { apply N.div_lt_upper_bound; lia. }
    pose proof (N.mod_lt v 16 ltac:(discriminate)) as M. set (d := v mod 16) in *.
    exists (s ++ [if d <? 10 then 48 + d else 87 + d]). split.
    + rewrite (N.div_mod v 16) by discriminate. fold d. constructor; auto. unfold Digit. destruct (N.ltb_spec d 10); lia.
    + apply Forall_app. split; auto. constructor; auto. destruct (N.ltb_spec d 10); lia.
Qed.

Lemma ascii_exists : forall t, Forall scalar t -> exists s, Spells s t /\ Forall (fun c => c < 128) s.
Proof.
  induction 1 as [|c t S F (s & H & A)]. { exists []. split; constructor. }
  destruct (Hex_exists 8 c) as (h & HH & HA). { change (16 ^ N.of_nat 8) with 4294967296. destruct S; lia. }
  exists ((92 :: 85 :: h) ++ s). split.
  - constructor; auto. apply (Unit_digits 85 8); auto. unfold digit_escapes. cbn. auto.
  - apply Forall_app. split; auto. constructor; [reflexivity|]. constructor; [reflexivity|exact HA].
Qed.

Lemma Spells_scalar : forall s t, Spells s t -> Forall scalar s -> Forall scalar t.
Proof.
  induction 1 as [|u c s t U S IH]; intros F; auto. apply Forall_app in F as [F1 F2]. constructor; auto. inversion U; subst; auto.
  - now inversion F1.
  - unfold letter_escapes in H. cbn in H. repeat (destruct H as [H|H]; [injection H as <- <-; left; lia|]). contradiction.
Qed.

(** ** Tokens *)

Lemma Lexed_texts : forall cs l ts, Lexed cs l ts ->
  filter (fun c => negb (is_whitespace c)) (concat (map t_text ts)) = filter (fun c => negb (is_whitespace c)) (l_rest l) /\
  (exists gaps, length gaps = length ts /\ Forall (Forall (fun c => is_whitespace c = true)) gaps /\ exists last, Forall (fun c => is_whitespace c = true) last /\
     l_rest l = concat (map (fun '(g, t) => g ++ t_text t) (combine gaps ts)) ++ last).
Proof.
  intros cs. apply Lexed_ind.
  - intros l N.
    assert (W : Forall (fun c => is_whitespace c = true) (l_rest l)).
    { destruct l as [s pos i sp]. unfold next in N. cbn [l_interp l_rest l_pos l_spec] in *.
      destruct i.
      - destruct (consume is_whitespace s) as [a b] eqn:C. apply consume_spec in C as (-> & F & _). destruct b; [now rewrite app_nil_r|].
        repeat match type of N with (if ?x then _ else _) = _ => destruct x end; discriminate.
      - destruct s; [constructor|]. repeat match type of N with (if ?x then _ else _) = _ => destruct x end; discriminate. }
    split.
    + cbn. induction W as [|c s Wc W IH]; auto. cbn. now rewrite Wc.
    + exists []. repeat split; auto. exists (l_rest l). auto.
  - intros l t l' ts E _ [IH1 (gaps & L & G & last & LW & IH2)]. apply next_app in E as (ws & E & _ & _ & _ & W & _).
    split.
    + rewrite E. cbn [map concat]. rewrite !filter_app, IH1.
      assert (Z : filter (fun c => negb (is_whitespace c)) ws = []). { clear - W. induction W as [|c ws Wc W IH]; auto. cbn. now rewrite Wc. }
      now rewrite Z.
    + exists (ws :: gaps). repeat split; auto; [cbn; lia|]. exists last. split; auto. cbn [combine map concat]. rewrite E, IH2, <- !app_assoc. auto.
Qed.

Lemma Lexed_spans : forall cs l ts, Lexed cs l ts -> forall pre, length pre = l_pos l ->
  forall t, In t ts -> firstn (length (t_text t)) (skipn (t_start t) (pre ++ l_rest l)) = t_text t /\ t_text t <> [].
Proof.
  intros cs. apply (Lexed_ind cs (fun l ts => forall pre, length pre = l_pos l ->
    forall t, In t ts -> firstn (length (t_text t)) (skipn (t_start t) (pre ++ l_rest l)) = t_text t /\ t_text t <> [])).
  - intros l N pre L t [].
  - intros l t l' ts E _ IH pre L x I. apply next_app in E as (ws & E & ES & EP & NE & _ & _). rewrite E. destruct I as [<-|I].
    + split; auto. rewrite ES. rewrite <- L, <- app_length, app_assoc, skipn_app, skipn_all, Nat.sub_diag. cbn [skipn app].
      rewrite firstn_app, Nat.sub_diag, firstn_all. cbn. now rewrite app_nil_r.
    + specialize (IH (pre ++ ws ++ t_text t)). rewrite <- !app_assoc in IH. apply IH; auto. rewrite !app_length, EP, ES. lia.
Qed.

Lemma Lexed_no_ws : forall cs l ts, Lexed cs l ts -> Forall (fun c => is_whitespace c = false) (l_rest l) -> concat (map t_text ts) = l_rest l.
Proof.
  intros cs l ts H F. apply Lexed_texts in H as [_ (gaps & L & G & last & LW & E)]. rewrite E in *.
  assert (LN : last = []). { apply Forall_app in F as [_ F]. destruct last as [|c last]; auto. inversion F; inversion LW; congruence. }
  subst last. rewrite app_nil_r in *. clear E LW. revert gaps L G F. induction ts as [|t ts IH]; intros [|g gaps] L G F; cbn in L; try discriminate; auto.
  cbn [combine map concat] in *. inversion G; subst. apply Forall_app in F as [F1 F2]. apply Forall_app in F1 as [F0 F1].
  destruct g as [|c g]; [|inversion F0; inversion H1; congruence]. cbn. f_equal. apply IH; auto.
Qed.

Lemma escapes_total : forall s, exists r, process_escapes s = Some r.
Proof. intros s. destruct (escapes_spec (length s) s (le_n _)) as [(t & E & _)|(p & t & r & e & E & _)]; eexists; exact E. Qed.

Lemma desugar_total : forall p cs, exists r, desugar_chunks p cs = Some r.
Proof.
  intros p. induction cs as [|c cs [r IH]]. { eexists. reflexivity. }
  assert (X : exists x, desugar_chunk p c = Some x).
  { destruct c as [s| | |[[|n [|m l]]|] [n'|] f]; cbn; eauto. destruct (is_c p); eauto. destruct (escapes_total s) as [x ->]. cbn. eauto. }
  destruct X as [x X]. cbn. rewrite X, IH. destruct x; eauto. cbn. eauto.
Qed.

Lemma pieces_total : forall p s, exists r, pieces p s = Some r /\ (forall es, r = Err (Parse es) -> es = [UnclosedStringInterpolation]).
Proof.
  intros p s. unfold pieces. destruct (has_interpolation p s).
  - destruct (Lexed_total (is_c p) _ (mkLex s 0 false false) (le_n _)) as [ts HL].
    unfold lex. rewrite (HL (length s) (le_n _)). apply Lexed_shape in HL. cbn in HL.
    destruct (parse_total _ ts (le_n _) HL) as (cs & es & HP & HE). rewrite (HP _ (le_n _)).
    destruct HE as [-> | ->].
    + destruct (desugar_total p cs) as [r ->]. cbn. eexists. split; [reflexivity|]. destruct r; discriminate.
    + eexists. split; [reflexivity|]. intros es E. injection E as <-. auto.
  - destruct (desugar_total p [CLiteral s]) as [r ->]. cbn [option_map]. eexists. split; [reflexivity|]. destruct r; discriminate.
Qed.
