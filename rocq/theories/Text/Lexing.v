(** Proofs about string patterns: lexing, parsing and desugaring. *)
From Coq Require Import List NArith ZArith Bool Lia Arith.
Import ListNotations.
From Verif.Text Require Import Model Spec Escapes.
Open Scope N_scope.

(** ** The lexer always moves on *)

Lemma consume_spec : forall p s a b, consume p s = (a, b) -> s = a ++ b /\ Forall (fun c => p c = true) a /\ match b with c :: _ => p c = false | [] => True end.
Proof.
  induction s as [|c s IH]; cbn; intros a b E.
  - injection E as <- <-. auto.
  - destruct (p c) eqn:P.
    + destruct (consume p s) as [a' b'] eqn:C. injection E as <- <-. destruct (IH a' b') as (-> & F & B); auto.
    + injection E as <- <-. auto.
Qed.

Lemma consume_app : forall p a b, Forall (fun c => p c = true) a -> match b with c :: _ => p c = false | [] => True end -> consume p (a ++ b) = (a, b).
Proof.
  induction a as [|c a IH]; cbn; intros b F B.
  - destruct b as [|c b]; auto. cbn. now rewrite B.
  - inversion F; subst. now rewrite H1, IH.
Qed.

Lemma c_literal_app : forall n s a b, (length s <= n)%nat -> c_literal s = (a, b) -> s = a ++ b.
Proof.
  induction n as [|n IH]; intros [|c s] a b L E; cbn in L, E; try lia; try (injection E as <- <-; reflexivity).
  destruct (c =? BACKSLASH).
  - destruct s as [|d s]; [injection E as <- <-; reflexivity|]. destruct (c_literal s) as [a' b'] eqn:C. injection E as <- <-. cbn. do 2 f_equal. apply IH; auto. cbn in L. lia.
  - destruct (_ || _); [injection E as <- <-; reflexivity|]. destruct (c_literal s) as [a' b'] eqn:C. injection E as <- <-. cbn. f_equal. apply IH; auto. lia.
Qed.

Lemma literal_content_app : forall cs s a b, literal_content cs s = (a, b) -> s = a ++ b.
Proof.
  intros [|] s a b E; unfold literal_content in E.
  - eapply c_literal_app; eauto.
  - now apply consume_spec in E.
Qed.

(** What [next] does to the characters: some whitespace is skipped inside an interpolation,
    then the token's text is taken. *)
Lemma next_app : forall cs l t l', next cs l = Some (t, l') ->
  exists ws, l_rest l = ws ++ t_text t ++ l_rest l' /\ t_start t = (l_pos l + length ws)%nat /\ l_pos l' = (t_start t + length (t_text t))%nat /\
    t_text t <> [] /\ Forall (fun c => is_whitespace c = true) ws /\ (l_interp l = false -> ws = []).
Proof.
  intros cs [s pos i sp] t l' E. unfold next in E. cbn [l_interp l_rest l_pos l_spec] in *.
  set (sk := if i then consume is_whitespace s else ([], s)) in E.
  assert (SK : exists ws r, sk = (ws, r) /\ s = ws ++ r /\ Forall (fun c => is_whitespace c = true) ws /\ (i = false -> ws = [])).
  { destruct i; unfold sk.
    - destruct (consume is_whitespace s) as [a b] eqn:C. apply consume_spec in C as (-> & F & _). exists a, b. repeat split; auto. discriminate.
    - exists [], s. auto. }
  destruct SK as (ws & r & -> & -> & F & NI). exists ws. destruct r as [|c r]; [discriminate|].
  assert (T : forall k a b i' sp', r = a ++ b -> Some (tok k (pos + length ws) c (a, b) i' sp') = Some (t, l') ->
    ws ++ c :: r = ws ++ t_text t ++ l_rest l' /\ t_start t = (pos + length ws)%nat /\ l_pos l' = (t_start t + length (t_text t))%nat /\ t_text t <> [] /\ Forall (fun c => is_whitespace c = true) ws /\ (i = false -> ws = [])).
  { intros k a b i' sp' -> Q. cbn in Q. injection Q as <- <-. cbn. repeat split; auto. discriminate. }
  repeat match type of E with
  | (if ?x then _ else _) = _ => destruct x
  | Some (tok _ _ _ (?a, ?b) _ _) = _ => apply (T _ _ _ _ _) in E; auto; now rewrite ?firstn_skipn
  | Some (tok _ _ _ (literal_content ?cs ?r) _ _) = _ =>
      destruct (literal_content cs r) as [a b] eqn:LC; apply literal_content_app in LC; apply (T _ _ _ _ _) in E; auto
  | Some (tok _ _ _ (consume ?p ?r) _ _) = _ =>
      destruct (consume p r) as [a b] eqn:LC; apply consume_spec in LC as (LC & _ & _); apply (T _ _ _ _ _) in E; auto
  end.
Qed.

Lemma next_shrinks : forall cs l t l', next cs l = Some (t, l') -> (length (l_rest l') < length (l_rest l))%nat.
Proof.
  intros cs l t l' E. apply next_app in E as (ws & -> & _ & _ & NE & _). rewrite !app_length. destruct (t_text t); [congruence|cbn; lia].
Qed.

(** [Lexed cs l ts]: with enough fuel, the tokens from [l] are [ts]. *)
Definition Lexed (cs : bool) (l : lexer) (ts : list token) : Prop :=
  forall fuel, (length (l_rest l) <= fuel)%nat -> tokens fuel cs l = Some ts.

Lemma Lexed_end : forall cs l, next cs l = None -> Lexed cs l [].
Proof. intros cs l N fuel _. destruct fuel; cbn; now rewrite N. Qed.
Lemma Lexed_step : forall cs l t l' ts, next cs l = Some (t, l') -> Lexed cs l' ts -> Lexed cs l (t :: ts).
Proof.
  intros cs l t l' ts N H fuel L. pose proof (next_shrinks _ _ _ _ N). destruct fuel as [|fuel]; [lia|]. cbn. rewrite N, (H fuel); auto. lia.
Qed.
Lemma Lexed_total : forall cs n l, (length (l_rest l) <= n)%nat -> exists ts, Lexed cs l ts.
Proof.
  induction n as [|n IH]; intros l L; destruct (next cs l) as [[t l']|] eqn:E;
    try (exists []; now apply Lexed_end); pose proof (next_shrinks _ _ _ _ E).
  - lia.
  - destruct (IH l') as [ts H']; [lia|]. exists (t :: ts). eapply Lexed_step; eauto.
Qed.
Lemma Lexed_ind : forall cs (P : lexer -> list token -> Prop),
  (forall l, next cs l = None -> P l []) ->
  (forall l t l' ts, next cs l = Some (t, l') -> Lexed cs l' ts -> P l' ts -> P l (t :: ts)) ->
  forall l ts, Lexed cs l ts -> P l ts.
Proof.
  intros cs P H0 HS l ts H. assert (G : forall n l ts, (length (l_rest l) <= n)%nat -> Lexed cs l ts -> P l ts).
  { clear l ts H. induction n as [|n IH]; intros l ts L H; destruct (next cs l) as [[t l']|] eqn:E.
    - pose proof (next_shrinks _ _ _ _ E). lia.
    - specialize (H _ (le_n _)). destruct (l_rest l); [|cbn in L; lia]. cbn in H. rewrite E in H. injection H as <-. auto.
    - pose proof (next_shrinks _ _ _ _ E) as S. destruct (Lexed_total cs _ l' (le_n _)) as [ts' H'].
      assert (ts = t :: ts'). { pose proof (Lexed_step _ _ _ _ _ E H') as H2. specialize (H _ (le_n _)). rewrite (H2 _ (le_n _)) in H. congruence. }
      subst. apply (HS l t l'); auto. apply IH; auto. lia.
    - assert (ts = []). { specialize (H _ (le_n _)). rewrite (Lexed_end _ _ E _ (le_n _)) in H. congruence. } subst. auto. }
  eapply G; eauto.
Qed.

(** ** The shape of the token stream, and the parser on it *)

(** Whether the tokens are those that a lexer outside ([false]) or inside ([true]) an
    interpolation gives. *)
Fixpoint shape (inside : bool) (ts : list token) : Prop :=
  match ts with
  | [] => True
  | t :: ts =>
      match t_kind t with
      | KLiteral => inside = false /\ shape false ts
      | KEscapedOpen | KEscapedClose => shape inside ts
      | KOpen => shape true ts
      | KClose => inside = true /\ shape false ts
      | KColon | KDot | KTarget | KSpec => inside = true /\ shape true ts
      end
  end.

Lemma next_shape : forall cs l t l', next cs l = Some (t, l') ->
  match t_kind t with
  | KLiteral => l_interp l = false /\ l_interp l' = false
  | KEscapedOpen | KEscapedClose => l_interp l' = l_interp l
  | KOpen => l_interp l' = true
  | KClose => l_interp l = true /\ l_interp l' = false
  | KColon | KDot | KTarget | KSpec => l_interp l = true /\ l_interp l' = true
  end.
Proof.
  intros cs [s pos i sp] t l' E. unfold next in E. cbn [l_interp l_rest l_pos l_spec] in *.
  destruct (if i then _ else _) as [ws r]. destruct r as [|c r]; [discriminate|].
  destruct i;
  repeat match type of E with
  | (if ?x then _ else _) = _ => destruct x
  | Some (tok _ _ _ (?a, ?b) _ _) = _ => cbn in E; injection E as <- <-; cbn; auto
  | Some (tok _ _ _ ?ab _ _) = _ => destruct ab; cbn in E; injection E as <- <-; cbn; auto
  end.
Qed.

Lemma Lexed_shape : forall cs l ts, Lexed cs l ts -> shape (l_interp l) ts.
Proof.
  intros cs. apply Lexed_ind; cbn; auto. intros l t l' ts E _ IH. apply next_shape in E.
  destruct (t_kind t); try (destruct E as [E1 E2]; rewrite E1; rewrite E2 in IH); try rewrite E in IH; auto.
Qed.

Definition Parsed (ts : list token) (cs : list chunk) (es : list parse_error) : Prop :=
  forall fuel, (length ts <= fuel)%nat -> parse fuel ts = Some (cs, es).

(** Inside an interpolation, every suffix of the tokens before the closing brace is inside. *)
Lemma eat_shape : forall k ts n ts', k <> KClose -> k <> KLiteral -> shape true ts -> eat k ts = Some (n, ts') -> shape true ts' /\ (length ts' < length ts)%nat.
Proof.
  intros k [|t ts] n ts' NC NL S E; cbn in E; try discriminate. destruct (kind_is k t) eqn:K; try discriminate. injection E as <- <-.
  cbn in S |- *. split; [|lia]. unfold kind_is in K. destruct k, (t_kind t); try discriminate; try congruence; destruct S; auto.
Qed.
Lemma dotted_shape : forall n ts ns ts', (length ts <= n)%nat -> shape true ts -> dotted ts = (ns, ts') -> shape true ts' /\ (length ts' <= length ts)%nat.
Proof.
  induction n as [|n IH]; intros [|d ts] ns ts' L S E; cbn in L; try lia; try (cbn in E; injection E as <- <-; cbn; auto; fail).
  cbn [dotted] in E. destruct (kind_is KDot d) eqn:K; [|injection E as <- <-; auto].
  assert (S' : shape true ts). { cbn in S. unfold kind_is in K. destruct (t_kind d); try discriminate. tauto. }
  destruct ts as [|t ts]. { injection E as <- <-. cbn. split; auto. }
  destruct (kind_is KTarget t) eqn:K2.
  - destruct (dotted ts) as [ns' r] eqn:D. injection E as <- <-.
    assert (S2 : shape true ts). { cbn in S'. unfold kind_is in K2. destruct (t_kind t); try discriminate. tauto. }
    apply IH in D as [? ?]; auto; cbn in *; try lia. split; auto; lia.
  - injection E as <- <-. split; auto. cbn. lia.
Qed.
Lemma parse_content_shape : forall ts c ts', shape true ts -> parse_content ts = (c, ts') -> shape true ts' /\ (length ts' <= length ts)%nat.
Proof.
  intros ts c ts' S E. unfold parse_content in E.
  assert (A : forall (x : option (list text) * option text * list token), (let '(_, _, r) := x in shape true r /\ (length r <= length ts)%nat) ->
    (let '(soup, target, ts0) := x in
     let '(format, ts1) := match eat KColon ts0 with
       | Some (_, ts1) => match eat KSpec ts1 with Some (f, ts2) => (Some f, ts2) | None => (None, ts1) end
       | None => (None, ts0) end in (CInterpolation soup target format, ts1)) = (c, ts') -> shape true ts' /\ (length ts' <= length ts)%nat).
  { intros [[soup tg] r] [SR LR] Q. destruct (eat KColon r) as [[? r1]|] eqn:E1.
    - apply eat_shape in E1 as [S1 L1]; auto; try discriminate. destruct (eat KSpec r1) as [[? r2]|] eqn:E2.
      + apply eat_shape in E2 as [S2 L2]; auto; try discriminate. injection Q as <- <-. split; auto. lia.
      + injection Q as <- <-. split; auto. lia.
    - injection Q as <- <-. auto. }
  revert E. apply A. clear A.
  destruct (existsb _ _).
  - destruct (eat KTarget ts) as [[n r]|] eqn:E1.
    + apply eat_shape in E1 as [S1 L1]; auto; try discriminate. destruct (dotted r) as [ns r'] eqn:D. apply (dotted_shape _ _ _ _ (le_n _)) in D as [S2 L2]; auto. split; auto. lia.
    + destruct (dotted ts) as [ns r'] eqn:D. apply (dotted_shape _ _ _ _ (le_n _)) in D as [S2 L2]; auto.
  - destruct (eat KTarget ts) as [[n r]|] eqn:E1; auto. apply eat_shape in E1 as [S1 L1]; auto; try discriminate. split; auto. lia.
Qed.
Lemma close_shape : forall ts ts' found, shape true ts -> close ts = (ts', found) -> (length ts' <= length ts)%nat /\ shape false ts' /\ (found = false -> ts' = []).
Proof.
  induction ts as [|t ts IH]; intros ts' found S E; cbn [close] in E.
  - injection E as <- <-. auto.
  - assert (X : kind_is KClose t = true \/ (kind_is KClose t = false /\ shape true ts)).
    { cbn in S. unfold kind_is. destruct (t_kind t); try tauto; destruct S; try discriminate; auto. }
    destruct X as [X|[X S']]; rewrite X in E.
    + injection E as <- <-. cbn in S |- *. unfold kind_is in X. destruct (t_kind t); try discriminate. repeat split; try tauto; try lia.
    + assert (Y : kind_is KLiteral t = false). { cbn in S. unfold kind_is. destruct (t_kind t); auto. destruct S; discriminate. }
      rewrite Y in E. destruct (IH _ _ S' E) as (L & S2 & F). cbn. repeat split; auto; lia.
Qed.

Lemma parse_total : forall n ts, (length ts <= n)%nat -> shape false ts ->
  exists cs es, Parsed ts cs es /\ (es = [] \/ es = [UnclosedStringInterpolation]).
Proof.
  induction n as [|n IH]; intros [|t ts] L S; cbn in L; try lia; try (exists [], []; split; auto; intros [|?]; auto; fail).
  assert (ADD : forall c, shape false ts -> (forall fuel, parse (Datatypes.S fuel) (t :: ts) = option_map (fun '(cs, es) => (c :: cs, es)) (parse fuel ts)) ->
    exists cs es, Parsed (t :: ts) cs es /\ (es = [] \/ es = [UnclosedStringInterpolation])).
  { intros c S' P. destruct (IH ts) as (cs & es & H & Hes); auto; try lia. exists (c :: cs), es. split; auto.
    intros [|fuel] F; cbn in F; [lia|]. rewrite P, (H fuel); auto. lia. }
  cbn in S. destruct (t_kind t) eqn:K.
  - apply (ADD (CLiteral (t_text t))); [tauto|]. intros. cbn. now rewrite K.
  - apply (ADD CEscapedOpen); auto. intros. cbn. now rewrite K.
  - apply (ADD CEscapedClose); auto. intros. cbn. now rewrite K.
  - destruct (parse_content ts) as [c ts1] eqn:PC. destruct (parse_content_shape _ _ _ S PC) as [S1 L1].
    destruct (close ts1) as [ts2 found] eqn:CL. destruct (close_shape _ _ _ S1 CL) as (L2 & S2 & F2).
    destruct (IH ts2) as (cs & es & H & Hes); auto; try lia.
    exists (c :: cs), (if found then es else UnclosedStringInterpolation :: es). split.
    + intros [|fuel] F; cbn in F; [lia|]. cbn [parse]. rewrite K, PC, CL, (H fuel); auto. lia.
    + destruct found; auto. right. f_equal. rewrite (F2 eq_refl) in H. specialize (H O (le_n _)). cbn in H. congruence.
  - destruct S; discriminate.
  - destruct S; discriminate.
  - destruct S; discriminate.
  - destruct S; discriminate.
  - destruct S; discriminate.
Qed.
