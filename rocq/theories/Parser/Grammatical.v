(** The parser gives back the trees of the grammar. *)
From Coq Require Import List NArith ZArith Bool Arith Lia.
Import ListNotations.
From Verif.Text Require Import Model.
From Verif.Lexer Require Import Model.
From Verif.Parser Require Import Model Spec Halts Forests Sinks Parses Builds Grammar Contents Balance.
Open Scope nat_scope.

(** ** Runs without errors *)

Definition runs {A} (m : parser A) (used rest : list word) (s : state) (a : A) (used' rest' : list word) (s' : state) : Prop :=
  m used rest = Stuck \/ exists os, m used rest = Ret a os [] used' rest' /\ osteps os s s'.
Definition puts {A} (m : parser A) (a : A) (ts : list tree) (r : list word) : Prop :=
  forall used op ch, op <> [] -> runs m used (tokens_of ts ++ r) (op, ch) a (rev (tokens_of ts) ++ used) r (op, ch ++ ts).

Lemma r_bind : forall A B (m : parser A) (f : A -> parser B) u r s a u1 r1 s1 b u2 r2 s2,
  runs m u r s a u1 r1 s1 -> runs (f a) u1 r1 s1 b u2 r2 s2 -> runs (bind m f) u r s b u2 r2 s2.
Proof.
  intros A B m f u r s a u1 r1 s1 b u2 r2 s2 [H | (os & E & O)] G; [left; unfold bind; rewrite H; reflexivity|].
  destruct G as [G | (os' & E' & O')]; [left; unfold bind; rewrite E, G; reflexivity|].
  right. exists (os ++ os'). unfold bind. rewrite E, E'. split; [reflexivity|]. eapply osteps_app; eauto.
Qed.
Lemma r_puts : forall A B (m : parser A) (f : A -> parser B) u op ch a ts r b u2 r2 s2, puts m a ts r -> op <> [] ->
  runs (f a) (rev (tokens_of ts) ++ u) r (op, ch ++ ts) b u2 r2 s2 -> runs (bind m f) u (tokens_of ts ++ r) (op, ch) b u2 r2 s2.
Proof. intros. eapply r_bind; [apply H; assumption|assumption]. Qed.
Lemma r_ret : forall A (a : A) u r s u' r' s', u = u' -> r = r' -> s = s' -> runs (ret a) u r s a u' r' s'.
Proof. intros; subst. right. exists []. split; [reflexivity|constructor]. Qed.
Lemma r_peek : forall A (f : option word -> parser A) u r s a u' r' s', runs (f (hd_error r)) u r s a u' r' s' -> runs (w <- peek;; f w) u r s a u' r' s'.
Proof. intros. unfold runs in *. rewrite bind_peek. assumption. Qed.
Lemma r_look : forall A B (g : list word -> B) (f : B -> parser A) u r s a u' r' s',
  runs (f (g r)) u r s a u' r' s' -> runs (w <- (fun used rest => Ret (g rest) [] [] used rest);; f w) u r s a u' r' s'.
Proof. intros. unfold runs in *. rewrite bind_look. assumption. Qed.
Lemma r_start : forall A n (f : parser A) u r op ch a u' r' s', runs f u r ((n, ch) :: op, []) a u' r' s' -> runs (start n;; f) u r (op, ch) a u' r' s'.
Proof. intros. eapply r_bind; [|eassumption]. right. exists [OStart n]. split; [reflexivity|]. apply osteps_one. constructor. Qed.
Lemma r_last : forall n u r op b ch u' r' s', u = u' -> r = r' -> (op, b ++ [Node n ch]) = s' -> runs finish u r ((n, b) :: op, ch) tt u' r' s'.
Proof. intros; subst. right. exists [OFinish]. split; [reflexivity|]. apply osteps_one. constructor. Qed.
Lemma r_finish : forall A n (f : parser A) u r op b ch a u' r' s', runs f u r (op, b ++ [Node n ch]) a u' r' s' -> runs (finish;; f) u r ((n, b) :: op, ch) a u' r' s'.
Proof. intros. eapply r_bind; [apply r_last; reflexivity|eassumption]. Qed.
Lemma r_take1 : forall k x u r op ch u' r' s', op <> [] -> (k, x) :: u = u' -> r = r' -> (op, ch ++ [Leaf k x]) = s' -> runs take u ((k, x) :: r) (op, ch) tt u' r' s'.
Proof. intros; subst. right. exists [tok (k, x)]. split; [reflexivity|]. apply osteps_one. apply (ostep_token (k, x)). assumption. Qed.
Lemma r_take : forall A k x (f : parser A) u r op ch a u' r' s', op <> [] -> runs f ((k, x) :: u) r (op, ch ++ [Leaf k x]) a u' r' s' -> runs (take;; f) u ((k, x) :: r) (op, ch) a u' r' s'.
Proof. intros. eapply r_bind; [apply r_take1; [assumption|reflexivity..]|assumption]. Qed.
Lemma r_expect : forall A k x (f : bool -> parser A) u r op ch a u' r' s', op <> [] -> runs (f true) ((k, x) :: u) r (op, ch ++ [Leaf k x]) a u' r' s' -> runs (b <- expect k;; f b) u ((k, x) :: r) (op, ch) a u' r' s'.
Proof.
  intros. eapply r_bind; [|eassumption]. unfold expect. apply r_peek. cbn [hd_error]. rewrite is_refl. apply r_take; [assumption|]. apply r_ret; reflexivity.
Qed.
Lemma r_accept : forall A k x (f : bool -> parser A) u r op ch a u' r' s', op <> [] -> runs (f true) ((k, x) :: u) r (op, ch ++ [Leaf k x]) a u' r' s' -> runs (b <- accept k;; f b) u ((k, x) :: r) (op, ch) a u' r' s'.
Proof.
  intros. eapply r_bind; [|eassumption]. unfold accept. apply r_peek. cbn [hd_error]. rewrite is_refl. apply r_take; [assumption|]. apply r_ret; reflexivity.
Qed.
Lemma r_reject : forall A k (f : bool -> parser A) u r s a u' r' s', (forall w l, r = w :: l -> fst w <> k) -> runs (f false) u r s a u' r' s' -> runs (b <- accept k;; f b) u r s a u' r' s'.
Proof.
  intros A k f u r s a u' r' s' N H. eapply r_bind; [|eassumption]. unfold accept. apply r_peek. destruct r as [|[k' x] r]; cbn [hd_error]; [apply r_ret; reflexivity|].
  rewrite (proj2 (is_false k' k)) by exact (N _ _ eq_refl). apply r_ret; reflexivity.
Qed.
Lemma r_leaf1 : forall n k x u r op ch u' r' s', (k, x) :: u = u' -> r = r' -> (op, ch ++ [Node n [Leaf k x]]) = s' -> runs (leaf n) u ((k, x) :: r) (op, ch) tt u' r' s'.
Proof. intros. unfold leaf. apply r_start, r_take; [discriminate|]. apply r_last; assumption. Qed.
Lemma r_leaf : forall A n k x (f : parser A) u r op ch a u' r' s', runs f ((k, x) :: u) r (op, ch ++ [Node n [Leaf k x]]) a u' r' s' -> runs (leaf n;; f) u ((k, x) :: r) (op, ch) a u' r' s'.
Proof. intros. eapply r_bind; [apply r_leaf1; reflexivity|assumption]. Qed.

(** ** What comes first *)

Definition starter (k : kind) : bool :=
  match k with
  | UNQUOTED_IDENTIFIER | OPERATOR_IDENTIFIER | SINGLE_QUOTE_IDENTIFIER
  | NUMBER | STRING | SYMBOL | C_STRING | RAW_STRING | T_STRING | S_STRING | PATTERN_START _
  | OPEN_PAREN | OPEN_PAREN_APPLY | OPEN_SQUARE | OPEN_SQUARE_APPLY | OPEN_BRACE | OPEN_BRACE_APPLY | BRACKET_OPEN => true
  | _ => false
  end.
Lemma element_first : forall t, Element t -> exists k s l, leaves t = (k, s) :: l /\ starter k = true.
Proof.
  intros t E. destruct E as [k s K|k s K| | | | | | | | | ]; cbn [leaves flat_map app]; (eexists _, _, _; split; [reflexivity|]); try reflexivity.
  - destruct K as [<- | [<- | [<- | []]]]; reflexivity.
  - destruct K as [<- | [<- | [<- | [<- | [<- | [<- | [<- | []]]]]]]]; reflexivity.
Qed.

Definition solid (r : list word) : Prop := forall w l, r = w :: l -> is_trivial (fst w) = false.
Definition ends (r : list word) : Prop := forall w l, r = w :: l -> In (fst w) [CLOSE_PAREN; CLOSE_SQUARE; CLOSE_BRACE; BRACKET_CLOSE; COMMA; COLON].
Lemma ends_solid : forall r, ends r -> solid r.
Proof. intros r E w l H. destruct (E w l H) as [<- | [<- | [<- | [<- | [<- | [<- | []]]]]]]; reflexivity. Qed.
Lemma solid_cons : forall k s l, is_trivial k = false -> solid ((k, s) :: l).
Proof. intros k s l K w l' E. injection E as <- _. exact K. Qed.
Lemma starter_solid : forall k, starter k = true -> is_trivial k = false.
Proof. destruct k; try discriminate; reflexivity. Qed.
Lemma element_solid : forall t r, Element t -> solid (leaves t ++ r).
Proof. intros t r E. destruct (element_first t E) as (k & s & l & -> & K). apply solid_cons, starter_solid. exact K. Qed.
Lemma soup_solid : forall ts r, Soup ts -> solid (tokens_of ts ++ r).
Proof. intros ts r [t ts' E M]. cbn [flat_map]. rewrite <- app_assoc. apply element_solid. exact E. Qed.

(** ** Blanks *)

Lemma gap_leaves : forall g, Gap g -> trivia_only (tokens_of g) /\ map leaf_of (tokens_of g) = g.
Proof.
  intros g G. induction G as [|t g (k & s & -> & K) G [IH1 IH2]]; [split; [constructor|reflexivity]|]. cbn. rewrite IH2. split; [|reflexivity].
  constructor; [apply trivial_in; exact K|exact IH1].
Qed.
Lemma trivia_exact : forall c u r, trivia_only c -> solid r -> trivia_scan u (c ++ r) = (map tok c, rev c ++ u, r).
Proof.
  induction c as [|w c IH]; intros u r T S.
  - destruct r as [|w r]; [reflexivity|]. cbn. rewrite (S w r eq_refl). reflexivity.
  - inversion T as [|? ? T1 T2]; subst. cbn [app trivia_scan]. rewrite T1, (IH (w :: u) r T2 S). cbn [also map app]. rewrite rev_snoc. reflexivity.
Qed.
Lemma puts_trivia : forall g r, Gap g -> solid r -> puts trivia tt g r.
Proof.
  intros g r G S used op ch NE. destruct (gap_leaves g G) as [T L]. right. exists (map tok (tokens_of g)). unfold trivia. rewrite trivia_exact by assumption. split; [reflexivity|].
  pose proof (osteps_toks (tokens_of g) op ch NE) as O. rewrite L in O. exact O.
Qed.
Lemma r_no_trivia : forall A (f : parser A) u r op ch a u' r' s', op <> [] -> solid r -> runs f u r (op, ch) a u' r' s' -> runs (trivia;; f) u r (op, ch) a u' r' s'.
Proof.
  intros A f u r op ch a u' r' s' NE S H. apply (r_puts unit A trivia (fun _ => f) u op ch tt [] r); [apply puts_trivia; [constructor|exact S]|exact NE|].
  cbn. rewrite app_nil_r. exact H.
Qed.

(** ** Strings *)

Ltac norm := repeat (rewrite ?flat_map_app, <- ?app_assoc, ?rev_app_distr; cbn [flat_map leaves app rev fst snd]).
Ltac same := solve [norm; rewrite ?app_nil_r; reflexivity].

Lemma has_dots_dotted : forall ss r, ss <> [] -> has_dots (tokens_of (flat_map (dotted [46%N]) ss) ++ r) = true.
Proof. intros [|s ss] r NE; [contradiction|]. reflexivity. Qed.
Lemma dots_exact : forall ss u r, (forall w l, r = w :: l -> In (fst w) [COLON; CLOSE_BRACE]) ->
  exists os, dots_scan u (tokens_of (flat_map (dotted [46%N]) ss) ++ r) = (os, rev (tokens_of (flat_map (dotted [46%N]) ss)) ++ u, r) /\
  forall op ch, op <> [] -> osteps os (op, ch) (op, ch ++ flat_map (dotted [46%N]) ss).
Proof.
  induction ss as [|s ss IH]; intros u r R.
  - exists []. split; [|intros; rewrite app_nil_r; constructor]. cbn. destruct r as [|w r]; [reflexivity|]. cbn [dots_scan]. destruct (R w r eq_refl) as [<- | [<- | []]]; reflexivity.
  - destruct (IH ((STRING_INTERPOLATION_TARGET, s) :: (OPERATOR_IDENTIFIER, [46%N]) :: u) r R) as (os & E & O).
    exists (in_name (OPERATOR_IDENTIFIER, [46%N]) ++ in_name (STRING_INTERPOLATION_TARGET, s) ++ os). split.
    + cbn [flat_map dotted app tokens_of leaves target]. norm. cbn [dots_scan fst snd]. rewrite is_refl. cbn [andb is_dot].
      change (is_dot [46%N]) with true. cbn [andb]. rewrite is_refl. match type of E with ?l = _ => match goal with |- context [dots_scan ?a ?b] => change (dots_scan a b) with l end end. rewrite E. cbn [also]. norm. reflexivity.
    + intros op ch NE. cbn [in_name app]. unfold dotted at 1, target. cbn [flat_map app].
      do 3 (econstructor; [first [apply ostep_start|apply ostep_finish|apply ostep_token; discriminate]|]).
      do 3 (econstructor; [first [apply ostep_start|apply ostep_finish|apply ostep_token; discriminate]|]). cbn [app fst snd].
      specialize (O op ((ch ++ [Node NAME [Leaf OPERATOR_IDENTIFIER [46%N]]]) ++ [Node NAME [Leaf STRING_INTERPOLATION_TARGET s]]) NE).
      rewrite <- !app_assoc in O. cbn [app] in O. rewrite <- !app_assoc. exact O.
Qed.

Lemma format_first : forall fs y r, Format fs -> forall w l, tokens_of fs ++ (CLOSE_BRACE, y) :: r = w :: l -> In (fst w) [COLON; CLOSE_BRACE].
Proof. intros fs y r [|x f] w l E; injection E as <- _; cbn; auto. Qed.
Lemma puts_hole_content : forall ts fs y r, Target ts -> Format fs -> puts hole_content tt (ts ++ fs) ((CLOSE_BRACE, y) :: r).
Proof.
  intros ts fs y r T F used op ch NE. unfold hole_content. apply r_look.
  assert (FMT : forall u ch, runs (w <- peek;; match w with Some (COLON, _) => take;; w <- peek;; match w with Some (STRING_FORMAT_SPEC, _) => leaf FORMAT_SPEC | _ => ret tt end | _ => ret tt end)
    u (tokens_of fs ++ (CLOSE_BRACE, y) :: r) (op, ch) tt (rev (tokens_of fs) ++ u) ((CLOSE_BRACE, y) :: r) (op, ch ++ fs)).
  { intros u ch0. apply r_peek. destruct F as [|x f]; cbn [flat_map leaves app hd_error].
    - apply r_ret; [reflexivity..|rewrite app_nil_r; reflexivity].
    - apply r_take; [exact NE|]. apply r_peek. cbn [hd_error]. apply r_leaf1; [reflexivity..|rewrite <- app_assoc; reflexivity]. }
  destruct T as [|s|s ss NS].
  - cbn [app]. apply r_peek.
    replace (has_dots (tokens_of fs ++ (CLOSE_BRACE, y) :: r)) with false by (destruct F; reflexivity).
    replace (match hd_error (tokens_of fs ++ (CLOSE_BRACE, y) :: r) with Some (STRING_INTERPOLATION_TARGET, _) => true | _ => false end) with false by (destruct F; reflexivity).
    eapply r_bind; [apply r_ret; reflexivity|]. apply FMT.
  - cbn [app flat_map leaves target]. apply r_peek.
    replace (has_dots _) with false by (destruct F; reflexivity). cbn [hd_error].
    apply r_leaf. specialize (FMT ((STRING_INTERPOLATION_TARGET, s) :: used) (ch ++ [Node TARGET [Leaf STRING_INTERPOLATION_TARGET s]])).
    cbn [rev]. rewrite <- !app_assoc in *. exact FMT.
  - set (D := flat_map (dotted [46%N]) ss) in *.
    destruct (dots_exact ss ((STRING_INTERPOLATION_TARGET, s) :: used) _ (format_first fs y r F)) as (os & E & O). fold D in E, O.
    assert (W : tokens_of ([Node SOUP (target NAME s :: D)] ++ fs) ++ (CLOSE_BRACE, y) :: r = (STRING_INTERPOLATION_TARGET, s) :: tokens_of D ++ tokens_of fs ++ (CLOSE_BRACE, y) :: r).
    { norm. cbn [target leaves flat_map]. norm. rewrite ?app_nil_r. norm. reflexivity. }
    rewrite W. apply r_peek. cbn [hd_error].
    replace (has_dots _) with true by (cbn [has_dots]; unfold D; rewrite has_dots_dotted by exact NS; rewrite orb_true_r; reflexivity).
    eapply r_bind.
    + apply r_start. apply r_leaf. eapply r_bind.
      * right. exists os. unfold dots. rewrite E. split; [reflexivity|]. apply O. discriminate.
      * apply r_last; reflexivity.
    + specialize (FMT (rev (tokens_of D) ++ (STRING_INTERPOLATION_TARGET, s) :: used) (ch ++ [Node SOUP (target NAME s :: D)])).
      replace (rev (tokens_of ([Node SOUP (target NAME s :: D)] ++ fs)) ++ used) with (rev (tokens_of fs) ++ rev (tokens_of D) ++ (STRING_INTERPOLATION_TARGET, s) :: used).
      2:{ norm. cbn [target leaves flat_map]. norm. rewrite ?app_nil_r. norm. reflexivity. }
      rewrite <- app_assoc in FMT. exact FMT.
Qed.

Lemma puts_hole : forall x ts fs y r, Target ts -> Format fs -> puts hole tt [Node INTERPOLATION (Leaf OPEN_BRACE x :: ts ++ fs ++ [Leaf CLOSE_BRACE y])] r.
Proof.
  intros x ts fs y r T F used op ch NE.
  assert (W : tokens_of [Node INTERPOLATION (Leaf OPEN_BRACE x :: ts ++ fs ++ [Leaf CLOSE_BRACE y])] ++ r = (OPEN_BRACE, x) :: tokens_of (ts ++ fs) ++ (CLOSE_BRACE, y) :: r).
  { norm. rewrite ?app_nil_r. norm. reflexivity. }
  rewrite W. unfold hole. eapply r_bind; [right; exists []; split; [reflexivity|constructor]|]. apply r_start, r_take; [discriminate|].
  eapply r_puts; [apply puts_hole_content; assumption|discriminate|]. apply r_peek. cbn [hd_error].
  apply r_take; [discriminate|]. apply r_last; [norm; rewrite ?app_nil_r; norm; reflexivity|reflexivity|]. norm. reflexivity.
Qed.

Lemma puts_pattern : forall p cs y r fuel, Forall Chunk cs -> puts (pattern_loop fuel p) tt (cs ++ [Leaf (PATTERN_END p) y]) r.
Proof.
  intros p cs y r. induction cs as [|c cs IH]; intros fuel F used op ch NE; (destruct fuel as [|fuel]; [left; reflexivity|]); cbn [pattern_loop]; apply r_peek.
  - cbn [app flat_map leaves hd_error]. rewrite is_refl. apply r_take1; [exact NE|reflexivity..].
  - inversion F as [|? ? C F']; subst. specialize (IH fuel F').
    assert (NEXT : forall m, puts m tt [c] (tokens_of (cs ++ [Leaf (PATTERN_END p) y]) ++ r) ->
      runs (m;; pattern_loop fuel p) used (tokens_of ((c :: cs) ++ [Leaf (PATTERN_END p) y]) ++ r) (op, ch) tt (rev (tokens_of ((c :: cs) ++ [Leaf (PATTERN_END p) y])) ++ used) r (op, ch ++ (c :: cs) ++ [Leaf (PATTERN_END p) y])).
    { intros m P. change ((c :: cs) ++ [Leaf (PATTERN_END p) y]) with ([c] ++ (cs ++ [Leaf (PATTERN_END p) y])). rewrite flat_map_app, rev_app_distr, <- !app_assoc.
      eapply r_puts; [exact P|exact NE|]. specialize (IH (rev (tokens_of [c]) ++ used) op (ch ++ [c]) NE). rewrite <- !app_assoc in IH. exact IH. }
    assert (LEAF : forall n k s r, puts (leaf n) tt [Node n [Leaf k s]] r) by (intros n k s r0 u0 op0 ch0 _; apply r_leaf1; reflexivity).
    destruct C as [s|s|s|x ts fs y' T FM]; cbn [app flat_map leaves hd_error]; rewrite (proj2 (is_false _ (PATTERN_END p))) by discriminate.
    + apply NEXT, LEAF.
    + apply NEXT, LEAF.
    + apply NEXT, LEAF.
    + apply NEXT, puts_hole; assumption.
Qed.

(** ** Blocks *)

Definition feeding {A} (m : parser A) (used rest : list word) (a : A) (used' rest' : list word) (its : list tree) : Prop :=
  m used rest = Stuck \/ exists os, m used rest = Ret a os [] used' rest' /\ forall s, depth s = 0 -> sink_ops s os = feed s its.

Lemma commit_depth : forall s s', commit_declaration s = Some s' -> depth s' = depth s.
Proof.
  intros s s' H. unfold commit_declaration in H. destruct (declaration s) as [d|]; [|injection H as <-; reflexivity].
  destruct (_ && _); [destruct (_ <? _); [discriminate H|]; injection H as <-; reflexivity|]. destruct (split_trailer _). injection H as <-. reflexivity.
Qed.
Lemma feed1_depth : forall s t s', feed1 s t = Some s' -> depth s = 0 -> depth s' = 0.
Proof.
  intros s [n ts|k x] s' H D; cbn [feed1] in H; [injection H as <-; reflexivity|]. cbn [sink_op] in H. rewrite D in H.
  assert (P : forall s', Some (mkSink (committed s) (block_meta s) (buffer s ++ [Token k]) (declaration s) 0 (s_errors s) (current_offset s + length x) (decl_start s)) = Some s' -> depth s' = 0) by (intros s0 E; injection E as <-; reflexivity).
  destruct k; try (apply P; exact H); clear P.
  - unfold token_backtick in H. match type of H with option_map ?f ?m = _ => destruct m as [s1|] eqn:E; [|discriminate H] end. injection H as <-. cbn [depth].
    destruct (is_nil (buffer s)); [injection E as <-; exact D|]. destruct (declaration s) as [d|]; [|injection E as <-; exact D].
    match type of E with option_map _ ?m = _ => destruct m as [s2|] eqn:E2; [|discriminate E] end; injection E as <-; apply commit_depth in E2; cbn in *; lia.
  - unfold token_colon in H. destruct (split_off_head (buffer s)) as [o h].
    match type of H with option_map ?f ?m = _ => destruct m as [s1|] eqn:E; [|discriminate H] end. cbn [option_map] in H.
    assert (D1 : depth s1 = 0).
    { destruct (is_nil o); [injection E as <-; exact D|]. cbn [declaration] in E. destruct (declaration s) as [d|]; [|injection E as <-; exact D].
      destruct (p_meta d) as [[|m M]|]; [injection E as <-; exact D|..];
        (match type of E with option_map _ ?m = _ => destruct m as [s2|] eqn:E2; [|discriminate E] end; injection E as <-; apply commit_depth in E2; cbn in *; lia). }
    destruct h; [destruct (declaration s1) as [d|]; [destruct (p_meta d) as [m|]; [destruct (extract_last m) as [[? ?]|]|]|]|]; injection H as <-; exact D1.
  - unfold token_comma in H. cbn [declaration] in H. destruct (declaration s) as [d|]; [|injection H as <-; exact D]. destruct (p_meta d) as [m|]; [injection H as <-; exact D|].
    match type of H with option_map _ ?m = _ => destruct m as [s2|] eqn:E2; [|discriminate H] end; injection H as <-; apply commit_depth in E2; cbn in *; lia.
Qed.
Lemma feed_depth : forall ts s s', feed s ts = Some s' -> depth s = 0 -> depth s' = 0.
Proof.
  induction ts as [|t ts IH]; intros s s' H D; cbn in H; [injection H as <-; exact D|]. destruct (feed1 s t) as [s1|] eqn:E; [|discriminate H].
  eapply IH; [exact H|]. eapply feed1_depth; eassumption.
Qed.

Lemma f_bind : forall A B (m : parser A) (f : A -> parser B) u r a u1 r1 i1 b u2 r2 i2,
  feeding m u r a u1 r1 i1 -> feeding (f a) u1 r1 b u2 r2 i2 -> feeding (bind m f) u r b u2 r2 (i1 ++ i2).
Proof.
  intros A B m f u r a u1 r1 i1 b u2 r2 i2 [H | (os & E & O)] G; [left; unfold bind; rewrite H; reflexivity|].
  destruct G as [G | (os' & E' & O')]; [left; unfold bind; rewrite E, G; reflexivity|].
  right. exists (os ++ os'). unfold bind. rewrite E, E'. split; [reflexivity|]. intros s D. rewrite sink_ops_app, (O s D), feed_app.
  destruct (feed s i1) as [s1|] eqn:F; [|reflexivity]. apply O'. eapply feed_depth; eassumption.
Qed.
Lemma f_peek : forall A (f : option word -> parser A) u r a u' r' i, feeding (f (hd_error r)) u r a u' r' i -> feeding (w <- peek;; f w) u r a u' r' i.
Proof. intros. unfold feeding in *. rewrite bind_peek. assumption. Qed.
Lemma f_ret : forall A (a : A) u r, feeding (ret a) u r a u r [].
Proof. intros. right. exists []. split; reflexivity. Qed.
Lemma f_take : forall k x u r, feeding take u ((k, x) :: r) tt ((k, x) :: u) r [Leaf k x].
Proof. intros. right. exists [tok (k, x)]. split; reflexivity. Qed.
Lemma f_trivia : forall g u r, Gap g -> solid r -> feeding trivia u (tokens_of g ++ r) tt (rev (tokens_of g) ++ u) r g.
Proof.
  intros g u r G S. destruct (gap_leaves g G) as [T L]. right. exists (map tok (tokens_of g)). unfold trivia. rewrite trivia_exact by assumption. split; [reflexivity|].
  intros s D. clear T L S. revert s D. induction G as [|t g (k & x & -> & K) G IH]; intros s D; [reflexivity|]. cbn [flat_map leaves app map sink_ops feed feed1]. change (tok (k, x)) with (OToken k (length x)).
  destruct (sink_op s (OToken k (length x))) as [s1|] eqn:E; [|reflexivity]. apply IH. apply (feed1_depth s (Leaf k x) s1); assumption.
Qed.

(** The pieces of a block. *)
Inductive Pieces : list tree -> Prop :=
| pieces_nil : Pieces []
| pieces_element : forall t ts, Element t -> Pieces ts -> Pieces (t :: ts)
| pieces_blank : forall t ts, Blank t -> Pieces ts -> Pieces (t :: ts)
| pieces_comma : forall x ts, Pieces ts -> Pieces (Leaf COMMA x :: ts)
| pieces_backtick : forall x ts, Pieces ts -> Pieces (Leaf BACKTICK x :: ts)
| pieces_colon : forall x ts, (forall y l, tokens_of ts <> (COLON, y) :: l) -> ts <> [] -> Pieces ts -> Pieces (Leaf COLON x :: ts).
Lemma pieces_split : forall its r, Pieces its -> solid r -> exists g its', its = g ++ its' /\ Gap g /\ Pieces its' /\ solid (tokens_of its' ++ r).
Proof.
  intros its r P S. induction P as [|t ts E P IH|t ts B P IH|x ts P IH|x ts P IH|x ts N NE P IH].
  - exists [], []. repeat split; [constructor|constructor|exact S].
  - exists [], (t :: ts). repeat split; [constructor|apply pieces_element; assumption|]. cbn [flat_map]. rewrite <- app_assoc. apply element_solid. exact E.
  - destruct IH as (g & its' & -> & G & P' & S'). exists (t :: g), its'. repeat split; [constructor; assumption|exact P'|exact S'].
  - exists [], (Leaf COMMA x :: ts). repeat split; [constructor|apply pieces_comma; assumption|]. apply solid_cons. reflexivity.
  - exists [], (Leaf BACKTICK x :: ts). repeat split; [constructor|apply pieces_backtick; assumption|]. apply solid_cons. reflexivity.
  - exists [], (Leaf COLON x :: ts). repeat split; [constructor|apply pieces_colon; assumption|]. apply solid_cons. reflexivity.
Qed.

Definition closes (close : kind) (r : list word) : Prop := In close [CLOSE_BRACE; BRACKET_CLOSE] /\ (r = [] \/ exists y l, r = (close, y) :: l).
Lemma closes_solid : forall c r, closes c r -> solid r.
Proof. intros c r [[<- | [<- | []]] [-> | (y & l & ->)]] w l' E; try discriminate E; injection E as <- _; reflexivity. Qed.

Definition loops (n : nat) : Prop := forall close its r used, Pieces its -> closes close r ->
  feeding (block_loop n close) used (tokens_of its ++ r) tt (rev (tokens_of its) ++ used) r its.


(** ** The contents of a block *)

Lemma mixed_pieces : forall ts b, Mixed ts -> Pieces b -> Pieces (ts ++ b).
Proof. intros ts b M P. induction M; cbn [app]; [exact P|apply pieces_blank; assumption|apply pieces_element; assumption]. Qed.
Lemma gap_pieces : forall ts b, Gap ts -> Pieces b -> Pieces (ts ++ b).
Proof. intros ts b M P. induction M; cbn [app]; [exact P|apply pieces_blank; assumption]. Qed.
Lemma soup_pieces : forall ts b, Soup ts -> Pieces b -> Pieces (ts ++ b).
Proof. intros ts b [t ts' E M] P. cbn [app]. apply pieces_element; [exact E|]. apply mixed_pieces; assumption. Qed.
Lemma applied_pieces : forall ts b, Applied ts -> Pieces b -> Pieces (ts ++ b).
Proof. intros ts b A P. induction A; cbn [app]; [exact P|apply pieces_blank; assumption|apply pieces_element; assumption]. Qed.
Lemma separator_pieces : forall ts b, Separator ts -> Pieces b -> Pieces (ts ++ b).
Proof. intros ts b [g G|g x g' G G'] P; [apply gap_pieces; assumption|]. rewrite <- app_assoc. cbn [app]. apply gap_pieces; [exact G|]. apply pieces_comma. apply gap_pieces; assumption. Qed.
Lemma body_first : forall bs b, Body bs -> (forall y l, tokens_of (bs ++ b) <> (COLON, y) :: l) /\ bs ++ b <> [].
Proof.
  intros bs b [ts t M E]. rewrite <- app_assoc. cbn [app].
  assert (F : forall t l b, Element t -> forall y, tokens_of (t :: b) <> (COLON, y) :: l).
  { intros u l c EU y H. destruct (element_first u EU) as (k & s & l' & L & K). cbn [flat_map] in H. rewrite L in H. injection H as -> _ _. discriminate K. }
  destruct M as [|u us (k & s & -> & K) M|u us EU M].
  - split; [intros y l; apply F; exact E|discriminate].
  - split; [intros y l H; injection H as -> _ _; destruct K as [K | [K | []]]; discriminate K|discriminate].
  - split; [intros y l; apply F; exact EU|discriminate].
Qed.
Lemma declaration_pieces : forall d b, Declaration d -> Pieces b -> Pieces (spread d ++ b).
Proof.
  intros d b [ms hs x bs M [n ts as_ N E A] B] P.
  assert (BO : Pieces (bs ++ b)) by (destruct B as [us t Mi El]; rewrite <- app_assoc; apply mixed_pieces; [exact Mi|]; cbn [app]; apply pieces_element; assumption).
  destruct (body_first bs b B) as [F1 F2].
  assert (HD : Pieces (Node n ts :: as_ ++ Leaf COLON x :: bs ++ b)) by (apply pieces_element; [exact E|]; apply applied_pieces; [exact A|]; apply pieces_colon; assumption).
  destruct M as [|y g us G S]; cbn [app spread flat_map spread2]; rewrite app_nil_r.
  - rewrite <- app_assoc. exact HD.
  - repeat (rewrite <- ?app_assoc; cbn [app]). apply pieces_backtick. apply gap_pieces; [exact G|]. apply soup_pieces; assumption.
Qed.
Lemma declarations_pieces : forall ds, Declarations ds -> Pieces (spreads ds).
Proof.
  intros ds D. induction D as [d sep DE S|d sep ds DE S D IH]; cbn [flat_map].
  - apply declaration_pieces; [exact DE|]. rewrite separator_spread by exact S. rewrite <- (app_nil_r sep). apply separator_pieces; [exact S|constructor].
  - apply declaration_pieces; [exact DE|]. rewrite flat_map_app, separator_spread by exact S. apply separator_pieces; assumption.
Qed.
Lemma content_pieces : forall ts, Content ts -> Pieces (spreads ts).
Proof.
  assert (M : forall ms b, BlockMeta ms -> Pieces b -> Pieces (spreads ms ++ b)).
  { intros ms b [|us S] P; [exact P|]. cbn [flat_map spread]. rewrite app_nil_r. apply soup_pieces; assumption. }
  intros ts [ms BM|ms ds BM D].
  - rewrite <- (app_nil_r (spreads ms)). apply M; [exact BM|constructor].
  - rewrite flat_map_app. apply M; [exact BM|apply declarations_pieces; exact D].
Qed.
(** The same tokens. *)
Lemma spread_leaves : forall t, tokens_of (spread t) = leaves t.
Proof.
  assert (H : forall t, tokens_of (spread2 t) = leaves t).
  { intros [[] ts|k s]; try (cbn; rewrite ?app_nil_r; reflexivity);
      destruct ts as [|[[] us|k s] [|v vs]]; cbn; rewrite ?app_nil_r; reflexivity. }
  assert (HS : forall ds, tokens_of (flat_map spread2 ds) = tokens_of ds) by (induction ds as [|d ds IH]; [reflexivity|]; cbn [flat_map]; rewrite flat_map_app, H, IH; reflexivity).
  intros [[] ts|k s]; try (cbn; rewrite ?app_nil_r; reflexivity).
  - destruct ts as [|[[] us|k s] [|v vs]]; cbn; rewrite ?app_nil_r; reflexivity.
  - cbn [spread leaves]. apply HS.
Qed.
Lemma spreads_leaves : forall ts, tokens_of (spreads ts) = tokens_of ts.
Proof. induction ts as [|t ts IH]; [reflexivity|]. cbn [flat_map]. rewrite flat_map_app, spread_leaves, IH. reflexivity. Qed.
Lemma content_solid : forall ts r, Content ts -> solid r -> solid (tokens_of ts ++ r).
Proof.
  intros ts r C S.
  assert (M : forall ms b, BlockMeta ms -> solid b -> solid (tokens_of ms ++ b)).
  { intros ms b [|us SO] P; [exact P|]. cbn [flat_map leaves]. rewrite !app_nil_r. apply soup_solid. exact SO. }
  destruct C as [ms BM|ms ds BM D]; [apply M; assumption|]. rewrite flat_map_app, <- app_assoc. apply M; [exact BM|].
  assert (H : exists d l, ds = d :: l /\ Declaration d) by (destruct D; eauto). destruct H as (d & l & -> & [ms' hs x bs Me [n us as_ N E A] B]).
  cbn [flat_map leaves]. rewrite !flat_map_app. destruct Me as [|y g vs G SO].
  - cbn [flat_map]. change (leaves (Node DECL_HEAD (Node n us :: as_))) with (leaves (Node n us) ++ tokens_of as_). rewrite <- !app_assoc. cbn [app]. apply element_solid. exact E.
  - cbn [flat_map leaves app]. apply solid_cons. reflexivity.
Qed.

Lemma puts_content : forall n close ts r, loops n -> Content ts -> closes close r -> puts (content (block_loop n close)) tt ts r.
Proof.
  intros n close ts r L C K used op ch NE. destruct (L close (spreads ts) r used (content_pieces ts C) K) as [H | (os & E & O)]; rewrite spreads_leaves in *.
  - left. unfold content. rewrite H. reflexivity.
  - right. destruct (content_feeds ts (width used) C) as (s & F & CO). exists [OAccept (flats ts) (width (tokens_of ts))]. split; [|apply osteps_one; constructor; exact NE].
    unfold content. rewrite E, (O (with_start (width used)) eq_refl), F, CO. f_equal. f_equal. f_equal. rewrite token_kinds_length, flats_kinds, map_length.
    match goal with |- context [firstn ?k (rev ?c ++ used)] => replace k with (length (rev c)) by (rewrite rev_length; reflexivity) end. rewrite firstn_app_l, width_rev. reflexivity.
Qed.
