(** The sink of a block keeps the tokens. *)
From Coq Require Import List NArith ZArith Bool Arith Lia.
Import ListNotations.
From Verif.Text Require Import Model.
From Verif.Lexer Require Import Model.
From Verif.Parser Require Import Model Spec Halts Forests.
Open Scope nat_scope.

(** ** Calls that make trees *)

(** The nodes that are open (the innermost first, with the trees before each) and the trees in
    the innermost. *)
Definition state : Type := list (node * list tree) * list tree.
Inductive ostep : op -> state -> state -> Prop :=
| ostep_start : forall n op ch, ostep (OStart n) (op, ch) ((n, ch) :: op, [])
| ostep_finish : forall n b op ch, ostep OFinish ((n, b) :: op, ch) (op, b ++ [Node n ch])
| ostep_token : forall w op ch, op <> [] -> ostep (tok w) (op, ch) (op, ch ++ [Leaf (fst w) (snd w)])
| ostep_accept : forall f op ch, op <> [] -> ostep (OAccept (flats f) (width (tokens_of f))) (op, ch) (op, ch ++ f).
Inductive osteps : list op -> state -> state -> Prop :=
| osteps_nil : forall s, osteps [] s s
| osteps_cons : forall o os s s' s'', ostep o s s' -> osteps os s' s'' -> osteps (o :: os) s s''.
Lemma osteps_app : forall os os' s s' s'', osteps os s s' -> osteps os' s' s'' -> osteps (os ++ os') s s''.
Proof. intros os os' s s' s'' H. induction H; intros G; [exact G|]. cbn. econstructor; eauto. Qed.
Lemma osteps_one : forall o s s', ostep o s s' -> osteps [o] s s'.
Proof. intros. econstructor; [eassumption|constructor]. Qed.

Fixpoint opened (op : list (node * list tree)) : list event :=
  match op with [] => [] | (n, b) :: op => opened op ++ flats b ++ [Start n] end.
Fixpoint open_words (op : list (node * list tree)) : list word :=
  match op with [] => [] | (n, b) :: op => open_words op ++ tokens_of b end.

Definition pushed (s : sink) (b : list event) (d o : nat) : sink :=
  mkSink (committed s) (block_meta s) b (declaration s) d (s_errors s) o (decl_start s).

Lemma ostep_sink : forall o st st', ostep o st st' -> forall s b0, depth s = length (fst st) ->
  buffer s = b0 ++ opened (fst st) ++ flats (snd st) ->
  exists o', sink_op s o = Some (pushed s (b0 ++ opened (fst st') ++ flats (snd st')) (length (fst st')) o') /\
    o' + width (open_words (fst st) ++ tokens_of (snd st)) = current_offset s + width (open_words (fst st') ++ tokens_of (snd st')).
Proof.
  intros o st st' H. destruct H as [n op ch|n b op ch|w op ch NE|f op ch NE]; intros s b0 D B; cbn [fst snd] in *.
  - exists (current_offset s). cbn [sink_op]. rewrite B, D, Nat.add_0_r. unfold pushed. cbn [opened open_words length flat_map].
    rewrite <- !app_assoc, !app_nil_r. split; reflexivity.
  - exists (current_offset s). cbn [sink_op]. rewrite D. cbn [length]. rewrite B, Nat.add_0_r. unfold pushed. cbn [opened open_words].
    rewrite !flat_map_app. cbn [flat_map flat leaves]. rewrite !app_nil_r, <- !app_assoc. cbn [app]. split; reflexivity.
  - exists (current_offset s + length (snd w)). unfold tok. cbn [sink_op]. rewrite D. destruct op as [|p op]; [contradiction|]. cbn [length].
    rewrite B. unfold pushed. rewrite !flat_map_app. cbn [flat_map flat leaves]. rewrite !app_nil_r, <- !app_assoc. cbn [app]. split; [reflexivity|].
    rewrite !width_app, width_cons. cbn [snd]. change (width []) with 0. lia.
  - exists (current_offset s + width (tokens_of f)). cbn [sink_op]. rewrite B. unfold pushed. rewrite !flat_map_app, <- !app_assoc, D. split; [reflexivity|].
    rewrite !width_app. lia.
Qed.
Lemma osteps_sink : forall os st st', osteps os st st' -> forall s b0, depth s = length (fst st) ->
  buffer s = b0 ++ opened (fst st) ++ flats (snd st) ->
  exists o', sink_ops s os = Some (pushed s (b0 ++ opened (fst st') ++ flats (snd st')) (length (fst st')) o') /\
    o' + width (open_words (fst st) ++ tokens_of (snd st)) = current_offset s + width (open_words (fst st') ++ tokens_of (snd st')).
Proof.
  intros os st st' H. induction H as [st|o os st st1 st2 H1 H2 IH]; intros s b0 D B.
  - exists (current_offset s). split; [|lia]. cbn. rewrite <- B, <- D. destruct s; reflexivity.
  - destruct (ostep_sink _ _ _ H1 s b0 D B) as (o1 & E1 & W1). destruct (IH (pushed s (b0 ++ opened (fst st1) ++ flats (snd st1)) (length (fst st1)) o1) b0 eq_refl eq_refl) as (o2 & E2 & W2).
    exists o2. cbn [sink_ops]. rewrite E1. split; [exact E2|]. cbn [current_offset pushed] in W2. lia.
Qed.
(** The calls that make one tree. *)
Lemma tree_sink : forall os t, osteps os ([], []) ([], [t]) -> forall s, depth s = 0 ->
  sink_ops s os = Some (pushed s (buffer s ++ flat t) 0 (current_offset s + width (leaves t))).
Proof.
  intros os t H s D. destruct (osteps_sink _ _ _ H s (buffer s)) as (o & E & W); [exact D|cbn; rewrite app_nil_r; reflexivity|].
  cbn in E, W. rewrite app_nil_r in E. rewrite E. rewrite !app_nil_r in W. change (width []) with 0 in W. rewrite Nat.add_0_r in W. subst o. reflexivity.
Qed.

(** ** Commits *)

Definition meta_words (M : option (list tree)) : list word := match M with Some M => tokens_of M | None => [] end.

Lemma commit_declaration_ok : forall N C M H K B s,
  committed s = flats C -> declaration s = Some (mkPending (option_map flats M) (flats H) (flats K) (flats B)) ->
  (forall o, decl_start s = Some o -> o <= current_offset s) -> current_offset s <= N -> Forall (located N) (s_errors s) ->
  exists C' es, commit_declaration s = Some (mkSink (flats C') (block_meta s) (buffer s) None (depth s) es (current_offset s) (decl_start s)) /\
    tokens_of C' = tokens_of C ++ meta_words M ++ tokens_of H ++ tokens_of K ++ tokens_of B /\ Forall (located N) es.
Proof.
  intros N C M H K B s EC ED LE LN F. unfold commit_declaration. rewrite ED. cbn [p_meta p_head p_colon p_body].
  match goal with |- context [if ?b then _ else _] => destruct b end.
  - set (start := match decl_start s with Some o => o | None => current_offset s end).
    assert (S : start <= current_offset s) by (unfold start; destruct (decl_start s); [apply LE; reflexivity|lia]).
    replace (current_offset s <? start) with false by (symmetry; apply Nat.ltb_ge; exact S).
    exists (C ++ [Node ERROR (match M with Some M => M | None => [] end ++ H ++ K ++ B)]). eexists. split; [|split].
    + rewrite EC, flat_map_app. cbn [flat_map flat]. rewrite !flat_map_app, app_nil_r. destruct M; cbn [option_map flat_map app]; rewrite <- ?app_assoc; reflexivity.
    + rewrite flat_map_app. cbn [flat_map leaves]. rewrite !flat_map_app, app_nil_r. destruct M; cbn [meta_words flat_map app]; reflexivity.
    + apply Forall_app. split; [exact F|]. constructor; [|constructor]. unfold located. cbn. lia.
  - destruct (trailer_trees B) as (B1 & B2 & -> & ->).
    exists (C ++ [Node DECLARATION ((match M with Some M => [Node DECL_META [Node SOUP M]] | None => [] end) ++ [Node DECL_HEAD H] ++ K ++ [Node DECL_BODY [Node SOUP B1]])] ++ B2).
    eexists. split; [|split; [|exact F]].
    + rewrite EC, !flat_map_app. cbn [flat_map flat]. rewrite !flat_map_app. cbn [flat_map flat]. rewrite ?app_nil_r.
      destruct M; cbn [option_map flat_map flat app]; rewrite ?app_nil_r; repeat (rewrite <- ?app_assoc; cbn [app]); reflexivity.
    + rewrite !flat_map_app. cbn [flat_map leaves]. rewrite !flat_map_app. cbn [flat_map leaves]. rewrite ?app_nil_r.
      destruct M; cbn [meta_words flat_map leaves app]; rewrite ?app_nil_r; repeat (rewrite <- ?app_assoc; cbn [app]); reflexivity.
Qed.

Lemma commit_meta_ok : forall C B s, committed s = flats C -> block_meta s = flats B ->
  exists C', commit_meta s = mkSink (flats C') [] (buffer s) (declaration s) (depth s) (s_errors s) (current_offset s) (decl_start s) /\
    tokens_of C' = tokens_of C ++ tokens_of B.
Proof.
  intros C B s EC EB. unfold commit_meta. rewrite EC, EB, is_nil_flats. destruct C as [|t C]; cbn [is_nil].
  - exists [Node BLOCK_META [Node SOUP B]]. cbn [flat_map flat leaves]. rewrite ?app_nil_r. cbn [app]. rewrite <- ?app_assoc. split; reflexivity.
  - destruct (forallb _ _).
    + exists ((t :: C) ++ B). rewrite !flat_map_app. split; reflexivity.
    + exists ((t :: C) ++ [Node ERROR_STOWAWAYS B]). rewrite !flat_map_app. cbn [flat_map flat leaves]. rewrite ?app_nil_r. cbn [app]. rewrite <- ?app_assoc. split; reflexivity.
Qed.

(** ** The invariant *)

(** What is pending, after the tokens [c], with [rest] to come. *)
Inductive Pending (C B : list tree) (c rest : list word) : option pending -> Prop :=
| Pending_none : c = tokens_of C ++ tokens_of B -> Pending C B c rest None
| Pending_meta : forall x B', B = Leaf BACKTICK x :: B' -> c = tokens_of C ++ tokens_of B -> Pending C B c rest (Some (mkPending (Some []) [] [] []))
| Pending_body : forall M H K, M <> Some [] -> c = tokens_of C ++ meta_words M ++ tokens_of H ++ tokens_of K ++ tokens_of B ->
    ~ crowded (tokens_of B ++ rest) -> (B = [] -> forall t r, rest <> (COLON, t) :: r) ->
    Pending C B c rest (Some (mkPending (option_map flats M) (flats H) (flats K) [])).

Record Inv (N base : nat) (s : sink) (c rest : list word) (C B : list tree) : Prop := {
  inv_committed : committed s = flats C;
  inv_meta : block_meta s = [];
  inv_buffer : buffer s = flats B;
  inv_items : Forall item B;
  inv_pending : Pending C B c rest (declaration s);
  inv_depth : depth s = 0;
  inv_offset : current_offset s = base + width c;
  inv_fits : base + width c + width rest <= N;
  inv_errors : Forall (located N) (s_errors s);
  inv_start : forall o, decl_start s = Some o -> o <= current_offset s }.
Definition inv (N base : nat) (s : sink) (c rest : list word) : Prop := exists C B, Inv N base s c rest C B.

(** A tree is pushed that is not a mark that the sink heeds. *)
Lemma push_inv : forall N base s c t rest, inv N base s c (leaves t ++ rest) -> item t ->
  inv N base (pushed s (buffer s ++ flat t) 0 (current_offset s + width (leaves t))) (c ++ leaves t) rest.
Proof.
  intros N base s c t rest (C & B & [I1 I2 I3 I4 I5 I6 I7 I8 I9 I10]) T. exists C, (B ++ [t]).
  constructor; cbn [pushed committed block_meta buffer declaration depth current_offset s_errors decl_start]; auto.
  - rewrite I3, flat_map_app. cbn. rewrite app_nil_r. reflexivity.
  - apply Forall_app. auto.
  - assert (TB : tokens_of (B ++ [t]) = tokens_of B ++ leaves t) by (rewrite flat_map_app; cbn; rewrite app_nil_r; reflexivity).
    inversion I5 as [E EQ|x B' EB E EQ|M H K NM E NC ND EQ]; subst.
    + constructor. rewrite TB, app_assoc. reflexivity.
    + eapply Pending_meta; [reflexivity|]. rewrite TB, app_assoc. reflexivity.
    + apply Pending_body; auto.
      * rewrite TB, <- !app_assoc. reflexivity.
      * rewrite TB, <- app_assoc. exact NC.
      * destruct B; discriminate.
  - rewrite I7, width_app. lia.
  - rewrite width_app in *. lia.
  - intros o E. specialize (I10 o E). lia.
Qed.

Lemma tok_leaf : forall w : word, leaves (Leaf (fst w) (snd w)) = [w].
Proof. intros [k s]. reflexivity. Qed.

(** A token of trivia. *)
Lemma trivial_inv : forall N base s c w rest, inv N base s c (w :: rest) -> is_trivial (fst w) = true ->
  exists s', sink_op s (tok w) = Some s' /\ inv N base s' (c ++ [w]) rest.
Proof.
  intros N base s c w rest I T. pose proof (push_inv N base s c (Leaf (fst w) (snd w)) rest) as P. rewrite tok_leaf in P.
  specialize (P I (or_intror (or_introl (ex_intro _ _ (ex_intro _ _ (conj eq_refl T)))))).
  eexists. split; [|exact P]. destruct I as (C & B & I). unfold tok. cbn [sink_op]. rewrite (inv_depth _ _ _ _ _ _ _ I).
  unfold pushed. rewrite width_cons. change (width []) with 0. rewrite Nat.add_0_r. destruct (fst w); try discriminate T; reflexivity.
Qed.

(** A comma. *)
Lemma comma_inv : forall N base s c w rest, inv N base s c (w :: rest) -> fst w = COMMA ->
  exists s', sink_op s (tok w) = Some s' /\ inv N base s' (c ++ [w]) rest.
Proof.
  intros N base s c [k x] rest I T. cbn in T. subst k. pose proof (push_inv N base s c (Leaf COMMA x) rest) as P.
  specialize (P I (or_intror (or_intror (ex_intro _ _ (ex_intro _ _ (conj eq_refl (or_introl eq_refl))))))).
  destruct P as (C & B & [I1 I2 I3 I4 I5 I6 I7 I8 I9 I10]).
  cbn [pushed committed block_meta buffer declaration depth current_offset s_errors decl_start leaves fst snd flat] in *.
  assert (D0 : depth s = 0) by (destruct I as (C0 & B0 & I); apply (inv_depth _ _ _ _ _ _ _ I)).
  rewrite width_cons in *. change (width []) with 0 in *. rewrite Nat.add_0_r in *. cbn [snd] in *.
  unfold tok. cbn [sink_op fst snd]. rewrite D0. unfold token_comma. cbn [declaration].
  inversion I5 as [E EQ|x' B' EB E EQ|M H K NM E NC ND EQ].
  - eexists. split; [reflexivity|]. exists C, B. constructor; cbn; auto; constructor; exact E.
  - cbn [p_meta]. eexists. split; [reflexivity|]. exists C, B. constructor; cbn; auto; eapply Pending_meta; eauto.
  - destruct M as [M|]; cbn [p_meta option_map].
    + eexists. split; [reflexivity|]. exists C, B. constructor; cbn; auto; apply (Pending_body C B (c ++ [(COMMA, x)]) rest (Some M) H K); auto.
    + cbn [p_head p_colon p_body committed block_meta buffer depth s_errors current_offset decl_start].
      match goal with |- context [commit_declaration ?s1] => destruct (commit_declaration_ok N C None H K B s1) as (C' & es & EC & EW & EF); cbn [committed block_meta buffer declaration depth s_errors current_offset decl_start]; auto end.
      { rewrite I3. reflexivity. }
      { lia. }
      rewrite EC. cbn. eexists. split; [reflexivity|]. exists C', []. constructor; cbn; auto; try discriminate.
      constructor. cbn. rewrite app_nil_r, EW. exact E.
Qed.

(** A backtick. *)
Lemma backtick_inv : forall N base s c w rest, inv N base s c (w :: rest) -> fst w = BACKTICK ->
  exists s', sink_op s (tok w) = Some s' /\ inv N base s' (c ++ [w]) rest.
Proof.
  intros N base s c [k x] rest (C & B & [I1 I2 I3 I4 I5 I6 I7 I8 I9 I10]) T. cbn in T. subst k.
  rewrite width_cons in I8. cbn [snd] in I8. unfold tok. cbn [sink_op fst snd]. rewrite I6. unfold token_backtick. rewrite I3, is_nil_flats.
  assert (DONE : forall C' es, tokens_of C' = c -> Forall (located N) es ->
    inv N base (mkSink (flats C') [] [Token BACKTICK] (Some (mkPending (Some []) [] [] [])) 0 es (current_offset s + length x) (Some (current_offset s))) (c ++ [(BACKTICK, x)]) rest).
  { intros C' es E1 E2. exists C', [Leaf BACKTICK x].
    assert (W : width (c ++ [(BACKTICK, x)]) = width c + length x) by (rewrite width_app, width_cons; cbn [snd]; change (width []) with 0; lia).
    constructor; cbn; auto; try lia.
    - constructor; [|constructor]. right; right. exists BACKTICK, x. cbn. auto.
    - eapply Pending_meta; [reflexivity|]. cbn. rewrite E1. reflexivity.
    - intros o E. injection E as <-. lia. }
  destruct B as [|t B]; cbn [is_nil].
  - cbn [option_map]. inversion I5 as [E EQ|x' B' EB E EQ|M H K NM E NC ND EQ].
    + eexists. split; [reflexivity|]. cbn in E. rewrite app_nil_r in E. rewrite I1, I2, I3, I6. cbn. apply DONE; auto.
    + discriminate EB.
    + exfalso. apply NC. left. exists (BACKTICK, x), rest. split; reflexivity.
  - inversion I5 as [E EQ|x' B' EB E EQ|M H K NM E NC ND EQ]; cbn [p_meta p_head p_colon p_body].
    + destruct (commit_meta_ok C (t :: B) (mkSink (committed s) (flats (t :: B)) (block_meta s) None (depth s) (s_errors s) (current_offset s) (decl_start s))) as (C' & EC & EW); auto.
      rewrite EC. cbn [option_map committed block_meta buffer declaration depth s_errors current_offset decl_start]. eexists. split; [reflexivity|].
      rewrite I2, I6. cbn. apply DONE; auto. rewrite EW. auto.
    + match goal with |- context [commit_declaration ?s1] => destruct (commit_declaration_ok N C (Some []) [] [] (t :: B) s1) as (C' & es & EC & EW & EF); cbn [committed block_meta buffer declaration depth s_errors current_offset decl_start]; auto end.
      { lia. }
      rewrite EC. cbn [option_map committed block_meta buffer declaration depth s_errors current_offset decl_start]. eexists. split; [reflexivity|].
      rewrite I2, I6. cbn. apply DONE; auto. rewrite EW. auto.
    + match goal with |- context [commit_declaration ?s1] => destruct (commit_declaration_ok N C M H K (t :: B) s1) as (C' & es & EC & EW & EF); cbn [committed block_meta buffer declaration depth s_errors current_offset decl_start]; auto end.
      { lia. }
      rewrite EC. cbn [option_map committed block_meta buffer declaration depth s_errors current_offset decl_start]. eexists. split; [reflexivity|].
      rewrite I2, I6. cbn. apply DONE; auto. rewrite EW. auto.
Qed.

(** Trees that a head may end with. *)
Lemma tailing_words : forall B, Forall item B -> Forall tailing B ->
  exists tr l, tokens_of B = tr ++ l /\ trivia_only tr /\ (l = [] \/ exists v l', l = v :: l' /\ applies (fst v)).
Proof.
  induction B as [|t B IH]; intros I T.
  - exists [], []. split; [reflexivity|]. split; [constructor|left; reflexivity].
  - inversion I as [|? ? I1 I2]; subst. inversion T as [|? ? T1 T2]; subst. destruct T1 as [(k & s & -> & E) | (ts & ->)].
    + destruct (IH I2 T2) as (tr & l & EQ & TR & V). exists ((k, s) :: tr), l.
      split; [cbn; rewrite EQ; reflexivity|]. split; [constructor; auto|exact V].
    + destruct I1 as [(n & ts' & E & (k & s & l & EL & AP)) | [(k & s & E & _) | (k & s & E & _)]]; try discriminate. injection E as <- <-.
      exists [], ((k, s) :: l ++ tokens_of B). split; [|split; [constructor|right; eauto]].
      cbn [flat_map]. rewrite EL. reflexivity.
Qed.
Lemma tailing_crowded : forall B x rest, B <> [] -> Forall item B ->
  Forall tailing B \/ (exists h B3, B = h :: B3 /\ heading h /\ Forall tailing B3) -> crowded (tokens_of B ++ (COLON, x) :: rest).
Proof.
  intros [|t B] x rest NE I T; [contradiction|]. right. exists (tokens_of (t :: B)), (COLON, x), rest. split; [reflexivity|]. split; [reflexivity|].
  inversion I as [|? ? I1 I2]; subst. destruct T as [T | (h & B3 & E & T1 & T2)].
  - inversion T as [|? ? T1 T2]; subst. destruct (tailing_words B I2 T2) as (tr & l' & EQ & TR & V).
    destruct T1 as [(k & s & -> & E) | (ts & ->)].
    + right. exists (k, s), tr, l'. split; [cbn; rewrite EQ; reflexivity|]. auto.
    + destruct I1 as [(n & ts' & E & (k & s & l & EL & AP)) | [(k & s & E & _) | (k & s & E & _)]]; try discriminate. injection E as <- <-.
      left. exists (k, s), (l ++ tokens_of B). split; [cbn [flat_map]; rewrite EL; reflexivity|auto].
  - injection E as <- <-. destruct (tailing_words B I2 T2) as (tr & l' & EQ & TR & V). destruct T1 as (n & ts & -> & IN).
    destruct I1 as [(n' & ts' & E & (k & s & l & EL & AP)) | [(k & s & E & _) | (k & s & E & _)]]; try discriminate. injection E as <- <-.
    destruct IN as [<- | [<- | [<- | []]]].
    + left. exists (k, s), (l ++ tokens_of B). split; [cbn [flat_map]; rewrite EL; reflexivity|]. left. destruct AP as [<- | [<- | []]]; cbn; auto.
    + destruct AP as [AP ->]. right. exists (k, s), tr, l'. split; [cbn [flat_map]; rewrite EL; cbn; rewrite EQ; reflexivity|]. auto.
    + subst k. left. exists (BRACKET_OPEN, s), (l ++ tokens_of B). split; [cbn [flat_map]; rewrite EL; reflexivity|]. left. cbn; auto.
Qed.

Lemma flats_nil : forall B, flats B = [] -> B = [].
Proof. intros B E. pose proof (is_nil_flats B) as H. rewrite E in H. destruct B; [reflexivity|discriminate H]. Qed.

(** A colon. *)
Lemma colon_inv : forall N base s c w rest, inv N base s c (w :: rest) -> fst w = COLON -> ~ crowded rest -> (forall t r, rest <> (COLON, t) :: r) ->
  exists s', sink_op s (tok w) = Some s' /\ inv N base s' (c ++ [w]) rest.
Proof.
  intros N base s c [k x] rest (C & B & [I1 I2 I3 I4 I5 I6 I7 I8 I9 I10]) T NC NX. cbn in T. subst k.
  rewrite width_cons in I8. cbn [snd] in I8. unfold tok. cbn [sink_op fst snd]. rewrite I6. unfold token_colon. rewrite I3.
  destruct (split_items B I4) as (B1 & B2 & EB & -> & R).
  assert (IB : Forall item B1 /\ Forall item B2) by (rewrite EB in I4; apply Forall_app; exact I4). destruct IB as [IB1 IB2].
  assert (TB : tokens_of B = tokens_of B1 ++ tokens_of B2) by (rewrite EB, flat_map_app; reflexivity).
  assert (DONE : forall C' es M H, M <> Some [] -> c = tokens_of C' ++ meta_words M ++ tokens_of H -> Forall (located N) es ->
    inv N base (mkSink (flats C') [] [] (Some (mkPending (option_map flats M) (flats H) [Token COLON] [])) 0 es (current_offset s + length x) (Some (current_offset s))) (c ++ [(COLON, x)]) rest).
  { intros C' es M H NM E1 E2. exists C', [].
    assert (W : width (c ++ [(COLON, x)]) = width c + length x) by (rewrite width_app, width_cons; cbn [snd]; change (width []) with 0; lia).
    constructor; cbn; auto; try lia.
    - apply (Pending_body C' [] (c ++ [(COLON, x)]) rest M H [Leaf COLON x]); auto.
      rewrite E1. cbn. rewrite <- !app_assoc. reflexivity.
    - intros o E. injection E as <-. lia. }
  cbn [declaration committed block_meta buffer depth s_errors current_offset decl_start]. rewrite is_nil_flats.
  (* without a declaration *)
  assert (NONE : forall C' es s1, committed s1 = flats C' -> block_meta s1 = [] -> buffer s1 = [] -> declaration s1 = None -> depth s1 = 0 -> s_errors s1 = es ->
    current_offset s1 = current_offset s -> c = tokens_of C' ++ tokens_of B2 -> Forall (located N) es ->
    exists s', option_map (fun s0 => let '(decl, head) :=
      match flats B2, declaration s0 with
      | [], Some d => match p_meta d with
          | Some m => match extract_last m with Some (m', h) => (Some (mkPending (Some m') (p_head d) (p_colon d) (p_body d)), h) | None => (declaration s0, []) end
          | None => (declaration s0, []) end
      | _, _ => (declaration s0, flats B2) end in
      mkSink (committed s0) (block_meta s0) (buffer s0)
        (Some (match decl with Some d => mkPending (p_meta d) head (p_colon d ++ [Token COLON]) (p_body d) | None => mkPending None head [Token COLON] [] end))
        (depth s0) (s_errors s0) (current_offset s0 + length x) (Some (current_offset s0))) (Some s1) = Some s' /\ inv N base s' (c ++ [(COLON, x)]) rest).
  { intros C' es s1 E1 E2 E3 E4 E5 E6 E7 E8 E9. cbn [option_map]. rewrite E1, E2, E3, E4, E5, E6, E7. eexists. split; [reflexivity|].
    replace (match flats B2 with [] => _ | _ => _ end) with (@None pending, flats B2) by (destruct (flats B2); reflexivity).
    apply (DONE C' es None B2); [discriminate|exact E8|exact E9]. }
  inversion I5 as [E EQ|x' B' EB' E EQ|M H K NM E NC' ND EQ]; cbn [p_meta p_head p_colon p_body].
  - destruct B1 as [|t B1]; cbn [is_nil].
    + apply (NONE C (s_errors s)); auto. rewrite E, TB. reflexivity.
    + destruct (commit_meta_ok C (t :: B1) (mkSink (committed s) (flats (t :: B1)) (block_meta s) None (depth s) (s_errors s) (current_offset s) (decl_start s))) as (C' & EC & EW); auto.
      rewrite EC. apply (NONE C' (s_errors s)); auto. rewrite E, TB, EW, <- app_assoc. reflexivity.
  - assert (NB1 : exists B1', B1 = Leaf BACKTICK x' :: B1').
    { destruct B1 as [|t B1]; [exfalso|rewrite EB in EB'; injection EB' as -> _; eauto]. cbn in EB. subst B2. rewrite EB' in R.
      destruct R as [R | [[_ R] | (h & B3 & R & (n & ts & -> & _) & _)]]; try discriminate. inversion R as [|? ? R1 _]; subst.
      destruct R1 as [(k & s' & E' & K) | (ts & E')]; [injection E' as <- <-; discriminate K|discriminate E']. }
    destruct NB1 as (B1' & NB1). replace (is_nil B1) with false by (rewrite NB1; reflexivity). cbn [is_nil option_map declaration p_meta]. eexists. split; [reflexivity|].
    cbn [committed block_meta buffer depth s_errors current_offset decl_start]. rewrite I1, I2, I6.
    destruct B2 as [|t B2].
    + cbn [flat_map]. pose proof (extract_trees B1) as EX. destruct (extract_last (flats B1)) as [[m h]|].
      * destruct EX as (M1 & H & -> & -> & EX & NE). cbn [p_meta p_head p_colon p_body app]. apply (DONE C (s_errors s) (Some M1) H); auto.
        { intros E'. injection E' as E'. apply (NE _ _ NB1). exact E'. }
        cbn [meta_words]. rewrite <- EX, E, TB, app_nil_r. reflexivity.
      * cbn [p_meta p_head p_colon p_body app]. apply (DONE C (s_errors s) (Some B1) []); auto; [rewrite NB1; discriminate|]. rewrite E, TB. reflexivity.
    + destruct (flats (t :: B2)) as [|e es] eqn:EF; [apply flats_nil in EF; discriminate EF|]. rewrite <- EF. cbn [p_meta p_head p_colon p_body app].
      apply (DONE C (s_errors s) (Some B1) (t :: B2)); auto; [rewrite NB1; discriminate|]. rewrite E, TB. reflexivity.
  - destruct B1 as [|t B1]; cbn [is_nil].
    + exfalso. destruct B as [|t B]; [apply (ND eq_refl x rest); reflexivity|]. apply NC'. apply tailing_crowded; [discriminate|exact I4|].
      cbn in EB. rewrite EB. destruct R as [R | [[_ R] | R]]; auto. rewrite R in EB. discriminate EB.
    + match goal with |- context [commit_declaration ?s1] => destruct (commit_declaration_ok N C M H K (t :: B1) s1) as (C' & es & EC & EW & EF); cbn [committed block_meta buffer declaration depth s_errors current_offset decl_start]; auto end.
      { lia. }
      rewrite EC. destruct M as [[|m M]|]; [contradiction (NM eq_refl)| |]; cbn [option_map];
        [destruct (flats (m :: M)) eqn:EM; [apply flats_nil in EM; discriminate EM|]|];
        apply (NONE C' es); auto; rewrite E, TB, EW, <- !app_assoc; reflexivity.
Qed.

(** The end. *)
Lemma complete_inv : forall N base s c rest, inv N base s c rest -> exists F es, complete s = Some (flats F, es) /\ tokens_of F = c /\ Forall (located N) es.
Proof.
  intros N base s c rest (C & B & [I1 I2 I3 I4 I5 I6 I7 I8 I9 I10]). unfold complete. rewrite I3, is_nil_flats.
  assert (L : current_offset s <= N) by lia.
  inversion I5 as [E EQ|x' B' EB E EQ|M H K NM E NC ND EQ].
  - destruct B as [|t B]; cbn [is_nil].
    + exists C, (s_errors s). cbn. rewrite I1. rewrite E. cbn. rewrite app_nil_r. auto.
    + destruct (commit_meta_ok C (t :: B) (mkSink (committed s) (flats (t :: B)) (block_meta s) None (depth s) (s_errors s) (current_offset s) (decl_start s))) as (C' & EC & EW); auto.
      rewrite EC. exists C', (s_errors s). cbn [option_map committed s_errors]. rewrite EW, E. auto.
  - rewrite EB. cbn [is_nil p_meta p_head p_colon p_body].
    match goal with |- context [commit_declaration ?s1] => destruct (commit_declaration_ok N C (Some []) [] [] (Leaf BACKTICK x' :: B') s1) as (C' & es & EC & EW & EF); cbn [committed block_meta buffer declaration depth s_errors current_offset decl_start]; auto end.
    rewrite EC. exists C', es. cbn [option_map committed s_errors]. rewrite EW, E, EB. auto.
  - destruct B as [|t B]; cbn [is_nil p_meta p_head p_colon p_body].
    + destruct (commit_declaration_ok N C M H K [] s) as (C' & es & EC & EW & EF); auto.
      rewrite EC. exists C', es. cbn [option_map committed s_errors]. rewrite EW, E. auto.
    + match goal with |- context [commit_declaration ?s1] => destruct (commit_declaration_ok N C M H K (t :: B) s1) as (C' & es & EC & EW & EF); cbn [committed block_meta buffer declaration depth s_errors current_offset decl_start]; auto end.
      rewrite EC. exists C', es. cbn [option_map committed s_errors]. rewrite EW, E. auto.
Qed.

(** The start. *)
Lemma start_inv : forall N base rest, base + width rest <= N -> inv N base (with_start base) [] rest.
Proof.
  intros N base rest L. exists [], []. constructor; cbn; auto; try lia. constructor. reflexivity. discriminate.
Qed.

Lemma sink_ops_app : forall os os' s, sink_ops s (os ++ os') = match sink_ops s os with Some s => sink_ops s os' | None => None end.
Proof. induction os as [|o os IH]; intros os' s; [reflexivity|]. cbn. destruct (sink_op s o); auto. Qed.
