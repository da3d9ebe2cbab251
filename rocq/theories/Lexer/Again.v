(** Applied brackets, and lexing again after a change of whitespace. *)
From Coq Require Import List NArith Bool Lia Arith.
Import ListNotations.
From Verif.Text Require Import Model.
From Verif.Lexer Require Import Model Spec Steps Runs.
Open Scope N_scope.

Section Unicode.
Context (U : tables) (HU : unicode U).
Notation Run := (Run U).
Notation Group := (Group U).

Lemma Run_step : forall m pos c s toks rest ts, step U m pos c s = Some (toks, rest) ->
  Run (fold_left remember toks m) (pos + (length (c :: s) - length rest)) rest ts -> Run m pos (c :: s) (toks ++ ts).
Proof.
  intros m pos c s toks rest ts E R. destruct (step_good U HU m pos c s) as (u & toks' & rest' & E' & -> & G & M & O & F).
  rewrite E in E'. injection E' as <- <-. econstructor; eauto.
  replace (pos + length (c :: u))%nat with (pos + (length (c :: u ++ rest) - length rest))%nat by (cbn [length]; rewrite app_length; lia). exact R.
Qed.

(** ** Brackets *)

Definition prev_callable (prev : option token) : bool := match prev with Some t => callable (kind_of t) | None => false end.
Definition Bracketed (np : bool) (prev : option token) (t : token) : Prop :=
  match kind_of t with
  | OPEN_PAREN_APPLY | OPEN_SQUARE_APPLY | OPEN_BRACE_APPLY => prev_callable prev = true
  | OPEN_PAREN | OPEN_SQUARE => prev_callable prev = false
  | OPEN_BRACE => np = true -> prev_callable prev = false
  | _ => True
  end.
Definition last_of (prev : option token) (pre : list token) : option token := last (map Some pre) prev.

Lemma last_of_app : forall prev a b, last_of prev (a ++ b) = last_of (last_of prev a) b.
Proof.
  intros prev a b. unfold last_of. rewrite map_app. destruct b as [|x b]. { cbn. now rewrite app_nil_r. }
  destruct (@exists_last _ (x :: b) ltac:(discriminate)) as (b' & y & ->). rewrite map_app. cbn. now rewrite app_assoc, !last_last.
Qed.
Lemma last_of_final : forall prev a, a <> [] -> last_of prev a = Some (final a).
Proof. intros prev a N. destruct (exists_last N) as (a' & y & ->). unfold last_of. rewrite map_app. cbn. now rewrite last_last, final_app. Qed.

Definition Inv (m : memory) (prev : option token) (s : text) : Prop :=
  applied m = prev_callable prev \/ (prev_callable prev = false /\ stops (fun c => negb (c =? 10)) s).

Lemma split_app : forall (A : Type) (a b pre : list A) t post, a ++ b = pre ++ t :: post ->
  (exists post', a = pre ++ t :: post' /\ post = post' ++ b) \/ exists pre', pre = a ++ pre' /\ b = pre' ++ t :: post.
Proof.
  intros A. induction a as [|x a IH]; intros b pre t post E. { right. exists pre. auto. }
  destruct pre as [|y pre]; injection E as -> E. { left. exists a. auto. }
  destruct (IH _ _ _ _ E) as [(p & -> & ->)|(p & -> & ->)]; [left|right]; exists p; auto.
Qed.

Lemma step_applied : forall m pos c s t rest, step U m pos c s = Some ([t], rest) -> (exists u, Group pos (c :: u) [t]) ->
  match kind_of t with
  | OPEN_PAREN_APPLY | OPEN_SQUARE_APPLY | OPEN_BRACE_APPLY => applied m = true
  | OPEN_PAREN | OPEN_SQUARE | OPEN_BRACE => applied m = false
  | _ => True
  end.
Proof.
  intros m pos c s t rest E [u G]. remember (c :: u) as x eqn:X. remember [t] as l eqn:L. destruct G as [k v NE SH NP|q lead content ts]; [|injection L as _ L; now destruct (map _ ts)].
  injection L as <-. subst v. unfold Shape in SH. cbn [kind_of text_of] in *.
  destruct k; auto; injection SH as -> ->; cbn in E; destruct (applied m); auto; discriminate E.
Qed.

Lemma applied_next : forall m pos u toks, Group pos u toks -> kind_of (final toks) <> COMMENT -> applied (fold_left remember toks m) = callable (kind_of (final toks)).
Proof.
  intros m pos u toks G NC. destruct G as [k v NE SH NP|q lead content ts SH LX].
  - cbn in *. destruct k; cbn; auto; try congruence. unfold applied. cbn. destruct (last_token m); auto. apply andb_false_r.
  - change (?x :: ?a ++ [?y]) with ((x :: a) ++ [y]). rewrite fold_left_app, final_app. reflexivity.
Qed.

Lemma Group_cases : forall pos u toks, Group pos u toks -> (exists k, toks = [mkTok k pos u]) \/
  ((exists t q, In t toks /\ kind_of t = PATTERN_START q) /\
   Forall (fun t => match kind_of t with OPEN_PAREN_APPLY | OPEN_SQUARE_APPLY | OPEN_BRACE_APPLY | OPEN_PAREN | OPEN_SQUARE | WHITESPACE | COMMENT => False | _ => True end) toks).
Proof.
  intros pos u toks []. { left. eauto. } right. split. { eexists _, q. split; [left|]; reflexivity. }
  constructor; [exact I|]. apply Forall_app. split; [|repeat constructor]. apply Forall_map, Forall_forall. intros t _. cbn. now destruct (t_kind t).
Qed.

Lemma Run_applied : forall np m pos s ts, Run m pos s ts -> (np = true -> forall t q, In t ts -> kind_of t <> PATTERN_START q) ->
  forall prev, Inv m prev s -> forall pre t post, ts = pre ++ t :: post -> Bracketed np (last_of prev pre) t.
Proof.
  intros np. induction 1 as [|m pos c u toks rest ts E G M O F R IH]; intros NP prev IV pre t post ES. { now destruct pre. }
  apply split_app in ES as [(post' & -> & ->)|(pre' & -> & ->)].
  - remember (pre ++ t :: post') as toks eqn:ET. destruct (Group_cases _ _ _ G) as [[k ->]|[(t' & q & I & K) FA]].
    + destruct pre as [|x pre]; [|destruct pre; discriminate]. injection ET as <- <-.
      assert (A := step_applied _ _ _ _ _ _ E (ex_intro _ u G)). cbn in A. unfold last_of. cbn. unfold Bracketed. cbn.
      assert (AP : c <> 10 -> applied m = prev_callable prev).
      { intros N. destruct IV as [->|[P S]]; auto. cbn in S. apply negb_false_iff, N.eqb_eq in S. congruence. }
      pose proof (Group_shape U _ _ _ G) as SH. inversion SH as [|? ? SH' _]; subst. unfold Shape in SH'. cbn in SH'.
      destruct k; auto; injection SH' as -> ->; rewrite <- AP; auto; discriminate.
    + rewrite Forall_forall in FA. specialize (FA t). unfold Bracketed. destruct (kind_of t); auto; try (exfalso; apply FA; rewrite ET; apply in_or_app; right; now left).
      intros NPT. exfalso. eapply (NP NPT t' q); auto. apply in_or_app. auto.
  - rewrite last_of_app. apply (IH) with (post := post); auto.
    + intros Q x q I. apply (NP Q). apply in_or_app. auto.
    + destruct (Group_spans U _ _ _ G) as (_ & _ & _ & _ & _ & NE & _). rewrite last_of_final by auto.
      assert (D : kind_of (final toks) = COMMENT \/ kind_of (final toks) <> COMMENT) by (destruct (kind_of (final toks)); auto; right; discriminate).
      destruct D as [K|NK]; [|left; cbn; eapply applied_next; eauto].
      right. cbn. rewrite K. split; auto. unfold Maximal in M. rewrite K in M. exact M.
Qed.

(** ** Lexing again *)

Definition strip (t : token) : kind * text := (kind_of t, text_of t).
Definition newline_first (s : text) : Prop := exists r, s = 10 :: r.

(** The kind and text [p] may stand for the token [t]. *)
Definition Alt (t : token) (p : kind * text) : Prop :=
  fst p = kind_of t /\
  if match kind_of t with WHITESPACE => true | _ => false end
  then snd p <> [] /\ Forall (fun c => is_whitespace c = true) (snd p) /\ (newline_first (text_of t) -> newline_first (snd p))
  else snd p = text_of t.

Lemma step_pos : forall m pos pos' c s toks rest, step U m pos c s = Some (toks, rest) ->
  exists toks', step U m pos' c s = Some (toks', rest) /\ map strip toks' = map strip toks.
Proof.
  assert (S1 : forall k pos pos' c ab toks rest, single k pos c ab = Some (toks, rest) -> exists toks', single k pos' c ab = Some (toks', rest) /\ map strip toks' = map strip toks).
  { intros k pos pos' c [a b] toks rest E. injection E as <- <-. eexists. split; reflexivity. }
  assert (DQ : forall p pos pos' lead s toks rest, dquote p pos lead s = Some (toks, rest) -> exists toks', dquote p pos' lead s = Some (toks', rest) /\ map strip toks' = map strip toks).
  { intros p pos pos' lead s toks rest. rewrite !dquote_body. destruct (scan (is_cs p) s) as [[t r]|].
    - unfold body. assert (X : forall toks rest, option_map (fun ts => (ts, r)) (Some [mkTok (simple_kind p) pos (lead ++ t ++ [DQUOTE])]) = Some (toks, rest) -> exists toks', option_map (fun ts => (ts, r)) (Some [mkTok (simple_kind p) pos' (lead ++ t ++ [DQUOTE])]) = Some (toks', rest) /\ map strip toks' = map strip toks).
      { intros ? ? E. injection E as <- <-. eexists. split; reflexivity. }
      destruct p as [q| |]; auto. destruct (has_interpolation q t); auto. destruct (lex (is_c q) t) as [ts|]; [|discriminate]. cbn. intros E. injection E as <- <-.
      eexists. split; [reflexivity|]. cbn. f_equal. rewrite !map_app, !map_map. reflexivity.
    - intros E. injection E as <- <-. eexists. split; reflexivity. }
  assert (NB : forall pos pos' c s toks rest, number pos c s = Some (toks, rest) -> exists toks', number pos' c s = Some (toks', rest) /\ map strip toks' = map strip toks).
  { intros pos pos' c s toks rest. unfold number. destruct (consume ascii_digit s) as [a [|d b]]; [apply S1|]. destruct (d =? DOT); [|apply S1]. destruct (consume ascii_digit b). apply S1. }
  intros m pos pos' c s toks rest. unfold step.
  repeat match goal with |- (if ?b then single _ _ _ _ else _) = _ -> _ => destruct b; [apply S1|] end.
  destruct (c =? 58).
  { unfold colon. destruct s as [|x s]; [apply S1|]. destruct (is_normal_start U x); [destruct (consume _ s); apply S1|]. destruct (x =? SQUOTE); [destruct (delimited s)|]; apply S1. }
  repeat match goal with |- (if ?b then single _ _ _ _ else _) = _ -> _ => destruct b; [apply S1|] end.
  destruct (c =? DQUOTE); [apply DQ|]. destruct (c =? 45). { unfold minus. destruct (match s with [] => _ | _ => _ end); [apply NB|apply S1]. }
  destruct (ascii_digit c); [apply NB|]. destruct (is_normal_start U c).
  { rewrite !normal_cases. destruct (opens c s) as [[p s']|]; [apply DQ|apply S1]. }
  destruct (is_oper_start U c); [apply S1|].
  repeat match goal with |- (if ?b then single _ _ _ _ else _) = _ -> _ => destruct b; [apply S1|] end. apply S1.
Qed.

Lemma remember_strip : forall a b m, map strip a = map strip b -> fold_left remember a m = fold_left remember b m.
Proof.
  induction a as [|x a IH]; intros [|y b] m E; try discriminate; auto. cbn in *. injection E as K T E. rewrite (IH b) by auto. f_equal. unfold remember. now rewrite K.
Qed.

Lemma Group_length : forall pos u toks, Group pos u toks -> (length (text_of_all toks) <= length u)%nat.
Proof. intros pos u toks G. now destruct (Group_spans U _ _ _ G) as (_ & _ & H & _). Qed.

Lemma app_eq_length : forall (A : Type) (a b c d : list A), a ++ b = c ++ d -> length a = length c -> a = c /\ b = d.
Proof. induction a as [|x a IH]; intros b [|y c] d E L; try discriminate; auto. injection E as -> E. injection L as L. destruct (IH _ _ _ E L). now subst. Qed.

Definition texts (ps : list (kind * text)) : text := concat (map snd ps).
Definition extra_ok (ts : list token) (extra : list (kind * text)) : Prop :=
  extra = [] \/ (extra = [(WHITESPACE, [10])] /\ (ts <> [] -> kind_of (final ts) <> WHITESPACE)).

Lemma final_tail : forall a b, b <> [] -> final (a ++ b) = final b.
Proof. intros a b N. destruct (exists_last N) as (b' & x & ->). now rewrite app_assoc, !final_app. Qed.

(** The first token of a run on a text that begins with [c]. *)
Lemma Run_head : forall m pos c s ts, Run m pos (c :: s) ts -> text_of_all ts = c :: s ->
  exists t ts' x, ts = t :: ts' /\ text_of t = c :: x /\ Shape U t /\ (is_whitespace c = true -> kind_of t = WHITESPACE).
Proof.
  intros m pos c s ts R E. pose proof (Run_spans U _ _ _ _ R) as (_ & _ & _ & _ & SH & SL). specialize (SL (repeat 0 pos)). rewrite repeat_length in SL. specialize (SL eq_refl).
  destruct ts as [|t ts]; [discriminate|]. inversion SH as [|? ? SH1 _]; subst. inversion SL as [|? ? SL1 _]; subst. destruct SL1 as [NE _].
  unfold text_of_all in E. cbn in E. destruct (text_of t) as [|x v] eqn:T; [congruence|]. injection E as -> _. exists t, ts, v. split; [|split; [|split]]; auto.
  intros W. remember (c :: s) as s0 eqn:ES. remember (t :: ts) as ts0 eqn:ET. destruct R as [|m pos c' u toks rest ts0 E G M O F R]; [discriminate|]. injection ES as -> ES.
  rewrite step_whitespace in E by auto. injection E as <- _. injection ET as <- _. reflexivity.
Qed.

Lemma ws_shape : forall t c x, Shape U t -> kind_of t = WHITESPACE -> text_of t = c :: x -> is_whitespace c = true.
Proof. intros [k p s] c x SH K T. cbn in *. subst. cbn in SH. destruct SH as [_ F]. now inversion F. Qed.

Lemma fits_new : forall m pos rest ts ps extra t, Run m pos rest ts -> text_of_all ts = rest -> Forall2 Alt ts ps -> extra_ok ts extra ->
  (ts = [] -> extra <> [] -> kind_of t <> WHITESPACE) -> Maximal U t rest -> fits t rest (texts (ps ++ extra)).
Proof.
  intros m pos rest ts ps extra t R L A X NW M. destruct rest as [|c rest].
  - assert (ts = []) as ->. { destruct ts as [|x ts]; auto. exfalso. pose proof (Run_spans U _ _ _ _ R) as (_ & _ & _ & _ & _ & SL). specialize (SL (repeat 0 pos)). rewrite repeat_length in SL. specialize (SL eq_refl).
      inversion SL as [|? ? [N _] _]; subst. unfold text_of_all in L. cbn in L. apply app_eq_nil in L as [L _]. contradiction. }
    inversion A; subst. cbn [app]. destruct X as [->|[-> _]].
    + cbn. unfold fits. destruct (kind_of t); auto; left; split; exact I.
    + assert (NW' : kind_of t <> WHITESPACE) by (apply NW; [auto|discriminate]). cbn. unfold fits. destruct (kind_of t); try congruence; try (left; split; reflexivity || exact I). right. eexists. reflexivity.
  - destruct (Run_head _ _ _ _ _ R L) as (t2 & ts' & x & -> & T & SH & WH). inversion A as [|? p2 ? ps' A1 A2]; subst. destruct A1 as [K A1].
    destruct (is_whitespace c) eqn:W.
    + specialize (WH eq_refl). rewrite WH in A1. destruct A1 as (NE & FW & NL). cbn [app]. unfold texts. cbn [map concat]. destruct (snd p2) as [|d y] eqn:P2; [congruence|]. inversion FW; subst.
      unfold Maximal in M. unfold fits. destruct (kind_of t); try (left; split; assumption).
      * cbn in M. congruence.
      * right. cbn in M. apply negb_false_iff, N.eqb_eq in M. subst c. destruct NL as [r ->]; [eexists; exact T|]. eexists. reflexivity.
    + assert (K2 : kind_of t2 <> WHITESPACE). { intros K2. rewrite (ws_shape _ _ _ SH K2 T) in W. discriminate. }
      assert (P2 : snd p2 = c :: x). { rewrite <- T. destruct (kind_of t2); auto; congruence. }
      cbn [app]. unfold texts. cbn [map concat]. rewrite P2. cbn [app]. unfold Maximal in M. unfold fits. destruct (kind_of t); try (right; eexists _, _, _; split; reflexivity).
      cbn in M. apply negb_false_iff, N.eqb_eq in M. subst c. discriminate W.
Qed.

Lemma relex : forall m pos s ts, Run m pos s ts -> text_of_all ts = s -> Forall Closed ts ->
  forall ps, Forall2 Alt ts ps -> forall extra, extra_ok ts extra -> forall pos',
  exists ts', Run m pos' (texts (ps ++ extra)) ts' /\ map strip ts' = ps ++ extra.
Proof.
  induction 1 as [|m pos c u toks rest ts E G M O F R IH]; intros L CL ps A extra X pos'.
  - inversion A; subst. destruct X as [->|[-> _]].
    + exists []. split; auto. constructor.
    + exists ([mkTok WHITESPACE pos' [10]] ++ []). split; auto. change (texts ([] ++ [(WHITESPACE, [10])])) with [10]. apply (Run_step m pos' 10 [] [mkTok WHITESPACE pos' [10]] [] []); [|constructor]. now rewrite (step_whitespace U HU).
  - rewrite text_of_all_app in L. change (c :: u ++ rest) with ((c :: u) ++ rest) in L.
    assert (LL : text_of_all toks = c :: u /\ text_of_all ts = rest).
    { apply app_eq_length; auto. pose proof (Group_length _ _ _ G). pose proof (Run_spans U _ _ _ _ R) as (_ & _ & LR & _).
      assert (LE : length (text_of_all toks ++ text_of_all ts) = length ((c :: u) ++ rest)) by congruence. rewrite !app_length in LE. lia. }
    destruct LL as [L1 L2]. apply Forall_app in CL as [CL1 CL2]. apply Forall2_app_inv_l in A as (ps1 & ps2 & A1 & A2 & ->).
    destruct (Group_spans U _ _ _ G) as (_ & _ & _ & _ & _ & NE & _). destruct (Group_closed U _ _ _ G) as (_ & _ & IF).
    assert (CF : Closed (final toks)) by (rewrite Forall_forall in CL1; auto).
    assert (X2 : extra_ok ts extra). { destruct X as [->|[-> XN]]; [now left|]. right. split; auto. intros N. rewrite <- (final_tail toks) by auto. apply XN. destruct toks; [congruence|discriminate]. }
    assert (FT : fits (final toks) rest (texts (ps2 ++ extra))).
    { eapply fits_new; eauto. intros -> NX. destruct X as [->|[_ XN]]; [congruence|]. rewrite app_nil_r in XN. auto. }
    specialize (IH L2 CL2 ps2 A2 extra X2).
    rewrite <- app_assoc. unfold texts. rewrite map_app, concat_app. fold (texts (ps2 ++ extra)). fold (texts ps1).
    destruct (Group_cases _ _ _ G) as [[k ->]|[_ NT]].
    + inversion A1 as [|? p ? ps' AP AN]; subst. inversion AN; subst. destruct AP as [KP AP]. unfold texts at 1. cbn [map concat]. rewrite app_nil_r. cbn [kind_of text_of] in *.
      assert (KW : k = WHITESPACE \/ (snd p = c :: u /\ k <> WHITESPACE)) by (destruct k; auto; right; split; auto; discriminate). destruct KW as [->|[PT NW]].
      * destruct AP as (PN & PW & _). destruct (snd p) as [|d v] eqn:PS; [congruence|]. inversion PW; subst.
        edestruct IH as (ts' & R' & ST). eexists (_ :: ts'). cbn [app]. split.
        -- eapply (Run_step m pos' d (v ++ _) [_]).
           ++ rewrite step_whitespace by auto. unfold single. rewrite consume_frame; [reflexivity|auto|]. cbn in FT. destruct FT as [[_ Q]|(z & w & w' & Q1 & Q2)]; [rewrite Q; exact I|rewrite Q2; cbn in M; rewrite Q1 in M; exact M].
           ++ exact R'.
        -- cbn. f_equal; auto. destruct p; cbn in *. now subst.
      * rewrite PT. cbn [app]. destruct (step_pos _ _ pos' _ _ _ _ (F _ CF FT)) as (toks' & E' & ST').
        edestruct IH as (ts' & R' & ST). exists (toks' ++ ts'). split.
        -- eapply Run_step; [exact E'|]. rewrite (remember_strip _ _ _ ST'). exact R'.
        -- rewrite map_app, ST', ST. cbn. f_equal. destruct p; cbn in *. now subst.
    + assert (P1 : ps1 = map strip toks).
      { clear - A1 NT. induction A1 as [|t p toks ps1 AP A IHA]; auto. inversion NT; subst. cbn. f_equal; auto. destruct AP as [K AP]. destruct p as [k x]. cbn in *. unfold strip. subst k. f_equal. destruct (kind_of t); auto; contradiction. }
      assert (T1 : texts ps1 = c :: u). { rewrite <- L1, P1. unfold texts, text_of_all. now rewrite map_map. }
      rewrite T1. cbn [app]. destruct (step_pos _ _ pos' _ _ _ _ (F _ CF FT)) as (toks' & E' & ST').
      edestruct IH as (ts' & R' & ST). exists (toks' ++ ts'). split.
      * eapply Run_step; [exact E'|]. rewrite (remember_strip _ _ _ ST'). exact R'.
      * rewrite map_app, ST', ST. now rewrite P1.
Qed.
End Unicode.
