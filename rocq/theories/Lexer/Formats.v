(** The conservative formatter. *)
From Coq Require Import List NArith Bool Lia Arith.
Import ListNotations.
From Verif.Text Require Import Model.
From Verif.Lexer Require Import Model Spec Steps Runs Again.
Open Scope N_scope.

Definition spaces (s : text) : Prop := Forall (fun c => is_whitespace c = true) s.
Definition clean (s : text) : Prop := ~ In 9 s /\ ~ In 13 s.

Lemma tab_stop_gt : forall col, (col < tab_stop col)%nat.
Proof. intros col. unfold tab_stop. pose proof (Nat.div_mod_eq col 8). pose proof (Nat.mod_upper_bound col 8). lia. Qed.

Lemma normalize_spaces : forall s col, spaces s -> spaces (normalize col s).
Proof.
  unfold spaces. induction s as [|c s IH]; intros col F; cbn; [constructor|]. inversion F; subst.
  destruct (c =? 10). { constructor; auto. } destruct (c =? 9). { apply Forall_app. split; auto. apply Forall_forall. intros x I. apply repeat_spec in I. now subst. }
  destruct (c =? 32). { constructor; auto. } destruct (c =? 13); auto.
Qed.

Lemma normalize_clean : forall s col, clean (normalize col s).
Proof.
  unfold clean. induction s as [|c s IH]; intros col; cbn; [tauto|].
  destruct (N.eqb_spec c 10); [|destruct (N.eqb_spec c 9); [|destruct (N.eqb_spec c 32); [|destruct (N.eqb_spec c 13)]]].
  - destruct (IH 0%nat). cbn. intuition discriminate.
  - destruct (IH (tab_stop col)). rewrite !in_app_iff. split; intros [I|I]; auto; apply repeat_spec in I; discriminate.
  - destruct (IH (S col)). cbn. intuition discriminate.
  - auto.
  - destruct (IH (S col)). cbn. intuition congruence.
Qed.

Lemma normalize_id : forall s col, clean s -> normalize col s = s.
Proof.
  unfold clean. induction s as [|c s IH]; intros col [N1 N2]; cbn in *; auto.
  destruct (N.eqb_spec c 10) as [->|]. { f_equal. apply IH. tauto. }
  destruct (N.eqb_spec c 9); [intuition|]. destruct (N.eqb_spec c 32) as [->|]. { f_equal. apply IH. tauto. } destruct (N.eqb_spec c 13); [intuition|]. f_equal. apply IH. tauto.
Qed.

Lemma normalize_nonempty : forall s col, Exists (fun c => c <> 13) s -> normalize col s <> [].
Proof.
  induction s as [|c s IH]; intros col E; [inversion E|]. cbn [normalize]. destruct (c =? 10); [discriminate|]. destruct (c =? 9).
  { pose proof (tab_stop_gt col). destruct (tab_stop col - col)%nat eqn:D; [lia|cbn; discriminate]. }
  destruct (c =? 32); [discriminate|]. destruct (N.eqb_spec c 13); [|discriminate]. inversion E; subst; [congruence|]. auto.
Qed.

Lemma some_not_return : forall s, ~ Forall (fun c => c = 13) s -> Exists (fun c => c <> 13) s.
Proof.
  induction s as [|c s IH]; intros N. { exfalso. auto. } destruct (N.eq_dec c 13) as [->|]; [|now left]. right. apply IH. intros F. apply N. now constructor.
Qed.

Lemma normalize_newline : forall s col, newline_first s -> newline_first (normalize col s).
Proof. intros s col [r ->]. cbn. eexists. reflexivity. Qed.

Lemma column_app : forall a b col, column col (a ++ b) = column (column col a) b.
Proof. induction a; cbn; auto. Qed.
Lemma display_app : forall a b col, display col (a ++ b) = display (display col a) b.
Proof. induction a; cbn -[Nat.mul Nat.div]; auto. Qed.
Lemma column_repeat : forall n col, column col (repeat 32 n) = (col + n)%nat.
Proof. induction n; intros col; cbn; auto. rewrite IHn. lia. Qed.

Lemma column_normalize : forall s col, column col (normalize col s) = display col s.
Proof.
  induction s as [|c s IH]; intros col; auto. cbn [normalize display].
  destruct (N.eqb_spec c 10) as [->|]. { cbn [column]. change (10 =? 10) with true. cbn iota. auto. }
  destruct (N.eqb_spec c 9) as [->|]. { rewrite column_app, column_repeat. pose proof (tab_stop_gt col). replace (col + (tab_stop col - col))%nat with (tab_stop col) by lia. rewrite IH. f_equal. unfold tab_stop. lia. }
  destruct (N.eqb_spec c 32) as [->|]. { cbn [column]. change (32 =? 10) with false. change (32 =? 13) with false. cbn iota. rewrite IH. f_equal. lia. }
  destruct (N.eqb_spec c 13); auto. cbn [column]. rewrite (proj2 (N.eqb_neq c 10)) by auto. rewrite IH. f_equal. lia.
Qed.
Lemma column_display : forall s col, clean s -> column col s = display col s.
Proof. intros s col C. rewrite <- column_normalize, normalize_id; auto. Qed.

Lemma lines_app : forall a b, lines (a ++ b) = (lines a + lines b)%nat.
Proof. intros. apply count_occ_app. Qed.
Lemma lines_normalize : forall s col, lines (normalize col s) = lines s.
Proof.
  induction s as [|c s IH]; intros col; auto. cbn [normalize]. unfold lines in *. cbn [count_occ]. destruct (N.eqb_spec c 10) as [->|]. { cbn. f_equal. apply IH. }
  destruct (N.eq_dec c 10); [congruence|]. destruct (N.eqb_spec c 9) as [->|].
  { rewrite count_occ_app, IH. replace (count_occ N.eq_dec (repeat 32 (tab_stop col - col)) 10) with 0%nat; auto. symmetry. apply count_occ_not_In. intros I. apply repeat_spec in I. discriminate. }
  destruct (N.eqb_spec c 32) as [->|]. { cbn. apply IH. } destruct (N.eqb_spec c 13); auto. cbn [count_occ]. destruct (N.eq_dec c 10); [congruence|]. apply IH.
Qed.
Lemma visible_spaces : forall s, spaces s -> visible s = [].
Proof. induction 1; cbn; auto. now rewrite H. Qed.

(** What is printed for a token. *)
Definition out (col : nat) (t : token) : text := match kind_of t with WHITESPACE => normalize col (text_of t) | _ => text_of t end.
Lemma conserve_cons : forall col t ts, conserve col (t :: ts) = out col t ++ conserve (column col (out col t)) ts.
Proof. reflexivity. Qed.
Lemma conserve_app : forall a b col, conserve col (a ++ b) = conserve col a ++ conserve (column col (conserve col a)) b.
Proof.
  induction a as [|t a IH]; intros b col; auto. change ((t :: a) ++ b) with (t :: (a ++ b)). rewrite !conserve_cons, IH, <- app_assoc. now rewrite column_app.
Qed.

Section Unicode.
Context (U : tables) (HU : unicode U).
Notation Run := (Run U).

Lemma conserve_visible : forall ts col, Forall (Shape U) ts -> visible (conserve col ts) = visible (text_of_all ts).
Proof.
  induction ts as [|t ts IH]; intros col F; auto. inversion F as [|? ? SH F']; subst. rewrite conserve_cons. change (text_of_all (t :: ts)) with (text_of t ++ text_of_all ts).
  rewrite !visible_app, IH by auto. f_equal. unfold out. unfold Shape in SH. destruct (kind_of t); auto. destruct SH as [_ W]. rewrite !visible_spaces; auto using normalize_spaces.
Qed.
Lemma conserve_lines : forall ts col, lines (conserve col ts) = lines (text_of_all ts).
Proof.
  induction ts as [|t ts IH]; intros col; auto. rewrite conserve_cons. change (text_of_all (t :: ts)) with (text_of t ++ text_of_all ts).
  rewrite !lines_app, IH. f_equal. unfold out. destruct (kind_of t); auto. apply lines_normalize.
Qed.
Lemma conserve_column : forall ts col, Forall (fun t => kind_of t <> WHITESPACE -> clean (text_of t)) ts -> column col (conserve col ts) = display col (text_of_all ts).
Proof.
  induction ts as [|t ts IH]; intros col F; auto. inversion F as [|? ? H F']; subst. rewrite conserve_cons. change (text_of_all (t :: ts)) with (text_of t ++ text_of_all ts).
  rewrite column_app, display_app, IH by auto. f_equal. unfold out.
  assert (D : kind_of t = WHITESPACE \/ kind_of t <> WHITESPACE) by (destruct (kind_of t); auto; right; discriminate). destruct D as [->|N].
  - apply column_normalize.
  - replace (match kind_of t with WHITESPACE => normalize col (text_of t) | _ => text_of t end) with (text_of t) by (destruct (kind_of t); auto; congruence). apply column_display. auto.
Qed.

(** The text printed is that of tokens like those read. *)
Definition tidy (p : kind * text) : Prop := fst p = WHITESPACE -> clean (snd p).

Lemma conserve_Alt : forall ts col, Forall (Shape U) ts -> Forall (fun t => ~ only_returns t) ts ->
  exists ps, Forall2 Alt ts ps /\ conserve col ts = texts ps /\ Forall tidy ps.
Proof.
  induction ts as [|t ts IH]; intros col F R. { exists []. repeat split; constructor. }
  inversion F as [|? ? SH F']; subst. inversion R as [|? ? NR R']; subst. destruct (IH (column col (out col t)) F' R') as (ps & A & E & T).
  exists ((kind_of t, out col t) :: ps). rewrite conserve_cons, E. split; [|split; [reflexivity|]].
  - constructor; auto. split; auto. unfold out. cbn [snd]. unfold Shape in SH. destruct (kind_of t) eqn:K; auto. cbn iota. destruct SH as [_ W]. split; [|split; [now apply normalize_spaces|intros; now apply normalize_newline]].
    apply normalize_nonempty. apply some_not_return. intros FA. apply NR. split; auto.
  - constructor; auto. unfold tidy, out. cbn. intros ->. apply normalize_clean.
Qed.

Lemma ends_with_app : forall s c, ends_with 10 (s ++ [c]) = (c =? 10).
Proof. intros. unfold ends_with. now rewrite last_last. Qed.

Lemma texts_app : forall a b, texts (a ++ b) = texts a ++ texts b.
Proof. intros. unfold texts. now rewrite map_app, concat_app. Qed.

Lemma finish_Alt : forall ts ps, Forall2 Alt ts ps -> Forall tidy ps -> exists ps' extra, Forall2 Alt ts ps' /\ extra_ok ts extra /\ finish (texts ps) = texts (ps' ++ extra) /\ Forall tidy (ps' ++ extra).
Proof.
  intros ts ps A T. unfold finish. destruct (texts ps) as [|c x] eqn:E. { exists ps, []. rewrite app_nil_r. repeat split; auto. now left. }
  destruct (ends_with 10 (c :: x)) eqn:W. { exists ps, []. rewrite app_nil_r. repeat split; auto. now left. }
  assert (NE : ts <> []). { intros ->. inversion A; subst. discriminate. }
  destruct (exists_last NE) as (ts0 & t & ->). apply Forall2_app_inv_l in A as (ps0 & q & A0 & A1 & ->). inversion A1 as [|? p ? ? AP AN]; subst. inversion AN; subst.
  assert (D : kind_of t = WHITESPACE \/ kind_of t <> WHITESPACE) by (destruct (kind_of t); auto; right; discriminate). destruct D as [K|N].
  - exists (ps0 ++ [(WHITESPACE, snd p ++ [10])]), []. rewrite app_nil_r. apply Forall_app in T as [T0 T1]. inversion T1 as [|? ? TP _]; subst. destruct AP as [KP AP]. rewrite K in AP. destruct AP as (P1 & P2 & P3). split; [|split; [|split]].
    + apply Forall2_app; auto. constructor; [|constructor]. split; [auto|]. rewrite K. cbn [snd]. split; [|split].
      * destruct (snd p); discriminate.
      * apply Forall_app. split; auto.
      * intros NL. destruct (P3 NL) as [r R]. rewrite R. eexists. reflexivity.
    + now left.
    + rewrite <- E, !texts_app, <- app_assoc. f_equal. unfold texts. cbn. now rewrite !app_nil_r.
    + apply Forall_app. split; auto. constructor; auto. intros _. cbn. destruct TP as [C1 C2]; [congruence|]. split; rewrite in_app_iff; cbn; intuition discriminate.
  - exists (ps0 ++ [p]), [(WHITESPACE, [10])]. split; [|split; [|split]].
    + apply Forall2_app; auto.
    + right. split; auto. intros _. now rewrite final_app.
    + rewrite <- E, (texts_app (ps0 ++ [p])). reflexivity.
    + apply Forall_app. split; auto. constructor; auto. intros _. cbn. split; cbn; intuition discriminate.
Qed.

Lemma text_of_all_strip : forall ts, text_of_all ts = texts (map strip ts).
Proof. intros. unfold text_of_all, texts. now rewrite map_map. Qed.

Lemma conserve_tidy : forall ts col, Forall tidy (map strip ts) -> conserve col ts = text_of_all ts.
Proof.
  induction ts as [|t ts IH]; intros col T; auto. inversion T as [|? ? T1 T2]; subst. rewrite conserve_cons, IH by auto. change (text_of_all (t :: ts)) with (text_of t ++ text_of_all ts). f_equal.
  unfold out. unfold tidy, strip in T1. cbn in T1. destruct (kind_of t); auto. apply normalize_id. auto.
Qed.

Lemma finish_idem : forall s, finish (finish s) = finish s.
Proof.
  intros [|c s]; auto. unfold finish. destruct (ends_with 10 (c :: s)) eqn:E. { now rewrite E. }
  change ((c :: s) ++ [10]) with (c :: (s ++ [10])). change (c :: s ++ [10]) with ((c :: s) ++ [10]). now rewrite ends_with_app.
Qed.

(** The source and the output have tokens alike. *)
Lemma format_lexed : forall s ts, Run (mkMem None false) 0 s ts -> text_of_all ts = s -> Forall Closed ts -> Forall (fun t => ~ only_returns t) ts ->
  exists ps extra ts', Forall2 Alt ts ps /\ extra_ok ts extra /\ Run (mkMem None false) 0 (finish (conserve 0 ts)) ts' /\ map strip ts' = ps ++ extra /\ Forall tidy (ps ++ extra).
Proof.
  intros s ts R L C NR. pose proof (Run_spans U _ _ _ _ R) as (_ & _ & _ & _ & SH & _). destruct (conserve_Alt ts 0 SH NR) as (ps & A & E & T).
  destruct (finish_Alt ts ps A T) as (ps' & extra & A' & X & E' & T'). destruct (relex U HU _ _ _ _ R L C ps' A' extra X 0%nat) as (ts' & R' & ST).
  exists ps', extra, ts'. rewrite E, E'. repeat split; auto.
Qed.

Lemma words_strip : forall ts, words ts = filter (fun p => match fst p with WHITESPACE => false | _ => true end) (map strip ts).
Proof. induction ts as [|t ts IH]; auto. unfold words in *. cbn. destruct (kind_of t); cbn; f_equal; auto. Qed.

Lemma Alt_words : forall ts ps, Forall2 Alt ts ps -> filter (fun p => match fst p with WHITESPACE => false | _ => true end) ps = words ts /\ map fst ps = map kind_of ts.
Proof.
  induction 1 as [|t [k x] ts ps [K A] F [IH1 IH2]]; auto. rewrite words_strip in *. cbn in *. subst k. rewrite IH1, IH2. split; auto. destruct (kind_of t) eqn:KT; auto; unfold strip; rewrite KT, A; auto.
Qed.

(** ** Quotes *)

Lemma starts_with_app : forall p s, starts_with p (p ++ s) = true.
Proof.
  intros. unfold starts_with. rewrite firstn_app, firstn_all, Nat.sub_diag. cbn. rewrite app_nil_r. destruct (list_eq_dec N.eq_dec p p); auto.
Qed.

Lemma CContent_last : forall s, CContent s -> forall m, s = m ++ [34] -> exists m', m = m' ++ [92].
Proof.
  induction 1; intros m E.
  - now destruct m.
  - destruct m as [|x m]; injection E as -> E. { congruence. } destruct (IHCContent _ E) as [m' ->]. exists (x :: m'). auto.
  - destruct m as [|x [|y m]]; try discriminate; injection E; intros; subst. { exists []. reflexivity. }
    destruct (IHCContent m) as [m' ->]; [auto|]. exists (92 :: y :: m'). reflexivity.
Qed.

Lemma ends_with_sound : forall c s, s <> [] -> ends_with c s = true -> exists s', s = s' ++ [c].
Proof.
  intros c s N E. destruct (exists_last N) as (s' & x & ->). unfold ends_with in E. rewrite last_last in E. apply N.eqb_eq in E. subst. eauto.
Qed.

Lemma closed_accepted : forall t, Shape U t -> Closed t -> unclosed_quote t = false.
Proof.
  assert (Q : forall a q n, ends_with q (a ++ q :: n ++ [q]) = true). { intros. unfold ends_with. change (q :: n ++ [q]) with ((q :: n) ++ [q]). rewrite app_assoc, last_last. apply N.eqb_refl. }
  assert (P : forall a q n, ends_with q (a :: q :: n ++ [q]) = true) by (intros a; exact (Q [a])).
  assert (Z : forall q n, ends_with q (q :: n ++ [q]) = true) by exact (Q []).
  intros [k p s] SH C. unfold unclosed_quote, Shape, Closed in *. cbn [kind_of text_of] in *. destruct k; auto.
  - destruct C as (n & -> & _). unfold SQUOTE. rewrite Z. apply andb_false_r.
  - destruct C as (n & -> & _). unfold DQUOTE. rewrite Z. apply andb_false_r.
  - destruct SH as (s' & -> & _). unfold starts_with, SQUOTE. cbn [length firstn]. destruct (list_eq_dec N.eq_dec [58] [39]); [discriminate|auto].
  - destruct C as (x & y & -> & n & -> & _). unfold DQUOTE. rewrite P. apply andb_false_r.
  - destruct C as (x & y & -> & n & -> & _). unfold DQUOTE. rewrite P. apply andb_false_r.
  - destruct C as (x & y & -> & n & -> & _). unfold DQUOTE. rewrite P. apply andb_false_r.
  - destruct C as (x & y & -> & n & -> & _). unfold DQUOTE. rewrite P. apply andb_false_r.
Qed.

Lemma unclosed_rejected : forall t, Shape U t -> unclosed_quote t = false -> kind_of t <> SYMBOL ->
  ~ In (text_of t) [[34]; [39]; [99; 34]; [114; 34]; [116; 34]; [115; 34]] ->
  (kind_of t = C_STRING -> forall s, text_of t <> s ++ [92; 34]) -> Closed t.
Proof.
  assert (UQ : forall pre q n, ~ In q n -> n <> [] -> ends_with q (pre ++ q :: n) = true -> False).
  { intros pre q n NI NE E. apply ends_with_sound in E; [|destruct pre; discriminate]. destruct E as [s' E]. destruct (exists_last NE) as (n' & x & ->).
    change (q :: n' ++ [x]) with ((q :: n') ++ [x]) in E. rewrite app_assoc in E. apply app_inj_tail in E as [_ ->]. apply NI, in_or_app. right. now left. }
  intros [k p s] SH V NS NI NC. unfold unclosed_quote, Shape, Closed in *. cbn [kind_of text_of] in *.
  assert (NB : forall p n b, starts_with p (p ++ n) && negb b = false -> b = true) by (intros a b d; rewrite starts_with_app; destruct d; auto).
  destruct k; auto; try congruence.
  - destruct SH as [SH|(n & -> & N)]; auto. exfalso. apply (UQ [] 39 n); [exact N|intros ->; apply NI; cbn; tauto|exact (NB [SQUOTE] n _ V)].
  - destruct SH as [SH|(n & -> & N)]; auto. exfalso. apply (UQ [] 34 n); [exact N|intros ->; apply NI; cbn; tauto|exact (NB [DQUOTE] n _ V)].
  - destruct SH as (s' & -> & [SH|(n & -> & C)]); eauto. exfalso. apply (NB [99; DQUOTE] n) in V.
    apply ends_with_sound in V; [|discriminate]. destruct V as [s' E]. destruct (list_eq_dec N.eq_dec n []) as [->|NE]. { apply NI. cbn. tauto. }
    destruct (exists_last NE) as (n' & x & ->). change (99 :: 34 :: n' ++ [x]) with ((99 :: 34 :: n') ++ [x]) in E. apply app_inj_tail in E as [_ ->]. destruct C as [C|(m & E & C)].
    + destruct (CContent_last _ C _ eq_refl) as [m' ->]. apply (NC eq_refl (99 :: 34 :: m')). cbn. now rewrite <- app_assoc.
    + apply app_inj_tail in E as [_ E]. discriminate.
  - destruct SH as (s' & -> & [SH|(n & -> & N)]); eauto. exfalso. apply (UQ [114] 34 n); [exact N|intros ->; apply NI; cbn; tauto|exact (NB [114; DQUOTE] n _ V)].
  - destruct SH as (s' & -> & [SH|(n & -> & N)]); eauto. exfalso. apply (UQ [116] 34 n); [exact N|intros ->; apply NI; cbn; tauto|exact (NB [116; DQUOTE] n _ V)].
  - destruct SH as (s' & -> & [SH|(n & -> & N)]); eauto. exfalso. apply (UQ [115] 34 n); [exact N|intros ->; apply NI; cbn; tauto|exact (NB [115; DQUOTE] n _ V)].
Qed.

End Unicode.
