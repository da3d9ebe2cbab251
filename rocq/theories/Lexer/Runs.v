(** Runs of the lexer: totality, what the tokens say of the source, and lexing again after a
    change of whitespace. *)
From Coq Require Import List NArith Bool Lia Arith.
Import ListNotations.
From Verif.Text Require Import Model.
From Verif.Text Require Lexing Templates.
From Verif.Lexer Require Import Model Spec Steps.
Open Scope N_scope.

Section Unicode.
Context (U : tables) (HU : unicode U).

(** ** Groups *)

Fixpoint end_of (from : nat) (ts : list token) : nat :=
  match ts with [] => from | t :: ts => end_of (start t + length (text_of t)) ts end.

Lemma end_of_app : forall a b from, end_of from (a ++ b) = end_of (end_of from a) b.
Proof. induction a; cbn; auto. Qed.
Lemma in_order_app : forall a b from, in_order from (a ++ b) <-> in_order from a /\ in_order (end_of from a) b.
Proof. induction a as [|t a IH]; cbn; intros b from; [tauto|]. rewrite IH. tauto. Qed.
Lemma in_order_le : forall a from from', (from' <= from)%nat -> in_order from a -> in_order from' a.
Proof. destruct a; cbn; intros; auto. intuition lia. Qed.
Lemma end_of_le : forall a from, in_order from a -> (from <= end_of from a)%nat.
Proof. induction a as [|t a IH]; cbn; intros from H; auto. destruct H as [L H]. apply IH in H. lia. Qed.

Lemma text_of_all_app : forall a b, text_of_all (a ++ b) = text_of_all a ++ text_of_all b.
Proof. intros. unfold text_of_all. now rewrite map_app, concat_app. Qed.
Lemma visible_app : forall a b, visible (a ++ b) = visible a ++ visible b.
Proof. intros. apply filter_app. Qed.

(** The tokens of a pattern. *)
Definition inner (at_ : nat) (t : Text.Model.token) : token := mkTok (pattern_kind (t_kind t)) (at_ + t_start t) (t_text t).

Lemma inner_texts : forall at_ ts, text_of_all (map (inner at_) ts) = concat (map t_text ts).
Proof. intros. unfold text_of_all. rewrite map_map. reflexivity. Qed.

Lemma inner_order : forall at_ cs l ts, Lexing.Lexed cs l ts ->
  in_order (at_ + l_pos l) (map (inner at_) ts) /\ (end_of (at_ + l_pos l) (map (inner at_) ts) <= at_ + l_pos l + length (l_rest l))%nat /\
  (length (concat (map t_text ts)) <= length (l_rest l))%nat.
Proof.
  intros at_ cs. apply (Lexing.Lexed_ind cs (fun l ts => in_order (at_ + l_pos l) (map (inner at_) ts) /\ (end_of (at_ + l_pos l) (map (inner at_) ts) <= at_ + l_pos l + length (l_rest l))%nat /\
    (length (concat (map t_text ts)) <= length (l_rest l))%nat)).
  - intros l _. cbn. lia.
  - intros l t l' ts E _ (O & L & LT). apply Lexing.next_app in E as (ws & E & ES & EP & NE & _ & _). rewrite E, ES in *. cbn.
    replace (at_ + l_pos l')%nat with (at_ + (l_pos l + length ws) + length (t_text t))%nat in * by (rewrite EP; lia).
    rewrite !ES, !app_length. repeat split; auto; lia.
Qed.

Lemma next_text : forall cs l t l', Text.Model.next cs l = Some (t, l') ->
  match t_kind t with KOpen => t_text t = [123] | KClose => t_text t = [125] | KColon => t_text t = [58] | KDot => t_text t = [46] | _ => True end.
Proof.
  intros cs [s pos i sp] t l' E. unfold Text.Model.next in E. cbn [l_interp l_rest l_pos l_spec] in *.
  destruct (if i then _ else _) as [ws r]. destruct r as [|c r]; [discriminate|].
  destruct (N.eqb_spec c OPEN) as [->|]; [|destruct (N.eqb_spec c CLOSE) as [->|]; [|destruct i; [destruct (N.eqb_spec c Text.Model.COLON) as [->|]; [|destruct (N.eqb_spec c DOT) as [->|]]|]]];
  repeat match type of E with
  | (if ?x then _ else _) = _ => destruct x
  | Some (tok _ _ _ (?a, ?b) _ _) = _ => cbn in E; injection E as <- <-; cbn; auto
  | Some (tok _ _ _ ?ab _ _) = _ => destruct ab; cbn in E; injection E as <- <-; cbn; auto
  end.
Qed.

Lemma inner_shape : forall at_ cs l ts, Lexing.Lexed cs l ts -> Forall (Shape U) (map (inner at_) ts).
Proof.
  intros at_ cs. apply (Lexing.Lexed_ind cs (fun l ts => Forall (Shape U) (map (inner at_) ts))); cbn; auto.
  intros l t l' ts E _ IH. constructor; auto. apply next_text in E. unfold inner, Shape. cbn. destruct (t_kind t); cbn; auto.
  exists 46, []. repeat split; auto.
Qed.

Lemma lexed_of_lex : forall cs s ts, lex cs s = Some ts -> Lexing.Lexed cs (mkLex s 0 false false) ts.
Proof.
  intros cs s ts E. destruct (Lexing.Lexed_total cs _ (mkLex s 0 false false) (le_n _)) as [ts' H]. assert (E' : lex cs s = Some ts') by (apply H; auto). assert (ts' = ts) by congruence. now subst.
Qed.

Lemma pattern_not : forall k, pattern_kind k <> WHITESPACE /\ pattern_kind k <> COMMENT.
Proof. intros []; cbn; split; discriminate. Qed.

Lemma inner_kinds : forall at_ ts, Forall (fun t => kind_of t <> WHITESPACE /\ kind_of t <> COMMENT /\ Closed t) (map (inner at_) ts).
Proof.
  intros. apply Forall_map, Forall_forall. intros t _. unfold inner, Closed. cbn [kind_of text_of]. destruct (t_kind t); (split; [discriminate|split; [discriminate|exact I]]).
Qed.

Notation Group := (Group U).

Lemma Group_shape : forall pos u toks, Group pos u toks -> Forall (Shape U) toks.
Proof.
  intros pos u toks []; auto. constructor; auto. apply Forall_app. split.
  - eapply inner_shape, lexed_of_lex. eauto.
  - repeat constructor.
Qed.

Lemma Shape_nonempty : forall t, Shape U t -> match kind_of t with STRING_LITERAL_CONTENT | STRING_INTERPOLATION_TARGET | STRING_FORMAT_SPEC | STRING_ESCAPED_OPEN | STRING_ESCAPED_CLOSE | RESERVED_OPEN | RESERVED_CLOSE | ERROR_RESERVED_CHAR => False | _ => True end -> text_of t <> [].
Proof.
  intros [k p s]. unfold Shape, Numeral, Identifier, Quote, Unclosed. cbn. intros H X Q. subst s. destruct k as [| | | | | | | | | | | | | | | | | | | | | |[]| | | | | | | | | | | | | ]; cbn in H;
    repeat match goal with
    | H : exists _, _ |- _ => destruct H
    | H : _ /\ _ |- _ => destruct H
    | H : _ \/ _ |- _ => destruct H
    end; try discriminate; try contradiction.
  all: subst; try discriminate.
  all: match goal with H : [] = ?a ++ ?b ++ ?c, N : ?b <> [] |- _ => symmetry in H; apply app_eq_nil in H as [_ H]; apply app_eq_nil in H as [H _]; contradiction end.
Qed.

Lemma lead_nonempty : forall q pos lead, Shape U (mkTok (PATTERN_START q) pos lead) -> lead <> [].
Proof. intros q pos lead H. apply Shape_nonempty in H; auto. exact I. Qed.

Lemma Group_spans : forall pos u toks, Group pos u toks ->
  in_order pos toks /\ (end_of pos toks <= pos + length u)%nat /\ (length (text_of_all toks) <= length u)%nat /\
  visible (text_of_all toks) = visible u /\ u <> [] /\ toks <> [] /\
  forall pre post, length pre = pos -> Forall (slice (pre ++ u ++ post)) toks.
Proof.
  assert (SL : forall pre u post : text, u <> [] -> firstn (length u) (skipn (length pre) (pre ++ u ++ post)) = u).
  { intros. rewrite skipn_app, skipn_all, Nat.sub_diag. cbn. rewrite firstn_app, firstn_all, Nat.sub_diag. cbn. apply app_nil_r. }
  intros pos u toks [].
  - unfold text_of_all. cbn. rewrite app_nil_r. split; [auto|]. split; [auto|]. split; [auto|]. split; [auto|]. split; [auto|]. split; [discriminate|]. intros pre post <-. constructor; auto. split; [auto|]. now apply SL.
  - pose proof (lead_nonempty _ _ _ H) as NL. pose proof (lexed_of_lex _ _ _ H0) as LX.
    pose proof (inner_order (pos + length lead) _ _ _ LX) as (IO & IE & IL). cbn in IO, IE, IL.
    pose proof (Templates.Lexed_texts _ _ _ LX) as [IV _]. cbn in IV.
    change (map (fun t => mkTok (pattern_kind (t_kind t)) (pos + length lead + t_start t) (t_text t)) ts) with (map (inner (pos + length lead)) ts).
    set (a := map (inner (pos + length lead)) ts) in *. rewrite Nat.add_0_r in *. split; [|split; [|split; [|split; [|split; [|split]]]]].
    + cbn. split; auto. apply in_order_app. split; auto. cbn. split; auto; lia.
    + cbn. rewrite end_of_app. cbn. rewrite !app_length. cbn. lia.
    + change (?x :: a ++ ?y) with ([x] ++ a ++ y). rewrite !text_of_all_app. unfold a. rewrite inner_texts. unfold text_of_all. cbn. rewrite !app_length. cbn. lia.
    + change (?x :: a ++ ?y) with ([x] ++ a ++ y). rewrite !text_of_all_app, !visible_app. unfold a. rewrite inner_texts. unfold text_of_all at 1 2. cbn [map concat text_of]. rewrite !app_nil_r. f_equal. f_equal. exact IV.
    + destruct lead; [congruence|discriminate].
    + discriminate.
    + intros pre post <-. constructor; [|apply Forall_app; split].
      * split; auto. cbn. rewrite <- !app_assoc. apply SL. auto.
      * unfold a. apply Forall_map, Forall_forall. intros t I. destruct (Templates.Lexed_spans _ _ _ LX [] eq_refl t I) as [E N]. cbn in E. split; auto. cbn.
        rewrite <- !app_assoc. rewrite app_assoc. rewrite <- app_length. rewrite skipn_app. rewrite skipn_all2 by lia.
        replace (length (pre ++ lead) + t_start t - length (pre ++ lead))%nat with (t_start t) by lia. cbn.
        assert (LT : (t_start t + length (t_text t) <= length content)%nat).
        { pose proof (firstn_length (length (t_text t)) (skipn (t_start t) content)) as L. rewrite E, skipn_length in L. assert (0 < length (t_text t))%nat by (destruct (t_text t); [congruence|cbn; lia]). lia. }
        rewrite skipn_app, firstn_app, skipn_length. replace (length (t_text t) - (length content - t_start t))%nat with 0%nat by lia. rewrite firstn_O, app_nil_r. exact E.
      * constructor; auto. split; [discriminate|]. cbn [text_of start length]. rewrite <- !app_assoc. rewrite (app_assoc pre), (app_assoc (pre ++ lead)).
        rewrite <- !app_length. exact (SL _ [34] post ltac:(discriminate)).
Qed.

Lemma Group_lossless : forall pos u toks, Group pos u toks -> (forall t q, In t toks -> kind_of t <> PATTERN_START q) -> text_of_all toks = u.
Proof.
  intros pos u toks [] N. { unfold text_of_all. cbn. apply app_nil_r. }
  exfalso. eapply (N _ q); [left|]; reflexivity.
Qed.

Lemma Group_closed : forall pos u toks, Group pos u toks -> Forall (fun t => Closed t \/ t = final toks) toks /\ (Closed (final toks) -> Forall Closed toks) /\ In (final toks) toks.
Proof.
  intros pos u toks [].
  - cbn. auto.
  - match goal with |- context [final (?x :: ?a ++ [?y])] => change (x :: a ++ [y]) with ((x :: a) ++ [y]) end. rewrite final_app.
    pose proof (inner_kinds (pos + length lead) ts) as K.
    assert (A : Forall Closed ((mkTok (PATTERN_START q) pos lead :: map (fun t => mkTok (pattern_kind (t_kind t)) (pos + length lead + t_start t) (t_text t)) ts) ++ [mkTok (PATTERN_END q) (pos + length lead + length content) [34]])).
    { apply Forall_app. split; [|repeat constructor]. constructor; [exact I|]. eapply Forall_impl; [|exact K]. cbn. tauto. }
    split; [|split]; auto.
    + eapply Forall_impl; [|exact A]. auto.
    + apply in_or_app. right. now left.
Qed.

Lemma Group_unclosed : forall pos u toks t, Group pos u toks -> In t toks -> ~ Closed t -> exists k, toks = [mkTok k pos u].
Proof.
  intros pos u toks t G I N. destruct (Group_closed _ _ _ G) as (_ & C & _). destruct G; eauto. exfalso. apply N.
  assert (F : forall a x b, Closed b -> Closed (final (a :: x ++ [b]))). { intros. change (a :: x ++ [b]) with ((a :: x) ++ [b]). now rewrite final_app. }
  eapply Forall_forall; [apply C, F; exact Logic.I|exact I].
Qed.

(** Either one token, or none that is trivial. *)
Lemma Group_trivial : forall pos u toks, Group pos u toks -> (exists k, toks = [mkTok k pos u]) \/ Forall (fun t => is_trivial (kind_of t) = false) toks.
Proof.
  intros pos u toks []. { left. eauto. }
  right. constructor; auto. apply Forall_app. split; [|repeat constructor].
  eapply Forall_impl; [|exact (inner_kinds (pos + length lead) ts)]. intros t (H1 & H2 & _). destruct (kind_of t); auto; congruence.
Qed.

(** ** Runs *)

Inductive Run : memory -> nat -> text -> list token -> Prop :=
| Run_nil : forall m pos, Run m pos [] []
| Run_cons : forall m pos c u toks rest ts,
    step U m pos c (u ++ rest) = Some (toks, rest) -> Group pos (c :: u) toks -> Maximal U (final toks) rest -> (Closed (final toks) \/ rest = []) ->
    (forall rest', Closed (final toks) -> fits (final toks) rest rest' -> step U m pos c (u ++ rest') = Some (toks, rest')) ->
    Run (fold_left remember toks m) (pos + length (c :: u)) rest ts -> Run m pos (c :: u ++ rest) (toks ++ ts).

Lemma run_Run : forall fuel m pos s, (length s <= fuel)%nat -> exists ts, run fuel U m pos s = Some ts /\ Run m pos s ts.
Proof.
  induction fuel as [|fuel IH]; intros m pos [|c s] L; cbn in L; try lia.
  - exists []. split; auto. constructor.
  - exists []. split; auto. constructor.
  - destruct (step_good U HU m pos c s) as (u & toks & rest & E & -> & G & M & O & F). cbn [run]. rewrite E.
    destruct (IH (fold_left remember toks m) (pos + length (c :: u))%nat rest) as (ts & R1 & R2). { rewrite app_length in L. lia. }
    replace (pos + (length (c :: u ++ rest) - length rest))%nat with (pos + length (c :: u))%nat by (cbn [length]; rewrite app_length; lia).
    rewrite R1. exists (toks ++ ts). split; auto. econstructor; eauto.
Qed.

Lemma tokens_Run : forall s, exists ts, tokens U s = Some ts /\ Run (mkMem None false) 0 s ts.
Proof. intros s. apply run_Run. auto. Qed.

Lemma Run_fun : forall m pos s ts, Run m pos s ts -> forall ts', Run m pos s ts' -> ts' = ts.
Proof.
  induction 1 as [|m pos c u toks rest ts E G M O F R IH]; intros ts' R'.
  - now inversion R'.
  - remember (c :: u ++ rest) as s eqn:ES. destruct R' as [|m pos c' u' toks' rest' ts' E' G' M' O' F' R']; [discriminate|].
    injection ES as -> ES. rewrite ES in E'. rewrite E in E'. injection E' as <- <-. apply app_inv_tail in ES. subst u'. f_equal. auto.
Qed.

Lemma Run_tokens : forall s ts, Run (mkMem None false) 0 s ts -> tokens U s = Some ts.
Proof. intros s ts R. destruct (tokens_Run s) as (ts' & E & R'). now rewrite <- (Run_fun _ _ _ _ R _ R'). Qed.

(** ** What the tokens say of the source *)

Lemma Run_spans : forall m pos s ts, Run m pos s ts ->
  in_order pos ts /\ (end_of pos ts <= pos + length s)%nat /\ (length (text_of_all ts) <= length s)%nat /\ visible (text_of_all ts) = visible s /\ Forall (Shape U) ts /\
  forall pre, length pre = pos -> Forall (slice (pre ++ s)) ts.
Proof.
  induction 1. { cbn. repeat split; auto; lia. }
  destruct IHRun as (I1 & I2 & I3 & I4 & I5 & I6). destruct (Group_spans _ _ _ H0) as (G1 & G2 & G3 & G4 & G5 & G6 & G7).
  change (c :: u ++ rest) with ((c :: u) ++ rest). rewrite !text_of_all_app, !visible_app, !app_length. split; [|split; [|split; [|split; [|split]]]].
  - apply in_order_app. split; auto. eapply in_order_le; eauto.
  - rewrite end_of_app. destruct ts as [|t ts]; [cbn in *; lia|]. cbn in *. lia.
  - lia.
  - congruence.
  - apply Forall_app. split; auto. eapply Group_shape; eauto.
  - intros pre L. apply Forall_app. split; auto. rewrite app_assoc. apply I6. rewrite app_length. lia.
Qed.

Lemma Run_lossless : forall m pos s ts, Run m pos s ts -> (forall t q, In t ts -> kind_of t <> PATTERN_START q) -> text_of_all ts = s.
Proof.
  induction 1; intros N; auto. rewrite text_of_all_app, IHRun by (intros; apply N, in_or_app; auto).
  rewrite (Group_lossless _ _ _ H0) by (intros; apply N, in_or_app; auto). reflexivity.
Qed.

(** Only the last token can be unclosed, and it takes all that is left. *)
Lemma Run_unclosed : forall m pos s ts, Run m pos s ts -> forall pre t post, ts = pre ++ t :: post -> ~ Closed t -> post = [] /\ (start t + length (text_of t))%nat = (pos + length s)%nat.
Proof.
  induction 1; intros pre t post E N. { now destruct pre. }
  assert (C : (exists post', toks = pre ++ t :: post' /\ post = post' ++ ts) \/ exists pre', pre = toks ++ pre' /\ ts = pre' ++ t :: post).
  { clear - E. revert pre E. induction toks as [|x toks IH]; intros pre E. { right. exists pre. auto. }
    destruct pre as [|y pre]; injection E as -> E. { left. exists toks. auto. }
    destruct (IH _ E) as [(p & -> & ->)|(p & -> & ->)]; [left|right]; exists p; auto. }
  destruct C as [(post' & -> & ->)|(pre' & -> & ->)].
  - destruct (Group_closed _ _ _ H0) as (C1 & C2 & C3). destruct H2 as [CF| ->].
    { apply C2 in CF. rewrite Forall_forall in CF. exfalso. apply N, CF, in_or_app. right. now left. }
    inversion H4; subst. rewrite !app_nil_r. assert (O : exists k, pre ++ t :: post' = [mkTok k pos (c :: u)]).
    { apply (Group_unclosed _ _ _ t H0); auto. apply in_or_app. right. now left. }
    destruct O as [k O]. destruct pre as [|x pre]; [|destruct pre; discriminate]. injection O as -> ->. cbn. auto.
  - destruct (IHRun _ _ _ eq_refl N) as [-> L]. split; auto. rewrite L. cbn. rewrite app_length. lia.
Qed.

(** Tokens are as long as they can be. *)
Lemma Group_maximal : forall pos u toks rest, Group pos u toks -> Maximal U (final toks) rest -> forall t, In t toks ->
  (kind_of t = OPERATOR_IDENTIFIER \/ kind_of t = COLON -> forall t' q, In t' toks -> kind_of t' <> PATTERN_START q) ->
  Maximal U t (skipn (start t + length (text_of t) - pos) (u ++ rest)).
Proof.
  intros pos u toks rest [] M t I N.
  - destruct I as [<-|[]]. cbn [start text_of]. replace (pos + length u0 - pos)%nat with (length u0) by lia. rewrite skipn_app, skipn_all, Nat.sub_diag. exact M.
  - assert (K : kind_of t <> OPERATOR_IDENTIFIER /\ kind_of t <> COLON).
    { split; intros K; eapply (N ltac:(auto) _ q); try (left; reflexivity); reflexivity. }
    destruct I as [<-|I]; [exact Logic.I|]. apply in_app_or in I as [I|[<-|[]]]; [|exact Logic.I]. apply in_map_iff in I as (x & <- & _).
    unfold Maximal. cbn in *. destruct (t_kind x); cbn in *; auto; tauto.
Qed.

Lemma Run_maximal : forall m pos s ts, Run m pos s ts -> forall t, In t ts ->
  (kind_of t = OPERATOR_IDENTIFIER \/ kind_of t = COLON -> forall t' q, In t' ts -> kind_of t' <> PATTERN_START q) ->
  Maximal U t (skipn (start t + length (text_of t) - pos) s).
Proof.
  induction 1; intros t I N. { contradiction. }
  apply in_app_or in I as [I|I].
  - apply (Group_maximal _ _ _ _ H0 H1 t I). intros K t' q I'. apply N; auto. apply in_or_app. auto.
  - specialize (IHRun t I). pose proof (Run_spans _ _ _ _ H4) as (O & _). 
    assert (GE : (pos + length (c :: u) <= start t)%nat).
    { clear - O I. revert O. generalize (pos + length (c :: u))%nat. induction ts as [|x ts IH]; intros n O; [destruct I|]. cbn in O. destruct O as [O1 O2]. destruct I as [->|I]; auto. apply IH in O2; auto. lia. }
    change (c :: u ++ rest) with ((c :: u) ++ rest). rewrite skipn_app. rewrite skipn_all2 by lia. cbn [app].
    replace (start t + length (text_of t) - pos - length (c :: u))%nat with (start t + length (text_of t) - (pos + length (c :: u)))%nat by lia.
    apply IHRun. intros K t' q I'. apply N; auto. apply in_or_app. auto.
Qed.

End Unicode.
