(** In well-formed elements brackets are closed: where a colon is found by looking ahead. *)
From Coq Require Import List NArith ZArith Bool Arith Lia.
Import ListNotations.
From Verif.Text Require Import Model.
From Verif.Lexer Require Import Model.
From Verif.Parser Require Import Model Spec Halts Forests Grammar Contents.
Open Scope nat_scope.

Scheme Element_mut := Minimality for Element Sort Prop
  with Mixed_mut := Minimality for Mixed Sort Prop
  with Soup_mut := Minimality for Soup Sort Prop
  with Items_mut := Minimality for Items Sort Prop
  with Content_mut := Minimality for Content Sort Prop
  with BlockMeta_mut := Minimality for BlockMeta Sort Prop
  with Declarations_mut := Minimality for Declarations Sort Prop
  with Declaration_mut := Minimality for Declaration Sort Prop
  with Meta_mut := Minimality for Meta Sort Prop
  with Head_mut := Minimality for Head Sort Prop
  with Applied_mut := Minimality for Applied Sort Prop
  with Body_mut := Minimality for Body Sort Prop.

Definition balanced (ws : list word) : Prop := forall d r, colon_ahead d (ws ++ r) = colon_ahead d r.
Definition inside (ws : list word) : Prop := forall d r, colon_ahead (S d) (ws ++ r) = colon_ahead (S d) r.

Lemma balanced_nil : balanced [].
Proof. intros d r. reflexivity. Qed.
Lemma balanced_app : forall a b, balanced a -> balanced b -> balanced (a ++ b).
Proof. intros a b A B d r. rewrite <- app_assoc, A. apply B. Qed.
Lemma inside_app : forall a b, inside a -> inside b -> inside (a ++ b).
Proof. intros a b A B d r. rewrite <- app_assoc, A. apply B. Qed.
Lemma balanced_inside : forall a, balanced a -> inside a.
Proof. intros a A d r. apply A. Qed.
Lemma balanced_token : forall k s, opener k = false -> closer k = false -> k <> COLON -> balanced [(k, s)].
Proof. intros k s O C N d r. cbn [app colon_ahead]. rewrite O, C. destruct (is k COLON) eqn:E; [|reflexivity]. unfold is in E. destruct (kind_eq_dec k COLON); [contradiction|discriminate]. Qed.
Lemma inside_colon : forall s, inside [(COLON, s)].
Proof. intros s d r. reflexivity. Qed.
Lemma balanced_wrap : forall k x ws k' y, opener k = true -> closer k' = true -> inside ws -> balanced ((k, x) :: ws ++ [(k', y)]).
Proof.
  intros k x ws k' y O C I d r. cbn [app colon_ahead]. rewrite O, <- app_assoc, I. cbn [app colon_ahead].
  replace (opener k') with false by (destruct k'; try discriminate C; reflexivity). rewrite C. reflexivity.
Qed.
Lemma balanced_gap : forall g, Gap g -> balanced (tokens_of g).
Proof.
  intros g G. induction G as [|t g (k & s & -> & K) G IH]; [apply balanced_nil|]. cbn [flat_map]. apply balanced_app; [|exact IH].
  destruct K as [<- | [<- | []]]; apply balanced_token; (reflexivity || discriminate).
Qed.
Lemma inside_separator : forall sep, Separator sep -> balanced (tokens_of sep).
Proof.
  intros sep [g G|g x g' G G']; [apply balanced_gap; exact G|]. rewrite flat_map_app. cbn [flat_map leaves]. apply balanced_app; [apply balanced_gap; exact G|].
  apply (balanced_app [(COMMA, x)]); [apply balanced_token; (reflexivity || discriminate)|apply balanced_gap; exact G'].
Qed.
Lemma balanced_chunk : forall c, Chunk c -> balanced (leaves c).
Proof.
  intros c [s|s|s|x ts fs y T F]; try (apply balanced_token; (reflexivity || discriminate)).
  cbn [leaves flat_map]. rewrite !flat_map_app. cbn [flat_map leaves app]. rewrite app_assoc. apply balanced_wrap; [reflexivity|reflexivity|]. apply inside_app.
  - apply balanced_inside. destruct T as [|s|s ss NE]; [apply balanced_nil|apply balanced_token; (reflexivity || discriminate)|]. cbn [flat_map leaves app target]. rewrite app_nil_r.
    apply (balanced_app [(STRING_INTERPOLATION_TARGET, s)]); [apply balanced_token; (reflexivity || discriminate)|].
    clear NE. induction ss as [|z ss IH]; [apply balanced_nil|]. cbn [flat_map dotted app target leaves].
    apply (balanced_app [(OPERATOR_IDENTIFIER, [46%N])]); [apply balanced_token; (reflexivity || discriminate)|].
    apply (balanced_app [(STRING_INTERPOLATION_TARGET, z)]); [apply balanced_token; (reflexivity || discriminate)|exact IH].
  - destruct F as [|z f]; [intros d r; reflexivity|]. cbn [flat_map leaves app]. apply (inside_app [(COLON, z)]); [apply inside_colon|].
    apply balanced_inside, balanced_token; (reflexivity || discriminate).
Qed.

Ltac wraps := cbn [leaves flat_map app]; rewrite ?flat_map_app; cbn [leaves flat_map app]; rewrite ?app_nil_r, ?app_assoc; apply balanced_wrap; [reflexivity|reflexivity|].
Ltac gaps := first [assumption | apply balanced_gap; assumption | apply balanced_inside; first [assumption | apply balanced_gap; assumption]].

Lemma grammar_balanced :
  (forall t, Element t -> balanced (leaves t)) /\ (forall ts, Mixed ts -> balanced (tokens_of ts)) /\ (forall ts, BlockMeta ts -> balanced (tokens_of ts)) /\
  (forall ts, Meta ts -> balanced (tokens_of ts)) /\ (forall ts, Head ts -> balanced (tokens_of ts)).
Proof.
  set (P1 := fun t => balanced (leaves t)). set (P2 := fun ts => balanced (tokens_of ts)). set (P3 := fun (_ : bool) ts => inside (tokens_of ts)). set (P4 := fun ts => inside (tokens_of ts)). set (P5 := fun t => inside (leaves t)).
  assert (H1 : forall k s, In k [UNQUOTED_IDENTIFIER; OPERATOR_IDENTIFIER; SINGLE_QUOTE_IDENTIFIER] -> P1 (Node NAME [Leaf k s])).
  { intros k s K. apply balanced_token; destruct K as [<- | [<- | [<- | []]]]; (reflexivity || discriminate). }
  assert (H2 : forall k s, In k [NUMBER; STRING; SYMBOL; C_STRING; RAW_STRING; T_STRING; S_STRING] -> P1 (Node LITERAL [Leaf k s])).
  { intros k s K. apply balanced_token; destruct K as [<- | [<- | [<- | [<- | [<- | [<- | [<- | []]]]]]]]; (reflexivity || discriminate). }
  assert (H3 : forall p x cs y, Forall Chunk cs -> P1 (Node (PATTERN p) (Leaf (PATTERN_START p) x :: cs ++ [Leaf (PATTERN_END p) y]))).
  { intros p x cs y F. unfold P1. cbn [leaves flat_map]. rewrite flat_map_app. apply (balanced_app [(PATTERN_START p, x)]); [apply balanced_token; (reflexivity || discriminate)|].
    apply balanced_app; [|apply balanced_token; (reflexivity || discriminate)]. induction F as [|c cs C F IH]; [apply balanced_nil|]. cbn [flat_map]. apply balanced_app; [apply balanced_chunk; exact C|exact IH]. }
  assert (H4 : forall x g ts y, Gap g -> Soup ts -> P2 ts -> P1 (Node PAREN_EXPR (Leaf OPEN_PAREN x :: g ++ [Node SOUP ts; Leaf CLOSE_PAREN y]))).
  { intros x g ts y G _ S. unfold P1. wraps. apply inside_app; gaps. }
  assert (H5 : forall x g ts y, Gap g -> Items false ts -> P3 false ts -> P1 (Node ARG_TUPLE (Leaf OPEN_PAREN_APPLY x :: g ++ ts ++ [Leaf CLOSE_PAREN y]))).
  { intros x g ts y G _ S. unfold P1. wraps. apply inside_app; gaps. }
  assert (H6 : forall x g ts y, Gap g -> Items true ts -> P3 true ts -> P1 (Node LIST (Leaf OPEN_SQUARE x :: g ++ ts ++ [Leaf CLOSE_SQUARE y]))).
  { intros x g ts y G _ S. unfold P1. wraps. apply inside_app; gaps. }
  assert (H7 : forall x g ts y, Gap g -> Items true ts -> P3 true ts -> P1 (Node ARG_TUPLE [Node SOUP [Node LIST (Leaf OPEN_SQUARE_APPLY x :: g ++ ts ++ [Leaf CLOSE_SQUARE y])]])).
  { intros x g ts y G _ S. unfold P1. wraps. apply inside_app; gaps. }
  assert (H8 : forall x g ts y, Gap g -> Content ts -> P4 ts -> P1 (Node BLOCK (Leaf OPEN_BRACE x :: g ++ ts ++ [Leaf CLOSE_BRACE y]))).
  { intros x g ts y G _ S. unfold P1. wraps. apply inside_app; gaps. }
  assert (H9 : forall x g ts y, Gap g -> Content ts -> P4 ts -> P1 (Node ARG_TUPLE [Node SOUP [Node BLOCK (Leaf OPEN_BRACE_APPLY x :: g ++ ts ++ [Leaf CLOSE_BRACE y])]])).
  { intros x g ts y G _ S. unfold P1. wraps. apply inside_app; gaps. }
  assert (H10 : forall x g ts y, Gap g -> Soup ts -> P2 ts -> P1 (Node BRACKET_EXPR (Leaf BRACKET_OPEN x :: g ++ [Node SOUP ts; Leaf BRACKET_CLOSE y]))).
  { intros x g ts y G _ S. unfold P1. wraps. apply inside_app; gaps. }
  assert (H11 : forall x g ms ds y, Gap g -> BlockMeta ms -> P2 ms -> Declarations ds -> P4 ds -> P1 (Node BRACKET_BLOCK (Leaf BRACKET_OPEN x :: g ++ (ms ++ ds) ++ [Leaf BRACKET_CLOSE y]))).
  { intros x g ms ds y G _ S _ S'. unfold P1. wraps. apply inside_app; [apply inside_app|]; gaps. }
  assert (M1 : P2 []) by apply balanced_nil.
  assert (M2 : forall t ts, Blank t -> P2 ts -> P2 (t :: ts)).
  { intros t ts B S. apply (balanced_app (leaves t)); [|exact S]. pose proof (balanced_gap [t] ltac:(constructor; [exact B|constructor])) as G. cbn in G. rewrite app_nil_r in G. exact G. }
  assert (M3 : forall t ts, P1 t -> P2 ts -> P2 (t :: ts)).
  { intros t ts B S. apply (balanced_app (leaves t)); assumption. }
  assert (I1 : P3 true [] /\ P3 false []) by (split; intros d r; reflexivity).
  assert (I3 : forall b ts x g is, Soup ts -> P2 ts -> Gap g -> Items b is -> P3 b is -> P3 b (Node SOUP ts :: Leaf COMMA x :: g ++ is)).
  { intros b ts x g is _ S G _ S'. unfold P3. cbn [flat_map leaves]. rewrite flat_map_app. apply inside_app; [gaps|]. apply (inside_app [(COMMA, x)]); [apply balanced_inside, balanced_token; (reflexivity || discriminate)|].
    apply inside_app; gaps. }
  assert (I4 : forall ts x g ts', Soup ts -> P2 ts -> Gap g -> Soup ts' -> P2 ts' -> P3 true (Node SOUP ts :: Leaf COLON x :: g ++ [Node SOUP ts'])).
  { intros ts x g ts' _ S G _ S'. unfold P3. cbn [flat_map leaves]. rewrite flat_map_app. apply inside_app; [gaps|]. apply (inside_app [(COLON, x)]); [apply inside_colon|].
    apply inside_app; [gaps|]. cbn [flat_map leaves]. rewrite app_nil_r. gaps. }
  assert (D1 : forall ms hs x bs, Meta ms -> P2 ms -> Head hs -> P2 hs -> Body bs -> P2 bs -> P5 (Node DECLARATION (ms ++ [Node DECL_HEAD hs; Leaf COLON x; Node DECL_BODY [Node SOUP bs]]))).
  { intros ms hs x bs _ M _ H _ B. unfold P5. cbn [leaves]. rewrite flat_map_app. cbn [flat_map leaves]. rewrite !app_nil_r. apply inside_app; [gaps|]. apply inside_app; [gaps|].
    apply (inside_app [(COLON, x)]); [apply inside_colon|gaps]. }
  assert (D2 : forall x g ts, Gap g -> Soup ts -> P2 ts -> P2 [Node DECL_META [Node SOUP (Leaf BACKTICK x :: g ++ ts)]]).
  { intros x g ts G _ S. unfold P2. cbn [flat_map leaves]. rewrite !app_nil_r, flat_map_app. apply (balanced_app [(BACKTICK, x)]); [apply balanced_token; (reflexivity || discriminate)|]. apply balanced_app; gaps. }
  assert (S1 : forall ts, Soup ts -> P2 ts -> P2 [Node BLOCK_META [Node SOUP ts]]) by (intros ts _ S; unfold P2; cbn [flat_map leaves]; rewrite !app_nil_r; exact S).
  assert (L1 : forall b ts, Soup ts -> P2 ts -> P3 b [Node SOUP ts]) by (intros b ts _ S; unfold P3; cbn [flat_map leaves]; rewrite !app_nil_r; gaps).
  assert (C2 : forall ms ds, BlockMeta ms -> P2 ms -> Declarations ds -> P4 ds -> P4 (ms ++ ds)) by (intros ms ds _ M _ D; unfold P4; rewrite flat_map_app; apply inside_app; gaps).
  assert (Q1 : forall d sep, Declaration d -> P5 d -> Separator sep -> P4 (d :: sep)) by (intros d sep _ D S; unfold P4; cbn [flat_map]; apply inside_app; [exact D|apply balanced_inside, inside_separator; exact S]).
  assert (Q2 : forall d sep ds, Declaration d -> P5 d -> Separator sep -> Declarations ds -> P4 ds -> P4 (d :: sep ++ ds)).
  { intros d sep ds _ D S _ D'. unfold P4. cbn [flat_map]. rewrite flat_map_app. apply inside_app; [exact D|]. apply inside_app; [apply balanced_inside, inside_separator; exact S|exact D']. }
  assert (B1 : forall ts t, Mixed ts -> P2 ts -> Element t -> P1 t -> P2 (ts ++ [t])) by (intros ts t _ M _ E; unfold P2; rewrite flat_map_app; cbn [flat_map]; rewrite app_nil_r; apply balanced_app; assumption).
  assert (I0 : forall b, P3 b []) by (intros b d r; reflexivity).
  assert (E1 : forall t, Element t -> P1 t).
  { apply (Element_mut P1 P2 P2 P3 P4 P2 P4 P5 P2 P2 P2 P2); auto. intros ms _ M. unfold P4. gaps. }
  assert (E2 : forall ts, Mixed ts -> P2 ts) by (intros ts M; induction M; auto).
  assert (E3 : forall ts, Soup ts -> P2 ts) by (intros ts [t ts' E M]; auto).
  assert (E4 : forall ts, Applied ts -> P2 ts) by (intros ts A; induction A; auto).
  split; [exact E1|]. split; [exact E2|]. split; [|split].
  - intros ts [|us S]; auto. apply S1; auto.
  - intros ts [|x g us G S]; auto. apply D2; auto.
  - intros ts [n us as_ N E A]. apply M3; auto.
Qed.

(** Where the colon is. *)
Lemma soup_colon : forall g ts y r, Gap g -> Soup ts -> colon_ahead 0 (tokens_of g ++ tokens_of ts ++ (BRACKET_CLOSE, y) :: r) = false.
Proof.
  intros g ts y r G [t ts' E M]. rewrite balanced_gap by exact G. cbn [flat_map]. rewrite <- app_assoc. destruct grammar_balanced as (B1 & B2 & _). rewrite B1, B2 by assumption. reflexivity.
Qed.
Lemma declarations_colon : forall g ms ds r, Gap g -> BlockMeta ms -> Declarations ds -> colon_ahead 0 (tokens_of g ++ tokens_of (ms ++ ds) ++ r) = true.
Proof.
  intros g ms ds r G M D. destruct grammar_balanced as (_ & _ & B3 & B4 & B5). rewrite balanced_gap by exact G. rewrite flat_map_app, <- app_assoc, B3 by exact M.
  assert (H : exists d l, ds = d :: l /\ Declaration d) by (destruct D; eauto). destruct H as (d & l & -> & [ms' hs x bs Me H B]).
  cbn [flat_map leaves]. rewrite flat_map_app, <- !app_assoc, B4 by exact Me. cbn [flat_map leaves]. rewrite <- !app_assoc, B5 by exact H. reflexivity.
Qed.
