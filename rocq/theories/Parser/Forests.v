(** Events that are those of a list of trees, and the scans over them. *)
From Coq Require Import List NArith ZArith Bool Arith Lia.
Import ListNotations.
From Verif.Text Require Import Model.
From Verif.Lexer Require Import Model.
From Verif.Parser Require Import Model Spec Halts.
Open Scope nat_scope.

Fixpoint flat (t : tree) : list event :=
  match t with
  | Leaf k _ => [Token k]
  | Node n ts => Start n :: flat_map flat ts ++ [Finish]
  end.
Notation flats := (flat_map flat).
Notation tokens_of := (flat_map leaves).

Definition tree_rect' (P : tree -> Prop) (L : forall k s, P (Leaf k s)) (N : forall n ts, Forall P ts -> P (Node n ts)) : forall t, P t :=
  fix go t := match t with
              | Leaf k s => L k s
              | Node n ts => N n ts ((fix gos ts : Forall P ts := match ts with [] => Forall_nil P | t :: ts => Forall_cons t (go t) (gos ts) end) ts)
              end.

Lemma flats_kinds : forall ts, token_kinds (flats ts) = map fst (tokens_of ts).
Proof.
  assert (A : forall a b, token_kinds (a ++ b) = token_kinds a ++ token_kinds b) by (intros; unfold token_kinds; rewrite map_app, concat_app; reflexivity).
  assert (H : forall t, token_kinds (flat t) = map fst (leaves t)).
  { induction t as [k s|n ts IH] using tree_rect'; [reflexivity|]. cbn [flat leaves].
    change (Start n :: flats ts ++ [Finish]) with ([Start n] ++ flats ts ++ [Finish]). rewrite !A. cbn [token_kinds map concat app]. change (token_kinds [Start n]) with (@nil kind). change (token_kinds [Finish]) with (@nil kind). rewrite app_nil_r. cbn [app].
    induction ts as [|t ts IHts]; [reflexivity|]. inversion IH; subst. cbn [flat_map]. rewrite A, map_app, IHts by assumption. f_equal. assumption. }
  induction ts as [|t ts IH]; [reflexivity|]. cbn [flat_map]. rewrite A, map_app, H, IH. reflexivity.
Qed.
Lemma token_kinds_length : forall es, length (filter is_token es) = length (token_kinds es).
Proof. induction es as [|[n| |k] es IH]; cbn; auto. Qed.
Lemma flat_ne : forall t, flat t <> [].
Proof. destruct t; discriminate. Qed.
Lemma flats_nil : forall ts, flats ts = [] -> ts = [].
Proof. intros [|t ts] E; auto. cbn in E. apply app_eq_nil in E as [E _]. destruct (flat_ne _ E). Qed.
Lemma is_nil_flats : forall ts, is_nil (flats ts) = is_nil ts.
Proof. intros [|t ts]; auto. cbn. destruct (flat t) eqn:E; [destruct (flat_ne _ E)|reflexivity]. Qed.
Lemma firstn_app_l : forall A (a b : list A), firstn (length a) (a ++ b) = a.
Proof. intros. rewrite firstn_app, firstn_all, Nat.sub_diag, app_nil_r. reflexivity. Qed.
Lemma skipn_app_l : forall A (a b : list A), skipn (length a) (a ++ b) = b.
Proof. intros. rewrite skipn_app, skipn_all, Nat.sub_diag. reflexivity. Qed.

Lemma width_app : forall a b, width (a ++ b) = width a + width b.
Proof. intros. unfold width. rewrite map_app, list_sum_app. reflexivity. Qed.
Lemma width_cons : forall w a, width (w :: a) = length (snd w) + width a.
Proof. reflexivity. Qed.
Lemma width_rev : forall a, width (rev a) = width a.
Proof. induction a as [|w a IH]; [reflexivity|]. cbn [rev]. rewrite width_app, IH, !width_cons. change (width []) with 0. lia. Qed.

(** ** The builder *)

Lemma builder_flats : forall ts op ch es ws,
  builder op ch (flats ts ++ es) (tokens_of ts ++ ws) = builder op (rev ts ++ ch) es ws.
Proof.
  assert (H : forall t op ch es ws, builder op ch (flat t ++ es) (leaves t ++ ws) = builder op (t :: ch) es ws).
  { induction t as [k s|n ts IH] using tree_rect'; intros op ch es ws; [reflexivity|]. cbn [flat leaves].
    cbn [app builder]. rewrite <- app_assoc.
    assert (G : forall ts, Forall (fun t => forall op ch es ws, builder op ch (flat t ++ es) (leaves t ++ ws) = builder op (t :: ch) es ws) ts ->
      forall op ch es ws, builder op ch (flats ts ++ es) (tokens_of ts ++ ws) = builder op (rev ts ++ ch) es ws).
    { clear. induction ts as [|t ts IH]; intros F op ch es ws; [reflexivity|]. inversion F; subst. cbn [flat_map]. rewrite <- !app_assoc, H1, IH by assumption.
      cbn [rev]. rewrite <- app_assoc. reflexivity. }
    rewrite (G ts IH). cbn [app builder]. rewrite app_nil_r, rev_involutive. reflexivity. }
  induction ts as [|t ts IH]; intros op ch es ws; [reflexivity|]. cbn [flat_map]. rewrite <- !app_assoc, H, IH. cbn [rev]. rewrite <- app_assoc. reflexivity.
Qed.

(** ** The scan for a head *)

(** In a node, a scan passes over whole trees. *)
Lemma head_scan_inside : forall ts more i d, (1 <= d)%Z ->
  head_scan (rev (flats ts) ++ more) (length (flats ts) + i) d = head_scan more i d.
Proof.
  assert (H : forall t more i d, (1 <= d)%Z -> head_scan (rev (flat t) ++ more) (length (flat t) + i) d = head_scan more i d).
  { induction t as [k s|n ts IH] using tree_rect'; intros more i d D.
    - cbn [flat rev app length plus head_scan Nat.pred]. destruct (is_trivial k); auto. destruct (d =? 0)%Z eqn:E; auto. apply Z.eqb_eq in E. lia.
    - assert (G : forall ts, Forall (fun t => forall more i d, (1 <= d)%Z -> head_scan (rev (flat t) ++ more) (length (flat t) + i) d = head_scan more i d) ts ->
        forall more i d, (1 <= d)%Z -> head_scan (rev (flats ts) ++ more) (length (flats ts) + i) d = head_scan more i d).
      { clear. induction ts as [|t ts IH]; intros F more i d D; [reflexivity|]. inversion F; subst. cbn [flat_map].
        rewrite rev_app_distr, <- app_assoc, app_length, <- Nat.add_assoc, Nat.add_shuffle3, IH by assumption. apply H1. exact D. }
      cbn [flat]. cbn [rev length]. rewrite rev_app_distr, app_length. cbn [rev app length].
      replace (S (length (flats ts) + 1) + i) with (S (length (flats ts) + S i)) by lia.
      cbn [head_scan Nat.pred]. rewrite <- app_assoc, (G ts IH) by lia. cbn [app head_scan Nat.pred].
      replace (1 <? d + 1)%Z with true by (symmetry; apply Z.ltb_lt; lia). f_equal. lia. }
  induction ts as [|t ts IH]; intros more i d D; [reflexivity|]. cbn [flat_map].
  rewrite rev_app_distr, <- app_assoc, app_length, <- Nat.add_assoc, Nat.add_shuffle3, IH by assumption. apply H. exact D.
Qed.
Lemma head_scan_node : forall n ts more i,
  head_scan (rev (flat (Node n ts)) ++ more) (length (flat (Node n ts)) + i) 0 =
  match n with PAREN_EXPR | NAME | BRACKET_EXPR => Some i | ARG_TUPLE => head_scan more i 0 | _ => None end.
Proof.
  intros n ts more i. cbn [flat]. cbn [rev length]. rewrite rev_app_distr, app_length. cbn [rev app length].
  replace (S (length (flats ts) + 1) + i) with (S (length (flats ts) + S i)) by lia.
  cbn [head_scan Nat.pred]. rewrite <- app_assoc, head_scan_inside by lia. cbn [app head_scan Nat.pred].
  replace (1 <? 0 + 1)%Z with false by reflexivity. destruct n; reflexivity.
Qed.

(** What the buffer of a block holds: trees that begin as they should, and single tokens. *)
Definition begins (n : node) (ws : list word) : Prop :=
  exists k s l, ws = (k, s) :: l /\
    match n with
    | NAME => name_terminal k = true /\ l = []
    | PAREN_EXPR => In k [OPEN_PAREN; RESERVED_OPEN]
    | ARG_TUPLE => applies k
    | BRACKET_EXPR => k = BRACKET_OPEN
    | _ => True
    end.
Definition headed (t : tree) : Prop := exists n ts, t = Node n ts /\ begins n (leaves t).
Definition loose (t : tree) : Prop := exists k s, t = Leaf k s /\ is_trivial k = true.
Definition mark (t : tree) : Prop := exists k s, t = Leaf k s /\ In k [COMMA; BACKTICK].
Definition item (t : tree) : Prop := headed t \/ loose t \/ mark t.

(** What a scan passes over, and where it stops. *)
Definition tailing (t : tree) : Prop := loose t \/ exists ts, t = Node ARG_TUPLE ts.
Definition heading (t : tree) : Prop := exists n ts, t = Node n ts /\ In n [PAREN_EXPR; NAME; BRACKET_EXPR].

Lemma head_scan_items : forall B, Forall item B ->
  head_scan (rev (flats B)) (length (flats B)) 0 = None \/
  exists B1 B2, B = B1 ++ B2 /\ head_scan (rev (flats B)) (length (flats B)) 0 = Some (length (flats B1)) /\
    ((B1 = [] /\ Forall tailing B2) \/ exists h B3, B2 = h :: B3 /\ heading h /\ Forall tailing B3).
Proof.
  induction B as [|t B IH] using rev_ind; intros F; [right; exists [], []; split; [reflexivity|split; [reflexivity|left; split; constructor]]|].
  apply Forall_app in F as [F T]. inversion T as [|? ? T1 _]; subst. specialize (IH F).
  assert (G : flats (B ++ [t]) = flats B ++ flat t) by (rewrite flat_map_app; cbn; rewrite app_nil_r; reflexivity).
  rewrite G, rev_app_distr, app_length, Nat.add_comm.
  assert (PASS : tailing t -> head_scan (rev (flat t) ++ rev (flats B)) (length (flat t) + length (flats B)) 0 = head_scan (rev (flats B)) (length (flats B)) 0 ->
    head_scan (rev (flat t) ++ rev (flats B)) (length (flat t) + length (flats B)) 0 = None \/
    exists B1 B2, B ++ [t] = B1 ++ B2 /\ head_scan (rev (flat t) ++ rev (flats B)) (length (flat t) + length (flats B)) 0 = Some (length (flats B1)) /\
    ((B1 = [] /\ Forall tailing B2) \/ exists h B3, B2 = h :: B3 /\ heading h /\ Forall tailing B3)).
  { intros TA E. rewrite E. destruct IH as [N | (B1 & B2 & EB & S & R)]; [left; exact N|right]. exists B1, (B2 ++ [t]).
    split; [rewrite EB, app_assoc; reflexivity|]. split; [exact S|].
    destruct R as [[R1 R2] | (h & B3 & R1 & R2 & R3)]; [left; split; [exact R1|apply Forall_app; auto]|right].
    exists h, (B3 ++ [t]). rewrite R1. split; [reflexivity|]. split; [exact R2|apply Forall_app; auto]. }
  destruct T1 as [(n & ts & -> & _) | [L | (k & s & -> & M)]].
  - rewrite head_scan_node in *. destruct n; auto;
      try (right; exists B; eexists; split; [reflexivity|split; [reflexivity|right; eexists _, []; split; [reflexivity|split; [eexists _, _; split; [reflexivity|cbn; tauto]|constructor]]]]).
    apply PASS; [right; eauto|reflexivity].
  - apply PASS; [left; exact L|]. destruct L as (k & s & -> & E). cbn [flat rev app length plus head_scan Nat.pred]. rewrite E. reflexivity.
  - left. cbn [flat rev app length plus head_scan Nat.pred]. destruct M as [<- | [<- | []]]; reflexivity.
Qed.

Lemma split_items : forall B, Forall item B -> exists B1 B2, B = B1 ++ B2 /\ split_off_head (flats B) = (flats B1, flats B2) /\
  (B2 = [] \/ (B1 = [] /\ Forall tailing B2) \/ exists h B3, B2 = h :: B3 /\ heading h /\ Forall tailing B3).
Proof.
  intros B F. unfold split_off_head. destruct (head_scan_items B F) as [-> | (B1 & B2 & -> & -> & R)].
  - exists B, []. rewrite app_nil_r. auto.
  - exists B1, B2. rewrite flat_map_app, firstn_app_l, skipn_app_l. auto.
Qed.

(** ** The scan for a head in metadata *)

Lemma meta_scan_inside : forall ts more i d f, (1 <= d)%Z ->
  meta_scan (rev (flats ts) ++ more) (length (flats ts) + i) d f = meta_scan more i d f.
Proof.
  assert (H : forall t more i d f, (1 <= d)%Z -> meta_scan (rev (flat t) ++ more) (length (flat t) + i) d f = meta_scan more i d f).
  { induction t as [k s|n ts IH] using tree_rect'; intros more i d f D.
    - cbn [flat rev app length plus meta_scan Nat.pred]. replace (d =? 0)%Z with false by (symmetry; apply Z.eqb_neq; lia). destruct (is_trivial k); auto.
    - assert (G : forall ts, Forall (fun t => forall more i d f, (1 <= d)%Z -> meta_scan (rev (flat t) ++ more) (length (flat t) + i) d f = meta_scan more i d f) ts ->
        forall more i d f, (1 <= d)%Z -> meta_scan (rev (flats ts) ++ more) (length (flats ts) + i) d f = meta_scan more i d f).
      { clear. induction ts as [|t ts IH]; intros F more i d f D; [reflexivity|]. inversion F; subst. cbn [flat_map].
        rewrite rev_app_distr, <- app_assoc, app_length, <- Nat.add_assoc, Nat.add_shuffle3, IH by assumption. apply H1. exact D. }
      cbn [flat]. cbn [rev length]. rewrite rev_app_distr, app_length. cbn [rev app length].
      replace (S (length (flats ts) + 1) + i) with (S (length (flats ts) + S i)) by lia.
      cbn [meta_scan Nat.pred]. rewrite <- app_assoc, (G ts IH) by lia. cbn [app meta_scan Nat.pred].
      replace (1 <? d + 1)%Z with true by (symmetry; apply Z.ltb_lt; lia). f_equal. lia. }
  induction ts as [|t ts IH]; intros more i d f D; [reflexivity|]. cbn [flat_map].
  rewrite rev_app_distr, <- app_assoc, app_length, <- Nat.add_assoc, Nat.add_shuffle3, IH by assumption. apply H. exact D.
Qed.
Lemma meta_scan_node : forall n ts more i f,
  meta_scan (rev (flat (Node n ts)) ++ more) (length (flat (Node n ts)) + i) 0 f =
  meta_scan more i 0 (match n with PAREN_EXPR | NAME | ARG_TUPLE => true | _ => f end).
Proof.
  intros n ts more i f. cbn [flat]. cbn [rev length]. rewrite rev_app_distr, app_length. cbn [rev app length].
  replace (S (length (flats ts) + 1) + i) with (S (length (flats ts) + S i)) by lia.
  cbn [meta_scan Nat.pred]. rewrite <- app_assoc, meta_scan_inside by lia. cbn [app meta_scan Nat.pred].
  replace (1 <? 0 + 1)%Z with false by reflexivity. replace (0 + 1 =? 0)%Z with false by reflexivity. destruct n; reflexivity.
Qed.
Lemma meta_scan_trees : forall M f, exists M1 M2 f', M = M1 ++ M2 /\ meta_scan (rev (flats M)) (length (flats M)) 0 f = (length (flats M1), f') /\
  (forall s M', M = Leaf BACKTICK s :: M' -> M1 <> []).
Proof.
  induction M as [|t M IH] using rev_ind; intros f; [exists [], [], f; split; [reflexivity|split; [reflexivity|discriminate]]|].
  assert (G : flats (M ++ [t]) = flats M ++ flat t) by (rewrite flat_map_app; cbn; rewrite app_nil_r; reflexivity).
  rewrite G, rev_app_distr, app_length, Nat.add_comm. destruct t as [n ts|k s].
  - rewrite meta_scan_node. destruct (IH (match n with PAREN_EXPR | NAME | ARG_TUPLE => true | _ => f end)) as (M1 & M2 & f' & E1 & E & P).
    exists M1, (M2 ++ [Node n ts]), f'. split; [rewrite E1, app_assoc; reflexivity|]. split; [exact E|].
    intros s M' EM. destruct M as [|t M]; [discriminate|]. injection EM as -> EM. eapply P. reflexivity.
  - cbn [flat rev app length plus meta_scan Nat.pred]. replace (0 =? 0)%Z with true by reflexivity.
    assert (STOP : exists M1 M2 f', M ++ [Leaf k s] = M1 ++ M2 /\ (S (length (flats M)), f) = (length (flats M1), f') /\
      (forall s' M', M ++ [Leaf k s] = Leaf BACKTICK s' :: M' -> M1 <> [])).
    { exists (M ++ [Leaf k s]), [], f. rewrite app_nil_r, G, app_length. cbn. split; [reflexivity|]. split; [f_equal; lia|]. intros s' M' _. destruct M; discriminate. }
    destruct (is_trivial k) eqn:K; cbn [andb]; [destruct f|]; auto.
    destruct (IH false) as (M1 & M2 & f' & E1 & E & P). exists M1, (M2 ++ [Leaf k s]), f'. split; [rewrite E1, app_assoc; reflexivity|]. split; [exact E|].
    intros s' M' EM. destruct M as [|t M]; [injection EM as -> _ _; discriminate|]. injection EM as -> EM. eapply P. reflexivity.
Qed.
Lemma extract_trees : forall M, match extract_last (flats M) with
  | None => True
  | Some (m, h) => exists M1 H, m = flats M1 /\ h = flats H /\ tokens_of M = tokens_of M1 ++ tokens_of H /\ (forall s M', M = Leaf BACKTICK s :: M' -> M1 <> [])
  end.
Proof.
  intros M. unfold extract_last. destruct (flats M) as [|e es] eqn:E; [exact I|]. rewrite <- E.
  destruct (meta_scan_trees M false) as (M1 & M2 & f' & EM & S & P). rewrite S.
  destruct (f' && (length (flats M1) <? length (flats M))) eqn:C; [|exact I].
  rewrite EM, flat_map_app, firstn_app_l, skipn_app_l. exists M1. rewrite <- EM.
  assert (EX : exists H, match flats M2 with Start ARG_TUPLE :: es0 => Start PAREN_EXPR :: es0 | es0 => es0 end = flats H /\ tokens_of M2 = tokens_of H).
  { destruct M2 as [|[n ts|k s] M2]; [exists []; auto| |exists (Leaf k s :: M2); auto].
    exists (Node (match n with ARG_TUPLE => PAREN_EXPR | n => n end) ts :: M2). destruct n; auto. }
  destruct EX as (H & E1 & E2). exists H. split; [reflexivity|]. split; [exact E1|]. split; [|exact P].
  rewrite EM, flat_map_app, E2. reflexivity.
Qed.

(** ** The trailer of a body *)

Lemma trailer_trees : forall B, exists B1 B2, B = B1 ++ B2 /\ split_trailer (flats B) = (flats B1, flats B2).
Proof.
  intros B. unfold split_trailer.
  assert (H : exists B1 B2, B = B1 ++ B2 /\ leading_trailer (rev (flats B)) = length (flats B2)).
  { induction B as [|t B IH] using rev_ind; [exists [], []; auto|].
    assert (G : flats (B ++ [t]) = flats B ++ flat t) by (rewrite flat_map_app; cbn; rewrite app_nil_r; reflexivity).
    rewrite G, rev_app_distr. destruct t as [n ts|k s].
    - exists (B ++ [Node n ts]), []. rewrite app_nil_r. split; [reflexivity|]. cbn [flat rev]. rewrite rev_app_distr. reflexivity.
    - destruct IH as (B1 & B2 & -> & E).
      assert (STOP : exists B3 B4, (B1 ++ B2) ++ [Leaf k s] = B3 ++ B4 /\ 0 = length (flats B4)) by (exists ((B1 ++ B2) ++ [Leaf k s]), []; rewrite app_nil_r; auto).
      assert (GO : exists B3 B4, (B1 ++ B2) ++ [Leaf k s] = B3 ++ B4 /\ S (leading_trailer (rev (flats (B1 ++ B2)))) = length (flats B4)).
      { exists B1, (B2 ++ [Leaf k s]). rewrite app_assoc. split; [reflexivity|]. rewrite E, flat_map_app, app_length. cbn. lia. }
      cbn [flat rev app leading_trailer]. destruct k; auto. }
  destruct H as (B1 & B2 & -> & ->). exists B1, B2. split; [reflexivity|]. rewrite flat_map_app, app_length, Nat.add_sub, firstn_app_l, skipn_app_l. reflexivity.
Qed.
