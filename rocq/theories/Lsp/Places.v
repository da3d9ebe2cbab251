(** * Proofs about positions *)
From Coq Require Import List NArith Arith Bool Lia.
From Verif.Lsp Require Import Model Spec.
Import ListNotations.

Lemma len8_pos : forall c, 1 <= len_utf8 c.
Proof. intros c. unfold len_utf8. destruct (c <? 128)%N, (c <? 2048)%N, (c <? 65536)%N; lia. Qed.
Lemma len16_pos : forall c, 1 <= len_utf16 c.
Proof. intros c. unfold len_utf16. destruct (c <? 65536)%N; lia. Qed.
Lemma newline_len : forall c, (c =? newline)%N = true -> len_utf8 c = 1.
Proof. intros c H. apply N.eqb_eq in H. subst. reflexivity. Qed.

Lemma bytes_app : forall a b, bytes (a ++ b) = bytes a + bytes b.
Proof. induction a as [ | c a IH]; intros b; cbn; [reflexivity | ]. rewrite IH. lia. Qed.
Lemma units_app : forall a b, units (a ++ b) = units a + units b.
Proof. induction a as [ | c a IH]; intros b; cbn; [reflexivity | ]. rewrite IH. lia. Qed.

Lemma bytes_zero : forall t, bytes t = 0 -> t = [].
Proof. intros [ | c t] H; [reflexivity | ]. cbn in H. pose proof (len8_pos c). lia. Qed.

Lemma boundary : forall a b, is_char_boundary (a ++ b) (bytes a) = true.
Proof.
  induction a as [ | c a IH]; intros b; cbn [app bytes].
  - destruct b; reflexivity.
  - pose proof (len8_pos c). destruct (len_utf8 c + bytes a) as [ | p] eqn:E; [lia | ].
    cbn [is_char_boundary]. rewrite <- E.
    destruct (Nat.ltb_spec (len_utf8 c + bytes a) (len_utf8 c)); [lia | ].
    replace (len_utf8 c + bytes a - len_utf8 c) with (bytes a) by lia. apply IH.
Qed.

Lemma floor_boundary : forall a b, floor_char_boundary (a ++ b) (bytes a) = bytes a.
Proof.
  intros a b. unfold floor_char_boundary. rewrite bytes_app.
  destruct (Nat.leb_spec (bytes a + bytes b) (bytes a)); [lia | ].
  pose proof (boundary a b) as B. destruct (bytes a) as [ | q]; [reflexivity | ].
  cbn [walk_back]. rewrite B. reflexivity.
Qed.

Lemma from_app : forall a b, from (bytes a) (a ++ b) = b.
Proof.
  induction a as [ | c a IH]; intros b; cbn [app bytes].
  - destruct b; reflexivity.
  - pose proof (len8_pos c). destruct (len_utf8 c + bytes a) as [ | p] eqn:E; [lia | ].
    cbn [from]. rewrite <- E. replace (len_utf8 c + bytes a - len_utf8 c) with (bytes a) by lia. apply IH.
Qed.
Lemma upto_app : forall a b, upto (bytes a) (a ++ b) = a.
Proof.
  induction a as [ | c a IH]; intros b; cbn [app bytes].
  - destruct b; reflexivity.
  - pose proof (len8_pos c). destruct (len_utf8 c + bytes a) as [ | p] eqn:E; [lia | ].
    cbn [upto]. rewrite <- E. replace (len_utf8 c + bytes a - len_utf8 c) with (bytes a) by lia. rewrite IH. reflexivity.
Qed.

Lemma col : forall a b q, byte_col_to_utf16 (a ++ b ++ q) (bytes a) (bytes (a ++ b)) = units b.
Proof.
  intros a b q. unfold byte_col_to_utf16.
  assert (Nat.min (bytes a) (bytes (a ++ b ++ q)) = bytes a) as -> by (rewrite bytes_app; lia).
  assert (Nat.min (bytes (a ++ b)) (bytes (a ++ b ++ q)) = bytes (a ++ b)) as -> by (rewrite !bytes_app; lia).
  rewrite floor_boundary. rewrite app_assoc, floor_boundary, <- app_assoc.
  rewrite bytes_app. destruct (Nat.leb_spec (bytes a + bytes b) (bytes a)) as [L | L].
  - rewrite (bytes_zero b) by lia. reflexivity.
  - replace (bytes a + bytes b - bytes a) with (bytes b) by lia. rewrite from_app, upto_app. reflexivity.
Qed.

(** ** Lines *)

Lemma starts_app : forall a b o, starts_from o (a ++ b) = starts_from o a ++ starts_from (o + bytes a) b.
Proof.
  induction a as [ | c a IH]; intros b o; cbn.
  - rewrite Nat.add_0_r. reflexivity.
  - rewrite IH, <- app_assoc. do 3 f_equal. lia.
Qed.

Lemma starts_within : forall t o s, In s (starts_from o t) -> o + 1 <= s <= o + bytes t.
Proof.
  induction t as [ | c t IH]; intros o s H; [contradiction | ]. cbn in *. apply in_app_or in H.
  pose proof (len8_pos c). destruct H as [H | H].
  - destruct (c =? newline)%N eqn:E; [ | contradiction]. destruct H as [<- | []]. lia.
  - apply IH in H. lia.
Qed.

Lemma filter_all : forall (f : nat -> bool) l, (forall x, In x l -> f x = true) -> filter f l = l.
Proof.
  induction l as [ | x l IH]; intros H; [reflexivity | ]. cbn. rewrite (H x) by (left; reflexivity).
  rewrite IH; [reflexivity | ]. intros y I. apply H. right. exact I.
Qed.
Lemma filter_none : forall (f : nat -> bool) l, (forall x, In x l -> f x = false) -> filter f l = [].
Proof.
  induction l as [ | x l IH]; intros H; [reflexivity | ]. cbn. rewrite (H x) by (left; reflexivity).
  apply IH. intros y I. apply H. right. exact I.
Qed.

Lemma starts_before : forall a b, filter (fun s => s <=? bytes a) (line_starts (a ++ b)) = line_starts a.
Proof.
  intros a b. unfold line_starts. cbn [filter Nat.leb]. f_equal.
  rewrite starts_app, filter_app. cbn [Nat.add]. rewrite filter_all, filter_none, app_nil_r; [reflexivity | | ].
  - intros s H. apply starts_within in H. apply Nat.leb_gt. lia.
  - intros s H. apply starts_within in H. apply Nat.leb_le. lia.
Qed.

(** Splitting off the last line. *)
Lemma last_line : forall p, exists a b, p = a ++ b /\ line_begins a /\ one_line b.
Proof.
  induction p as [ | c p IH] using rev_ind.
  - exists [], []. split; [reflexivity | split; [left; reflexivity | intros []]].
  - destruct IH as (a & b & -> & A & B). destruct (N.eq_dec c 10) as [-> | N].
    + exists ((a ++ b) ++ [10%N]), []. split; [rewrite app_nil_r; reflexivity | ].
      split; [right; eexists; reflexivity | intros []].
    + exists a, (b ++ [c]). split; [rewrite app_assoc; reflexivity | ]. split; [exact A | ].
      intros I. apply in_app_or in I. destruct I as [I | [-> | []]]; [exact (B I) | exact (N eq_refl)].
Qed.

Lemma one_line_cons : forall c t, one_line (c :: t) -> (c =? 10)%N = false /\ one_line t.
Proof.
  intros c t H. split.
  - apply N.eqb_neq. intros ->. apply H. left. reflexivity.
  - intros I. apply H. right. exact I.
Qed.

Lemma starts_one_line : forall t o, one_line t -> starts_from o t = [].
Proof.
  induction t as [ | c t IH]; intros o H; [reflexivity | ].
  apply one_line_cons in H. destruct H as [N H]. cbn. unfold newline. rewrite N. apply IH. exact H.
Qed.

Lemma advance_one_line : forall t l c, one_line t -> fold_left advance t (l, c) = (l, c + units t).
Proof.
  induction t as [ | x t IH]; intros l c H; cbn; [rewrite Nat.add_0_r; reflexivity | ].
  apply one_line_cons in H. destruct H as [N H]. unfold advance at 2. rewrite N. cbn [fst snd].
  rewrite IH by exact H. unfold len_utf16. f_equal. lia.
Qed.

Lemma lines_fst : forall t l c, fst (fold_left advance t (l, c)) = l + length (starts_from 0 t).
Proof.
  assert (forall t o o', length (starts_from o t) = length (starts_from o' t)) as S.
  { induction t as [ | x t IH]; intros o o'; cbn; [reflexivity | ]. rewrite !app_length.
    rewrite (IH _ (o' + len_utf8 x)). destruct (x =? newline)%N; reflexivity. }
  induction t as [ | x t IH]; intros l c; cbn; [lia | ].
  rewrite app_length. unfold advance at 2, newline. destruct (x =? 10)%N; cbn [fst snd]; rewrite IH;
    rewrite (S t (len_utf8 x) 0); cbn [length]; lia.
Qed.

Lemma place_begin : forall a, line_begins a -> snd (place a) = 0.
Proof.
  intros a [-> | [t ->]]; [reflexivity | ]. unfold place. rewrite fold_left_app. reflexivity.
Qed.

Lemma place_line : forall a b, line_begins a -> one_line b ->
  place (a ++ b) = (length (starts_from 0 a), units b).
Proof.
  intros a b A B. unfold place. rewrite fold_left_app.
  pose proof (lines_fst a 0 0) as L. pose proof (place_begin a A) as Z. unfold place in Z.
  destruct (fold_left advance a (0, 0)) as [l c]. cbn in L, Z. subst.
  rewrite advance_one_line by exact B. reflexivity.
Qed.

Lemma nth_start : forall a b, line_begins a -> nth (length (starts_from 0 a)) (line_starts (a ++ b)) 0 = bytes a.
Proof.
  intros a b A. unfold line_starts. rewrite starts_app. destruct A as [-> | [t ->]]; [reflexivity | ].
  rewrite starts_app. cbn [starts_from]. replace (10 =? newline)%N with true by reflexivity.
  rewrite app_length. cbn [length app]. rewrite Nat.add_1_r. cbn [nth].
  rewrite <- app_assoc. rewrite app_nth2 by lia. rewrite Nat.sub_diag. cbn [app nth].
  rewrite bytes_app. cbn. lia.
Qed.

Lemma to_position_place : forall p q, to_position (p ++ q) (bytes p) = place p.
Proof.
  intros p q. unfold to_position. rewrite starts_before.
  destruct (last_line p) as (a & b & -> & A & B).
  rewrite place_line by assumption.
  assert (length (line_starts (a ++ b)) - 1 = length (starts_from 0 a)) as ->.
  { unfold line_starts. cbn [length]. rewrite starts_app, (starts_one_line b), app_nil_r by exact B. lia. }
  rewrite <- app_assoc. rewrite nth_start by exact A. rewrite col. reflexivity.
Qed.

Lemma walk_to : forall b q k o, one_line b -> walk (b ++ q) (k + units b) k o = o + bytes b.
Proof.
  induction b as [ | c b IH]; intros q k o H; cbn [app units bytes].
  - rewrite !Nat.add_0_r. destruct q as [ | x q]; cbn [walk]; [reflexivity | ].
    rewrite Nat.leb_refl, orb_true_r. reflexivity.
  - apply one_line_cons in H. destruct H as [N H]. cbn [walk]. unfold newline. rewrite N. cbn [orb].
    pose proof (len16_pos c).
    destruct (Nat.leb_spec (k + (len_utf16 c + units b)) k) as [L | L]; [lia | ].
    replace (k + (len_utf16 c + units b)) with ((k + len_utf16 c) + units b) by lia.
    rewrite IH by exact H. lia.
Qed.

Lemma walk_past : forall b q n k o, one_line b -> line_ends q -> k + units b <= n ->
  walk (b ++ q) n k o = o + bytes b.
Proof.
  induction b as [ | c b IH]; intros q n k o H E L; cbn [app units bytes] in *.
  - rewrite Nat.add_0_r. destruct E as [-> | [t ->]]; reflexivity.
  - apply one_line_cons in H. destruct H as [N H]. cbn [walk]. unfold newline. rewrite N. cbn [orb].
    pose proof (len16_pos c).
    destruct (Nat.leb_spec n k) as [L' | L']; [lia | ]. rewrite IH by (assumption || lia). lia.
Qed.

Lemma start_of : forall a b, line_begins a ->
  (if length (starts_from 0 a) <? length (line_starts (a ++ b))
   then nth (length (starts_from 0 a)) (line_starts (a ++ b)) 0 else bytes (a ++ b)) = bytes a.
Proof.
  intros a b A.
  destruct (Nat.ltb_spec (length (starts_from 0 a)) (length (line_starts (a ++ b)))) as [L | L].
  - apply nth_start. exact A.
  - unfold line_starts in L. cbn [length] in L. rewrite starts_app, app_length in L. lia.
Qed.

Lemma to_offset_place : forall p q, to_offset (p ++ q) (place p) = bytes p.
Proof.
  intros p q. destruct (last_line p) as (a & b & -> & A & B).
  unfold to_offset. rewrite place_line by assumption. cbn [fst snd]. rewrite <- app_assoc.
  rewrite start_of by exact A. rewrite from_app. rewrite (walk_to b q 0) by exact B.
  rewrite bytes_app. reflexivity.
Qed.

Lemma to_offset_past : forall a b q n, line_begins a -> one_line b -> line_ends q -> units b <= n ->
  to_offset (a ++ b ++ q) (fst (place a), n) = bytes (a ++ b).
Proof.
  intros a b q n A B Q L. unfold to_offset. cbn [fst snd].
  pose proof (place_line a [] A (fun x => x)) as P. rewrite app_nil_r in P. rewrite P. cbn [fst].
  rewrite start_of by exact A. rewrite from_app, walk_past by assumption. rewrite bytes_app. reflexivity.
Qed.

Lemma to_offset_beyond : forall t l n, fst (place t) < l -> to_offset t (l, n) = bytes t.
Proof.
  intros t l n H. unfold place in H. rewrite lines_fst in H. cbn in H.
  unfold to_offset. cbn [fst snd].
  destruct (Nat.ltb_spec l (length (line_starts t))) as [L | L]; [unfold line_starts in L; cbn [length] in L; lia | ].
  pose proof (from_app t []) as F. rewrite app_nil_r in F. rewrite F. reflexivity.
Qed.

Lemma pos_for_place : forall p q i l c, pos_for (p ++ q) (i + bytes p) i l c = fold_left advance p (l, c).
Proof.
  induction p as [ | x p IH]; intros q i l c; cbn [app bytes fold_left].
  - rewrite Nat.add_0_r. destruct q as [ | y q]; cbn [pos_for]; [reflexivity | ]. rewrite Nat.leb_refl. reflexivity.
  - cbn [pos_for]. pose proof (len8_pos x).
    destruct (Nat.leb_spec (i + (len_utf8 x + bytes p)) i) as [L | L]; [lia | ].
    replace (i + (len_utf8 x + bytes p)) with ((i + len_utf8 x) + bytes p) by lia.
    unfold advance at 2, newline. cbn [fst snd].
    destruct (x =? 10)%N; rewrite IH; [rewrite Nat.add_1_r | ]; reflexivity.
Qed.
