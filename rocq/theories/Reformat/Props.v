(** * Formatting requests *)
From Coq Require Import List Bool Arith NArith Lia.
From Verif.Lsp Require Import Model Spec Places.
From Verif.Reformat Require Import Model Spec.
Import ListNotations.

Lemma text_eqb_eq a b : text_eqb a b = true <-> a = b.
Proof. unfold text_eqb. destruct (list_eq_dec N.eq_dec a b); split; congruence. Qed.

Lemma end_advance t : forall l c, end_from t l c = fold_left advance t (l, c).
Proof.
  induction t as [|x t IH]; intros l c; cbn [end_from fold_left]; [reflexivity|].
  unfold advance at 2, newline, len_utf16. cbn [fst snd]. destruct (x =? 10)%N; apply IH.
Qed.
Lemma position_advance p q : forall l c i, position_from (p ++ q) (i + bytes p) l c i = fold_left advance p (l, c).
Proof.
  induction p as [|x p IH]; intros l c i; cbn [app bytes fold_left].
  - destruct q as [|y q]; cbn [position_from]; auto. rewrite (proj2 (Nat.leb_le _ _)) by lia. reflexivity.
  - cbn [position_from]. pose proof (len8_pos x). rewrite (proj2 (Nat.leb_gt _ _)) by lia.
    replace (i + (len_utf8 x + bytes p)) with ((i + len_utf8 x) + bytes p) by lia.
    unfold advance at 2, newline, len_utf16. cbn [fst snd]. destruct (x =? 10)%N; apply IH.
Qed.
Lemma offset_position_place p q : offset_position (p ++ q) (bytes p) = place p.
Proof. apply (position_advance p q 0 0 0). Qed.

Lemma advance_later b : forall p, fst p <= fst (fold_left advance b p) /\
  (fst (fold_left advance b p) = fst p -> snd p <= snd (fold_left advance b p)).
Proof.
  induction b as [|c b IH]; intros p; cbn; [lia|]. destruct (IH (advance p c)) as [H1 H2].
  unfold advance in *. destruct (c =? 10)%N; cbn in *.
  - split; [lia|]. intros H. lia.
  - split; [lia|]. intros H. specialize (H2 H). lia.
Qed.
Lemma offset_advance p q : forall l c o, offset_from (p ++ q) (fold_left advance p (l, c)) l c o = o + bytes p.
Proof.
  induction p as [|x p IH]; intros l c o; cbn [app bytes fold_left].
  - destruct q as [|y q]; cbn [offset_from fst snd]; [lia|]. rewrite !Nat.eqb_refl. cbn. lia.
  - cbn [offset_from]. unfold newline. destruct (x =? 10)%N eqn:N.
    + assert (E : advance (l, c) x = (S l, 0)) by (unfold advance; rewrite N; reflexivity).
      rewrite E. pose proof (advance_later p (S l, 0)) as [L1 _]. cbn [fst snd] in L1.
      rewrite (proj2 (Nat.eqb_neq l (fst (fold_left advance p (S l, 0))))) by lia. cbn [andb]. rewrite IH. lia.
    + assert (E : advance (l, c) x = (l, c + len_utf16 x)) by (unfold advance; rewrite N; reflexivity).
      rewrite E. pose proof (advance_later p (l, c + len_utf16 x)) as [L1 L2]. cbn [fst snd] in *. pose proof (len16_pos x).
      destruct (Nat.eqb l (fst (fold_left advance p (l, c + len_utf16 x)))) eqn:Q.
      * apply Nat.eqb_eq in Q. specialize (L2 (eq_sym Q)).
        rewrite (proj2 (Nat.eqb_neq c (snd (fold_left advance p (l, c + len_utf16 x))))) by lia. cbn [andb]. rewrite IH. lia.
      * cbn [andb]. rewrite IH. lia.
Qed.
Lemma position_offset_place p q : position_offset (p ++ q) (place p) = bytes p.
Proof. apply (offset_advance p q 0 0 0). Qed.

Lemma offset_beyond p t : forall l c o, fst (fold_left advance t (l, c)) < fst p -> offset_from t p l c o = o + bytes t.
Proof.
  induction t as [|x t IH]; intros l c o H; cbn [offset_from bytes fold_left] in *; [lia|].
  pose proof (advance_later t (advance (l, c) x)) as [L _].
  unfold newline. destruct (x =? 10)%N eqn:N.
  - assert (E : advance (l, c) x = (S l, 0)) by (unfold advance; rewrite N; reflexivity). rewrite E in *. cbn [fst] in L.
    rewrite (proj2 (Nat.eqb_neq l (fst p))) by lia. cbn [andb]. rewrite IH by exact H. lia.
  - assert (E : advance (l, c) x = (l, c + len_utf16 x)) by (unfold advance; rewrite N; reflexivity). rewrite E in *. cbn [fst] in L.
    rewrite (proj2 (Nat.eqb_neq l (fst p))) by lia. cbn [andb]. rewrite IH by exact H. lia.
Qed.
Lemma offset_skip p t a : forall l c o, fst (fold_left advance a (l, c)) < fst p ->
  offset_from ((a ++ [10%N]) ++ t) p l c o = offset_from t p (S (fst (fold_left advance a (l, c)))) 0 (o + bytes a + 1).
Proof.
  induction a as [|x a IH]; intros l c o H; cbn [app offset_from bytes fold_left] in *.
  - cbn [fst] in H. rewrite (proj2 (Nat.eqb_neq l (fst p))) by lia. cbn. f_equal. lia.
  - pose proof (advance_later a (advance (l, c) x)) as [L _].
    unfold newline. destruct (x =? 10)%N eqn:N.
    + assert (E : advance (l, c) x = (S l, 0)) by (unfold advance; rewrite N; reflexivity). rewrite E in *. cbn [fst] in L.
      rewrite (proj2 (Nat.eqb_neq l (fst p))) by lia. cbn [andb]. rewrite IH by exact H. f_equal. lia.
    + assert (E : advance (l, c) x = (l, c + len_utf16 x)) by (unfold advance; rewrite N; reflexivity). rewrite E in *. cbn [fst] in L.
      rewrite (proj2 (Nat.eqb_neq l (fst p))) by lia. cbn [andb]. rewrite IH by exact H. f_equal. lia.
Qed.
Lemma offset_line b q n l : one_line b -> line_ends q -> forall k o, k + units b <= n ->
  offset_from (b ++ q) (l, n) l k o = o + bytes b.
Proof.
  induction b as [|x b IH]; intros O Q k o H.
  - cbn [app bytes]. destruct Q as [-> | [q' ->]]; cbn; [lia|]. rewrite Nat.eqb_refl. destruct (Nat.eqb k n); cbn; lia.
  - apply one_line_cons in O as [N O]. cbn [app offset_from bytes units] in *. unfold newline. rewrite N. cbn [fst snd].
    pose proof (len16_pos x). rewrite (proj2 (Nat.eqb_neq k n)) by lia. rewrite andb_false_r. rewrite IH by (auto; lia). lia.
Qed.

(** ** C112: formatting changes what was asked for, and only that *)

(** Formatting a document makes it what the formatter made of it; nothing changes if the
    formatter failed. *)
Theorem C112_document src formatted :
  edited [] src (format_document src formatted) (match formatted with Some f => f | None => src end).
Proof.
  unfold format_document. destruct formatted as [f|]; [|constructor].
  destruct (text_eqb f src) eqn:E; [apply text_eqb_eq in E; subst; constructor|].
  replace f with ([] ++ f ++ []) at 2 by (rewrite app_nil_r; reflexivity).
  replace src with ([] ++ src ++ []) at 1 by (rewrite app_nil_r; reflexivity).
  unfold end_of_document. rewrite end_advance. change (fold_left advance src (0, 0)) with (place ([] ++ [] ++ src)).
  change (0, 0) with (place ([] ++ [])). constructor. constructor.
Qed.
Print Assumptions C112_document.

Lemma overlap_test a b before d after :
  (b <=? bytes before) ||
  (match from (bytes before + bytes d) (before ++ d ++ after) with
   | c :: _ => if (c =? newline)%N then bytes before + bytes d + 1 else bytes before + bytes d
   | [] => bytes before + bytes d end <=? a) = false <-> overlaps a b before d after.
Proof.
  rewrite <- bytes_app, app_assoc, from_app. rewrite orb_false_iff, !Nat.leb_gt. unfold overlaps, newline.
  split; intros [H1 H2]; (split; [exact H1|]).
  - destruct after as [|c after].
    + exists d. split; [constructor; congruence|exact H2].
    + destruct (c =? 10)%N eqn:N.
      * apply N.eqb_eq in N. subst. exists (d ++ [10%N]). split; [constructor|]. rewrite app_assoc, (bytes_app (before ++ d)). exact H2.
      * apply N.eqb_neq in N. exists d. split; [constructor; congruence|exact H2].
  - destruct H2 as (l & L & H2). destruct L as [rest|after L].
    + cbn. rewrite app_assoc, (bytes_app (before ++ d)) in H2. exact H2.
    + destruct after as [|c after]; [exact H2|]. destruct (c =? 10)%N eqn:N; [|exact H2].
      apply N.eqb_eq in N. subst. destruct (L after eq_refl).
Qed.

Lemma edited_keep p k rest es out : edited (p ++ k) rest es out -> edited p (k ++ rest) es (k ++ out).
Proof.
  intros H. remember (p ++ k) as pk. destruct H as [pk rest|pk keep old rest new es out H]; subst.
  - constructor.
  - replace (k ++ keep ++ old ++ rest) with ((k ++ keep) ++ old ++ rest) by (rewrite <- app_assoc; reflexivity).
    replace (k ++ keep ++ new ++ out) with ((k ++ keep) ++ new ++ out) by (rewrite <- app_assoc; reflexivity).
    replace ((p ++ k) ++ keep) with (p ++ k ++ keep) by (rewrite <- app_assoc; reflexivity).
    replace ((p ++ k) ++ keep ++ old) with (p ++ (k ++ keep) ++ old) by (rewrite <- !app_assoc; reflexivity).
    constructor. rewrite <- !app_assoc in *. exact H.
Qed.

Lemma range_edits_spec a b : forall ps before,
  exists out, reformatted a b before ps out /\
    edited before (source_of ps) (range_edits (before ++ source_of ps) a b (bytes before) ps) out.
Proof.
  induction ps as [|x ps IH]; intros before.
  - exists []. split; constructor.
  - unfold source_of in *. cbn [flat_map]. destruct x as [t|d f]; cbn [range_edits piece_text]; rewrite <- bytes_app.
    + destruct (IH (before ++ t)) as (out & R & E). exists (t ++ out). split; [constructor; exact R|].
      rewrite <- app_assoc in E. apply edited_keep. exact E.
    + destruct (IH (before ++ d)) as (out & R & E). rewrite <- app_assoc in E.
      pose proof (overlap_test a b before d (flat_map piece_text ps)) as T. rewrite <- bytes_app in T.
      match type of T with ?x = false <-> _ => destruct x eqn:O end.
      * cbn [app]. exists (d ++ out). split; [|apply edited_keep; exact E].
        apply R_outside; [|exact R]. intros V. apply T in V. discriminate.
      * destruct f as [f|].
        -- exists (f ++ out). split; [apply R_inside; [apply T; reflexivity|exact R]|].
           destruct (text_eqb f d) eqn:Q.
           ++ apply text_eqb_eq in Q. subst f. apply edited_keep. exact E.
           ++ rewrite offset_position_place.
              rewrite (app_assoc before d) at 1. rewrite offset_position_place. cbn [app].
              pose proof (e_edit before [] d (flat_map piece_text ps) f
                (range_edits (before ++ d ++ flat_map piece_text ps) a b (bytes (before ++ d)) ps) out E) as X.
              cbn [app] in X. rewrite app_nil_r in X. exact X.
        -- cbn [app]. exists (d ++ out). split; [apply R_error; exact R|apply edited_keep; exact E].
Qed.

(** Formatting a part of a document changes the declarations that overlap it to what the
    formatter makes of them, and nothing else. *)
Theorem C112_range ps p r q :
  source_of ps = p ++ r ++ q ->
  exists out, reformatted (bytes p) (bytes (p ++ r)) [] ps out /\
    edited [] (source_of ps) (format_range false ps (place p, place (p ++ r))) out.
Proof.
  intros E. unfold format_range. cbn [fst snd].
  replace (position_offset (source_of ps) (place p)) with (bytes p) by (rewrite E, position_offset_place; reflexivity).
  replace (position_offset (source_of ps) (place (p ++ r))) with (bytes (p ++ r))
    by (rewrite E, app_assoc, position_offset_place; reflexivity).
  apply (range_edits_spec (bytes p) (bytes (p ++ r)) ps []).
Qed.
Print Assumptions C112_range.

(** A source with errors is left alone. *)
Example errors_example ps r : format_range true ps r = [].
Proof. reflexivity. Qed.

(** The specification leaves no choice. *)
Theorem C112_unique a b before ps out1 out2 :
  reformatted a b before ps out1 -> reformatted a b before ps out2 -> out1 = out2.
Proof.
  intros H. revert out2. induction H; intros out2 H2; inversion H2; subst; auto; try contradiction; f_equal; auto.
Qed.
Print Assumptions C112_unique.

(** [a:1], newline, [b:2], newline: formatting the second line. *)
Definition sample : list piece :=
  [Decl [97; 58; 49]%N (Some [97; 58; 32; 49]%N); Between [10]%N; Decl [98; 58; 50]%N (Some [98; 58; 32; 50]%N); Between [10]%N].
Example sample_example :
  format_range false sample ((1, 0), (1, 1)) = [(((1, 0), (1, 3)), [98; 58; 32; 50]%N)] /\
  source_of sample = [97; 58; 49; 10]%N ++ [98]%N ++ [58; 50; 10]%N /\
  place [97; 58; 49; 10]%N = (1, 0) /\ place ([97; 58; 49; 10]%N ++ [98]%N) = (1, 1).
Proof. repeat split; reflexivity. Qed.

(** Positions past the end of a line are its end, and positions past the last line are the
    end of the text. *)
Theorem C112_past :
  (forall a b q n, line_begins a -> one_line b -> line_ends q -> units b <= n ->
     position_offset (a ++ b ++ q) (fst (place a), n) = bytes (a ++ b)) /\
  (forall t l n, fst (place t) < l -> position_offset t (l, n) = bytes t).
Proof.
  split.
  - intros a b q n A B Q H. unfold position_offset. rewrite bytes_app. destruct A as [-> | [a' ->]].
    + cbn [app bytes]. apply (offset_line b q n 0 B Q 0 0). lia.
    + assert (P : place (a' ++ [10%N]) = (S (fst (place a')), 0)) by (unfold place; rewrite fold_left_app; reflexivity).
      rewrite P. cbn [fst]. rewrite offset_skip by (cbn [fst]; unfold place; lia).
      unfold place. rewrite (offset_line b q n (S (fst (fold_left advance a' (0, 0)))) B Q) by lia. rewrite bytes_app. cbn. lia.
  - intros t l n H. apply offset_beyond. exact H.
Qed.
Print Assumptions C112_past.
Example past_example : position_offset [97; 10; 98]%N (0, 7) = 1 /\ position_offset [97; 10; 98]%N (2, 0) = 3.
Proof. split; reflexivity. Qed.

(** Refuted: that an empty range, a cursor, formats the declaration it is at: at the start of
    a declaration nothing is formatted. *)
Theorem C112_cursor_refuted :
  ~ (forall before d f ps p, source_of (before ++ Decl d (Some f) :: ps) = p ++ d ++ source_of ps -> p = source_of before ->
       d <> [] -> d <> f -> format_range false (before ++ Decl d (Some f) :: ps) (place p, place p) <> []).
Proof.
  intros H. apply (H [] [97; 58; 49]%N [97; 58; 32; 49]%N [] [] eq_refl eq_refl); [discriminate|discriminate|reflexivity].
Qed.
Print Assumptions C112_cursor_refuted.

(** Refuted: that formatting reads positions as the other requests do.  Within a surrogate
    pair, formatting takes the end of the line. *)
Theorem C112_agree_refuted : ~ (forall t p, position_offset t p = to_offset t p).
Proof. intros H. specialize (H [128512; 97]%N (0, 1)). vm_compute in H. discriminate. Qed.
Print Assumptions C112_agree_refuted.
