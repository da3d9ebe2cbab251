(** Reading import specifiers. *)
From Coq Require Import List NArith Bool.
From Verif.Imports Require Import Model.
Import ListNotations.

Lemma split_here : forall c a b, ~ In c a -> split_first c (a ++ c :: b) = Some (a, b).
Proof.
  induction a as [|x a IH]; simpl; intros b N.
  - rewrite N.eqb_refl. reflexivity.
  - destruct (x =? c)%N eqn:E; [apply N.eqb_eq in E; subst; exfalso; apply N; left; reflexivity|].
    rewrite IH by (intros H; apply N; right; exact H). reflexivity.
Qed.
Lemma split_none : forall c a, ~ In c a -> split_first c a = None.
Proof.
  induction a as [|x a IH]; simpl; intros N; [reflexivity|].
  destruct (x =? c)%N eqn:E; [apply N.eqb_eq in E; subst; exfalso; apply N; left; reflexivity|].
  rewrite IH by (intros H; apply N; right; exact H). reflexivity.
Qed.

Lemma split_rest : forall c s a b x, split_first c s = Some (a, b) -> In x b -> In x s.
Proof.
  induction s as [|y s IH]; simpl; intros a b x H I_; [discriminate|].
  destruct (y =? c)%N; [injection H as <- <-; right; exact I_|].
  destruct (split_first c s) as [[a' b']|]; [|discriminate]. injection H as <- <-.
  right. eapply IH; eauto.
Qed.
Lemma trim_start_in : forall white s x, In x (trim_start white s) -> In x s.
Proof.
  induction s as [|y s IH]; simpl; intros x H; [exact H|].
  destruct (white y); [right; apply IH, H | exact H].
Qed.
Lemma trim_in : forall white s x, In x (trim white s) -> In x s.
Proof.
  intros white s x H. unfold trim in H. apply in_rev in H. apply trim_start_in, in_rev in H.
  apply trim_start_in in H. exact H.
Qed.
Lemma locator_total : forall white parse_url d r p s, ~ In open_bracket s ->
  locator_from white parse_url d r p s <> None.
Proof.
  intros white parse_url d r p s N L. unfold locator_from, chomp in L. destruct s as [|x t].
  - destruct (text_eqb _ _); [discriminate|]. destruct (strip_prefix r _); [discriminate|].
    destruct (strip_prefix p _); [discriminate|]. destruct (parse_url _); discriminate.
  - destruct (x =? open_bracket)%N eqn:B; [apply N.eqb_eq in B; subst; apply N; left; reflexivity|].
    destruct (text_eqb _ _); [discriminate|]. destruct (strip_prefix r _); [discriminate|].
    destruct (strip_prefix p _); [discriminate|]. destruct (parse_url _); discriminate.
Qed.
