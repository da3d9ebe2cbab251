(** Proofs about quoting for the shell. *)
From Coq Require Import List NArith Bool Lia.
Import ListNotations.
From Verif.Text Require Import Model Spec Escapes.
Open Scope N_scope.

(** ** Words *)

Lemma sq_run : forall s t rest v, ~ In 39 s -> Word rest v -> Word ([39] ++ s ++ replace SQUOTE [SQUOTE; BACKSLASH; SQUOTE; SQUOTE] t ++ [39] ++ rest) (s ++ t ++ v).
Proof.
  intros s t. revert s. induction t as [|c t IH]; intros s rest v NI W; cbn [replace flat_map].
  - cbn [app]. change (39 :: s ++ 39 :: rest) with ([39] ++ s ++ [39] ++ rest). now constructor.
  - destruct (N.eqb_spec c SQUOTE) as [->|NE].
    + specialize (IH [] rest v (fun x => x) W).
      replace ([39] ++ s ++ ([SQUOTE; BACKSLASH; SQUOTE; SQUOTE] ++ flat_map (fun x => if x =? SQUOTE then [SQUOTE; BACKSLASH; SQUOTE; SQUOTE] else [x]) t) ++ [39] ++ rest)
        with ([39] ++ s ++ [39] ++ (92 :: 39 :: [39] ++ [] ++ replace SQUOTE [SQUOTE; BACKSLASH; SQUOTE; SQUOTE] t ++ [39] ++ rest)).
      2: { reflexivity. }
      apply Word_quoted; auto. apply Word_backslash; [discriminate|]. exact IH.
    + specialize (IH (s ++ [c]) rest v). rewrite <- !app_assoc in IH. cbn [app] in IH |- *. apply IH; auto.
      intro I. apply in_app_iff in I as [I|[I|[]]]; auto.
Qed.

Lemma harmless_not : forall c, harmless c -> c <> 39 /\ c <> 92.
Proof. unfold harmless. intros c [H|[H|[H|H]]]; try lia. cbn in H. lia. Qed.

Lemma quoted_split : forall (s s' : text) r r', ~ In 39 s -> ~ In 39 s' -> s ++ 39 :: r = s' ++ 39 :: r' -> s = s' /\ r = r'.
Proof.
  induction s as [|x s IH]; intros [|y s'] r r' N N' E; cbn in E.
  - injection E as ->. auto.
  - injection E as <- _. destruct N'. now left.
  - injection E as -> _. destruct N. now left.
  - injection E as -> E. destruct (IH s' r r') as [-> ->]; auto; intro; [apply N|apply N']; now right.
Qed.

Lemma Word_fun : forall s v, Word s v -> forall w, Word s w -> v = w.
Proof.
  induction 1 as [|s rest v NI W IH|c rest v NC W IH|c rest v H W IH]; intros w Ww.
  - inversion Ww. auto.
  - inversion Ww as [|s' rest' v' NI' W' E|c' rest' v' NC' W' E|c' rest' v' H' W' E].
    + cbn in E. apply quoted_split in E as [-> ->]; auto. f_equal. auto.
    + subst c'. apply harmless_not in H' as [? _]. congruence.
  - inversion Ww as [|s' rest' v' NI' W' E|c' rest' v' NC' W' E|c' rest' v' H' W' E]; subst.
    + f_equal. auto.
    + apply harmless_not in H' as [_ ?]. congruence.
  - apply harmless_not in H as [H1 H2]. inversion Ww as [|s' rest' v' NI' W' E|c' rest' v' NC' W' E|c' rest' v' H' W' E]; subst; try congruence.
    f_equal. auto.
Qed.

(** ** Between double quotes *)

Lemma dq_flat : forall s, dq_escape s = flat_map (fun c =>
  if c =? 92 then [92; 92; 92; 92] else if (c =? 36) || (c =? 96) || (c =? 34) then [92; c] else [c]) s.
Proof.
  induction s as [|c s IH]; auto. unfold dq_escape, replace in *. cbn [flat_map]. rewrite !flat_map_app, IH. f_equal.
  unfold BACKSLASH, DOLLAR, BACKTICK, DQUOTE.
  destruct (N.eqb_spec c 92) as [->|N1]; [reflexivity|]. cbn [flat_map app].
  destruct (N.eqb_spec c 36) as [->|N2]; [reflexivity|]. cbn [flat_map app].
  destruct (N.eqb_spec c 96) as [->|N3]; [reflexivity|]. cbn [flat_map app].
  destruct (N.eqb_spec c 34) as [->|N4]; [reflexivity|]. cbn [flat_map app orb]. auto.
Qed.

Lemma dq_reads : forall s, Quoted (dq_escape s) (double_backslashes s).
Proof.
  intros s. rewrite dq_flat. induction s as [|c s IH]; cbn [flat_map double_backslashes]. { constructor. }
  change (flat_map (fun c0 => if c0 =? 92 then [92; 92] else [c0]) s) with (double_backslashes s).
  destruct (N.eqb_spec c 92) as [->|N1]; cbn [app].
  - apply Quoted_escape; [cbn; auto|]. apply Quoted_escape; [cbn; auto|]. auto.
  - destruct ((c =? 36) || (c =? 96) || (c =? 34)) eqn:E.
    + apply Quoted_escape; auto. rewrite !orb_true_iff, !N.eqb_eq in E. cbn. lia.
    + apply Quoted_plain; auto. rewrite !orb_false_iff, !N.eqb_neq in E. cbn. lia.
Qed.

Lemma Quoted_fun : forall s v, Quoted s v -> forall w, Quoted s w -> v = w.
Proof.
  induction 1 as [|c s v I Q IH|s v Q IH|c s v NI Q IH|c s v NI Q IH]; intros w Qw; inversion Qw; subst; auto; cbn [In] in *; try (exfalso; lia); try (f_equal; auto; fail); try (f_equal; f_equal; auto; fail).
Qed.

Lemma double_none : forall s, ~ In 92 s -> double_backslashes s = s.
Proof.
  induction s as [|c s IH]; cbn; intros N; auto. destruct (N.eqb_spec c 92); [tauto|]. cbn. f_equal. tauto.
Qed.
Lemma double_length : forall s, In 92 s -> (length s < length (double_backslashes s))%nat.
Proof.
  unfold double_backslashes.
  assert (G : forall s, (length s <= length (flat_map (fun c => if N.eqb c 92 then [92; 92]%N else [c]) s))%nat).
  { induction s as [|c s IH]; cbn; [lia|]. destruct (c =? 92); cbn; lia. }
  induction s as [|c s IH]; cbn; intros I; [contradiction|]. destruct (N.eqb_spec c 92); cbn.
  - specialize (G s). lia.
  - assert (J : In 92 s) by (destruct I; [congruence|auto]). specialize (IH J). lia.
Qed.
