(** The tokens of a source, as the parser sees them. *)
From Coq Require Import List NArith ZArith Bool Arith Lia.
Import ListNotations.
From Verif.Text Require Import Model Lexing.
From Verif.Lexer Require Import Model Spec Steps Runs Again.
From Verif.Parser Require Import Model Spec.
Open Scope nat_scope.

Lemma shape_quoted : forall ts h, shape h ts -> quoted h (map (fun t => (pattern_kind (t_kind t), t_text t)) ts).
Proof.
  induction ts as [|t ts IH]; intros h S; [exact I|]. cbn in S. cbn [map quoted]. destruct (t_kind t); cbn [pattern_kind]; destruct h; auto; try (destruct S as [S1 S2]; try discriminate; auto).
Qed.
Lemma lex_shape : forall cs content ts, lex cs content = Some ts -> shape false ts.
Proof.
  intros cs content ts E. destruct (Lexed_total cs (length content) (mkLex content 0 false false) (le_n _)) as (ts' & L).
  pose proof (Lexed_shape _ _ _ L) as S. cbn in S. specialize (L (length content) (le_n _)). unfold lex in E. rewrite E in L. injection L as ->. exact S.
Qed.

Lemma skip_words : forall p (l l' a : list word) w b, (forall v, In v l -> forall q, fst v <> PATTERN_START q) -> fst w = PATTERN_START p ->
  l ++ l' = a ++ w :: b -> exists a', l' = a' ++ w :: b.
Proof.
  intros p l l' a. revert l. induction a as [|v a IH]; intros l w b H K E.
  - destruct l as [|u l]; [exists []; exact E|]. injection E as -> _. destruct (H w (or_introl eq_refl) p K).
  - destruct l as [|u l]; [exists (v :: a); exact E|]. injection E as -> E. apply (IH l w b); auto. intros v' I. apply H. right. exact I.
Qed.

(** The strings with holes of a source are whole. *)
Lemma Run_patterns : forall U m pos s ts, Run U m pos s ts -> forall a w b p, words_of ts = a ++ w :: b -> fst w = PATTERN_START p -> pattern_closed p b.
Proof.
  intros U m pos s ts R. induction R as [|m pos c u toks rest ts E G M O F R IH]; intros a w b p EQ K; [destruct a; discriminate EQ|].
  unfold words_of in EQ. rewrite map_app in EQ.
  inversion G as [k u' NE SH NP|q lead content ts0 SH LX]; subst.
  - cbn in EQ. destruct a as [|v a]; injection EQ as EQ1 EQ2.
    + subst w. cbn in K. destruct (NP p K).
    + apply (IH a w b p EQ2 K).
  - cbn [map app] in EQ. rewrite map_app, map_map, <- app_assoc in EQ. cbn [map app] in EQ. destruct a as [|v a]; injection EQ as EQ1 EQ2.
    + subst w. cbn in K. injection K as ->. eexists _, _, _. split; [symmetry; exact EQ2|]. split; [reflexivity|].
      apply (shape_quoted _ _ (lex_shape _ _ _ LX)).
    + destruct (skip_words p (map (fun t => (pattern_kind (t_kind t), t_text t)) ts0 ++ [(PATTERN_END q, [34%N])]) (words_of ts) a w b) as (a' & EA); [|exact K|rewrite <- app_assoc; exact EQ2|exact (IH a' w b p EA K)].
      intros v' I q'. apply in_app_iff in I as [I | [<- | []]]; [|discriminate]. apply in_map_iff in I as (t & <- & _). cbn. destruct (t_kind t); discriminate.
Qed.

Lemma lexed_clear : forall U, unicode U -> forall s ts, tokens U s = Some ts -> spaced (words_of ts) -> clear (words_of ts).
Proof.
  intros U HU s ts E S a w b EQ. specialize (S a w b EQ). destruct (fst w) eqn:K; try exact I; try exact S.
  destruct (tokens_Run U HU s) as (ts' & E' & R). rewrite E in E'. injection E' as <-. exact (Run_patterns U _ _ _ _ R a w b p EQ K).
Qed.

Lemma text_of_words : forall ts, concat (map snd (words_of ts)) = text_of_all ts.
Proof. intros ts. unfold words_of, text_of_all. rewrite map_map. reflexivity. Qed.
Lemma width_words : forall U, unicode U -> forall s ts, tokens U s = Some ts -> width (words_of ts) <= length s.
Proof.
  intros U HU s ts E. destruct (tokens_Run U HU s) as (ts' & E' & R). rewrite E in E'. injection E' as <-.
  destruct (Run_spans U _ _ _ _ R) as (_ & _ & L & _). unfold width, words_of. rewrite map_map. cbn [snd]. unfold text_of_all in L.
  etransitivity; [|exact L]. clear. induction ts as [|t ts IH]; [reflexivity|]. cbn [map concat]. rewrite app_length. apply Nat.add_le_mono_l. exact IH.
Qed.
