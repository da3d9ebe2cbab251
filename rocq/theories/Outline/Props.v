(** * Semantic tokens, selections and foldings *)
From Coq Require Import List Bool Arith NArith Lia.
From Verif.Lsp Require Import Model Spec Places.
From Verif.Outline Require Import Model Spec.
Import ListNotations.

(** ** C111: highlighting, selecting and folding are where the tokens and nodes are *)
Lemma place_app a b : place (a ++ b) = fold_left advance b (place a).
Proof. unfold place. apply fold_left_app. Qed.
Lemma advance_later b : forall p, fst p <= fst (fold_left advance b p) /\
  (fst (fold_left advance b p) = fst p -> snd p <= snd (fold_left advance b p)).
Proof.
  induction b as [|c b IH]; intros p; cbn; [lia|]. destruct (IH (advance p c)) as [H1 H2].
  unfold advance in *. destruct (c =? 10)%N; cbn in *.
  - split; [lia|]. intros H. lia.
  - split; [lia|]. intros H. specialize (H2 H). lia.
Qed.

Lemma tokens_shown : forall ts done seen at_,
  (exists mid, done = seen ++ mid /\ at_ = place seen) ->
  decoded at_ (tokens_from (done ++ concat (map l_text ts)) (bytes done) at_ ts) = highlighted done ts.
Proof.
  induction ts as [|t ts IH]; intros done seen at_ (mid & E & A); cbn [tokens_from map concat highlighted]; [reflexivity|].
  assert (L : bytes done + bytes (l_text t) = bytes (done ++ l_text t)) by (rewrite bytes_app; reflexivity).
  rewrite L. destruct (l_class t) as [[ty mods]|].
  - rewrite to_position_place, col. destruct (place done) as [line c] eqn:P.
    cbn [decoded app delta_line delta_start len ttype tmods].
    pose proof (advance_later mid at_) as M. rewrite A, <- place_app, <- E, P in M. rewrite <- A in M. cbn [fst snd] in M.
    assert (H : match line - fst at_ with
      | 0 => (fst at_, snd at_ + (if Nat.eqb (line - fst at_) 0 then c - snd at_ else c))
      | S n => (fst at_ + S n, if Nat.eqb (line - fst at_) 0 then c - snd at_ else c) end = (line, c)).
    { destruct (line - fst at_) as [|n] eqn:D; cbn [Nat.eqb].
      - assert (line = fst at_) by lia. subst line. destruct M as [_ M]. specialize (M eq_refl). f_equal. lia.
      - f_equal. lia. }
    rewrite H. f_equal. rewrite app_assoc. apply (IH (done ++ l_text t) done). exists (l_text t). rewrite P. auto.
  - cbn [app]. rewrite app_assoc. apply (IH (done ++ l_text t) seen). exists (mid ++ l_text t). rewrite E, app_assoc. auto.
Qed.

(** What the editor shows is the classified tokens, where they are in the text, with
    their lengths, types and modifiers. *)
Theorem C111_tokens ts : decoded (0, 0) (semantic_tokens ts) = highlighted [] ts.
Proof. unfold semantic_tokens. apply (tokens_shown ts [] []). exists []. auto. Qed.
Print Assumptions C111_tokens.
Example tokens_example :
  semantic_tokens [mkLeaf [97; 98]%N (Some (3, 0)); mkLeaf [58; 10; 32]%N None; mkLeaf [128512]%N (Some (5, 1));
                   mkLeaf [99]%N (Some (4, 0))] =
  [mkSemantic 0 0 2 3 0; mkSemantic 1 1 2 5 1; mkSemantic 0 2 1 4 0].
Proof. reflexivity. Qed.

(** Refuted: that a token is within its line.  Text over several lines is one token,
    whose length counts the newlines; not every editor takes such tokens. *)
Theorem C111_lines_refuted :
  ~ (forall ts l c n ty mods, In ((l, c), n, ty, mods) (decoded (0, 0) (semantic_tokens ts)) ->
       exists p b q, concat (map l_text ts) = p ++ b ++ q /\ place p = (l, c) /\ one_line b /\ n <= units b).
Proof.
  intros H. specialize (H [mkLeaf [97; 10; 98]%N (Some (5, 0))] 0 0 3 5 0 (or_introl eq_refl)).
  destruct H as (p & b & q & E & P & O & L).
  assert (p = []) as ->.
  { destruct p as [|x p]; auto. cbn in E. injection E as <- E. change (97%N :: p) with ([97%N] ++ p) in P.
    rewrite place_app in P. change (place [97%N]) with (0, 1) in P.
    pose proof (advance_later p (0, 1)) as A. rewrite P in A. cbn in A. lia. }
  destruct b as [|b1 b]; [cbn in L; lia|]. cbn in E. injection E as <- E.
  destruct b as [|b2 b]; [cbn in L; lia|]. cbn in E. injection E as <- E. apply O. right. left. reflexivity.
Qed.
Print Assumptions C111_lines_refuted.

(** *** Trees *)
Section TreeInd.
  Variable P : tree -> Prop.
  Hypothesis Htok : forall t, P (Tok t).
  Hypothesis Hnode : forall f cs, Forall P cs -> P (Node f cs).
  Fixpoint tree_ind' (t : tree) : P t :=
    match t with
    | Tok s => Htok s
    | Node f cs => Hnode f cs ((fix go (l : list tree) : Forall P l :=
        match l with [] => Forall_nil _ | x :: l => Forall_cons x (tree_ind' x) (go l) end) cs)
    end.
End TreeInd.

Lemma range_covers before part after : lsp_range (before ++ part ++ after) (bytes before) (bytes before + bytes part) = covers before part.
Proof.
  unfold lsp_range, covers. rewrite to_position_place. f_equal. rewrite <- bytes_app, app_assoc. apply to_position_place.
Qed.
Lemma lines_grow b p : fst (fold_left advance b p) = fst p + List.length (filter (fun c => (c =? 10)%N) b).
Proof.
  revert p. induction b as [|c b IH]; intros p; cbn; [lia|]. rewrite IH. unfold advance. destruct (c =? 10)%N; cbn; lia.
Qed.
Lemma fold_test before part : (fst (fst (covers before part)) <? fst (snd (covers before part))) = true <-> In 10%N part.
Proof.
  unfold covers. cbn [fst snd]. rewrite place_app, lines_grow, Nat.ltb_lt.
  split.
  - intros H. destruct (filter (fun c => (c =? 10)%N) part) as [|c l] eqn:E; [cbn in H; lia|].
    assert (X : In c (filter (fun c => (c =? 10)%N) part)) by (rewrite E; left; reflexivity).
    apply filter_In in X as [X Y]. apply N.eqb_eq in Y. congruence.
  - intros H. assert (X : In 10%N (filter (fun c => (c =? 10)%N) part)) by (apply filter_In; split; auto).
    destruct (filter _ part); [destruct X|cbn; lia].
Qed.

Lemma folds_spec : forall t before after r,
  In r (folds (before ++ tree_text t ++ after) (bytes before) t) <->
  exists p cs, node_at t p (Node true cs) /\ In 10%N (tree_text (Node true cs)) /\
    r = covers (before ++ p) (tree_text (Node true cs)).
Proof.
  induction t as [s|f cs IH] using tree_ind'; intros before after r.
  - cbn [folds]. split; [intros []|]. intros (p & cs & H & _). inversion H.
  - cbn [folds]. unfold size. rewrite range_covers. rewrite in_app_iff.
    set (src := before ++ tree_text (Node f cs) ++ after).
    assert (G : forall done cs', cs = done ++ cs' ->
      (In r ((fix go (start : nat) (l : list tree) : list range :=
         match l with [] => [] | c :: l => folds src start c ++ go (start + bytes (tree_text c)) l end)
         (bytes (before ++ flat_map tree_text done)) cs') <->
       exists d1 c d2 p ks, cs' = d1 ++ c :: d2 /\ node_at c p (Node true ks) /\ In 10%N (tree_text (Node true ks)) /\
         r = covers (before ++ flat_map tree_text (done ++ d1) ++ p) (tree_text (Node true ks)))).
    { intros done cs'. revert done. induction cs' as [|c cs' IHc]; intros done E.
      - split; [intros []|]. intros (d1 & c & d2 & p & ks & X & _). destruct d1; discriminate.
      - rewrite in_app_iff. rewrite <- bytes_app.
        assert (Ec : src =
          (before ++ flat_map tree_text done) ++ tree_text c ++ (flat_map tree_text cs' ++ after)).
        { unfold src. cbn. rewrite E, flat_map_app. cbn. rewrite <- !app_assoc. reflexivity. }
        assert (Fc : Forall (fun t => forall before after r, In r (folds (before ++ tree_text t ++ after) (bytes before) t) <->
          exists p cs, node_at t p (Node true cs) /\ In 10%N (tree_text (Node true cs)) /\
          r = covers (before ++ p) (tree_text (Node true cs))) (c :: cs')).
        { rewrite E in IH. apply Forall_app in IH. tauto. }
        assert (H1 : In r (folds src (bytes (before ++ flat_map tree_text done)) c) <->
          exists p ks, node_at c p (Node true ks) /\ In 10%N (tree_text (Node true ks)) /\
            r = covers ((before ++ flat_map tree_text done) ++ p) (tree_text (Node true ks))).
        { rewrite Ec. pose proof (Forall_inv Fc) as H0. apply H0. }
        rewrite H1.
        assert (E2 : cs = (done ++ [c]) ++ cs') by (rewrite <- app_assoc; exact E).
        specialize (IHc (done ++ [c]) E2). rewrite flat_map_app in IHc. cbn [flat_map] in IHc.
        rewrite app_nil_r, (app_assoc before) in IHc. rewrite IHc.
        split.
        + intros [(p & ks & A & B & C) | (d1 & c1 & d2 & p & ks & X & A & B & C)].
          * exists [], c, cs', p, ks. rewrite app_nil_r, app_assoc. auto.
          * exists (c :: d1), c1, d2, p, ks. subst cs'. rewrite <- app_assoc in C. auto.
        + intros (d1 & c1 & d2 & p & ks & X & A & B & C). destruct d1 as [|d0 d1]; cbn in X; injection X as <- X.
          * left. exists p, ks. rewrite app_nil_r, app_assoc in C. auto.
          * right. exists d1, c1, d2, p, ks. rewrite <- app_assoc. auto. }
    specialize (G [] cs eq_refl). cbn [flat_map] in G. rewrite app_nil_r in G. 
    rewrite G. clear G. split.
    + intros [H|(d1 & c & d2 & p & ks & E & A & B & C)].
      * destruct f; cbn [andb] in H; [|destruct H].
        destruct (fst (fst (covers before (tree_text (Node true cs)))) <? _) eqn:T; [|destruct H].
        destruct H as [<-|[]]. apply fold_test in T. exists [], cs. rewrite app_nil_r. split; [constructor|auto].
      * exists (flat_map tree_text d1 ++ p), ks. cbn [app] in C. split; [rewrite E; constructor; exact A|auto].
    + intros (p & ks & H & B & C). inversion H as [t E1 E2 E3|f' cs1 c cs2 b n A E1 E2 E3]; subst.
      * left. rewrite app_nil_r. cbn [andb]. rewrite (proj2 (fold_test before _) B). left. reflexivity.
      * right. exists cs1, c, cs2, b, ks. cbn [app]. auto.
Qed.

(** Exactly the nodes of the kinds that fold, with a newline in them, are folded. *)
Theorem C111_folding root r : In r (folding root) <->
  exists before cs, node_at root before (Node true cs) /\ In 10%N (tree_text (Node true cs)) /\
    r = covers before (tree_text (Node true cs)).
Proof.
  unfold folding. pose proof (folds_spec root [] [] r) as H. cbn [app bytes] in H. rewrite app_nil_r in H. exact H.
Qed.
Print Assumptions C111_folding.

Lemma down_widening src cursor : forall t before after rest,
  src = before ++ tree_text t ++ after ->
  (match t with Tok _ => False | _ => True end) ->
  widening cursor src before (tree_text t) after (covers before (tree_text t) :: rest) ->
  exists b p a, widening cursor src b p a
    (down src cursor (bytes before) t ++ rest) /\
    exists q f ks, b = before ++ q /\ node_at t q (Node f ks) /\ p = tree_text (Node f ks) /\
    (forall d1 c d2, ks = d1 ++ c :: d2 -> (match c with Tok _ => False | _ => True end) ->
      ~ (bytes (b ++ flat_map tree_text d1) <= cursor <= bytes (b ++ flat_map tree_text d1 ++ tree_text c))).
Proof.
  induction t as [s|f cs IH] using tree_ind'; intros before after rest E Hn W; [destruct Hn|]. clear Hn.
  cbn [down]. rewrite <- app_assoc. cbn [app].
  assert (R : lsp_range src (bytes before) (bytes before + size (Node f cs)) = covers before (tree_text (Node f cs))).
  { rewrite E. apply range_covers. }
  rewrite R.
  set (among := fix among (start : nat) (cs : list tree) : list range :=
         match cs with
         | [] => []
         | Tok s :: cs => among (start + bytes s) cs
         | c :: cs =>
             if (start <=? cursor) && (cursor <=? start + size c) then down src cursor start c
             else among (start + size c) cs
         end).
  assert (G : forall done cs', cs = done ++ cs' ->
    (forall d1 c d2, done = d1 ++ c :: d2 -> (match c with Tok _ => False | _ => True end) ->
      ~ (bytes (before ++ flat_map tree_text d1) <= cursor <= bytes (before ++ flat_map tree_text d1 ++ tree_text c))) ->
    exists b p a, widening cursor src b p a (among (bytes (before ++ flat_map tree_text done)) cs' ++ covers before (tree_text (Node f cs)) :: rest) /\
      exists q f0 ks, b = before ++ q /\ node_at (Node f cs) q (Node f0 ks) /\ p = tree_text (Node f0 ks) /\
      (forall d1 c d2, ks = d1 ++ c :: d2 -> (match c with Tok _ => False | _ => True end) ->
        ~ (bytes (b ++ flat_map tree_text d1) <= cursor <= bytes (b ++ flat_map tree_text d1 ++ tree_text c)))).
  { intros done cs'. revert done. induction cs' as [|c cs' IHc]; intros done Ec Nd.
    - cbn [among app]. exists before, (tree_text (Node f cs)), after. split; [exact W|].
      exists [], f, cs. rewrite app_nil_r in *. repeat split; auto; [constructor|]. intros d1 c d2 X. apply (Nd d1 c d2). congruence.
    - assert (E2 : cs = (done ++ [c]) ++ cs') by (rewrite <- app_assoc; exact Ec).
      assert (Next : forall (N : (match c with Tok _ => False | _ => True end) ->
          ~ (bytes (before ++ flat_map tree_text done) <= cursor <= bytes (before ++ flat_map tree_text done ++ tree_text c))),
        exists b p a, widening cursor src b p a (among (bytes (before ++ flat_map tree_text done) + bytes (tree_text c)) cs' ++ covers before (tree_text (Node f cs)) :: rest) /\
        exists q f0 ks, b = before ++ q /\ node_at (Node f cs) q (Node f0 ks) /\ p = tree_text (Node f0 ks) /\
        (forall d1 c d2, ks = d1 ++ c :: d2 -> (match c with Tok _ => False | _ => True end) ->
          ~ (bytes (b ++ flat_map tree_text d1) <= cursor <= bytes (b ++ flat_map tree_text d1 ++ tree_text c)))).
      { intros N. rewrite <- bytes_app. specialize (IHc (done ++ [c]) E2).
        rewrite flat_map_app in IHc. cbn [flat_map] in IHc. rewrite app_nil_r, (app_assoc before) in IHc. apply IHc.
        intros d1 c1 d2 X K. destruct d2 as [|z d2] using rev_ind.
        - apply app_inj_tail in X as [<- <-]. auto.
        - clear IHd2. rewrite app_comm_cons, app_assoc in X. apply app_inj_tail in X as [-> <-]. eapply Nd; eauto. }
      destruct c as [s|g ds].
      + cbn [among]. apply Next. intros [].
      + cbn [among]. fold among. unfold size at 1.
        destruct ((bytes (before ++ flat_map tree_text done) <=? cursor) &&
                  (cursor <=? bytes (before ++ flat_map tree_text done) + bytes (tree_text (Node g ds)))) eqn:T.
        * apply andb_true_iff in T as [T1 T2]. apply Nat.leb_le in T1, T2.
          assert (IHn : Forall (fun t => forall before after rest, src = before ++ tree_text t ++ after ->
             (match t with Tok _ => False | _ => True end) ->
             widening cursor src before (tree_text t) after (covers before (tree_text t) :: rest) ->
             exists b p a, widening cursor src b p a (down src cursor (bytes before) t ++ rest) /\
             exists q f ks, b = before ++ q /\ node_at t q (Node f ks) /\ p = tree_text (Node f ks) /\
             (forall d1 c d2, ks = d1 ++ c :: d2 -> (match c with Tok _ => False | _ => True end) ->
               ~ (bytes (b ++ flat_map tree_text d1) <= cursor <= bytes (b ++ flat_map tree_text d1 ++ tree_text c)))) (Node g ds :: cs')).
          { rewrite Ec in IH. apply Forall_app in IH. tauto. }
          inversion IHn as [|? ? Hc _]; subst. clear IHn.
          assert (S1 : tree_text (Node f (done ++ Node g ds :: cs')) =
            flat_map tree_text done ++ tree_text (Node g ds) ++ flat_map tree_text cs').
          { cbn. rewrite flat_map_app. reflexivity. }
          destruct (Hc (before ++ flat_map tree_text done) (flat_map tree_text cs' ++ after)
            (covers before (tree_text (Node f (done ++ Node g ds :: cs'))) :: rest)) as (b & p & a & W' & q & f0 & ks & -> & A & -> & N).
          -- rewrite S1, <- !app_assoc. reflexivity.
          -- exact Logic.I.
          -- apply Wider.
             ++ rewrite S1, <- !app_assoc. reflexivity.
             ++ rewrite (app_assoc before (flat_map tree_text done) (tree_text (Node g ds))), (bytes_app (before ++ flat_map tree_text done) (tree_text (Node g ds))). lia.
             ++ rewrite <- S1. exact W.
          -- exists ((before ++ flat_map tree_text done) ++ q), (tree_text (Node f0 ks)), a. split; [exact W'|].
             exists (flat_map tree_text done ++ q), f0, ks. split; [symmetry; apply app_assoc|]. split; [constructor; exact A|]. auto.
        * apply Next. intros _ [B1 B2]. rewrite (app_assoc before), bytes_app in B2.
          apply andb_false_iff in T as [T|T]; apply Nat.leb_gt in T; lia. }
  specialize (G [] cs eq_refl). cbn [flat_map] in G. rewrite app_nil_r in G. apply G.
  intros d1 c d2 X. destruct d1; discriminate.
Qed.

(** Expanding the selection at a place of the text goes from a node of the tree that the
    cursor touches, and none of whose children it touches, through parts that contain
    each other, to the whole text. *)
Theorem C111_selection f cs p q :
  tree_text (Node f cs) = p ++ q ->
  exists before part after, widening (bytes p) (p ++ q) before part after (selection (Node f cs) (place p)) /\
    exists g ks, node_at (Node f cs) before (Node g ks) /\ part = tree_text (Node g ks) /\
    (forall d1 c d2, ks = d1 ++ c :: d2 -> (match c with Tok _ => False | _ => True end) ->
      ~ (bytes (before ++ flat_map tree_text d1) <= bytes p <= bytes (before ++ flat_map tree_text d1 ++ tree_text c))).
Proof.
  intros E. unfold selection. rewrite E, to_offset_place.
  destruct (down_widening (p ++ q) (bytes p) (Node f cs) [] [] []) as (b & m & a & W & x & g & ks & -> & A & -> & N).
  - cbn [app]. rewrite app_nil_r. auto.
  - exact Logic.I.
  - rewrite E. constructor. rewrite bytes_app. lia.
  - rewrite app_nil_r in W. cbn [app bytes] in *. exists x, (tree_text (Node g ks)), a. split; [exact W|]. eauto.
Qed.
Print Assumptions C111_selection.

(** [x: {] newline [y }]: a node for the block within the unit. *)
Definition sample : tree := Node false [Node false [Tok [120; 58]%N]; Tok [32]%N; Node true [Tok [123; 10]%N; Node false [Tok [121]%N]; Tok [32; 125]%N]; Tok [10]%N].
Example sample_example :
  selection sample (1, 0) = [((1, 0), (1, 1)); ((0, 3), (1, 3)); ((0, 0), (2, 0))] /\
  folding sample = [((0, 3), (1, 3))] /\ tree_text sample = [120; 58; 32; 123; 10]%N ++ [121; 32; 125; 10]%N /\
  place [120; 58; 32; 123; 10]%N = (1, 0).
Proof. repeat split; reflexivity. Qed.
