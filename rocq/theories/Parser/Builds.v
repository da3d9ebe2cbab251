(** The tree that is built. *)
From Coq Require Import List NArith ZArith Bool Arith Lia.
Import ListNotations.
From Verif.Text Require Import Model.
From Verif.Lexer Require Import Model.
From Verif.Parser Require Import Model Spec Halts Forests Sinks Parses Blocks.
Open Scope nat_scope.

Lemma osteps_events : forall os st st', osteps os st st' ->
  opened (fst st) ++ flats (snd st) ++ concat (map events_of os) = opened (fst st') ++ flats (snd st').
Proof.
  intros os st st' H. induction H as [st|o os st st1 st2 H1 H2 IH]; [cbn; rewrite app_nil_r; reflexivity|].
  rewrite <- IH. cbn [map concat]. rewrite !app_assoc. f_equal.
  destruct H1 as [n op ch|n b op ch|w op ch NE|f op ch NE]; cbn [fst snd opened events_of tok flat_map];
    rewrite ?flat_map_app; cbn [flat_map flat]; rewrite ?app_nil_r, <- ?app_assoc; reflexivity.
Qed.

(** The events of a node, and the tokens that are left. *)
Lemma build_node : forall n ts r, exists ts', build (tokens_of ts ++ r) (flat (Node n ts)) r = Some (Node n ts') /\ tokens_of ts' = tokens_of ts ++ r.
Proof.
  intros n ts r. set (ts' := ts ++ match r with [] => [] | _ => [Node ERROR_STOWAWAYS (map leaf_of r)] end). exists ts'.
  assert (T : tokens_of ts' = tokens_of ts ++ r).
  { unfold ts'. rewrite flat_map_app. destruct r as [|w r]; [reflexivity|]. cbn [flat_map leaves]. rewrite leaves_of, app_nil_r. reflexivity. }
  split; [|exact T]. unfold build.
  assert (E : match surplus r, rev (flat (Node n ts)) with [], _ => Some (flat (Node n ts)) | s, last :: before => Some (rev before ++ s ++ [last]) | _, [] => None end = Some (flat (Node n ts'))).
  { unfold ts'. destruct r as [|w r]; [rewrite app_nil_r; reflexivity|]. cbn [surplus flat]. change (Start n :: flats ts ++ [Finish]) with ((Start n :: flats ts) ++ [Finish]).
    rewrite rev_app_distr. cbn [rev app]. rewrite rev_app_distr, rev_involutive. cbn [rev app].
    assert (M : forall l, flats (map leaf_of l) = map (fun w0 : word => Token (fst w0)) l) by (induction l as [|v l IH]; [reflexivity|]; cbn; rewrite IH; reflexivity).
    rewrite flat_map_app. cbn [flat_map flat]. rewrite M, app_nil_r. repeat (rewrite <- ?app_assoc; cbn [app]). reflexivity. }
  rewrite E. destruct (list_eq_dec _ _ _) as [_ | NE].
  - pose proof (builder_flats [Node n ts'] [] [] [] []) as B. cbn [flat_map leaves] in B. rewrite !app_nil_r, T in B. rewrite B. reflexivity.
  - exfalso. apply NE. pose proof (flats_kinds [Node n ts']) as K. cbn [flat_map leaves] in K. rewrite !app_nil_r, T in K. exact K.
Qed.

(** What is built has the tokens in order. *)
Lemma builder_leaves : forall es op ch ws ts, builder op ch es ws = Some ts -> token_kinds es = map fst ws ->
  tokens_of (rev ts) = tokens_of (rev (ch ++ concat (map snd op))) ++ ws.
Proof.
  induction es as [|e es IH]; intros op ch ws ts B K.
  - cbn in B. injection B as <-. destruct ws; [|discriminate K]. rewrite app_nil_r. reflexivity.
  - destruct e as [n| |k]; cbn [builder] in B.
    + rewrite (IH _ _ _ _ B K). reflexivity.
    + destruct op as [|[n b] op]; [discriminate B|]. rewrite (IH _ _ _ _ B K). cbn [map concat snd]. rewrite !app_assoc.
      change ((Node n (rev ch) :: b) ++ concat (map snd op)) with ([Node n (rev ch)] ++ (b ++ concat (map snd op))).
      rewrite <- app_assoc. rewrite !rev_app_distr, !flat_map_app. cbn [rev app flat_map leaves]. rewrite app_nil_r. reflexivity.
    + destruct ws as [|w ws]; [discriminate B|]. cbn in K. injection K as K1 K2. rewrite (IH _ _ _ _ B K2).
      change ((Leaf k (snd w) :: ch) ++ concat (map snd op)) with ([Leaf k (snd w)] ++ (ch ++ concat (map snd op))).
      rewrite rev_app_distr, flat_map_app. cbn [rev app flat_map leaves]. rewrite <- app_assoc. cbn. rewrite K1. destruct w. reflexivity.
Qed.
Lemma build_leaves : forall words es rest t, build words es rest = Some t -> leaves t = words.
Proof.
  intros words es rest t B. unfold build in B. destruct (match surplus rest, rev es with [], _ => _ | _, _ => _ end) as [es'|]; [|discriminate B].
  destruct (list_eq_dec _ _ _) as [K|_]; [|discriminate B]. destruct (builder [] [] es' words) as [ts|] eqn:E; [|discriminate B].
  pose proof (builder_leaves _ _ _ _ _ E K) as L. cbn in L. destruct ts as [|[n ts|k s] [|u us]]; try discriminate B. injection B as <-. cbn in L. rewrite app_nil_r in L. exact L.
Qed.

Lemma parsed : forall n (m : parser unit) ws,
  ok (width ws) m [] ws ([], []) (fun _ c r s' => exists ts, tokens_of ts = c /\ s' = ([], [Node n ts])) ->
  finished ws (m [] ws) <> OutOfFuel ->
  exists ts es, finished ws (m [] ws) = Parsed (Node n ts) es /\ tokens_of ts = ws /\ Forall (located (width ws)) es.
Proof.
  intros n m ws [H | (a & os & es & c & r & s' & E & R & S & F & (ts & T & ->))] NF; [rewrite H in NF; destruct (NF eq_refl)|].
  rewrite R. cbn [finished]. apply osteps_events in S. cbn in S. rewrite app_nil_r in S. rewrite S.
  destruct (build_node n ts r) as (ts' & B & T'). rewrite T in B, T'. rewrite <- E in B, T'. cbn [flat] in B. rewrite B. eauto.
Qed.

Lemma good_0 : forall ws, clear ws -> good 0 ws.
Proof. intros ws C. split; [exact C|apply over_0]. Qed.

Lemma unit_parses : forall ws, clear ws -> exists ts es, parse_unit ws = Parsed (Node UNIT ts) es /\ tokens_of ts = ws /\ Forall (located (width ws)) es.
Proof.
  intros ws C. apply parsed; [|apply unit_halts]. pose proof (good_0 ws C) as G. assert (L : width [] + width ws <= width ws) by (cbn; lia).
  apply ok_start. adding adds_trivia. eapply ok_adds; [apply adds_content; intros; apply (main (enough ws)); assumption|discriminate|eassumption|eassumption|].
  intros [] c9 r9 ts9 E9 G9 T9 L9. cbv beta in G9. adding adds_trivia. apply ok_last. eexists. split; [|reflexivity]. words.
Qed.
Lemma expression_parses : forall ws, clear ws -> exists ts es, parse_expression ws = Parsed (Node SOUP ts) es /\ tokens_of ts = ws /\ Forall (located (width ws)) es.
Proof.
  intros ws C. apply parsed; [|apply expression_halts]. pose proof (good_0 ws C) as G. assert (L : width [] + width ws <= width ws) by (cbn; lia).
  unfold soup. apply ok_start. adding (proj1 (proj2 (proj2 (main (enough ws))))). adding adds_trivia. apply ok_last. eexists. split; [|reflexivity]. words.
Qed.
