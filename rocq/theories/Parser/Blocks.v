(** Elements, lists and blocks. *)
From Coq Require Import List NArith ZArith Bool Arith Lia.
Import ListNotations.
From Verif.Text Require Import Model.
From Verif.Lexer Require Import Model.
From Verif.Parser Require Import Model Spec Halts Forests Sinks Parses.
Open Scope nat_scope.

(** ** Functions that call the sink of a block *)

Definition feeds {A} (N : nat) (m : parser A) (used rest : list word) (Q : A -> list word -> Prop) : Prop :=
  m used rest = Stuck \/
  exists a os es c r, rest = c ++ r /\ m used rest = Ret a os es (rev c ++ used) r /\ Forall (located N) es /\ Q a r /\
    forall base s c0, inv N base s c0 rest -> exists s', sink_ops s os = Some s' /\ inv N base s' (c0 ++ c) r.

Lemma feeds_bind : forall A B N (m : parser A) (f : A -> parser B) used rest Q Q', feeds N m used rest Q ->
  (forall a c r, rest = c ++ r -> Q a r -> feeds N (f a) (rev c ++ used) r Q') -> feeds N (bind m f) used rest Q'.
Proof.
  intros A B N m f used rest Q Q' [H | (a & os & es & c & r & E & R & F & H & S)] G; [left; unfold bind; rewrite H; reflexivity|].
  destruct (G a c r E H) as [H' | (b & os' & es' & c' & r' & E' & R' & F' & H' & S')]; [left; unfold bind; rewrite R, H'; reflexivity|].
  right. exists b, (os ++ os'), (es ++ es'), (c ++ c'), r'. split; [rewrite E, E', app_assoc; reflexivity|].
  split; [unfold bind; rewrite R, R', rev_app_distr, <- app_assoc; reflexivity|]. split; [apply Forall_app; auto|]. split; [exact H'|].
  intros base s c0 I. destruct (S base s c0 I) as (s1 & E1 & I1). destruct (S' base s1 (c0 ++ c) I1) as (s2 & E2 & I2).
  exists s2. rewrite sink_ops_app, E1, app_assoc. auto.
Qed.
Lemma feeds_ret : forall A N (a : A) used rest (Q : A -> list word -> Prop), Q a rest -> feeds N (ret a) used rest Q.
Proof.
  intros A N a used rest Q H. right. exists a, [], [], [], rest. split; [reflexivity|]. split; [reflexivity|]. split; [constructor|]. split; [exact H|].
  intros base s c0 I. exists s. rewrite app_nil_r. auto.
Qed.
Lemma feeds_peek : forall A N (f : option word -> parser A) used rest Q, feeds N (f (hd_error rest)) used rest Q -> feeds N (w <- peek;; f w) used rest Q.
Proof. intros A N f used rest Q H. unfold feeds in *. rewrite bind_peek. exact H. Qed.

Lemma trivia_inv : forall c N base s c0 rest, trivia_only c -> inv N base s c0 (c ++ rest) -> exists s', sink_ops s (map tok c) = Some s' /\ inv N base s' (c0 ++ c) rest.
Proof.
  induction c as [|w c IH]; intros N base s c0 rest T I; [exists s; rewrite app_nil_r; auto|]. inversion T as [|? ? T1 T2]; subst.
  destruct (trivial_inv N base s c0 w (c ++ rest) I T1) as (s1 & E1 & I1). destruct (IH N base s1 (c0 ++ [w]) rest T2 I1) as (s2 & E2 & I2).
  exists s2. cbn [map sink_ops]. rewrite E1. split; [exact E2|]. rewrite <- app_assoc in I2. exact I2.
Qed.
Lemma feeds_trivia : forall n N used rest, good n rest -> feeds N trivia used rest (fun _ => good n).
Proof.
  intros n N used rest G. right. destruct (trivia_spec rest used) as (c & r & -> & E & T). unfold trivia. rewrite E. cbn [scanned].
  exists tt, (map tok c), [], c, r. split; [reflexivity|]. split; [reflexivity|]. split; [constructor|]. split; [eapply trivia_good; eauto|].
  intros base s c0 I. apply trivia_inv; assumption.
Qed.

(** A comma, a backtick or trivia. *)
Lemma feeds_take : forall n N used w rest, good n (w :: rest) -> among [BACKTICK; COMMA; WHITESPACE; COMMENT] (fst w) = true ->
  feeds N take used (w :: rest) (fun _ => good n).
Proof.
  intros n N used w rest G K. right. exists tt, [tok w], [], [w], rest. split; [reflexivity|]. split; [reflexivity|]. split; [constructor|].
  split; [eapply good_tail; [exact G|]; intros E; rewrite E in K; discriminate K|]. intros base s c0 I. cbn [sink_ops].
  assert (H : exists s', sink_op s (tok w) = Some s' /\ inv N base s' (c0 ++ [w]) rest).
  { apply among_in in K. destruct K as [E | [E | [E | [E | []]]]].
    - apply backtick_inv; auto.
    - apply comma_inv; auto.
    - apply trivial_inv; auto. rewrite <- E. reflexivity.
    - apply trivial_inv; auto. rewrite <- E. reflexivity. }
  destruct H as (s' & E & H). rewrite E. eauto.
Qed.

(** One tree, or none. *)
Lemma feeds_tree : forall N n (m : parser bool) used rest,
  ok N m used rest ([], []) (fun b c r s' => good n r /\ if b then exists t, headed t /\ leaves t = c /\ s' = ([], [] ++ [t]) else c = [] /\ s' = ([], [])) ->
  feeds N m used rest (fun _ => good n).
Proof.
  intros N n m used rest [H | (a & os & es & c & r & s' & E & R & S & F & G & H)]; [left; exact H|right]. exists a, os, es, c, r. repeat split; auto; try apply G.
  intros base s c0 I. assert (D : depth s = 0) by (destruct I as (C & B & I); apply (inv_depth _ _ _ _ _ _ _ I)). destruct a.
  - destruct H as (t & T & L & ->). exists (pushed s (buffer s ++ flat t) 0 (current_offset s + width (leaves t))). split; [apply tree_sink; assumption|].
    rewrite <- L. apply push_inv; [rewrite L, <- E; exact I|left; exact T].
  - destruct H as [-> ->]. exists s. rewrite app_nil_r. cbn in E. subst rest. split; [|exact I].
    destruct (osteps_sink _ _ _ S s (buffer s) D) as (o & EQ & W); [cbn; rewrite app_nil_r; reflexivity|]. cbn in EQ, W. rewrite app_nil_r in EQ.
    rewrite EQ. change (width []) with 0 in W. rewrite !Nat.add_0_r in W. subst o. f_equal. destruct s. unfold pushed. cbn in *. subst. reflexivity.
Qed.

(** A colon, or two. *)
Lemma feeds_colon : forall n N used x rest, good n ((COLON, x) :: rest) -> width used + width ((COLON, x) :: rest) <= N ->
  feeds N block_colon used ((COLON, x) :: rest) (fun _ => good n).
Proof.
  intros n N used x rest G L.
  assert (G1 : good n rest) by (eapply good_tail; [exact G|discriminate]).
  assert (ONE : (forall t r, rest <> (COLON, t) :: r) -> feeds N (take;; trivia) used ((COLON, x) :: rest) (fun _ => good n)).
  { intros NC. eapply feeds_bind with (Q := fun _ => good n); [|intros a c r _ Gr; apply feeds_trivia; exact Gr].
    right. exists tt, [tok (COLON, x)], [], [(COLON, x)], rest. split; [reflexivity|]. split; [reflexivity|]. split; [constructor|]. split; [exact G1|].
    intros base s c0 I. cbn [sink_ops]. destruct (colon_inv N base s c0 (COLON, x) rest I eq_refl) as (s' & E & I'); [exact (proj1 G [] _ _ eq_refl)|exact NC|]. rewrite E. eauto. }
  destruct rest as [|[k y] rest]; [apply ONE; intros; discriminate|]. destruct (kind_eq_dec k COLON) as [-> | NK].
  - assert (G2 : good n rest) by (eapply good_tail; [exact G1|discriminate]).
    right. cbn [block_colon]. destruct (trivia_spec rest ((COLON, y) :: (COLON, x) :: used)) as (c & r & -> & E & T).
    exists tt, ([OStart ERROR_STOWAWAYS; tok (COLON, x); tok (COLON, y); OFinish] ++ map tok c), [InvalidDoubleColon (width used, width used + length x + length y)], ((COLON, x) :: (COLON, y) :: c), r.
    split; [reflexivity|]. split; [|split; [|split; [eapply trivia_good; eauto|]]].
    + unfold block_colon, bind, report, start, take, finish, trivia. cbv beta iota. match goal with |- context [trivia_scan ?a ?b] => change (trivia_scan a b) with (trivia_scan ((COLON, y) :: (COLON, x) :: used) (c ++ r)) end.
      match goal with |- context [scanned tt ?t] => replace t with (map tok c, rev c ++ (COLON, y) :: (COLON, x) :: used, r) by (symmetry; exact E) end.
      cbn [scanned fst snd app]. rewrite !rev_snoc. reflexivity.
    + constructor; [|constructor]. unfold located. cbn [range_of fst snd]. revert L. rewrite !width_cons. cbn [snd]. lia.
    + intros base s c0 I. assert (D : depth s = 0) by (destruct I as (C & B & I); apply (inv_depth _ _ _ _ _ _ _ I)).
      set (t := Node ERROR_STOWAWAYS [Leaf COLON x; Leaf COLON y]).
      assert (O : osteps [OStart ERROR_STOWAWAYS; tok (COLON, x); tok (COLON, y); OFinish] ([], []) ([], [t])).
      { econstructor; [constructor|]. econstructor; [constructor; discriminate|]. econstructor; [constructor; discriminate|]. apply osteps_one. apply ostep_finish. }
      rewrite sink_ops_app, (tree_sink _ t O s D).
      assert (I' : inv N base (pushed s (buffer s ++ flat t) 0 (current_offset s + width (leaves t))) (c0 ++ leaves t) (c ++ r)).
      { apply push_inv; [exact I|left]. exists ERROR_STOWAWAYS. eexists. split; [reflexivity|]. eexists _, _, _. split; [reflexivity|exact Logic.I]. }
      destruct (trivia_inv _ _ _ _ _ _ T I') as (s2 & E2 & I2). exists s2. split; [exact E2|]. rewrite <- app_assoc in I2. exact I2.
  - unfold feeds, block_colon in *. destruct k; try (destruct (NK eq_refl); fail); apply ONE; intros; discriminate.
Qed.

(** The contents of a block. *)
Lemma adds_content : forall n m, (forall N used rest, good n rest -> width used + width rest <= N -> feeds N m used rest (fun _ : unit => good n)) -> adds (good n) (content m) (fun _ => good n).
Proof.
  intros n m M N op ch used rest NE G L. destruct (M N used rest G L) as [H | (a & os & es & c & r & E & R & F & Gr & S)]; [left; unfold content; rewrite H; reflexivity|right].
  destruct (S (width used) (with_start (width used)) []) as (s' & E1 & I1); [apply start_inv; exact L|]. destruct (complete_inv _ _ _ _ _ I1) as (Fo & es' & E2 & T & F').
  exists tt, [OAccept (flats Fo) (width (tokens_of Fo))], (es ++ es'), c, r, (op, ch ++ Fo). split; [exact E|]. split; [|split; [|split; [|split]]].
  - unfold content. rewrite R, E1, E2. f_equal. f_equal. f_equal. rewrite token_kinds_length, flats_kinds, map_length, T. cbn [app].
    match goal with |- context [firstn ?k (rev c ++ used)] => replace k with (length (rev c)) by (rewrite rev_length; reflexivity) end. rewrite firstn_app_l, width_rev. reflexivity.
  - apply osteps_one. constructor. exact NE.
  - apply Forall_app. auto.
  - exact Gr.
  - exists Fo. auto.
Qed.

(** ** Elements *)

Lemma ok_adds : forall A B P (m : parser A) R (f : A -> parser B) N op ch used rest Q, adds P m R -> op <> [] -> P rest -> width used + width rest <= N ->
  (forall a c r ts, rest = c ++ r -> R a r -> tokens_of ts = c -> width (rev c ++ used) + width r <= N ->
    ok N (f a) (rev c ++ used) r (op, ch ++ ts) (fun b c' r' s' => Q b (c ++ c') r' s')) ->
  ok N (bind m f) used rest (op, ch) Q.
Proof.
  intros A B P m R f N op ch used rest Q M NE H L F. apply ok_bind. eapply ok_weaken; [apply M; auto|].
  intros a c r s' E [Ra (ts & T & ->)]. apply F; auto. subst rest. apply fits_next. exact L.
Qed.

Lemma adds_soup : forall n l, adds (good n) l (fun _ => good n) -> adds (good n) (soup l) (fun _ => good n).
Proof.
  intros n l A N op ch used rest NE G L. unfold soup. apply ok_start.
  eapply ok_adds; [exact A|discriminate|exact G|exact L|]. intros a1 c1 r1 ts1 E1 G1 T1 L1.
  eapply ok_adds; [apply adds_trivia|discriminate|exact G1|exact L1|]. intros a2 c2 r2 ts2 E2 G2 T2 L2.
  apply ok_last. split; [exact G2|]. eexists. split; [|reflexivity]. cbn. rewrite flat_map_app, T1, T2, !app_nil_r. reflexivity.
Qed.
Lemma adds_try_soup : forall n l, adds (good n) l (fun _ => good n) -> adds (good n) (try_soup l) (fun _ => good n).
Proof.
  intros n l A. unfold try_soup. apply adds_peek. intros w.
  match goal with |- adds _ (if ?b then _ else _) _ => destruct b end.
  - eapply adds_weaken; [apply adds_ret|intros r [H _]; exact H|intros ? ? H; exact H].
  - intros N op ch used rest NE [G _] L. apply ok_start.
    eapply ok_adds; [exact A|discriminate|exact G|exact L|]. intros a1 c1 r1 ts1 E1 G1 T1 L1.
    eapply ok_adds; [apply adds_trivia|discriminate|exact G1|exact L1|]. intros a2 c2 r2 ts2 E2 G2 T2 L2.
    apply ok_finish, ok_ret. split; [exact G2|]. eexists. split; [|reflexivity]. cbn. rewrite flat_map_app, T1, T2, !app_nil_r. reflexivity.
Qed.

Lemma fits_one : forall N used w rest, width used + width (w :: rest) <= N -> width (w :: used) + width rest <= N.
Proof. intros N used w rest. rewrite !width_cons. lia. Qed.

Lemma fits_rest : forall N used rest c r, rest = c ++ r -> width used + width rest <= N -> width (rev c ++ used) + width r <= N.
Proof. intros N used rest c r -> L. apply fits_next. exact L. Qed.

(** What is known of the next tokens in a bracket. *)
Lemma good_open : forall n s rest, good n ((BRACKET_OPEN, s) :: rest) -> good (S n) rest.
Proof.
  intros n s rest [C O]. split; [eapply clear_tail; exact C|]. destruct n as [|n].
  - destruct (C [] _ _ eq_refl) as (a & w & b & -> & K & E). exists (a ++ [w]), b. rewrite <- app_assoc. split; [reflexivity|].
    rewrite !count_app, !count_cons, K, E. cbn. lia.
  - eapply over_open; [exact O|reflexivity|discriminate].
Qed.
Lemma good_less : forall n rest, good (S n) rest -> good n rest.
Proof. intros n rest [C (a & b & E & L)]. split; [exact C|]. exists a, b. split; [exact E|]. lia. Qed.
Lemma good_close : forall n w rest, good (S n) (w :: rest) -> good n rest.
Proof. intros n w rest [C O]. split; [eapply clear_tail; exact C|eapply over_close; exact O]. Qed.

Definition element_ok (fuel : nat) : Prop := forall n N op ch used rest, good n rest -> width used + width rest <= N ->
  ok N (element fuel) used rest (op, ch) (fun b c r s' => good n r /\ if b then exists t, headed t /\ leaves t = c /\ s' = (op, ch ++ [t]) else c = [] /\ s' = (op, ch)).

Lemma adds_element : forall fuel, element_ok fuel -> forall n, adds (good n) (element fuel) (fun _ => good n).
Proof.
  intros fuel H n N op ch used rest NE G L. eapply ok_weaken; [apply (H n); assumption|]. intros b c r s' E [Gr B]. split; [exact Gr|]. destruct b.
  - destruct B as (t & _ & T & ->). exists [t]. cbn. rewrite app_nil_r. auto.
  - destruct B as [-> ->]. exists []. rewrite app_nil_r. auto.
Qed.

Ltac adding l := eapply ok_adds; [apply l|discriminate|eassumption|eassumption|];
  let a := fresh "a" in let c := fresh "c" in let r := fresh "r" in let ts := fresh "ts" in let E := fresh "E" in let G := fresh "G" in let T := fresh "T" in let L := fresh "L" in
  intros a c r ts E G T L; cbv beta in G.
Lemma conclude : forall n nd X op ch k s l r, good n r -> tokens_of X = (k, s) :: l -> begins nd ((k, s) :: l) ->
  good n r /\ exists t, headed t /\ leaves t = (k, s) :: l /\ (op : list (node * list tree), ch ++ [Node nd X]) = (op, ch ++ [t]).
Proof.
  intros n nd X op ch k s l r G T B. split; [exact G|]. exists (Node nd X). split; [|split; [exact T|reflexivity]].
  exists nd, X. split; [reflexivity|]. cbn [leaves]. rewrite T. exact B.
Qed.
Ltac words := repeat (rewrite ?flat_map_app; cbn [flat_map leaves fst snd app]); repeat match goal with T : flat_map leaves _ = _ |- _ => rewrite T; clear T end; rewrite ?app_nil_r; repeat (rewrite <- ?app_assoc; cbn [app]); reflexivity.
Ltac done := apply conclude; [assumption|words|eexists _, _, _; split; [reflexivity|cbn; auto 10]].

Lemma main : forall fuel, element_ok fuel /\ (forall n, adds (good n) (elements fuel) (fun _ => good n)) /\ (forall n, adds (good n) (soup_loop fuel) (fun _ => good n)) /\
  (forall n tail, adds (good n) (items fuel tail) (fun _ => good n)) /\
  (forall n close N used rest, good n rest -> width used + width rest <= N -> feeds N (block_loop fuel close) used rest (fun _ => good n)).
Proof.
  induction fuel as [|fuel (IE & IL & IS & II & IB)].
  { split; [intros n N op ch used rest G L; left; reflexivity|]. split; [intros n N op ch used rest NE G L; left; reflexivity|]. split; [intros n N op ch used rest NE G L; left; reflexivity|].
    split; [intros n tail N op ch used rest NE G L; left; reflexivity|intros n close N used rest G L; left; reflexivity]. }
  assert (IC : forall n close, adds (good n) (content (block_loop fuel close)) (fun _ => good n)) by (intros; apply adds_content; intros; apply IB; assumption).
  split; [|split; [|split; [|split]]].
  - intros n N op ch used rest G L. cbn [element]. apply ok_peek. destruct rest as [|[k s] rest]; [apply ok_ret; auto|]. cbn [hd_error].
    assert (ATOM : ok N atom used ((k, s) :: rest) (op, ch) (fun b c r s' => good n r /\ if b then exists t, headed t /\ leaves t = c /\ s' = (op, ch ++ [t]) else c = [] /\ s' = (op, ch))) by (apply ok_atom; assumption).
    pose proof (fits_one _ _ _ _ L) as L1.
    destruct k; try exact ATOM; clear ATOM; try (assert (G1 : good n rest) by (eapply good_tail; [exact G|discriminate])).
    + (* { *)
      apply ok_start, ok_expect; [discriminate|]. adding adds_trivia. adding (IC n CLOSE_BRACE). adding adds_trivia.
      eapply ok_adds; [apply adds_close_or_recover; [cbn; tauto|discriminate]|discriminate|eassumption|eassumption|]. intros.
      apply ok_finish, ok_ret. done.
    + (* { applied *)
      apply ok_start, ok_start, ok_start, ok_expect; [discriminate|]. adding adds_trivia. adding (IC n CLOSE_BRACE). adding adds_trivia.
      eapply ok_adds; [apply adds_expect; discriminate|discriminate|eassumption|eassumption|]. intros.
      apply ok_finish, ok_finish, ok_finish, ok_ret. done.
    + (* [ *)
      apply ok_start, ok_take; [discriminate|]. adding adds_trivia. adding (II n true). adding adds_trivia.
      eapply ok_adds; [apply adds_close_or_recover; [cbn; tauto|discriminate]|discriminate|eassumption|eassumption|]. intros.
      apply ok_finish, ok_ret. done.
    + (* [ applied *)
      apply ok_start, ok_start, ok_start, ok_expect; [discriminate|]. adding adds_trivia. adding (II n true). adding adds_trivia.
      eapply ok_adds; [apply adds_expect; discriminate|discriminate|eassumption|eassumption|]. intros.
      apply ok_finish, ok_finish, ok_finish, ok_ret. done.
    + (* ( *)
      apply ok_start, ok_expect; [discriminate|]. adding adds_trivia. adding (adds_soup n _ (IS n)).
      eapply ok_adds; [apply adds_close_or_recover; [cbn; tauto|discriminate]|discriminate|eassumption|eassumption|]. intros.
      apply ok_finish, ok_ret. done.
    + (* ( applied *)
      apply ok_start, ok_expect; [discriminate|]. adding adds_trivia. adding (II n false). adding adds_trivia.
      eapply ok_adds; [apply adds_expect; discriminate|discriminate|eassumption|eassumption|]. intros b ? ? ? ? ? ? ?.
      eapply ok_adds with (P := good n) (R := fun _ => good n); [destruct b; [apply adds_ret|apply adds_recover_args]|discriminate|eassumption|eassumption|]. intros.
      apply ok_finish, ok_ret. done.
    + (* reserved brackets *)
      apply ok_start, ok_expect; [discriminate|]. adding adds_trivia. adding (adds_soup n _ (IS n)).
      eapply ok_adds; [apply adds_expect; discriminate|discriminate|eassumption|eassumption|]. intros.
      apply ok_finish, ok_ret. done.
    + (* other brackets *)
      apply ok_look. clear G1. pose proof (good_open _ _ _ G) as G1.
      apply ok_bind. eapply ok_weaken with (Q := fun _ c r s' => good (S n) r /\ exists nd ts c1, In nd [BRACKET_BLOCK; BRACKET_EXPR] /\ s' = ((nd, ch) :: op, ts) /\ tokens_of ts = c /\ c = (BRACKET_OPEN, s) :: c1).
      { match goal with |- context [if ?b then _ else _] => destruct b end; apply ok_start, ok_expect; try discriminate.
        - adding adds_trivia. adding (IC (S n) BRACKET_CLOSE). eapply ok_weaken; [apply adds_trivia; [discriminate|eassumption|eassumption]|].
          intros a1 c1 r1 s' E1 [G4 (ts1 & T1 & ->)]. split; [exact G4|]. eexists _, _, _. split; [left; reflexivity|]. split; [reflexivity|]. split; [|reflexivity]. words.
        - adding adds_trivia. eapply ok_weaken; [apply (adds_soup _ _ (IS (S n))); [discriminate|eassumption|eassumption]|].
          intros a1 c1 r1 s' E1 [G4 (ts1 & T1 & ->)]. split; [exact G4|]. eexists _, _, _. split; [right; left; reflexivity|]. split; [reflexivity|]. split; [|reflexivity]. words. }
      intros [] c r1 s' E1 (G2 & nd & ts & c1 & IN & -> & T1 & ->).
      assert (L2 : width (rev ((BRACKET_OPEN, s) :: c1) ++ used) + width r1 <= N) by exact (fits_rest _ _ _ _ _ E1 L).
      destruct r1 as [|[k x] r1]; [destruct (over_ne n [] (proj2 G2) eq_refl)|]. unfold accept. apply ok_bind, ok_peek. cbn [hd_error].
      assert (BG : forall l, begins nd ((BRACKET_OPEN, s) :: l)) by (intros l; eexists _, _, _; split; [reflexivity|]; destruct IN as [<- | [<- | []]]; [exact I|reflexivity]).
      destruct (is k BRACKET_CLOSE) eqn:EK.
      * apply ok_take; [discriminate|]. apply ok_ret. apply ok_bind, ok_ret. apply ok_finish, ok_ret. cbn [app]. apply conclude; [eapply good_close; exact G2| |apply BG].
        rewrite flat_map_app, T1. cbn. reflexivity.
      * apply ok_ret. apply ok_bind. apply ok_next_range. right. exists tt, []. eexists _, [], ((k, x) :: r1), ((nd, ch) :: op, ts). split; [reflexivity|]. split; [reflexivity|].
        split; [constructor|]. split; [constructor; [|constructor]; eapply located_next; [reflexivity|exact L2]|]. apply ok_finish, ok_ret. cbn [app]. rewrite !app_nil_r.
        apply conclude; [apply good_less; exact G2|exact T1|apply BG].
  - intros n. cbn [elements]. eapply adds_bind; [apply (adds_element fuel IE)|]. intros [|]; [|apply adds_ret]. eapply adds_bind; [apply adds_trivia|]. intros ?. apply IL.
  - intros n. cbn [soup_loop]. apply adds_peek. intros [[k s]|]; [|eapply adds_weaken; [apply adds_ret|intros r [H _]; exact H|intros ? ? H; exact H]].
    destruct (is_trivial k) eqn:EK.
    + eapply adds_bind; [|intros ?; apply IS]. eapply adds_weaken; [apply adds_take| |intros ? ? H; exact H]. intros r [G H]. split; [exact G|]. intros w r' ->. injection H as ->. intros K. cbn in K. subst k. discriminate EK.
    + eapply adds_bind; [eapply adds_weaken; [apply (adds_element fuel IE n)|intros r [H _]; exact H|intros ? ? H; exact H]|]. intros [|]; [apply IS|apply adds_ret].
  - intros n tail. cbn [items]. eapply adds_bind; [apply adds_try_soup, IL|]. intros [|]; [|apply adds_ret].
    eapply adds_bind; [apply adds_accept; discriminate|]. intros [|].
    + eapply adds_bind; [apply adds_trivia|]. intros ?. apply II.
    + destruct tail; [|apply adds_ret]. eapply adds_bind; [apply adds_accept; discriminate|]. intros [|]; [|apply adds_ret].
      eapply adds_bind; [apply adds_trivia|]. intros ?. eapply adds_bind; [apply adds_try_soup, IL|]. intros ?. apply adds_ret.
  - intros n close N used rest G L. cbn [block_loop]. apply feeds_peek. destruct rest as [|[k s] rest]; [apply feeds_ret; exact G|]. cbn [hd_error].
    assert (NEXT : forall (u : unit) c r, (k, s) :: rest = c ++ r -> good n r -> feeds N (block_loop fuel close) (rev c ++ used) r (fun _ => good n)).
    { intros _ c r E Gr. apply IB; [exact Gr|]. exact (fits_rest _ _ _ _ _ E L). }
    destruct (is k COLON) eqn:E1; [|destruct (among [BACKTICK; COMMA; WHITESPACE; COMMENT] k) eqn:E2; [|destruct (is k close) eqn:E3]].
    + apply is_spec in E1. subst k. eapply feeds_bind; [apply feeds_colon; eassumption|]. exact NEXT.
    + eapply feeds_bind; [apply feeds_take; [exact G|exact E2]|]. intros a c r E Gr. eapply feeds_bind; [apply feeds_trivia; exact Gr|].
      intros a' c' r' E' Gr'. apply IB; [exact Gr'|]. exact (fits_rest _ _ _ _ _ E' (fits_rest _ _ _ _ _ E L)).
    + apply feeds_ret. exact G.
    + eapply feeds_bind; [apply feeds_tree; apply (IE n); assumption|]. intros b c r E Gr. destruct b; [apply (NEXT tt); assumption|apply feeds_ret; exact Gr].
Qed.
