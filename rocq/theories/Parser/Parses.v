(** What the functions of the parser do with clear streams of tokens. *)
From Coq Require Import List NArith ZArith Bool Arith Lia.
Import ListNotations.
From Verif.Text Require Import Model.
From Verif.Lexer Require Import Model.
From Verif.Parser Require Import Model Spec Halts Forests Sinks.
Open Scope nat_scope.

(** ** Streams *)

(** There are [n] closing brackets more than there are opening ones, in some first part. *)
Definition over (n : nat) (ws : list word) : Prop := exists a b, ws = a ++ b /\ count BRACKET_OPEN a + n <= count BRACKET_CLOSE a.
Definition good (n : nat) (ws : list word) : Prop := clear ws /\ over n ws.

Lemma clear_tail : forall w ws, clear (w :: ws) -> clear ws.
Proof. intros w ws C a w' b E. apply (C (w :: a) w' b). rewrite E. reflexivity. Qed.
Lemma clear_app : forall a b, clear (a ++ b) -> clear b.
Proof. induction a as [|w a IH]; intros b C; [exact C|]. apply IH. apply (clear_tail w). exact C. Qed.
Lemma count_cons : forall k w ws, count k (w :: ws) = (if is (fst w) k then 1 else 0) + count k ws.
Proof. intros k w ws. unfold count. cbn [filter]. destruct (is (fst w) k); reflexivity. Qed.
Lemma count_app : forall k a b, count k (a ++ b) = count k a + count k b.
Proof. induction a as [|w a IH]; intros b; [reflexivity|]. cbn [app]. rewrite !count_cons, IH. lia. Qed.
Lemma over_0 : forall ws, over 0 ws.
Proof. intros ws. exists [], ws. split; [reflexivity|cbn; lia]. Qed.
Lemma is_spec : forall k k', is k k' = true <-> k = k'.
Proof. intros k k'. unfold is. destruct (kind_eq_dec k k'); split; congruence. Qed.
Lemma is_false : forall k k', is k k' = false <-> k <> k'.
Proof. intros k k'. unfold is. destruct (kind_eq_dec k k'); split; congruence. Qed.
Lemma over_tail : forall n w ws, over n (w :: ws) -> fst w <> BRACKET_CLOSE -> over n ws.
Proof.
  intros [|n] w ws O NE; [apply over_0|]. destruct O as (a & b & E & L). destruct a as [|w' a]; [cbn in L; lia|]. injection E as <- E.
  rewrite !count_cons in L. rewrite (proj2 (is_false (fst w) BRACKET_CLOSE) NE) in L. exists a, b. split; [exact E|]. lia.
Qed.
Lemma over_open : forall n w ws, over n (w :: ws) -> fst w = BRACKET_OPEN -> n <> 0 -> over (S n) ws.
Proof.
  intros n w ws (a & b & E & L) K NE. destruct a as [|w' a]; [cbn in L; lia|]. injection E as <- E.
  rewrite !count_cons, K in L. cbn in L. exists a, b. split; [exact E|lia].
Qed.
Lemma over_close : forall n w ws, over (S n) (w :: ws) -> over n ws.
Proof.
  intros n w ws (a & b & E & L). destruct a as [|w' a]; [cbn in L; lia|]. injection E as <- E.
  rewrite !count_cons in L. exists a, b. split; [exact E|]. destruct (is (fst w) BRACKET_CLOSE); lia.
Qed.
Lemma over_ne : forall n ws, over (S n) ws -> ws <> [].
Proof. intros n ws (a & b & E & L) ->. symmetry in E. apply app_eq_nil in E as [-> _]. cbn in L. lia. Qed.
Lemma good_tail : forall n w ws, good n (w :: ws) -> fst w <> BRACKET_CLOSE -> good n ws.
Proof. intros n w ws [C O] NE. split; [eapply clear_tail; exact C|eapply over_tail; eauto]. Qed.

(** ** Runs *)

Definition ok {A} (N : nat) (m : parser A) (used rest : list word) (s : state) (Q : A -> list word -> list word -> state -> Prop) : Prop :=
  m used rest = Stuck \/
  exists a os es c r s', rest = c ++ r /\ m used rest = Ret a os es (rev c ++ used) r /\ osteps os s s' /\ Forall (located N) es /\ Q a c r s'.

Lemma ok_ret : forall A N (a : A) used rest s (Q : A -> list word -> list word -> state -> Prop), Q a [] rest s -> ok N (ret a) used rest s Q.
Proof. intros. right. exists a, [], [], [], rest, s. repeat split; auto. constructor. Qed.
Lemma ok_bind : forall A B N (m : parser A) (f : A -> parser B) used rest s Q,
  ok N m used rest s (fun a c r s' => ok N (f a) (rev c ++ used) r s' (fun b c' r' s'' => Q b (c ++ c') r' s'')) -> ok N (bind m f) used rest s Q.
Proof.
  intros A B N m f used rest s Q [H | (a & os & es & c & r & s' & E & R & S & F & H)]; [left; unfold bind; rewrite H; reflexivity|].
  destruct H as [H | (b & os' & es' & c' & r' & s'' & E' & R' & S' & F' & H)]; [left; unfold bind; rewrite R, H; reflexivity|].
  right. exists b, (os ++ os'), (es ++ es'), (c ++ c'), r', s''. repeat split; auto.
  - rewrite E, E', app_assoc. reflexivity.
  - unfold bind. rewrite R, R'. rewrite rev_app_distr, <- app_assoc. reflexivity.
  - eapply osteps_app; eauto.
  - apply Forall_app; auto.
Qed.
Lemma ok_weaken : forall A N (m : parser A) used rest s (Q Q' : A -> list word -> list word -> state -> Prop),
  ok N m used rest s Q -> (forall a c r s', rest = c ++ r -> Q a c r s' -> Q' a c r s') -> ok N m used rest s Q'.
Proof. intros A N m used rest s Q Q' [H | (a & os & es & c & r & s' & H & H1 & H2 & H3 & H4)] G; [left; exact H|right]. exists a, os, es, c, r, s'. repeat split; auto. Qed.
Lemma ok_peek : forall A N (f : option word -> parser A) used rest s Q, ok N (f (hd_error rest)) used rest s Q -> ok N (w <- peek;; f w) used rest s Q.
Proof. intros A N f used rest s Q H. unfold ok in *. rewrite bind_peek. exact H. Qed.
Lemma ok_look : forall A B N (g : list word -> B) (f : B -> parser A) used rest s Q,
  ok N (f (g rest)) used rest s Q -> ok N (w <- (fun used rest => Ret (g rest) [] [] used rest);; f w) used rest s Q.
Proof. intros A B N g f used rest s Q H. unfold ok in *. rewrite bind_look. exact H. Qed.
Lemma ok_start : forall A N n (f : parser A) used rest op ch Q, ok N f used rest ((n, ch) :: op, []) Q -> ok N (start n;; f) used rest (op, ch) Q.
Proof.
  intros A N n f used rest op ch Q H. apply ok_bind. right. exists tt, [OStart n], [], [], rest, ((n, ch) :: op, []). repeat split; auto.
  apply osteps_one. constructor.
Qed.
Lemma ok_finish : forall A N n (f : parser A) used rest op b ch Q, ok N f used rest (op, b ++ [Node n ch]) Q -> ok N (finish;; f) used rest ((n, b) :: op, ch) Q.
Proof.
  intros A N n f used rest op b ch Q H. apply ok_bind. right. exists tt, [OFinish], [], [], rest, (op, b ++ [Node n ch]). repeat split; auto.
  apply osteps_one. constructor.
Qed.
Lemma ok_report : forall A N e (f : parser A) used rest s Q, located N e -> ok N f used rest s Q -> ok N (report e;; f) used rest s Q.
Proof.
  intros A N e f used rest s Q L H. apply ok_bind. right. exists tt, [], [e], [], rest, s. repeat split; auto. constructor.
Qed.
Lemma ok_next_range : forall A N (f : range -> parser A) used w rest s Q,
  ok N (f (width used, width used + length (snd w))) used (w :: rest) s Q -> ok N (r <- next_range;; f r) used (w :: rest) s Q.
Proof.
  intros A N f used w rest s Q H. apply ok_bind. right. eexists _, [], [], [], (w :: rest), s. repeat split; auto. constructor.
Qed.
Lemma ok_take : forall A N (f : parser A) used w rest op ch Q, op <> [] ->
  ok N f (w :: used) rest (op, ch ++ [Leaf (fst w) (snd w)]) (fun a c r s' => Q a (w :: c) r s') -> ok N (take;; f) used (w :: rest) (op, ch) Q.
Proof.
  intros A N f used w rest op ch Q NE H. apply ok_bind. right. exists tt, [tok w], [], [w], rest, (op, ch ++ [Leaf (fst w) (snd w)]). repeat split; auto.
  apply osteps_one. constructor. exact NE.
Qed.
Lemma ok_expect : forall A N k (f : bool -> parser A) used s rest op ch Q, op <> [] ->
  ok N (f true) ((k, s) :: used) rest (op, ch ++ [Leaf k s]) (fun a c r s' => Q a ((k, s) :: c) r s') -> ok N (b <- expect k;; f b) used ((k, s) :: rest) (op, ch) Q.
Proof.
  intros A N k f used s rest op ch Q NE H. apply ok_bind. unfold expect. apply ok_peek. cbn [hd_error]. rewrite is_refl.
  apply ok_take; [exact NE|]. apply ok_ret. exact H.
Qed.

(** ** Functions that add trees to the node that is open *)

Definition adds {A} (P : list word -> Prop) (m : parser A) (R : A -> list word -> Prop) : Prop :=
  forall N op ch used rest, op <> [] -> P rest -> width used + width rest <= N ->
    ok N m used rest (op, ch) (fun a c r s' => R a r /\ exists ts, tokens_of ts = c /\ s' = (op, ch ++ ts)).

Lemma fits_next : forall N used c r, width used + width (c ++ r) <= N -> width (rev c ++ used) + width r <= N.
Proof. intros N used c r. rewrite !width_app, width_rev. lia. Qed.

Lemma adds_ret : forall A P (a : A), adds P (ret a) (fun _ => P).
Proof. intros A P a N op ch used rest NE H L. apply ok_ret. split; [exact H|]. exists []. rewrite app_nil_r. auto. Qed.
Lemma adds_bind : forall A B P (m : parser A) R (f : A -> parser B) S, adds P m R -> (forall a, adds (R a) (f a) S) -> adds P (bind m f) S.
Proof.
  intros A B P m R f S M F N op ch used rest NE H L. apply ok_bind. eapply ok_weaken; [apply M; auto|].
  intros a c r s' E [Ra (ts & T & ->)]. subst rest. eapply ok_weaken; [apply (F a); auto; apply fits_next; exact L|].
  intros b c' r' s'' E' [Sb (ts' & T' & ->)]. split; [exact Sb|]. exists (ts ++ ts'). rewrite flat_map_app, app_assoc, T, T'. auto.
Qed.
Lemma adds_weaken : forall A (P P' : list word -> Prop) (m : parser A) (R R' : A -> list word -> Prop), adds P m R -> (forall r, P' r -> P r) -> (forall a r, R a r -> R' a r) -> adds P' m R'.
Proof.
  intros A P P' m R R' M HP HR N op ch used rest NE H L. eapply ok_weaken; [apply M; auto|]. intros a c r s' E [Ra T]. auto.
Qed.
Lemma adds_peek : forall A P (f : option word -> parser A) R, (forall w, adds (fun rest => P rest /\ hd_error rest = w) (f w) R) -> adds P (w <- peek;; f w) R.
Proof. intros A P f R F N op ch used rest NE H L. apply ok_peek. apply F; auto. Qed.
Lemma adds_look : forall A B P (g : list word -> B) (f : B -> parser A) R, (forall b, adds P (f b) R) -> adds P (w <- (fun used rest => Ret (g rest) [] [] used rest);; f w) R.
Proof. intros A B P g f R F N op ch used rest NE H L. apply ok_look. apply F; auto. Qed.
Lemma adds_node : forall A B P n (m : parser A) R (b : B), adds P m (fun _ => R) -> adds P (start n;; m;; finish;; ret b) (fun _ => R).
Proof.
  intros A B P n m R b M N op ch used rest NE H L. apply ok_start, ok_bind. eapply ok_weaken; [apply (M N ((n, ch) :: op) []); [discriminate|exact H|exact L]|].
  intros a c r s' E [Ra (ts & T & ->)]. apply ok_finish, ok_ret. split; [exact Ra|]. exists [Node n ts]. rewrite app_nil_r. split; [|reflexivity].
  cbn. rewrite app_nil_r. exact T.
Qed.
Lemma ok_last : forall N n used rest op b ch (Q : unit -> list word -> list word -> state -> Prop), Q tt [] rest (op, b ++ [Node n ch]) -> ok N finish used rest ((n, b) :: op, ch) Q.
Proof.
  intros N n used rest op b ch Q H. right. exists tt, [OFinish], [], [], rest, (op, b ++ [Node n ch]). repeat split; auto. apply osteps_one. constructor.
Qed.
Lemma adds_node' : forall A P n (m : parser A) R, adds P m (fun _ => R) -> adds P (start n;; m;; finish) (fun _ => R).
Proof.
  intros A P n m R M N op ch used rest NE H L. apply ok_start, ok_bind. eapply ok_weaken; [apply (M N ((n, ch) :: op) []); [discriminate|exact H|exact L]|].
  intros a c r s' E [Ra (ts & T & ->)]. apply ok_last. split; [exact Ra|]. exists [Node n ts]. rewrite app_nil_r. split; [|reflexivity].
  cbn. rewrite app_nil_r. exact T.
Qed.

Definition leaf_of (w : word) : tree := Leaf (fst w) (snd w).
Lemma leaves_of : forall c, tokens_of (map leaf_of c) = c.
Proof. induction c as [|[k s] c IH]; [reflexivity|]. cbn. rewrite IH. reflexivity. Qed.
Lemma osteps_toks : forall c op ch, op <> [] -> osteps (map tok c) (op, ch) (op, ch ++ map leaf_of c).
Proof.
  induction c as [|w c IH]; intros op ch NE; [cbn; rewrite app_nil_r; constructor|]. cbn [map]. econstructor; [constructor; exact NE|].
  change (leaf_of w :: map leaf_of c) with ([leaf_of w] ++ map leaf_of c). rewrite app_assoc. apply IH. exact NE.
Qed.

(** The next token, if there is one. *)
Lemma adds_take : forall n, adds (fun rest => good n rest /\ forall w r, rest = w :: r -> fst w <> BRACKET_CLOSE) take (fun _ => good n).
Proof.
  intros n N op ch used rest NE [G K] L. right. destruct rest as [|w rest].
  - exists tt, [], [], [], [], (op, ch). repeat split; auto; [constructor|apply G|apply G|]. exists []. rewrite app_nil_r. auto.
  - exists tt, [tok w], [], [w], rest, (op, ch ++ [leaf_of w]). split; [reflexivity|]. split; [reflexivity|].
    split; [apply osteps_one; constructor; exact NE|]. split; [constructor|]. split; [eapply good_tail; eauto|]. exists [leaf_of w]. split; [|reflexivity]. apply (leaves_of [w]).
Qed.
Lemma located_next : forall N used (w : word) rest e, range_of e = (width used, width used + length (snd w)) -> width used + width (w :: rest) <= N -> located N e.
Proof. intros N used w rest e E L. unfold located. rewrite E. cbn [fst snd]. rewrite width_cons in L. lia. Qed.
Lemma adds_accept : forall n k, k <> BRACKET_CLOSE -> adds (good n) (accept k) (fun _ => good n).
Proof.
  intros n k NK. apply adds_peek. intros [[k' s]|]; [destruct (is k' k) eqn:E|].
  - apply is_spec in E. subst k'. eapply adds_bind; [|intros; apply adds_ret]. eapply adds_weaken; [apply adds_take| |intros ? ? H; exact H].
    intros r [G H]. split; [exact G|]. intros w r' ->. injection H as ->. exact NK.
  - eapply adds_weaken; [apply adds_ret| |intros ? ? H; exact H]. intros r [G _]. exact G.
  - eapply adds_weaken; [apply adds_ret| |intros ? ? H; exact H]. intros r [G _]. exact G.
Qed.
Lemma adds_expect : forall n k, k <> BRACKET_CLOSE -> adds (good n) (expect k) (fun _ => good n).
Proof.
  intros n k NK. apply adds_peek. intros [[k' s]|]; [destruct (is k' k) eqn:E|].
  - apply is_spec in E. subst k'. eapply adds_bind; [|intros; apply adds_ret]. eapply adds_weaken; [apply adds_take| |intros ? ? H; exact H].
    intros r [G H]. split; [exact G|]. intros w r' ->. injection H as ->. exact NK.
  - intros N op ch used rest NE [G H] L. destruct rest as [|w rest]; [discriminate H|]. apply ok_next_range, ok_report.
    + eapply located_next; [reflexivity|exact L].
    + apply ok_ret. split; [exact G|]. exists []. rewrite app_nil_r. auto.
  - eapply adds_weaken; [apply adds_ret| |intros ? ? H; exact H]. intros r [G _]. exact G.
Qed.

(** ** Scans *)

Lemma rev_snoc : forall (w : word) c used, rev (w :: c) ++ used = rev c ++ w :: used.
Proof. intros. cbn [rev]. rewrite <- app_assoc. reflexivity. Qed.


Lemma trivia_spec : forall rest used, exists c r, rest = c ++ r /\ trivia_scan used rest = (map tok c, rev c ++ used, r) /\ trivia_only c.
Proof.
  induction rest as [|w rest IH]; intros used; cbn [trivia_scan].
  - exists [], []. repeat split; constructor.
  - destruct (is_trivial (fst w)) eqn:E.
    + destruct (IH (w :: used)) as (c & r & -> & -> & T). exists (w :: c), r. cbn. rewrite <- app_assoc. repeat split. constructor; auto.
    + exists [], (w :: rest). repeat split; constructor.
Qed.
Lemma trivia_good : forall n c r, trivia_only c -> good n (c ++ r) -> good n r.
Proof.
  induction c as [|w c IH]; intros r T G; [exact G|]. inversion T as [|? ? T1 T2]; subst. apply IH; [exact T2|]. eapply good_tail; [exact G|].
  intros E. rewrite E in T1. discriminate T1.
Qed.
Lemma adds_trivia : forall n, adds (good n) trivia (fun _ => good n).
Proof.
  intros n N op ch used rest NE G L. right. destruct (trivia_spec rest used) as (c & r & -> & E & T). unfold trivia. rewrite E. cbn [scanned].
  exists tt, (map tok c), [], c, r, (op, ch ++ map leaf_of c). split; [reflexivity|]. split; [reflexivity|]. split; [apply osteps_toks; exact NE|].
  split; [constructor|]. split; [eapply trivia_good; eauto|]. exists (map leaf_of c). rewrite leaves_of. auto.
Qed.

Lemma among_in : forall ks k, among ks k = true <-> In k ks.
Proof.
  intros ks k. unfold among. rewrite existsb_exists. split.
  - intros (x & I & E). apply is_spec in E. subst x. exact I.
  - intros I. exists k. split; [exact I|apply is_spec; reflexivity].
Qed.

Lemma recover_spec : forall close stop_at, In BRACKET_CLOSE stop_at -> close <> BRACKET_CLOSE ->
  forall rest depth stowing used n, good n rest -> exists os c r, rest = c ++ r /\ recover_scan close stop_at depth stowing used rest = (os, rev c ++ used, r) /\ good n r /\
    forall op ch, op <> [] -> if stowing then forall ch', exists ts ts', osteps os ((ERROR_STOWAWAYS, ch) :: op, ch') (op, ch ++ [Node ERROR_STOWAWAYS (ch' ++ ts)] ++ ts') /\ tokens_of ts ++ tokens_of ts' = c
      else exists ts, osteps os (op, ch) (op, ch ++ ts) /\ tokens_of ts = c.
Proof.
  intros close stop_at SB CB. induction rest as [|w rest IH]; intros depth stowing used n G; cbn [recover_scan].
  - exists (if stowing then [OFinish] else []), [], []. split; [reflexivity|]. split; [reflexivity|]. split; [exact G|]. intros op ch NE. destruct stowing.
    + intros ch'. exists [], []. rewrite !app_nil_r. split; [apply osteps_one; constructor|reflexivity].
    + exists []. rewrite app_nil_r. split; [constructor|reflexivity].
  - destruct (is (fst w) close && (depth =? 0)) eqn:E1; [|destruct (among stop_at (fst w)) eqn:E2].
    + apply andb_prop in E1 as [E1 _]. apply is_spec in E1. exists ((if stowing then [OFinish] else []) ++ [tok w]), [w], rest. split; [reflexivity|]. split; [reflexivity|].
      split; [eapply good_tail; [exact G|rewrite E1; exact CB]|]. intros op ch NE. destruct stowing.
      * intros ch'. exists [], [leaf_of w]. rewrite app_nil_r, app_assoc. split; [|apply (leaves_of [w])]. cbn [app]. econstructor; [constructor|]. apply osteps_one. constructor. exact NE.
      * exists [leaf_of w]. split; [|apply (leaves_of [w])]. apply osteps_one. constructor. exact NE.
    + exists (if stowing then [OFinish] else []), [], (w :: rest). split; [reflexivity|]. split; [reflexivity|]. split; [exact G|]. intros op ch NE. destruct stowing.
      * intros ch'. exists [], []. rewrite !app_nil_r. split; [apply osteps_one; constructor|reflexivity].
      * exists []. rewrite app_nil_r. split; [constructor|reflexivity].
    + match goal with |- context [recover_scan close stop_at ?d true (w :: used) rest] => destruct (IH d true (w :: used) n) as (os & c & r & E & -> & GR & ST) end.
      { eapply good_tail; [exact G|]. intros K. rewrite K in E2. assert (E3 : among stop_at BRACKET_CLOSE = true) by (apply among_in; exact SB). rewrite E3 in E2. discriminate E2. }
      cbn [also]. eexists _, (w :: c), r. rewrite E. split; [reflexivity|]. split; [rewrite rev_snoc; reflexivity|]. split; [exact GR|].
      intros op ch NE. destruct stowing.
      * intros ch'. destruct (ST op ch NE (ch' ++ [leaf_of w])) as (ts & ts' & O & T). exists (leaf_of w :: ts), ts'. cbn [app]. split.
        -- econstructor; [constructor; discriminate|]. rewrite <- app_assoc in O. exact O.
        -- cbn. rewrite T. destruct w. reflexivity.
      * destruct (ST op ch NE ([] ++ [leaf_of w])) as (ts & ts' & O & T). exists ([Node ERROR_STOWAWAYS (leaf_of w :: ts)] ++ ts'). cbn [app]. split.
        -- econstructor; [constructor|]. econstructor; [constructor; discriminate|]. exact O.
        -- cbn. rewrite T. destruct w. reflexivity.
Qed.
Lemma adds_recover : forall n close stop_at, In BRACKET_CLOSE stop_at -> close <> BRACKET_CLOSE -> adds (good n) (recover close stop_at) (fun _ => good n).
Proof.
  intros n close stop_at SB CB N op ch used rest NE G L. right. destruct (recover_spec close stop_at SB CB rest 0 false used n G) as (os & c & r & E & EQ & GR & ST).
  unfold recover. rewrite EQ. cbn [scanned]. destruct (ST op ch NE) as (ts & O & T). exists tt, os, [], c, r, (op, ch ++ ts). repeat split; auto; try apply GR. exists ts. auto.
Qed.
Lemma adds_close_or_recover : forall n close stop_at, In BRACKET_CLOSE stop_at -> close <> BRACKET_CLOSE -> adds (good n) (close_or_recover close stop_at) (fun _ => good n).
Proof.
  intros n close stop_at SB CB. unfold close_or_recover. eapply adds_bind; [apply adds_expect; exact CB|]. intros [|]; [apply adds_ret|apply adds_recover; assumption].
Qed.

Lemma args_spec : forall rest used n, good n rest -> exists os c r, rest = c ++ r /\ args_scan used rest = (os, rev c ++ used, r) /\ good n r /\
  forall op ch, op <> [] -> exists ts, osteps os (op, ch) (op, ch ++ ts) /\ tokens_of ts = c.
Proof.
  induction rest as [|w rest IH]; intros used n G; cbn [args_scan].
  - exists [], [], []. split; [reflexivity|]. split; [reflexivity|]. split; [exact G|]. intros op ch NE. exists []. rewrite app_nil_r. split; [constructor|reflexivity].
  - destruct (is (fst w) CLOSE_PAREN) eqn:E1; [|destruct (among _ (fst w)) eqn:E2].
    + apply is_spec in E1. exists [tok w], [w], rest. split; [reflexivity|]. split; [reflexivity|].
      split; [eapply good_tail; [exact G|rewrite E1; discriminate]|]. intros op ch NE. exists [leaf_of w]. split; [|apply (leaves_of [w])]. apply osteps_one. constructor. exact NE.
    + exists [], [], (w :: rest). split; [reflexivity|]. split; [reflexivity|]. split; [exact G|]. intros op ch NE. exists []. rewrite app_nil_r. split; [constructor|reflexivity].
    + destruct (IH (w :: used) n) as (os & c & r & E & -> & GR & ST).
      { eapply good_tail; [exact G|]. intros K. rewrite K in E2. discriminate E2. }
      cbn [also]. eexists _, (w :: c), r. rewrite E. split; [reflexivity|]. split; [rewrite rev_snoc; reflexivity|]. split; [exact GR|].
      intros op ch NE. destruct (ST op (ch ++ [Node ERROR_STOWAWAYS ([] ++ [leaf_of w])]) NE) as (ts & O & T). exists ([Node ERROR_STOWAWAYS [leaf_of w]] ++ ts). split.
      * cbn [app]. econstructor; [constructor|]. econstructor; [constructor; discriminate|]. econstructor; [constructor|]. rewrite <- app_assoc in O. exact O.
      * cbn. rewrite T. destruct w. reflexivity.
Qed.
Lemma adds_recover_args : forall n, adds (good n) recover_args (fun _ => good n).
Proof.
  intros n N op ch used rest NE G L. right. destruct (args_spec rest used n G) as (os & c & r & E & EQ & GR & ST).
  unfold recover_args. rewrite EQ. cbn [scanned]. destruct (ST op ch NE) as (ts & O & T). exists tt, os, [], c, r, (op, ch ++ ts). repeat split; auto; try apply GR. exists ts. auto.
Qed.

(** ** Strings *)

(** In a hole of a string, and between its holes, with the tokens [after] after its end. *)
Definition within (p : prefix) (h : bool) (after rest : list word) : Prop :=
  exists body w, rest = body ++ w :: after /\ fst w = PATTERN_END p /\ quoted h body.

Lemma within_tail : forall p after w r, within p true after (w :: r) -> fst w <> CLOSE_BRACE -> (forall q, fst w <> PATTERN_END q) -> within p true after r.
Proof.
  intros p after w r (body & e & E & K & Q) N1 N2. destruct body as [|[k s] body]; [injection E as -> _; destruct (N2 p K)|]. injection E as -> E.
  exists body, e. split; [exact E|]. split; [exact K|]. cbn in Q, N1. destruct k; try exact Q; try contradiction.
Qed.
Lemma within_close : forall p after w r, within p true after (w :: r) -> fst w = CLOSE_BRACE -> within p false after r.
Proof.
  intros p after w r (body & e & E & K & Q) N1. destruct body as [|[k s] body]; [injection E as -> _; rewrite K in N1; discriminate N1|]. injection E as -> E.
  exists body, e. split; [exact E|]. split; [exact K|]. cbn in Q, N1. subst k. exact Q.
Qed.
Lemma within_take : forall p after, adds (fun rest => within p true after rest /\ exists w r, rest = w :: r /\ fst w <> CLOSE_BRACE /\ (forall q, fst w <> PATTERN_END q)) take (fun _ => within p true after).
Proof.
  intros p after N op ch used rest NE [G (w & r & -> & K1 & K2)] L. right.
  exists tt, [tok w], [], [w], r, (op, ch ++ [leaf_of w]). split; [reflexivity|]. split; [reflexivity|].
  split; [apply osteps_one; constructor; exact NE|]. split; [constructor|]. split; [eapply within_tail; eauto|]. exists [leaf_of w]. split; [|reflexivity]. apply (leaves_of [w]).
Qed.
Lemma dots_spec : forall p after rest used, within p true after rest -> exists os c r, rest = c ++ r /\ dots_scan used rest = (os, rev c ++ used, r) /\ within p true after r /\
  forall op ch, exists ts, osteps os (op, ch) (op, ch ++ ts) /\ tokens_of ts = c.
Proof.
  intros p after rest. induction rest as [rest IH] using (well_founded_induction (Wf_nat.well_founded_ltof _ (@length word))). intros used W.
  assert (STOP : exists os c r, rest = c ++ r /\ ([], used, rest) = (os, rev c ++ used, r) /\ within p true after r /\ forall op ch, exists ts, osteps os (op, ch) (op, ch ++ ts) /\ tokens_of ts = c).
  { exists [], [], rest. split; [reflexivity|]. split; [reflexivity|]. split; [exact W|]. intros op ch. exists []. rewrite app_nil_r. split; [constructor|reflexivity]. }
  destruct rest as [|w rest]; [exact STOP|]. cbn [dots_scan]. destruct (is (fst w) OPERATOR_IDENTIFIER && is_dot (snd w)) eqn:E; [|exact STOP].
  apply andb_prop in E as [E _]. apply is_spec in E.
  assert (W1 : within p true after rest) by (eapply within_tail; [exact W|rewrite E; discriminate|intros; rewrite E; discriminate]).
  assert (NAMED : forall w (op : list (node * list tree)) ch, osteps (in_name w) (op, ch) (op, ch ++ [Node NAME [leaf_of w]])).
  { intros w' op ch. unfold in_name. econstructor; [constructor|]. econstructor; [constructor; discriminate|]. econstructor; [constructor|]. constructor. }
  assert (ONE : exists os c r, w :: rest = c ++ r /\ (in_name w, w :: used, rest) = (os, rev c ++ used, r) /\ within p true after r /\ forall op ch, exists ts, osteps os (op, ch) (op, ch ++ ts) /\ tokens_of ts = c).
  { exists (in_name w), [w], rest. split; [reflexivity|]. split; [reflexivity|]. split; [exact W1|]. intros op ch. exists [Node NAME [leaf_of w]]. split; [apply NAMED|]. destruct w. reflexivity. }
  destruct rest as [|v rest]; [exact ONE|]. destruct (is (fst v) STRING_INTERPOLATION_TARGET) eqn:EV; [|exact ONE]. apply is_spec in EV.
  destruct (IH rest) with (used := v :: w :: used) as (os & c & r & ER & -> & WR & ST).
  { unfold ltof. cbn. lia. }
  { eapply within_tail; [exact W1|rewrite EV; discriminate|intros; rewrite EV; discriminate]. }
  cbn [also]. exists (in_name w ++ in_name v ++ os), (w :: v :: c), r. rewrite ER. split; [reflexivity|]. split; [rewrite !rev_snoc; cbn [app]; rewrite <- ?app_assoc; reflexivity|]. split; [exact WR|].
  intros op ch. destruct (ST op ((ch ++ [Node NAME [leaf_of w]]) ++ [Node NAME [leaf_of v]])) as (ts & O & T).
  exists ([Node NAME [leaf_of w]] ++ [Node NAME [leaf_of v]] ++ ts). split.
  - eapply osteps_app; [apply NAMED|]. eapply osteps_app; [apply NAMED|]. rewrite <- !app_assoc in *. exact O.
  - cbn. rewrite T. destruct w, v. reflexivity.
Qed.
Lemma adds_dots : forall p after, adds (within p true after) dots (fun _ => within p true after).
Proof.
  intros p after N op ch used rest NE W L. right. destruct (dots_spec p after rest used W) as (os & c & r & E & EQ & WR & ST).
  unfold dots. rewrite EQ. cbn [scanned]. destruct (ST op ch) as (ts & O & T). exists tt, os, [], c, r, (op, ch ++ ts). repeat split; auto. exists ts. auto.
Qed.
Lemma adds_leaf_within : forall p after n k, k <> CLOSE_BRACE -> (forall q, k <> PATTERN_END q) ->
  adds (fun rest => within p true after rest /\ exists s r, rest = (k, s) :: r) (leaf n) (fun _ => within p true after).
Proof.
  intros p after n k K1 K2. unfold leaf. apply adds_node'. eapply adds_weaken; [apply within_take| |intros ? ? H; exact H].
  intros r [W (s & r' & ->)]. split; [exact W|]. eexists _, _. split; [reflexivity|]. auto.
Qed.
Lemma adds_hole_content : forall p after, adds (within p true after) hole_content (fun _ => within p true after).
Proof.
  intros p after. unfold hole_content. apply adds_look. intros b. apply adds_peek. intros w.
  set (target := match w with Some (STRING_INTERPOLATION_TARGET, _) => true | _ => false end).
  assert (TG : forall n, adds (fun rest => within p true after rest /\ hd_error rest = w) (if target then leaf n else ret tt) (fun _ => within p true after)).
  { intros n. destruct target eqn:ET.
    - eapply adds_weaken; [apply (adds_leaf_within p after n STRING_INTERPOLATION_TARGET); [discriminate|intros; discriminate]| |intros ? ? H; exact H].
      intros r [W H]. split; [exact W|]. unfold target in ET. destruct w as [[k s]|]; [|discriminate ET]. destruct k; try discriminate ET. destruct r; [discriminate H|]. injection H as ->. eauto.
    - eapply adds_weaken; [apply adds_ret| |intros ? ? H; exact H]. intros r [W _]. exact W. }
  eapply adds_bind with (R := fun _ => within p true after).
  - destruct b.
    + eapply adds_weaken with (R := fun _ => within p true after); [| |intros ? ? H; exact H].
      * intros N op ch used rest NE H L. apply ok_start. change (start SOUP) with (start SOUP).
        apply ok_bind. eapply ok_weaken; [apply (TG NAME N ((SOUP, ch) :: op) []); [discriminate|exact H|exact L]|].
        intros a c r s' E [Ra (ts & T & ->)]. apply ok_bind. subst rest. eapply ok_weaken; [apply (adds_dots p after N); [discriminate|exact Ra|apply fits_next; exact L]|].
        intros a' c' r' s' E' [Ra' (ts' & T' & ->)]. apply ok_last. split; [exact Ra'|]. exists [Node SOUP (ts ++ ts')]. split; [|reflexivity].
        cbn. rewrite flat_map_app, T, T', !app_nil_r. reflexivity.
      * intros r H; exact H.
    + apply TG.
  - intros ?. cbv beta. apply adds_peek. intros w'. destruct w' as [[k s]|]; [|eapply adds_weaken; [apply adds_ret|intros r [W _]; exact W|intros ? ? H; exact H]].
    destruct (kind_eq_dec k COLON) as [-> | NK]; [|destruct k; try (eapply adds_weaken; [apply adds_ret|intros r [W _]; exact W|intros ? ? H; exact H]); destruct (NK eq_refl)].
    eapply adds_bind.
    + eapply adds_weaken; [apply within_take| |intros ? ? H; exact H]. intros r [W H]. split; [exact W|]. destruct r as [|v r]; [discriminate H|]. injection H as ->.
      eexists _, _. split; [reflexivity|]. split; [discriminate|intros; discriminate].
    + intros ?. cbv beta. apply adds_peek. intros w'. destruct w' as [[k s']|]; [|eapply adds_weaken; [apply adds_ret|intros r [W _]; exact W|intros ? ? H; exact H]].
      destruct (kind_eq_dec k STRING_FORMAT_SPEC) as [-> | NK]; [|destruct k; try (eapply adds_weaken; [apply adds_ret|intros r [W _]; exact W|intros ? ? H; exact H]); destruct (NK eq_refl)].
      eapply adds_weaken; [apply (adds_leaf_within p after FORMAT_SPEC STRING_FORMAT_SPEC); [discriminate|intros; discriminate]| |intros ? ? H; exact H].
      intros r [W H]. split; [exact W|]. destruct r; [discriminate H|]. injection H as ->. eauto.
Qed.

Lemma stray_spec : forall p after rest used, within p true after rest -> exists b c r, rest = c ++ r /\ stray_scan used rest = (b, (map tok c, rev c ++ used, r)) /\ within p false after r.
Proof.
  intros p after. induction rest as [|w rest IH]; intros used W; cbn [stray_scan].
  - destruct W as (body & e & E & _). destruct body; discriminate E.
  - destruct (is (fst w) CLOSE_BRACE) eqn:E1; [|destruct (among _ (fst w)) eqn:E2].
    + apply is_spec in E1. exists true, [w], rest. split; [reflexivity|]. split; [reflexivity|]. eapply within_close; eauto.
    + exists false, [], (w :: rest). split; [reflexivity|]. split; [reflexivity|]. destruct W as (body & e & E & K & Q). destruct body as [|[k s] body].
      * exists [], e. split; [exact E|]. split; [exact K|exact I].
      * exfalso. injection E as -> E. cbn in E2, Q. destruct k; try discriminate E2; contradiction.
    + apply is_false in E1. destruct (IH (w :: used)) as (b & c & r & -> & -> & WR).
      { eapply within_tail; [exact W|exact E1|]. intros q K. rewrite K in E2. destruct q; discriminate E2. }
      exists b, (w :: c), r. split; [reflexivity|]. split; [cbn [also map app]; rewrite rev_snoc; reflexivity|exact WR].
Qed.

Lemma adds_hole : forall p after, adds (fun rest => exists s r, rest = (OPEN_BRACE, s) :: r /\ within p true after r) hole (fun _ => within p false after).
Proof.
  intros p after N op ch used rest NE (s & r & -> & W) L. unfold hole. apply ok_next_range, ok_start, ok_take; [discriminate|].
  assert (L1 : width ((OPEN_BRACE, s) :: used) + width r <= N) by (revert L; rewrite !width_cons; cbn [snd]; lia).
  apply ok_bind. eapply ok_weaken; [apply (adds_hole_content p after); [discriminate|exact W|exact L1]|].
  intros a c r1 s' E [W1 (ts & T & ->)]. subst r. apply ok_peek. apply fits_next in L1.
  assert (STRAY : ok N (bind (b <- stray;; if b : bool then ret tt else report (UnclosedStringInterpolation (width used, width used + length (snd (OPEN_BRACE, s))))) (fun _ => finish))
      (rev c ++ (OPEN_BRACE, s) :: used) r1 ((INTERPOLATION, ch) :: op, ([] ++ [Leaf (fst (OPEN_BRACE, s)) (snd (OPEN_BRACE, s))]) ++ ts)
      (fun b c' r' s'' => within p false after r' /\ (exists ts0, tokens_of ts0 = (OPEN_BRACE, s) :: c ++ c' /\ s'' = (op, ch ++ ts0)))).
  { apply ok_bind, ok_bind. destruct (stray_spec p after r1 (rev c ++ (OPEN_BRACE, s) :: used) W1) as (b & c' & r' & -> & ES & W2).
    right. exists b, (map tok c'), [], c', r', ((INTERPOLATION, ch) :: op, (([] ++ [Leaf (fst (OPEN_BRACE, s)) (snd (OPEN_BRACE, s))]) ++ ts) ++ map leaf_of c').
    split; [reflexivity|]. split; [unfold stray; rewrite ES; reflexivity|]. split; [apply osteps_toks; discriminate|]. split; [constructor|].
    assert (FIN : within p false after r' /\ exists ts0, tokens_of ts0 = (OPEN_BRACE, s) :: c ++ ((c' ++ []) ++ []) /\ (op, ch ++ [Node INTERPOLATION ((([] ++ [Leaf (fst (OPEN_BRACE, s)) (snd (OPEN_BRACE, s))]) ++ ts) ++ map leaf_of c')]) = (op, ch ++ ts0)).
    { split; [exact W2|]. eexists. split; [|reflexivity]. cbn. rewrite !flat_map_app, leaves_of, T, !app_nil_r. reflexivity. }
    destruct b.
    - apply ok_ret. apply ok_last. exact FIN.
    - right. exists tt, [], [UnclosedStringInterpolation (width used, width used + length (snd (OPEN_BRACE, s)))], [], r'. eexists. split; [reflexivity|]. split; [reflexivity|]. split; [constructor|].
      split; [constructor; [|constructor]; eapply located_next; [reflexivity|exact L]|]. apply ok_last. exact FIN. }
  destruct r1 as [|[k x] r1]; [exact STRAY|]. cbn [hd_error]. destruct (kind_eq_dec k CLOSE_BRACE) as [-> | NK].
  - apply ok_take; [discriminate|]. apply ok_last. split; [eapply within_close; [exact W1|reflexivity]|].
    eexists. split; [|reflexivity]. cbn. rewrite !flat_map_app, T, !app_nil_r. cbn. reflexivity.
  - destruct k; try exact STRAY.
Qed.

Lemma adds_pattern : forall p n after fuel, good n after -> adds (within p false after) (pattern_loop fuel p) (fun _ => good n).
Proof.
  intros p n after fuel G. induction fuel as [|fuel IH]; [intros N op ch used rest NE W L; left; reflexivity|]. cbn [pattern_loop]. apply adds_peek. intros [[k s]|].
  - destruct (is k (PATTERN_END p)) eqn:E.
    + apply is_spec in E. subst k. intros N op ch used rest NE [(body & e & EQ & K & Q) H] L. destruct body as [|[k x] body].
      * subst rest. injection H as ->. right. exists tt, [tok (PATTERN_END p, s)], [], [(PATTERN_END p, s)], after, (op, ch ++ [leaf_of (PATTERN_END p, s)]). split; [reflexivity|]. split; [reflexivity|].
        split; [apply osteps_one; constructor; exact NE|]. split; [constructor|]. split; [exact G|]. exists [leaf_of (PATTERN_END p, s)]. auto.
      * exfalso. subst rest. injection H as -> ->. exact Q.
    + apply is_false in E.
      assert (INNER : forall nd k, In k [STRING_LITERAL_CONTENT; STRING_ESCAPED_OPEN; STRING_ESCAPED_CLOSE] -> adds (fun rest => within p false after rest /\ hd_error rest = Some (k, s)) (leaf nd) (fun _ => within p false after)).
      { intros nd k' K'. unfold leaf. apply adds_node'. intros N op ch used rest NE [(body & e & EQ & K & Q) H] L. destruct body as [|[k1 x] body]; subst rest.
        - injection H as ->. cbn in K. subst k'. cbn in K'. intuition discriminate.
        - injection H as -> ->. right. exists tt, [tok (k', s)], [], [(k', s)], (body ++ e :: after), (op, ch ++ [leaf_of (k', s)]). split; [reflexivity|]. split; [reflexivity|].
          split; [apply osteps_one; constructor; exact NE|]. split; [constructor|]. split; [|exists [leaf_of (k', s)]; auto].
          exists body, e. split; [reflexivity|]. split; [exact K|]. cbn in Q. destruct K' as [<- | [<- | [<- | []]]]; exact Q. }
      destruct (kind_eq_dec k STRING_LITERAL_CONTENT) as [-> | N1]; [eapply adds_bind; [apply INNER; cbn; tauto|intros ?; exact IH]|].
      destruct (kind_eq_dec k STRING_ESCAPED_OPEN) as [-> | N2]; [eapply adds_bind; [apply INNER; cbn; tauto|intros ?; exact IH]|].
      destruct (kind_eq_dec k STRING_ESCAPED_CLOSE) as [-> | N3]; [eapply adds_bind; [apply INNER; cbn; tauto|intros ?; exact IH]|].
      destruct (kind_eq_dec k OPEN_BRACE) as [-> | N4].
      * eapply adds_bind; [|intros ?; exact IH]. eapply adds_weaken; [apply (adds_hole p after)| |intros ? ? H; exact H].
        intros rest [(body & e & EQ & K & Q) H]. destruct body as [|[k1 x] body]; subst rest; [injection H as ->; discriminate K|]. injection H as -> ->.
        exists s, (body ++ e :: after). split; [reflexivity|]. exists body, e. auto.
      * intros N op ch used rest NE [(body & e & EQ & K & Q) H] L. exfalso. destruct body as [|[k1 x] body]; subst rest; injection H as -> ; [destruct (E K)|].
        subst. cbn in Q. destruct k; try contradiction.
  - intros N op ch used rest NE [(body & e & EQ & K & Q) H] L. destruct body; subst rest; discriminate H.
Qed.

(** A string with holes. *)
Lemma ok_string : forall n p s after N op ch used, good n ((PATTERN_START p, s) :: after) -> width used + width ((PATTERN_START p, s) :: after) <= N ->
  ok N (string_pattern p) used ((PATTERN_START p, s) :: after) (op, ch) (fun _ c r s' => good n r /\ exists ts, s' = (op, ch ++ [Node (PATTERN p) ts]) /\ tokens_of ts = c /\ exists c', c = (PATTERN_START p, s) :: c').
Proof.
  intros n p s after N op ch used G L. unfold string_pattern. apply ok_start, ok_take; [discriminate|]. apply ok_bind.
  destruct (proj1 G [] _ _ eq_refl) as (body & w & b & E & K & Q).
  assert (GB : good n b).
  { assert (G1 : good n after) by (eapply good_tail; [exact G|discriminate]). clear - G1 E K Q. subst after.
    assert (H : forall body h, quoted h body -> good n (body ++ w :: b) -> good n b).
    { clear - K. induction body as [|[k s] body IH]; intros h Q G; [eapply good_tail; [exact G|rewrite K; discriminate]|].
      assert (G1 : good n (body ++ w :: b)) by (eapply good_tail; [exact G|cbn; intros ->; destruct h; exact Q]).
      cbn in Q. destruct h; destruct k; try contradiction; (eapply IH; [exact Q|exact G1]). }
    eapply H; eauto. }
  assert (L1 : width ((PATTERN_START p, s) :: used) + width after <= N) by (revert L; rewrite !width_cons; cbn [snd]; lia).
  eapply ok_weaken.
  - apply (adds_pattern p n b (S (length after)) GB N); [discriminate| |exact L1]. exists body, w. split; [exact E|]. auto.
  - intros a c r s' E' [Gr (ts & T & ->)]. apply ok_last. split; [exact Gr|]. eexists. split; [reflexivity|]. split; [|eauto]. cbn. rewrite T, app_nil_r. reflexivity.
Qed.

Lemma ok_atom : forall n N op ch used rest, good n rest -> width used + width rest <= N ->
  ok N atom used rest (op, ch) (fun b c r s' => good n r /\ if b then exists t, headed t /\ leaves t = c /\ s' = (op, ch ++ [t]) else c = [] /\ s' = (op, ch)).
Proof.
  intros n N op ch used rest G L. unfold atom. apply ok_peek. destruct rest as [|[k s] rest]; [apply ok_ret; auto|]. cbn [hd_error].
  assert (NEXT : k <> BRACKET_CLOSE -> forall nd, (nd = NAME -> name_terminal k = true) -> In nd [NAME; LITERAL] -> ok N (leaf nd;; ret true) used ((k, s) :: rest) (op, ch)
    (fun b c r s' => good n r /\ if b then exists t, headed t /\ leaves t = c /\ s' = (op, ch ++ [t]) else c = [] /\ s' = (op, ch))).
  { intros NK nd HN IN. apply ok_bind. unfold leaf. apply ok_start, ok_take; [discriminate|]. apply ok_last. apply ok_ret. split; [eapply good_tail; [exact G|exact NK]|].
    eexists. split; [|split; [|reflexivity]]; [|reflexivity]. exists nd. eexists. split; [reflexivity|]. exists k, s, []. split; [reflexivity|].
    destruct IN as [<- | [<- | []]]; [|exact I]. auto. }
  assert (REST : (forall p, k <> PATTERN_START p) -> ok N (if literal_terminal k then leaf LITERAL;; ret true else if name_terminal k then leaf NAME;; ret true else ret false) used ((k, s) :: rest) (op, ch)
    (fun b c r s' => good n r /\ if b then exists t, headed t /\ leaves t = c /\ s' = (op, ch ++ [t]) else c = [] /\ s' = (op, ch))).
  { intros NP. destruct (literal_terminal k) eqn:E1; [|destruct (name_terminal k) eqn:E2].
    - apply NEXT; [intros ->; discriminate E1|discriminate|cbn; auto].
    - apply NEXT; [intros ->; discriminate E2|auto|cbn; auto].
    - apply ok_ret. auto. }
  destruct k; try (apply REST; intros; discriminate). apply ok_bind. eapply ok_weaken; [apply ok_string; [exact G|exact L]|].
  intros a c r s' E (Gr & ts & -> & T & (c' & EC)). apply ok_ret. split; [exact Gr|]. exists (Node (PATTERN p) ts). rewrite app_nil_r. split; [|split; [exact T|reflexivity]].
  exists (PATTERN p), ts. split; [reflexivity|]. cbn [leaves]. rewrite T, EC. eexists _, _, _. split; [reflexivity|exact I].
Qed.
