(** * Streams *)
From Coq Require Import List Bool NArith Arith Lia.
From Verif.Streams Require Import Model Spec.
Import ListNotations.
Local Arguments N.eqb : simpl never.

(** ** Lines *)
Lemma read_line_mark l r : plain l -> read_line (l ++ newline :: r) = (l ++ [newline], r).
Proof.
  induction l as [|c l IH]; intros H; cbn; auto. destruct (N.eqb_spec c newline) as [->|_].
  - exfalso. apply H. left. reflexivity.
  - rewrite IH; auto. intros X. apply H. right. exact X.
Qed.
Lemma read_line_end l : plain l -> read_line l = (l, []).
Proof.
  induction l as [|c l IH]; intros H; cbn; auto. destruct (N.eqb_spec c newline) as [->|_].
  - exfalso. apply H. left. reflexivity.
  - rewrite IH; auto. intros X. apply H. right. exact X.
Qed.
Lemma strip_all_not c x t : x <> c -> strip_all c (x :: t) = x :: t.
Proof. intros H. cbn. destruct (N.eqb_spec x c); congruence. Qed.
Lemma strip_plain l : plain l -> strip_all newline (rev l) = rev l.
Proof.
  intros H. destruct (rev l) as [|c r] eqn:E; auto. apply strip_all_not. intros ->. apply H.
  apply in_rev. rewrite E. left. reflexivity.
Qed.
Lemma strip_return l : ~ ends_in_return l -> strip_all return_ (rev l) = rev l.
Proof.
  intros H. destruct (rev l) as [|c r] eqn:E; auto. apply strip_all_not. intros ->. apply H. exists (rev r).
  rewrite <- (rev_involutive l), E. reflexivity.
Qed.
Lemma strip_one_return l : ~ ends_in_return l -> strip_one return_ (rev l) = rev l.
Proof.
  intros H. destruct (rev l) as [|c r] eqn:E; auto. cbn. destruct (N.eqb_spec c return_) as [->|]; auto. exfalso. apply H.
  exists (rev r). rewrite <- (rev_involutive l), E. reflexivity.
Qed.
Lemma plain_return l : plain l -> plain (l ++ [return_]).
Proof. intros H X. apply in_app_or in X as [X|[X|[]]]; auto. discriminate. Qed.

(** A line and its mark are read as one, by both. *)
Lemma line_marked l e r : plain l -> read_line (l ++ mark e ++ r) = (l ++ mark e, r).
Proof.
  intros H. destruct e; cbn [mark app].
  - apply read_line_mark; auto.
  - change (l ++ return_ :: newline :: r) with (l ++ [return_] ++ newline :: r). rewrite app_assoc.
    rewrite read_line_mark by (apply plain_return; auto). rewrite <- app_assoc. reflexivity.
Qed.
Lemma line_of_marked l e : plain l -> (e = LF -> ~ ends_in_return l) -> line_of (l ++ mark e) = l.
Proof.
  intros H He. unfold line_of. rewrite rev_app_distr. destruct e; cbn [mark rev app].
  - change ((newline =? newline)%N) with true. cbn iota. rewrite strip_one_return by auto. apply rev_involutive.
  - change ((newline =? newline)%N) with true. cbn. apply rev_involutive.
Qed.
Lemma line_of_end l : plain l -> line_of l = l.
Proof.
  intros H. unfold line_of. destruct (rev l) as [|c r] eqn:E.
  - rewrite <- (rev_involutive l), E. reflexivity.
  - destruct (N.eqb_spec c newline) as [->|]; auto. exfalso. apply H. apply in_rev. rewrite E. left. reflexivity.
Qed.
Lemma trimmed l e : plain l -> ~ ends_in_return l ->
  trim_end_matches return_ (trim_end_matches newline (l ++ mark e)) = l.
Proof.
  intros H1 H2. unfold trim_end_matches. rewrite rev_app_distr. destruct e; cbn [mark rev app].
  - cbn [strip_all]. change ((newline =? newline)%N) with true. cbn iota. rewrite strip_plain by auto.
    rewrite rev_involutive, strip_return by auto. apply rev_involutive.
  - cbn [strip_all]. change ((newline =? newline)%N) with true. cbn iota. change ((return_ =? newline)%N) with false. cbn iota.
    rewrite rev_involutive. cbn [strip_all]. change ((return_ =? return_)%N) with true. cbn iota.
    rewrite strip_return by auto. apply rev_involutive.
Qed.
Lemma trimmed_end l : plain l -> ~ ends_in_return l -> trim_end_matches return_ (trim_end_matches newline l) = l.
Proof.
  intros H1 H2. unfold trim_end_matches. rewrite strip_plain, rev_involutive, strip_return by auto. apply rev_involutive.
Qed.

Lemma marked_length (l : text) e r : List.length (l ++ mark e ++ r) > List.length r.
Proof. rewrite !app_length. destruct e; cbn; lia. Qed.

(** ** C109: a streamed file gives what importing it gives

    Importing text gives its lines. *)
Theorem C109_import ls last :
  Forall (fun le => plain (fst le) /\ (snd le = LF -> ~ ends_in_return (fst le))) ls -> plain last ->
  read_text (joined ls last) = lines_are ls last.
Proof.
  intros H Hl. unfold read_text.
  enough (G : forall n, n >= List.length (joined ls last) -> lines_fuel n (joined ls last) = lines_are ls last) by (apply G; lia).
  induction H as [|[l e] ls [H1 H2] _ IH]; intros n Hn; unfold joined, lines_are in *; cbn [flat_map map app fst snd] in *.
  - destruct last as [|c t]; [destruct n; reflexivity|]. destruct n; [cbn in Hn; lia|]. cbn [lines_fuel].
    rewrite read_line_end, line_of_end by auto. destruct n; reflexivity.
  - rewrite <- !app_assoc in *. pose proof (marked_length l e (flat_map (fun le => fst le ++ mark (snd le)) ls ++ last)) as L.
    destruct n; [cbn in Hn; lia|]. cbn [lines_fuel].
    destruct (l ++ mark e ++ flat_map (fun le => fst le ++ mark (snd le)) ls ++ last) as [|c t] eqn:E; [cbn in L; lia|].
    rewrite <- E, line_marked by auto. rewrite line_of_marked by auto. f_equal. apply IH. lia.
Qed.
Print Assumptions C109_import.

(** So does streaming it, if no line ends in a carriage return of its own. *)
Theorem C109_text_partial ls last :
  Forall (fun le => plain (fst le) /\ ~ ends_in_return (fst le)) ls -> plain last -> ~ ends_in_return last ->
  stream_text (joined ls last) = lines_are ls last /\ read_text (joined ls last) = lines_are ls last.
Proof.
  intros H Hl Hr. split.
  2:{ apply C109_import; auto. eapply Forall_impl; [|exact H]. intros le []. auto. }
  unfold stream_text.
  enough (G : forall n, n >= List.length (joined ls last) -> stream_fuel n (joined ls last) = lines_are ls last) by (apply G; lia).
  induction H as [|[l e] ls [H1 H2] _ IH]; intros n Hn; unfold joined, lines_are in *; cbn [flat_map map app fst snd] in *.
  - destruct last as [|c t]; [destruct n; reflexivity|]. destruct n; [cbn in Hn; lia|]. cbn [stream_fuel text_next].
    rewrite read_line_end, trimmed_end by auto. destruct n; reflexivity.
  - rewrite <- !app_assoc in *. pose proof (marked_length l e (flat_map (fun le => fst le ++ mark (snd le)) ls ++ last)) as L.
    destruct n; [cbn in Hn; lia|]. cbn [stream_fuel]. unfold text_next.
    destruct (l ++ mark e ++ flat_map (fun le => fst le ++ mark (snd le)) ls ++ last) as [|c t] eqn:E; [cbn in L; lia|].
    rewrite <- E, line_marked by auto. rewrite trimmed by auto. f_equal. apply IH. lia.
Qed.
Print Assumptions C109_text_partial.

(** Non-vacuity: [a], [] and [b], with different endings. *)
Example text_example :
  joined [([97%N], CRLF); ([], LF)] [98%N] = [97; 13; 10; 10; 98]%N /\
  stream_text [97; 13; 10; 10; 98]%N = [[97]; []; [98]]%N /\
  Forall (fun le => plain (fst le) /\ ~ ends_in_return (fst le)) [([97%N], CRLF); ([], LF)].
Proof.
  split; [reflexivity|]. split; [reflexivity|].
  assert (P : forall l : text, ~ In newline l -> ~ In return_ l -> plain l /\ ~ ends_in_return l).
  { intros l H1 H2. split; auto. intros (a & ->). apply H2, in_or_app. right. left. reflexivity. }
  repeat constructor; try (apply P); cbn; try tauto; intros [X|[]]; discriminate.
Qed.

(** Refuted: that they always give the same. *)
Theorem C109_return_refuted : ~ (forall t, stream_text t = read_text t).
Proof. intros H. specialize (H [97; 13]%N). discriminate H. Qed.
Print Assumptions C109_return_refuted.

(** *** CSV *)
Lemma text_eqb_refl a : text_eqb a a = true.
Proof. unfold text_eqb. destruct (list_eq_dec _ a a); congruence. Qed.
Lemma text_eqb_eq a b : text_eqb a b = true <-> a = b.
Proof. unfold text_eqb. destruct (list_eq_dec _ a b); split; congruence. Qed.
Lemma text_ltb_irrefl a : text_ltb a a = false.
Proof. induction a as [|x a IH]; cbn; auto. rewrite N.ltb_irrefl, N.eqb_refl, IH. reflexivity. Qed.
Lemma text_ltb_trans a : forall b c, text_ltb a b = true -> text_ltb b c = true -> text_ltb a c = true.
Proof.
  induction a as [|x a IH]; intros [|y b] [|z c]; cbn; try discriminate; auto.
  rewrite !orb_true_iff, !andb_true_iff, !N.ltb_lt, !N.eqb_eq.
  intros [H|[-> H]] [G|[-> G]]; try (left; lia). right. eauto.
Qed.

Lemma ascending_tail a l : ascending (a :: l) -> ascending l.
Proof. destruct l; cbn; tauto. Qed.
Lemma ascending_head a l : ascending (a :: l) -> forall x, In x l -> text_ltb a x = true.
Proof.
  revert a. induction l as [|b l IH]; intros a H x; [intros []|]. destruct H as [H1 H2]. intros [<-|Hx]; auto.
  eapply text_ltb_trans; [exact H1|]. apply IH; auto.
Qed.
Lemma ascending_nodup l : ascending l -> NoDup l.
Proof.
  induction l as [|a l IH]; intros H; constructor.
  - intros X. pose proof (ascending_head _ _ H _ X) as Y. rewrite text_ltb_irrefl in Y. discriminate.
  - apply IH. eapply ascending_tail; eauto.
Qed.

Lemma first_indexed k v l x : first_in x (insert_indexed k v l) = if text_eqb k x then Some v else first_in x l.
Proof.
  induction l as [|[k' v'] l IH]; unfold first_in in *; cbn; [destruct (text_eqb k x); reflexivity|].
  destruct (text_eqb k' k) eqn:E; cbn.
  - apply text_eqb_eq in E. subst. destruct (text_eqb k x); reflexivity.
  - destruct (text_eqb k' x) eqn:E1; cbn; [|exact IH]. destruct (text_eqb k x) eqn:E2; auto.
    apply text_eqb_eq in E1, E2. subst. rewrite text_eqb_refl in E. discriminate.
Qed.
Lemma first_sorted k v l x : first_in x (insert_sorted k v l) = if text_eqb k x then Some v else first_in x l.
Proof.
  induction l as [|[k' v'] l IH]; unfold first_in in *; cbn; [destruct (text_eqb k x); reflexivity|].
  destruct (text_eqb k' k) eqn:E; cbn.
  - apply text_eqb_eq in E. subst. destruct (text_eqb k x); reflexivity.
  - destruct (text_ltb k k'); cbn; [destruct (text_eqb k x); reflexivity|].
    destruct (text_eqb k' x) eqn:E1; cbn; [|exact IH]. destruct (text_eqb k x) eqn:E2; auto.
    apply text_eqb_eq in E1, E2. subst. rewrite text_eqb_refl in E. discriminate.
Qed.
Lemma first_fold (ins : text -> text -> list (text * text) -> list (text * text)) x :
  (forall k v l, first_in x (ins k v l) = if text_eqb k x then Some v else first_in x l) ->
  forall kvs acc, first_in x (fold_left (fun acc kv => ins (fst kv) (snd kv) acc) kvs acc) =
    match value_in x kvs with Some v => Some v | None => first_in x acc end.
Proof.
  intros H. induction kvs as [|[k v] kvs IH]; intros acc; cbn; auto. rewrite IH, H.
  destruct (value_in x kvs); auto. destruct (text_eqb k x); auto.
Qed.

(** Both routes give, for every column, the last value of that name. *)
Theorem C109_csv_values headers record k :
  first_in k (import_row headers record) = value_in k (combine headers record) /\
  first_in k (stream_row headers record) = value_in k (combine headers record).
Proof.
  unfold import_row, stream_row. rewrite !first_fold by (intros; first [apply first_indexed | apply first_sorted]).
  cbn. destruct (value_in k _); auto.
Qed.
Print Assumptions C109_csv_values.

Lemma indexed_new k v l : ~ In k (map fst l) -> insert_indexed k v l = l ++ [(k, v)].
Proof.
  induction l as [|[k' v'] l IH]; cbn; auto. intros H. destruct (text_eqb k' k) eqn:E.
  - apply text_eqb_eq in E. tauto.
  - rewrite IH; auto.
Qed.
Lemma sorted_new k v l : (forall x, In x (map fst l) -> text_ltb x k = true) -> insert_sorted k v l = l ++ [(k, v)].
Proof.
  induction l as [|[k' v'] l IH]; cbn; auto. intros H. destruct (text_eqb k' k) eqn:E.
  - apply text_eqb_eq in E. subst. specialize (H k (or_introl eq_refl)). rewrite text_ltb_irrefl in H. discriminate.
  - destruct (text_ltb k k') eqn:L.
    + pose proof (text_ltb_trans _ _ _ L (H k' (or_introl eq_refl))) as X. rewrite text_ltb_irrefl in X. discriminate.
    + rewrite IH; auto.
Qed.
Lemma combine_keys (h r : list text) : exists t, h = map fst (combine h r) ++ t.
Proof.
  revert r. induction h as [|a h IH]; intros [|b r]; cbn; eauto. destruct (IH r) as (t & E). exists t. congruence.
Qed.
Lemma ascending_prefix l t : ascending (l ++ t) -> ascending l.
Proof.
  induction l as [|a [|b l] IH]; cbn; auto. intros [H1 H2]. split; auto. apply IH. exact H2.
Qed.
Lemma ascending_app l k : ascending (l ++ [k]) -> forall x, In x l -> text_ltb x k = true.
Proof.
  induction l as [|a l IH]; intros H x; [intros []|]. intros [<-|Hx].
  - apply (ascending_head _ _ H). apply in_or_app. right. left. reflexivity.
  - apply IH; auto. eapply ascending_tail. exact H.
Qed.
(** Importing keeps the columns in order when their names differ. *)
Theorem C109_csv_import headers record :
  NoDup headers -> import_row headers record = combine headers record.
Proof.
  intros H. unfold import_row. destruct (combine_keys headers record) as (t & E). rewrite E in H.
  assert (G : forall l acc, NoDup (map fst (acc ++ l)) ->
    fold_left (fun acc kv => insert_indexed (fst kv) (snd kv) acc) l acc = acc ++ l).
  { induction l as [|[k v] l IH]; intros acc ND; cbn; [symmetry; apply app_nil_r|]. rewrite indexed_new.
    - rewrite IH; rewrite <- app_assoc; auto.
    - rewrite map_app in ND. cbn in ND. apply NoDup_remove_2 in ND. intros X. apply ND, in_or_app. auto. }
  apply (G _ []). cbn. revert H. generalize (map fst (combine headers record)) as l. clear.
  induction l as [|a l IH]; cbn; [constructor|]. intros H. inversion H; subst. constructor; auto.
  intros X. apply H2, in_or_app. auto.
Qed.
Print Assumptions C109_csv_import.
(** Streaming does so when they are in ascending order. *)
Theorem C109_csv_stream_partial headers record :
  ascending headers -> stream_row headers record = combine headers record.
Proof.
  intros H. unfold stream_row. destruct (combine_keys headers record) as (t & E). rewrite E in H. apply ascending_prefix in H.
  assert (G : forall l acc, ascending (map fst (acc ++ l)) ->
    fold_left (fun acc kv => insert_sorted (fst kv) (snd kv) acc) l acc = acc ++ l).
  { induction l as [|[k v] l IH]; intros acc A; cbn; [symmetry; apply app_nil_r|]. rewrite sorted_new.
    - rewrite IH; rewrite <- app_assoc; auto.
    - apply ascending_app. apply ascending_prefix with (t := map fst l). rewrite map_app in A. cbn in A.
      rewrite <- app_assoc. exact A. }
  apply (G _ []). exact H.
Qed.
Print Assumptions C109_csv_stream_partial.
Example csv_example :
  ascending [[97]; [98]]%N /\ NoDup [[97]; [98]]%N /\
  stream_row [[97]; [98]]%N [[49]; [50]]%N = [([97], [49]); ([98], [50])]%N.
Proof. repeat split; repeat constructor; cbn; intuition discriminate. Qed.

(** Refuted: that a streamed row has its columns in the order of the file. *)
Theorem C109_order_refuted :
  ~ (forall headers record, NoDup headers -> List.length headers = List.length record ->
       stream_row headers record = combine headers record).
Proof.
  intros H. specialize (H [[98]; [97]]%N [[49]; [50]]%N).
  assert (ND : NoDup [[98]; [97]]%N) by (repeat constructor; cbn; intuition discriminate).
  specialize (H ND eq_refl). discriminate H.
Qed.
Print Assumptions C109_order_refuted.

(** ** C110: streams are read independently of each other *)
Section Table.
  Variables (V E : Type).
  Lemma get_put (l : list (nat * producer V E)) h p k : get (put l h p) k = if Nat.eqb h k then Some p else get l k.
  Proof.
    induction l as [|[x q] l IH]; cbn; [destruct (Nat.eqb h k); reflexivity|].
    destruct (Nat.eqb_spec x h) as [->|N1]; cbn; [destruct (Nat.eqb h k); reflexivity|].
    rewrite IH. destruct (Nat.eqb_spec x k) as [->|N2]; auto. destruct (Nat.eqb_spec h k); congruence.
  Qed.
  Lemma drain_taken (l : list (item V E)) : forall acc vs0, acc = vs0 ->
    exists vs a rest, drain acc l = (a, rest) /\
      ((l = map Value vs /\ a = All (acc ++ vs) /\ rest = []) \/ (exists e, l = map Value vs ++ Error e :: rest /\ a = Failure e)).
  Proof.
    induction l as [|[v|e] l IH]; intros acc vs0 _; cbn.
    - exists [], (All acc), []. split; auto. left. rewrite app_nil_r. auto.
    - destruct (IH (acc ++ [v]) _ eq_refl) as (vs & a & rest & D & [(-> & -> & ->)|(e & -> & ->)]).
      + exists (v :: vs), (All ((acc ++ [v]) ++ vs)), []. split; auto. left. rewrite <- app_assoc. auto.
      + exists (v :: vs), (Failure e), rest. split; auto. right. exists e. auto.
    - exists [], (Failure e), l. split; auto. right. exists e. auto.
  Qed.
  Definition fresh (t : table V E) : Prop := forall h p, get (handles t) h = Some p -> h < next_id t.

  Lemma fresh_step t o : fresh t -> fresh (fst (step t o)).
  Proof.
    intros F. destruct o as [p|h|h|]; cbn.
    - intros k q. cbn. rewrite get_put. destruct (Nat.eqb_spec (next_id t) k); [subst; lia|]. intros G. apply F in G. lia.
    - destruct (get (handles t) h) as [p|] eqn:G; auto. destruct (worker t && negb (pure p)); auto. destruct (left p); auto.
      intros k q. cbn. rewrite get_put. destruct (Nat.eqb_spec h k) as [->|]; [intros _; eapply F; eauto|apply F].
    - destruct (get (handles t) h) as [p|] eqn:G; auto. destruct (worker t && negb (pure p)); auto. destruct (drain [] (left p)).
      intros k q. cbn. rewrite get_put. destruct (Nat.eqb_spec h k) as [->|]; [intros _; eapply F; eauto|apply F].
    - exact F.
  Qed.

  Lemma alone_run h : forall os t p, fresh t -> get (handles t) h = Some p ->
    alone (pure p) (worker t) (left p) h os (about h os (run t os)).
  Proof.
    induction os as [|o os IH]; intros t p F G; [constructor|].
    pose proof (fresh_step t o F) as F'. cbn [run]. destruct (step t o) as [t' a] eqn:S. cbn [fst] in F'. cbn [about].
    assert (Hlt := F _ _ G).
    destruct o as [q|k|k|]; cbn [concerns].
    - injection S as <- <-. apply Alone_other; [reflexivity|discriminate|].
      apply (IH (mkTable _ _ (worker t))); auto. cbn. rewrite get_put. destruct (Nat.eqb_spec (next_id t) h); [lia|auto].
    - destruct (Nat.eqb_spec k h) as [->|Nk].
      + cbn in S. rewrite G in S. destruct (worker t && negb (pure p)) eqn:W.
        * injection S as <- <-. apply andb_true_iff in W as [W1 W2]. apply negb_true_iff in W2. specialize (IH t p F G).
          rewrite W1 in *. apply Alone_refused; cbn; auto using Nat.eqb_refl.
        * assert (X : worker t = false \/ pure p = true) by (destruct (worker t), (pure p); auto; discriminate).
          destruct (left p) as [|i rest] eqn:L.
          -- injection S as <- <-. apply Alone_none; auto. specialize (IH t p F G). rewrite L in IH. exact IH.
          -- injection S as <- <-.
             specialize (IH _ (mkProducer (pure p) rest) F').
             cbn [handles worker pure left] in IH. rewrite get_put, Nat.eqb_refl in IH. specialize (IH eq_refl).
             destruct i; [apply Alone_value|apply Alone_error]; auto.
      + apply Alone_other; [cbn; apply Nat.eqb_neq; auto|discriminate|].
        assert (Wt : worker t' = worker t /\ get (handles t') h = Some p).
        { cbn in S. destruct (get (handles t) k); [|injection S as <- <-; auto].
          destruct (worker t && _); [injection S as <- <-; auto|]. destruct (left p0); injection S as <- <-; auto.
          split; auto. cbn. rewrite get_put. destruct (Nat.eqb_spec k h); [congruence|auto]. }
        destruct Wt as [<- G']. apply IH; auto.
    - destruct (Nat.eqb_spec k h) as [->|Nk].
      + cbn in S. rewrite G in S. destruct (worker t && negb (pure p)) eqn:W.
        * injection S as <- <-. apply andb_true_iff in W as [W1 W2]. apply negb_true_iff in W2. specialize (IH t p F G).
          rewrite W1 in *. apply Alone_refused; cbn; auto using Nat.eqb_refl.
        * assert (X : worker t = false \/ pure p = true) by (destruct (worker t), (pure p); auto; discriminate).
          destruct (drain_taken (left p) [] _ eq_refl) as (vs & a' & rest & D & T). rewrite D in S. injection S as <- <-.
          specialize (IH _ (mkProducer (pure p) rest) F').
          cbn [handles worker pure left] in IH. rewrite get_put, Nat.eqb_refl in IH. specialize (IH eq_refl).
          apply Alone_drain with (rest := rest); auto. destruct T as [(-> & -> & ->)|(e & -> & ->)]; constructor.
      + apply Alone_other; [cbn; apply Nat.eqb_neq; auto|discriminate|].
        assert (Wt : worker t' = worker t /\ get (handles t') h = Some p).
        { cbn in S. destruct (get (handles t) k); [|injection S as <- <-; auto].
          destruct (worker t && _); [injection S as <- <-; auto|]. destruct (drain [] (left p0)); injection S as <- <-.
          split; auto. cbn. rewrite get_put. destruct (Nat.eqb_spec k h); [congruence|auto]. }
        destruct Wt as [<- G']. apply IH; auto.
    - injection S as <- <-. apply Alone_worker. apply (IH (mkTable _ _ true)); auto.
  Qed.

  Fixpoint state_after (t : table V E) (os : list (op V E)) : table V E :=
    match os with [] => t | o :: os => state_after (fst (step t o)) os end.
  Lemma fresh_after os : forall t, fresh t -> fresh (state_after t os).
  Proof. induction os as [|o os IH]; intros t F; cbn; auto. apply IH, fresh_step, F. Qed.
  Lemma run_app os os' : forall t, run t (os ++ os') = run t os ++ run (state_after t os) os'.
  Proof.
    induction os as [|o os IH]; intros t; cbn; auto. destruct (step t o) as [t' a] eqn:S. cbn. rewrite IH. reflexivity.
  Qed.
End Table.

(** Whatever happened before a stream was made, and whatever is done with other streams
    afterwards, reading it gives what it gives by itself: each item once, in order.
    [w] says whether this is a parallel worker by then. *)
Theorem C110_independent (V E : Type) before (p : producer V E) after :
  exists answers h later w,
    run empty (before ++ Register p :: after) = answers ++ Handle h :: later /\
    List.length answers = List.length before /\
    (w = true <-> In EnterWorker before) /\
    alone (pure p) w (left p) h after (about h after later).
Proof.
  pose (t := state_after V E empty before).
  assert (F : fresh V E t). { apply fresh_after. intros h q. discriminate. }
  exists (run empty before), (next_id t), (run (fst (step t (Register p))) after), (worker t).
  rewrite run_app. cbn [run]. fold t. split; [reflexivity|]. split; [|split].
  - clear. generalize (@empty V E). induction before as [|o os IH]; intros t0; cbn; auto. destruct (step t0 o) as [t' a] eqn:S.
    cbn. rewrite IH. reflexivity.
  - assert (W : forall os t0, worker (state_after V E t0 os) = true <-> worker t0 = true \/ In EnterWorker os).
    { clear. induction os as [|o os IH]; intros t0; cbn; [tauto|]. rewrite IH.
      assert (X : worker (fst (step t0 o)) = true <-> worker t0 = true \/ o = EnterWorker).
      { destruct o as [q|k|k|]; cbn.
        - intuition discriminate.
        - destruct (get (handles t0) k); [destruct (worker t0 && _) eqn:Y; [|destruct (left p)]|]; cbn; intuition discriminate.
        - destruct (get (handles t0) k); [destruct (worker t0 && _) eqn:Y; [|destruct (drain [] (left p))]|]; cbn; intuition discriminate.
        - tauto. }
      rewrite X. tauto. }
    unfold t. rewrite W. split; [intros [H|H]; [discriminate H|exact H]|intros H; right; exact H].
  - pose proof (fresh_step V E t (Register p) F) as F'.
    apply (alone_run V E (next_id t) after (fst (step t (Register p))) p F'). cbn. rewrite get_put, Nat.eqb_refl. reflexivity.
Qed.
Print Assumptions C110_independent.

(** The handle of a new stream is not that of another. *)
Theorem C110_fresh (V E : Type) (os : list (op V E)) i j h :
  nth_error (run empty os) i = Some (Handle h) -> nth_error (run empty os) j = Some (Handle h) -> i = j.
Proof.
  assert (B : forall os (t : table V E) k h, nth_error (run t os) k = Some (Handle h) -> next_id t <= h).
  { clear. induction os as [|o os IH]; intros t k h H; cbn in H; [destruct k; discriminate|].
    destruct (step t o) as [t' a] eqn:St.
    assert (L : next_id t <= next_id t' /\ (forall x, a = Handle x -> x = next_id t)).
    { destruct o as [q|m|m|]; cbn in St.
      - injection St as <- <-. cbn. split; [lia|]. intros x X. congruence.
      - destruct (get (handles t) m); [destruct (worker t && _); [|destruct (left p) as [|[]]]|]; injection St as <- <-; cbn; split; auto; discriminate.
      - destruct (get (handles t) m) as [p|]; [destruct (worker t && _); [|destruct (drain_taken V E (left p) [] _ eq_refl) as (vs & a' & rest & D & T); rewrite D in St]|];
          injection St as <- <-; cbn; split; auto; try discriminate.
        destruct T as [(_ & -> & _)|(e & _ & ->)]; discriminate.
      - injection St as <- <-. cbn. split; auto; discriminate. }
    destruct L as [L1 L2]. destruct k as [|k]; cbn in H.
    - injection H as ->. rewrite (L2 h eq_refl). lia.
    - apply IH in H. lia. }
  assert (C : forall os (t : table V E) i j h, nth_error (run t os) i = Some (Handle h) -> nth_error (run t os) j = Some (Handle h) -> i = j).
  { clear - B. induction os as [|o os IH]; intros t i j h Hi Hj; [destruct i; discriminate|]. cbn in Hi, Hj.
    destruct (step t o) as [t' a] eqn:St.
    assert (L : forall x, a = Handle x -> next_id t' = S x).
    { destruct o as [q|m|m|]; cbn in St.
      - injection St as <- <-. cbn. intros x X. congruence.
      - destruct (get (handles t) m); [destruct (worker t && _); [|destruct (left p) as [|[]]]|]; injection St as <- <-; discriminate.
      - destruct (get (handles t) m) as [p|]; [destruct (worker t && _); [|destruct (drain_taken V E (left p) [] _ eq_refl) as (vs & a' & rest & D & T); rewrite D in St]|];
          injection St as <- <-; try discriminate. destruct T as [(_ & -> & _)|(e & _ & ->)]; discriminate.
      - injection St as <- <-. discriminate. }
    destruct i as [|i], j as [|j]; cbn in Hi, Hj; auto.
    - injection Hi as ->. apply B in Hj. rewrite (L h eq_refl) in Hj. lia.
    - injection Hj as ->. apply B in Hi. rewrite (L h eq_refl) in Hi. lia.
    - f_equal. eapply IH; eauto. }
  apply C.
Qed.
Print Assumptions C110_fresh.

(** Two streams read in turn; a worker may read the pure one only. *)
Example table_example :
  run empty [Register (mkProducer false [Value 1; Value 2; Error 9]); Register (mkProducer true [Value 5]);
             Next 1; Next 2; Drain 1; Next 1; EnterWorker; Next 1; Next 2] =
  [Handle 1; Handle 2; One 1; One 5; Failure 9; Nothing; Done; Refused; Nothing].
Proof. reflexivity. Qed.
