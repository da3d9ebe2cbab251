(** * Proofs about references and renaming *)
From Coq Require Import List NArith Arith Bool Lia.
From Verif.Lsp Require Import Model Spec Places.
Import ListNotations.

Lemma text_eqb_eq : forall a b, text_eqb a b = true <-> a = b.
Proof.
  induction a as [ | x a IH]; intros [ | y b]; cbn; split; intros H; try discriminate; try reflexivity.
  - apply andb_prop in H. destruct H as [E H]. apply N.eqb_eq in E. apply IH in H. congruence.
  - injection H as -> ->. rewrite N.eqb_refl. apply IH. reflexivity.
Qed.

Lemma strip_suffix_app : forall c n, strip_suffix c (n ++ [c]) = Some n.
Proof.
  induction n as [ | x n IH]; cbn; [rewrite N.eqb_refl; reflexivity | ].
  rewrite IH. destruct (n ++ [c]) eqn:E; [destruct n; discriminate | reflexivity].
Qed.

Definition ok (t : token) : Prop := ttext t <> [] /\ (tkind t = Quoted -> exists n, ttext t = 39%N :: n ++ [39%N]).

Lemma identifier_names : forall t, ok t -> is_identifier t = true -> names t (identifier_text t).
Proof.
  intros t [_ Q] I. unfold is_identifier in I. unfold identifier_text. destruct (tkind t) eqn:K; try discriminate.
  - apply n_plain. auto.
  - apply n_plain. auto.
  - destruct (Q eq_refl) as [n E]. apply n_quoted; [exact K | ]. rewrite E. cbn [strip_prefix].
    replace (39 =? quote)%N with true by reflexivity. fold quote. rewrite strip_suffix_app. reflexivity.
Qed.

Lemma names_identifier : forall t n, names t n -> is_identifier t = true /\ identifier_text t = n.
Proof.
  intros t n [u K | u m K E]; unfold is_identifier, identifier_text.
  - destruct K as [-> | ->]; auto.
  - rewrite K, E. cbn [strip_prefix]. replace (39 =? quote)%N with true by reflexivity.
    change 39%N with quote. rewrite strip_suffix_app. auto.
Qed.

Lemma matches_names : forall t n, ok t ->
  is_identifier t && text_eqb (identifier_text t) n = true <-> names t n.
Proof.
  intros t n O. split.
  - intros H. apply andb_prop in H. destruct H as [I E]. apply text_eqb_eq in E. subst. apply identifier_names; assumption.
  - intros H. apply names_identifier in H. destruct H as [-> ->]. apply text_eqb_eq. reflexivity.
Qed.

Lemma source_app : forall a b, source (a ++ b) = source a ++ source b.
Proof. intros. unfold source. rewrite map_app, concat_app. reflexivity. Qed.
Lemma source_cons : forall t r, source (t :: r) = ttext t ++ source r.
Proof. reflexivity. Qed.
Lemma source_one : forall t, source [t] = ttext t.
Proof. intros. unfold source. cbn. apply app_nil_r. Qed.

Lemma edits_edited : forall after before p keep old new, Forall ok after -> source before = p ++ keep ->
  exists outs, Forall2 (renamed old new) after outs /\
    edited p (keep ++ source after)
      (edits_from (source before ++ source after) (bytes (source before)) after old new) (keep ++ concat outs).
Proof.
  induction after as [ | t after IH]; intros before p keep old new W S.
  - exists []. split; [constructor | ]. cbn. rewrite !app_nil_r. constructor.
  - inversion W as [ | ? ? Ot Wr]; subst.
    assert (source (before ++ [t]) = source before ++ ttext t) as Sb by (rewrite source_app, source_one; reflexivity).
    assert (source before ++ source (t :: after) = source (before ++ [t]) ++ source after) as Src
      by (rewrite Sb, source_cons, app_assoc; reflexivity).
    assert (bytes (source before) + bytes (ttext t) = bytes (source (before ++ [t]))) as By
      by (rewrite Sb, bytes_app; reflexivity).
    cbn [edits_from]. rewrite Src, By.
    destruct (is_identifier t && text_eqb (identifier_text t) old) eqn:M.
    + apply matches_names in M; [ | exact Ot].
      destruct (IH (before ++ [t]) (p ++ keep ++ ttext t) [] old new Wr) as (outs & F & E).
      { rewrite Sb, S, <- !app_assoc, app_nil_r. reflexivity. }
      set (repl := match tkind t with Quoted => quote :: new ++ [quote] | _ => new end).
      exists (repl :: outs). split.
      * constructor; [ | exact F]. subst repl. destruct M as [u K | u n K E'].
        -- destruct K as [K | K]; rewrite K; apply r_plain; auto.
        -- rewrite K. apply r_quoted; assumption.
      * cbn [app] in E. cbn [app concat]. rewrite source_cons.
        rewrite to_position_place. rewrite <- Src. rewrite to_position_place.
        rewrite Src. rewrite Sb, S, <- app_assoc. apply e_edit.
        rewrite Sb, S, <- !app_assoc in E. rewrite <- !app_assoc. exact E.
    + destruct (IH (before ++ [t]) p (keep ++ ttext t) old new Wr) as (outs & F & E).
      { rewrite Sb, S, app_assoc. reflexivity. }
      exists (ttext t :: outs). split.
      * constructor; [ | exact F]. apply r_other. intros N. apply (matches_names t old Ot) in N. congruence.
      * cbn [app concat]. rewrite source_cons. rewrite <- !app_assoc in E. exact E.
Qed.

Lemma locations_ranges : forall after before old decls, Forall ok after ->
  ranges_of (fun t => names t old /\ (decls = false -> in_head t = false)) before after
    (locations_from (source before ++ source after) (bytes (source before)) after old decls).
Proof.
  induction after as [ | t after IH]; intros before old decls W; [constructor | ].
  inversion W as [ | ? ? Ot Wr]; subst.
  assert (source (before ++ [t]) = source before ++ ttext t) as Sb by (rewrite source_app, source_one; reflexivity).
  assert (source before ++ source (t :: after) = source (before ++ [t]) ++ source after) as Src
    by (rewrite Sb, source_cons, app_assoc; reflexivity).
  assert (bytes (source before) + bytes (ttext t) = bytes (source (before ++ [t]))) as By
    by (rewrite Sb, bytes_app; reflexivity).
  cbn [locations_from]. rewrite Src, By.
  specialize (IH (before ++ [t]) old decls Wr).
  destruct (is_identifier t && text_eqb (identifier_text t) old) eqn:M; cbn [andb].
  - apply matches_names in M; [ | exact Ot].
    destruct (decls || negb (in_head t)) eqn:D; cbn [app].
    + rewrite to_position_place. rewrite <- Src at 1. rewrite to_position_place. apply g_yes; [ | exact IH].
      split; [exact M | ]. intros ->. destruct (in_head t); [discriminate | reflexivity].
    + apply g_no; [ | exact IH]. intros [_ N]. apply orb_false_elim in D. destruct D as [-> D].
      rewrite N in D by reflexivity. discriminate.
  - cbn [app]. apply g_no; [ | exact IH]. intros [N _]. apply (matches_names t old Ot) in N. congruence.
Qed.

(** ** The cursor *)

Lemma token_at_sound : forall toks start prev off pr st t,
  token_at start prev toks off = Some (pr, st, t) ->
  exists before after, toks = before ++ t :: after /\ st = start + bytes (source before)
    /\ st <= off <= st + bytes (ttext t)
    /\ (before = [] /\ pr = prev \/ exists b p, before = b ++ [p] /\ pr = Some p).
Proof.
  induction toks as [ | u toks IH]; intros start prev off pr st t H; [discriminate | ]. cbn in H.
  destruct (token_at (start + bytes (ttext u)) (Some u) toks off) as [[[pr' st'] t'] | ] eqn:E.
  - injection H as <- <- <-. apply IH in E. destruct E as (before & after & -> & -> & L & P).
    exists (u :: before), after. split; [reflexivity | ]. rewrite source_cons, bytes_app.
    split; [lia | ]. split; [lia | ]. right. destruct P as [[-> ->] | (b & p & -> & ->)].
    + exists [], u. auto.
    + exists (u :: b), p. auto.
  - destruct ((start <=? off) && (off <=? start + bytes (ttext u))) eqn:C; [ | discriminate].
    injection H as <- <- <-. apply andb_prop in C. destruct C as [C1 C2].
    apply Nat.leb_le in C1, C2. exists [], toks. split; [reflexivity | ]. cbn. split; [lia | ]. split; [lia | ]. auto.
Qed.

Lemma token_at_complete : forall toks start prev off before t after,
  Forall ok toks -> toks = before ++ t :: after -> is_identifier t = true ->
  start + bytes (source before) <= off <= start + bytes (source before) + bytes (ttext t) ->
  exists pr st u, token_at start prev toks off = Some (pr, st, u)
    /\ (is_identifier u = true \/ exists p, pr = Some p /\ is_identifier p = true /\ st = off).
Proof.
  induction toks as [ | v toks IH]; intros start prev off before t after W E I L; [destruct before; discriminate | ].
  inversion W as [ | ? ? Ov Wr]; subst. cbn [token_at].
  destruct before as [ | b before]; cbn [app] in E; injection E as -> ->.
  - cbn in L. destruct (token_at (start + bytes (ttext t)) (Some t) after off) as [[[pr st] u] | ] eqn:T.
    + exists pr, st, u. split; [reflexivity | ]. apply token_at_sound in T.
      destruct T as (b & a & -> & S & L2 & P). destruct P as [[-> ->] | (b' & p & -> & ->)].
      * right. exists t. cbn in S. split; [reflexivity | ]. split; [exact I | lia].
      * exfalso. rewrite source_app, bytes_app, source_one in S.
        apply Forall_app in Wr. destruct Wr as [Wb _]. apply Forall_app in Wb. destruct Wb as [_ Wp].
        inversion Wp as [ | ? ? Op _]; subst. destruct Op as [Np _].
        assert (bytes (ttext p) <> 0) by (intros Z; apply bytes_zero in Z; contradiction). lia.
    + exists prev, start, t. split; [ | auto].
      destruct (Nat.leb_spec start off); [ | lia].
      destruct (Nat.leb_spec off (start + bytes (ttext t))); [reflexivity | lia].
  - rewrite source_cons, bytes_app in L.
    destruct (IH (start + bytes (ttext b)) (Some b) off before t after Wr eq_refl I) as (pr & st & u & T & R); [lia | ].
    rewrite T. eauto.
Qed.

Lemma find_sound : forall toks off t, find_identifier_at toks off = Some t -> touches toks off t.
Proof.
  intros toks off t H. unfold find_identifier_at in H.
  destruct (token_at 0 None toks off) as [[[pr st] u] | ] eqn:T; [ | discriminate].
  apply token_at_sound in T. destruct T as (before & after & -> & S & L & P). cbn in S.
  destruct (is_identifier u) eqn:I.
  - injection H as ->. exists before, after. split; [reflexivity | ]. split; [ | lia].
    intros K. unfold is_identifier in I. rewrite K in I. discriminate.
  - destruct pr as [p | ]; [ | discriminate].
    destruct (is_identifier p && (st =? off)) eqn:C; [ | discriminate]. injection H as ->.
    apply andb_prop in C. destruct C as [Ip C]. apply Nat.eqb_eq in C.
    destruct P as [[_ P] | (b & p' & -> & P)]; [discriminate | ]. injection P as <-.
    exists b, (u :: after). rewrite <- app_assoc. split; [reflexivity | ]. split.
    + intros K. unfold is_identifier in Ip. rewrite K in Ip. discriminate.
    + rewrite source_app, bytes_app, source_one in S. lia.
Qed.

Lemma find_complete : forall toks off t, Forall ok toks -> touches toks off t ->
  exists u, find_identifier_at toks off = Some u.
Proof.
  intros toks off t W (before & after & E & K & L).
  assert (is_identifier t = true) as I by (unfold is_identifier; destruct (tkind t); congruence || reflexivity).
  destruct (token_at_complete toks 0 None off before t after W E I) as (pr & st & u & T & R); [lia | ].
  unfold find_identifier_at. rewrite T. destruct (is_identifier u); [eauto | ].
  destruct R as [R | (p & -> & Ip & ->)]; [discriminate | ]. rewrite Ip, Nat.eqb_refl. cbn. eauto.
Qed.
