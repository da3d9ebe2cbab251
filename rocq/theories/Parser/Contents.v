(** The sink of a block, on the contents of a block that is well-formed. *)
From Coq Require Import List NArith ZArith Bool Arith Lia.
Import ListNotations.
From Verif.Text Require Import Model.
From Verif.Lexer Require Import Model.
From Verif.Parser Require Import Model Spec Halts Forests Sinks Grammar.
Open Scope nat_scope.

(** ** The children of a block, with the nodes that the sink makes taken away *)

Definition spread2 (t : tree) : list tree :=
  match t with
  | Node DECL_META [Node SOUP ms] => ms
  | Node DECL_HEAD hs => hs
  | Node DECL_BODY [Node SOUP bs] => bs
  | t => [t]
  end.
Definition spread (t : tree) : list tree :=
  match t with
  | Node BLOCK_META [Node SOUP ms] => ms
  | Node DECLARATION ds => flat_map spread2 ds
  | t => [t]
  end.
Notation spreads := (flat_map spread).

Definition feed1 (s : sink) (t : tree) : option sink :=
  match t with
  | Leaf k x => sink_op s (OToken k (length x))
  | Node _ _ => Some (pushed s (buffer s ++ flat t) 0 (current_offset s + width (leaves t)))
  end.
Fixpoint feed (s : sink) (ts : list tree) : option sink :=
  match ts with [] => Some s | t :: ts => match feed1 s t with Some s => feed s ts | None => None end end.
Lemma feed_app : forall a b s, feed s (a ++ b) = match feed s a with Some s => feed s b | None => None end.
Proof. induction a as [|t a IH]; intros b s; [reflexivity|]. cbn. destruct (feed1 s t); auto. Qed.

(** ** States *)

Definition shape (s : sink) (C B : list event) (D : option pending) : Prop :=
  committed s = C /\ block_meta s = [] /\ buffer s = B /\ declaration s = D /\ depth s = 0 /\ s_errors s = [].
Ltac shapes := repeat match goal with H : shape ?s _ _ _ |- _ => destruct s as [?cc ?mm ?bb ?dd ?pp ?ee ?oo ?tt]; destruct H as (? & ? & ? & ? & ? & ?); cbn [committed block_meta buffer declaration depth s_errors] in *; subst end.
Ltac shaped := repeat split; cbn [committed block_meta buffer declaration depth s_errors]; auto.

Definition trails (e : event) : Prop := In e [Token COMMA; Token WHITESPACE; Token COMMENT].

Definition decl_events (M : option (list event)) (H K b : list event) : list event :=
  [Start DECLARATION] ++ (match M with Some m => [Start DECL_META; Start SOUP] ++ m ++ [Finish; Finish] | None => [] end)
  ++ [Start DECL_HEAD] ++ H ++ [Finish] ++ K ++ [Start DECL_BODY; Start SOUP] ++ b ++ [Finish; Finish; Finish].

(** After a declaration: it is committed, or it waits for its end. *)
Inductive after (T C : list event) : list event -> option pending -> Prop :=
| after_comma : forall B, C <> [] -> Forall (fun e => trivial_event e = true) B -> T = C ++ B -> after T C B None
| after_body : forall M H X tr, M <> Some [] -> existsb (fun e => negb (trivial_event e)) H = true -> Forall trails tr ->
    T = C ++ decl_events M H [Token COLON] (X ++ [Finish]) ++ tr ->
    after T C (X ++ Finish :: tr) (Some (mkPending M H [Token COLON] [])).
(** Where a declaration may begin: with what is committed and what will be. *)
Inductive settled (T C B : list event) (D : option pending) : Prop :=
| settled_start : T = [] -> C = [] -> B = [] -> D = None -> settled T C B D
| settled_meta : forall ms, C = [] -> D = None -> ms <> [] -> B = flats ms -> T = flat (Node BLOCK_META [Node SOUP ms]) -> settled T C B D
| settled_after : after T C B D -> settled T C B D.

Lemma trailer_finish : forall X tr, Forall trails tr -> split_trailer (X ++ Finish :: tr) = (X ++ [Finish], tr).
Proof.
  intros X tr F. unfold split_trailer.
  assert (L : leading_trailer (rev (X ++ Finish :: tr)) = length tr).
  { change (X ++ Finish :: tr) with (X ++ [Finish] ++ tr). rewrite app_assoc, !rev_app_distr. cbn [rev app].
    rewrite <- (rev_length tr). apply Forall_rev in F. induction F as [|e l H F IH]; [reflexivity|]. cbn [app length].
    destruct H as [<- | [<- | [<- | []]]]; cbn [leading_trailer]; rewrite IH; reflexivity. }
  rewrite L. change (X ++ Finish :: tr) with (X ++ [Finish] ++ tr). rewrite app_assoc.
  replace (length ((X ++ [Finish]) ++ tr) - length tr) with (length (X ++ [Finish])) by (rewrite (app_length _ tr); lia).
  rewrite firstn_app_l, skipn_app_l. reflexivity.
Qed.

(** Committing a declaration that has its body. *)
Lemma commits : forall C B0 M H X tr off ds, existsb (fun e => negb (trivial_event e)) H = true -> Forall trails tr ->
  commit_declaration (mkSink C [] B0 (Some (mkPending M H [Token COLON] (X ++ Finish :: tr))) 0 [] off ds) =
  Some (mkSink (C ++ decl_events M H [Token COLON] (X ++ [Finish]) ++ tr) [] B0 None 0 [] off ds).
Proof.
  intros C B0 M H X tr off ds E F. unfold commit_declaration. cbn [declaration p_head p_colon p_body p_meta committed block_meta buffer depth s_errors current_offset decl_start].
  rewrite E. cbn [negb andb]. rewrite (trailer_finish X tr F). f_equal. f_equal. unfold decl_events. repeat (rewrite <- ?app_assoc; cbn [app]). reflexivity.
Qed.
Lemma commits_blank : forall C B B0 off ds, C <> [] -> Forall (fun e => trivial_event e = true) B ->
  commit_meta (mkSink C B B0 None 0 [] off ds) = mkSink (C ++ B) [] B0 None 0 [] off ds.
Proof.
  intros C B B0 off ds NE F. unfold commit_meta. cbn [committed block_meta buffer declaration depth s_errors current_offset decl_start].
  destruct C as [|c C]; [contradiction|]. cbn [is_nil]. rewrite (proj2 (forallb_forall _ B)) by (apply Forall_forall; exact F). reflexivity.
Qed.
Lemma commits_meta : forall ms B0 off ds,
  commit_meta (mkSink [] (flats ms) B0 None 0 [] off ds) = mkSink (flat (Node BLOCK_META [Node SOUP ms])) [] B0 None 0 [] off ds.
Proof. intros. unfold commit_meta. cbn [committed is_nil block_meta]. f_equal. cbn. repeat (rewrite <- ?app_assoc; cbn [app]). reflexivity. Qed.
Lemma nil_finish : forall (X tr : list event), is_nil (X ++ Finish :: tr) = false.
Proof. intros [|x X] tr; reflexivity. Qed.
Lemma nil_flats : forall ms, ms <> [] -> is_nil (flats ms) = false.
Proof. intros [|m ms] NE; [contradiction|]. rewrite is_nil_flats. reflexivity. Qed.

(** The end of the block. *)
Lemma settled_complete : forall T C B D s, settled T C B D -> shape s C B D -> complete s = Some (T, []).
Proof.
  intros T C B D s S SH. shapes. destruct S as [-> -> -> -> | ms -> -> NE -> -> | [B0 NE F -> | M H X tr NE E F ->]]; unfold complete; cbn [buffer declaration block_meta committed depth s_errors current_offset decl_start].
  - reflexivity.
  - rewrite nil_flats by exact NE. cbn [option_map]. rewrite commits_meta. reflexivity.
  - destruct B0 as [|b B0]; [rewrite app_nil_r; reflexivity|]. cbn [is_nil option_map]. rewrite commits_blank by assumption. reflexivity.
  - rewrite nil_finish. cbn [p_meta p_head p_colon p_body]. rewrite commits by assumption. reflexivity.
Qed.

(** A backtick. *)
Lemma settled_backtick : forall T C B D s n, settled T C B D -> shape s C B D ->
  exists s', sink_op s (OToken BACKTICK n) = Some s' /\ shape s' T [Token BACKTICK] (Some (mkPending (Some []) [] [] [])).
Proof.
  intros T C B D s n S SH. shapes. cbn [sink_op Model.depth]. unfold token_backtick.
  destruct S as [-> -> -> -> | ms -> -> NE -> -> | [B0 NE F -> | M H X tr NE E F ->]]; cbn [buffer declaration block_meta committed depth s_errors current_offset decl_start p_meta p_head p_colon p_body].
  - eexists. split; [reflexivity|shaped].
  - rewrite nil_flats by exact NE. rewrite commits_meta. eexists. split; [reflexivity|shaped].
  - destruct B0 as [|b B0]; [rewrite app_nil_r; eexists; split; [reflexivity|shaped]|]. cbn [is_nil]. rewrite commits_blank by assumption. eexists. split; [reflexivity|shaped].
  - rewrite nil_finish. rewrite commits by assumption. eexists. split; [reflexivity|shaped].
Qed.

(** ** Heads *)

Definition Trail (t : tree) : Prop := Blank t \/ exists ts, t = Node ARG_TUPLE ts.
Lemma applied_trail : forall ts, Applied ts -> Forall Trail ts.
Proof. intros ts A. induction A as [|t ts B A IH|as_ ts E A IH]; constructor; auto; [left; exact B|right; eauto]. Qed.
Lemma trivial_in : forall k, In k [WHITESPACE; COMMENT] <-> is_trivial k = true.
Proof. intros k. split; [intros [<- | [<- | []]]; reflexivity|]. destruct k; try discriminate; cbn; auto. Qed.

Lemma head_scan_head : forall n ts as_ pre, heads n -> Forall Trail as_ ->
  head_scan (rev (pre ++ flats (Node n ts :: as_))) (length (pre ++ flats (Node n ts :: as_))) 0 = Some (length pre).
Proof.
  intros n ts as_ pre N F. induction as_ as [|a as_ IH] using rev_ind.
  - cbn [flat_map]. rewrite app_nil_r, rev_app_distr, app_length, Nat.add_comm. rewrite head_scan_node. destruct N as [<- | [<- | [<- | []]]]; reflexivity.
  - apply Forall_app in F as [F Fa]. inversion Fa as [|? ? T _]; subst. specialize (IH F).
    rewrite app_comm_cons, flat_map_app. cbn [flat_map]. rewrite app_nil_r, app_assoc, rev_app_distr, app_length, Nat.add_comm.
    destruct T as [(k & x & -> & K) | [us ->]].
    + cbn [flat rev app length plus head_scan Nat.pred]. apply trivial_in in K. rewrite K. exact IH.
    + rewrite head_scan_node. exact IH.
Qed.
Lemma split_head : forall n ts as_ pre, heads n -> Forall Trail as_ ->
  split_off_head (pre ++ flats (Node n ts :: as_)) = (pre, flats (Node n ts :: as_)).
Proof. intros n ts as_ pre N F. unfold split_off_head. rewrite head_scan_head by assumption. rewrite firstn_app_l, skipn_app_l. reflexivity. Qed.
Lemma head_ne : forall n ts as_, exists e es, flats (Node n ts :: as_) = e :: es /\ trivial_event e = false.
Proof. intros. eexists _, _. split; [reflexivity|reflexivity]. Qed.

(** The colon of a declaration without metadata. *)
Lemma settled_colon : forall T C B D s n nd ts as_, settled T C B D -> heads nd -> Forall Trail as_ -> shape s C (B ++ flats (Node nd ts :: as_)) D ->
  exists s', sink_op s (OToken COLON n) = Some s' /\ shape s' T [] (Some (mkPending None (flats (Node nd ts :: as_)) [Token COLON] [])).
Proof.
  intros T C B D s n nd ts as_ S N F SH. shapes. cbn [sink_op Model.depth]. unfold token_colon. cbn [buffer]. rewrite split_head by assumption.
  destruct (head_ne nd ts as_) as (e & es & HE & _). rewrite HE.
  cbn [buffer declaration block_meta committed depth s_errors current_offset decl_start p_meta p_head p_colon p_body].
  destruct S as [-> -> -> -> | ms -> -> NE -> -> | [B0 NE F0 -> | M H X tr NE E F0 ->]]; cbn [declaration p_meta p_head p_colon p_body].
  - eexists. split; [reflexivity|shaped].
  - rewrite nil_flats by exact NE. rewrite commits_meta. eexists. split; [reflexivity|shaped].
  - destruct B0 as [|b B0]; [rewrite app_nil_r; eexists; split; [reflexivity|shaped]|]. cbn [is_nil]. rewrite commits_blank by assumption. eexists. split; [reflexivity|shaped].
  - rewrite nil_finish. destruct M as [[|m M]|]; [contradiction|..]; rewrite commits by assumption; (eexists; split; [reflexivity|shaped]).
Qed.
(** The colon of a declaration with metadata. *)
Lemma meta_colon : forall T s n nd ts as_ b ms, heads nd -> Forall Trail as_ ->
  shape s T ((b :: ms) ++ flats (Node nd ts :: as_)) (Some (mkPending (Some []) [] [] [])) ->
  exists s', sink_op s (OToken COLON n) = Some s' /\ shape s' T [] (Some (mkPending (Some (b :: ms)) (flats (Node nd ts :: as_)) [Token COLON] [])).
Proof.
  intros T s n nd ts as_ b ms N F SH. shapes. cbn [sink_op Model.depth]. unfold token_colon. cbn [buffer]. rewrite split_head by assumption.
  destruct (head_ne nd ts as_) as (e & es & HE & _). rewrite HE.
  cbn [buffer declaration block_meta committed depth s_errors current_offset decl_start p_meta p_head p_colon p_body is_nil option_map].
  eexists. split; [reflexivity|shaped].
Qed.

(** ** Feeding *)

Definition plain (t : tree) : Prop := match t with Node _ _ => True | Leaf k _ => is_trivial k = true end.
Lemma feed_plain : forall ts s C B D, Forall plain ts -> shape s C B D -> exists s', feed s ts = Some s' /\ shape s' C (B ++ flats ts) D.
Proof.
  induction ts as [|t ts IH]; intros s C B D F SH.
  - exists s. rewrite app_nil_r. auto.
  - inversion F as [|? ? P F']; subst. cbn [feed].
    assert (H : exists s1, feed1 s t = Some s1 /\ shape s1 C (B ++ flat t) D).
    { destruct t as [n us|k x]; cbn [feed1].
      - eexists. split; [reflexivity|]. shapes. shaped.
      - shapes. cbn [sink_op Model.depth]. destruct k; try discriminate P; (eexists; split; [reflexivity|shaped]). }
    destruct H as (s1 & -> & SH1). destruct (IH s1 _ _ _ F' SH1) as (s2 & E & SH2). exists s2. split; [exact E|].
    cbn [flat_map]. rewrite app_assoc. exact SH2.
Qed.

Lemma element_node : forall t, Element t -> exists n ts, t = Node n ts /\ spread t = [t] /\ spread2 t = [t].
Proof. intros t E. destruct E; (eexists _, _; split; [reflexivity|split; reflexivity]). Qed.
Lemma blank_plain : forall t, Blank t -> plain t /\ spread t = [t] /\ spread2 t = [t].
Proof. intros t (k & s & -> & K). apply trivial_in in K. split; [exact K|split; reflexivity]. Qed.
Lemma element_plain : forall t, Element t -> plain t.
Proof. intros t E. destruct (element_node t E) as (n & ts & -> & _). exact I. Qed.
Lemma gap_plain : forall g, Gap g -> Forall plain g.
Proof. intros g G. eapply Forall_impl; [|exact G]. intros t B. apply blank_plain. exact B. Qed.
Lemma mixed_plain : forall ts, Mixed ts -> Forall plain ts.
Proof. intros ts M. induction M; constructor; auto; [apply blank_plain; assumption|apply element_plain; assumption]. Qed.
Lemma soup_plain : forall ts, Soup ts -> Forall plain ts.
Proof. intros ts [t ts' E M]. constructor; [apply element_plain; exact E|apply mixed_plain; exact M]. Qed.
Lemma applied_plain : forall ts, Applied ts -> Forall plain ts.
Proof. intros ts A. induction A; constructor; auto; [apply blank_plain; assumption|exact I]. Qed.

(** ** Declarations *)

Lemma body_events : forall bs, Body bs -> exists X, flats bs = X ++ [Finish].
Proof.
  intros bs [ts t M E]. destruct (element_node t E) as (n & us & -> & _). rewrite flat_map_app. cbn [flat_map flat]. rewrite app_nil_r.
  exists (flats ts ++ Start n :: flats us). rewrite <- app_assoc. reflexivity.
Qed.
Lemma body_plain : forall bs, Body bs -> Forall plain bs.
Proof. intros bs [ts t M E]. apply Forall_app. split; [apply mixed_plain; exact M|]. constructor; [apply element_plain; exact E|constructor]. Qed.

Lemma declaration_feeds : forall T C B D s d, settled T C B D -> shape s C B D -> Declaration d ->
  exists s' B' D', feed s (spread d) = Some s' /\ shape s' T B' D' /\ after (T ++ flat d) T B' D' /\ D' <> None.
Proof.
  intros T C B D s d S SH DE. destruct DE as [ms hs x bs M H BO]. destruct H as [n ts as_ N E A].
  pose proof (applied_trail as_ A) as TR. pose proof (applied_plain as_ A) as PL. pose proof (body_plain bs BO) as PB. destruct (body_events bs BO) as [X EX].
  assert (PH : Forall plain (Node n ts :: as_)) by (constructor; [exact I|exact PL]).
  assert (NT : existsb (fun e => negb (trivial_event e)) (flats (Node n ts :: as_)) = true) by reflexivity.
  destruct M as [|y g us G SO].
  - cbn [app spread flat_map spread2]. rewrite app_nil_r.
    destruct (feed_plain _ _ _ _ _ PH SH) as (s1 & E1 & SH1). destruct (settled_colon _ _ _ _ _ (length x) _ _ _ S N TR SH1) as (s2 & E2 & SH2).
    destruct (feed_plain _ _ _ _ _ PB SH2) as (s3 & E3 & SH3). cbn [app] in SH3. rewrite EX in SH3.
    exists s3. eexists _, _. split; [|split; [exact SH3|split; [|discriminate]]].
    + change (Node n ts :: as_ ++ Leaf COLON x :: bs) with ((Node n ts :: as_) ++ Leaf COLON x :: bs). rewrite feed_app, E1. cbn [feed feed1]. rewrite E2. exact E3.
    + apply after_body; [discriminate|exact NT|constructor|]. unfold decl_events. cbn [flat flat_map].
      rewrite EX, !app_nil_r. repeat (rewrite <- ?app_assoc; cbn [app]). reflexivity.
  - assert (PM : Forall plain (g ++ us)) by (apply Forall_app; split; [apply gap_plain; exact G|apply soup_plain; exact SO]).
    cbn [app spread flat_map spread2]. rewrite app_nil_r.
    destruct (settled_backtick _ _ _ _ _ (length y) S SH) as (s0 & E0 & SH0).
    destruct (feed_plain _ _ _ _ _ PM SH0) as (s0' & E0' & SH0').
    destruct (feed_plain _ _ _ _ _ PH SH0') as (s1 & E1 & SH1).
    destruct (meta_colon _ _ (length x) _ _ _ _ _ N TR SH1) as (s2 & E2 & SH2).
    destruct (feed_plain _ _ _ _ _ PB SH2) as (s3 & E3 & SH3). cbn [app] in SH3. rewrite EX in SH3.
    exists s3. eexists _, _. split; [|split; [exact SH3|split; [|discriminate]]].
    + cbn [feed feed1]. rewrite E0, feed_app, E0'. change (Node n ts :: as_ ++ Leaf COLON x :: bs) with ((Node n ts :: as_) ++ Leaf COLON x :: bs). rewrite feed_app, E1. cbn [feed feed1]. rewrite E2. exact E3.
    + apply after_body; [discriminate|exact NT|constructor|]. unfold decl_events. cbn [flat flat_map].
      rewrite EX, !app_nil_r. repeat (rewrite <- ?app_assoc; cbn [app]). reflexivity.
Qed.

(** Separators. *)
Lemma app_comm_cons' : forall (X : list event) e a b, (X ++ e :: a) ++ b = X ++ e :: (a ++ b).
Proof. intros. rewrite <- app_assoc. reflexivity. Qed.
Lemma gap_after : forall g T C B D s, after T C B D -> shape s C B D -> Gap g ->
  exists s' B', feed s g = Some s' /\ shape s' C B' D /\ after (T ++ flats g) C B' D.
Proof.
  intros g T C B D s A SH G. destruct (feed_plain g s C B D (gap_plain g G) SH) as (s' & E & SH'). exists s', (B ++ flats g). split; [exact E|]. split; [exact SH'|].
  assert (TR : Forall (fun e => trivial_event e = true) (flats g) /\ Forall trails (flats g)).
  { clear - G. induction G as [|t g (k & x & -> & K) G [IH1 IH2]]; [split; constructor|]. cbn. split; constructor; auto.
    - cbn. apply trivial_in. exact K.
    - destruct K as [<- | [<- | []]]; cbn; auto. }
  destruct TR as [TR1 TR2]. destruct A as [B0 NE F -> | M H X tr NE EH F ->].
  - apply after_comma; [exact NE|apply Forall_app; auto|rewrite app_assoc; reflexivity].
  - rewrite (app_comm_cons' X Finish tr). apply after_body; auto; [apply Forall_app; auto|]. rewrite <- !app_assoc. reflexivity.
Qed.
Lemma comma_after : forall T C B D s n, after T C B D -> D <> None -> shape s C B D ->
  exists s' C' B' D', sink_op s (OToken COMMA n) = Some s' /\ shape s' C' B' D' /\ after (T ++ [Token COMMA]) C' B' D'.
Proof.
  intros T C B D s n A ND SH. shapes. cbn [sink_op Model.depth]. unfold token_comma.
  destruct A as [B0 NE F -> | M H X tr NE EH F ->]; [contradiction|]. cbn [buffer declaration block_meta committed depth s_errors current_offset decl_start p_meta p_head p_colon p_body].
  assert (F' : Forall trails (tr ++ [Token COMMA])) by (apply Forall_app; split; [exact F|constructor; [cbn; auto|constructor]]).
  destruct M as [m|].
  - eexists _, _, _, _. split; [reflexivity|]. split; [shaped|]. rewrite (app_comm_cons' X Finish tr). apply after_body; auto. rewrite <- !app_assoc. reflexivity.
  - rewrite (app_comm_cons' X Finish tr). rewrite commits by assumption. eexists _, _, _, _. split; [reflexivity|]. split; [shaped|].
    apply after_comma; [|constructor|].
    + intros Z. apply app_eq_nil in Z as [_ Z]. discriminate Z.
    + rewrite app_nil_r, <- !app_assoc. reflexivity.
Qed.
Lemma separator_feeds : forall sep T C B D s, after T C B D -> D <> None -> shape s C B D -> Separator sep ->
  exists s' C' B' D', feed s sep = Some s' /\ shape s' C' B' D' /\ after (T ++ flats sep) C' B' D'.
Proof.
  intros sep T C B D s A ND SH [g G|g x g' G G'].
  - destruct (gap_after _ _ _ _ _ _ A SH G) as (s' & B' & E & SH' & A'). exists s', C, B', D. auto.
  - destruct (gap_after _ _ _ _ _ _ A SH G) as (s1 & B1 & E1 & SH1 & A1). destruct (comma_after _ _ _ _ _ (length x) A1 ND SH1) as (s2 & C2 & B2 & D2 & E2 & SH2 & A2).
    destruct (gap_after _ _ _ _ _ _ A2 SH2 G') as (s3 & B3 & E3 & SH3 & A3). exists s3, C2, B3, D2. split; [|split; [exact SH3|]].
    + rewrite feed_app, E1. cbn [feed feed1]. rewrite E2. exact E3.
    + rewrite flat_map_app. cbn [flat_map flat app]. rewrite <- !app_assoc in A3. exact A3.
Qed.

Lemma separator_spread : forall sep, Separator sep -> spreads sep = sep.
Proof.
  assert (G : forall g, Gap g -> spreads g = g).
  { intros g G. induction G as [|t g B G IH]; [reflexivity|]. cbn [flat_map]. rewrite IH. destruct (blank_plain t B) as (_ & -> & _). reflexivity. }
  intros sep [g H|g x g' H H']; [apply G; exact H|]. rewrite flat_map_app. cbn [flat_map spread app]. rewrite !G by assumption. reflexivity.
Qed.

Lemma declarations_feed : forall ds, Declarations ds -> forall T C B D s, settled T C B D -> shape s C B D ->
  exists s' C' B' D', feed s (spreads ds) = Some s' /\ shape s' C' B' D' /\ settled (T ++ flats ds) C' B' D'.
Proof.
  intros ds H. induction H as [d sep DE SE|d sep ds DE SE H IH]; intros T C B D s S SH.
  - destruct (declaration_feeds _ _ _ _ _ _ S SH DE) as (s1 & B1 & D1 & E1 & SH1 & A1 & N1).
    destruct (separator_feeds _ _ _ _ _ _ A1 N1 SH1 SE) as (s2 & C2 & B2 & D2 & E2 & SH2 & A2).
    exists s2, C2, B2, D2. split; [|split; [exact SH2|]].
    + cbn [flat_map]. rewrite feed_app, E1, (separator_spread sep SE). exact E2.
    + apply settled_after. cbn [flat_map]. rewrite app_assoc. exact A2.
  - destruct (declaration_feeds _ _ _ _ _ _ S SH DE) as (s1 & B1 & D1 & E1 & SH1 & A1 & N1).
    destruct (separator_feeds _ _ _ _ _ _ A1 N1 SH1 SE) as (s2 & C2 & B2 & D2 & E2 & SH2 & A2).
    destruct (IH _ _ _ _ _ (settled_after _ _ _ _ A2) SH2) as (s3 & C3 & B3 & D3 & E3 & SH3 & S3).
    exists s3, C3, B3, D3. split; [|split; [exact SH3|]].
    + cbn [flat_map]. rewrite flat_map_app, feed_app, E1, (separator_spread sep SE), feed_app, E2. exact E3.
    + cbn [flat_map]. rewrite flat_map_app, !app_assoc. exact S3.
Qed.

Lemma content_feeds : forall ts base, Content ts -> exists s, feed (with_start base) (spreads ts) = Some s /\ complete s = Some (flats ts, []).
Proof.
  intros ts base H.
  assert (S0 : shape (with_start base) [] [] None) by shaped.
  assert (M : forall ms, BlockMeta ms -> exists s B, feed (with_start base) (spreads ms) = Some s /\ shape s [] B None /\ settled (flats ms) [] B None).
  { intros ms [|us SO].
    - eexists _, _. split; [reflexivity|]. split; [exact S0|]. apply settled_start; reflexivity.
    - destruct (feed_plain us _ _ _ _ (soup_plain us SO) S0) as (s & E & SH). exists s, (flats us). split; [cbn [flat_map spread]; rewrite app_nil_r; exact E|]. split; [exact SH|].
      apply (settled_meta _ _ _ _ us); auto; [destruct SO; discriminate|]. cbn [flat_map]. rewrite app_nil_r. reflexivity. }
  destruct H as [ms BM|ms ds BM DS].
  - destruct (M ms BM) as (s & B & E & SH & S). exists s. split; [exact E|]. eapply settled_complete; eassumption.
  - destruct (M ms BM) as (s & B & E & SH & S). destruct (declarations_feed ds DS _ _ _ _ _ S SH) as (s2 & C2 & B2 & D2 & E2 & SH2 & S2).
    exists s2. split; [rewrite flat_map_app, feed_app, E; exact E2|]. rewrite flat_map_app. eapply settled_complete; eassumption.
Qed.
