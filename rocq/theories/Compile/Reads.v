(** Compiled code reads as the expression it was compiled from. *)
From Coq Require Import String List Bool Arith NArith Lia.
From Verif.Basics Require Model.
From Verif.Scope Require Import Model.
From Verif.Scope Require Proofs.
From Verif.Bytecode Require Import Model.
From Verif.Compile Require Import Model Relate.
Import ListNotations.
Open Scope nat_scope.

Section Reads.
Context {native : Type}.
Notation ref := (ref native).
Notation syn := (syn native).
Notation form := (form native).
Notation proto := (proto (native := native)).
Notation binder := (binder (native := native)).
Notation level := (level (native := native)).
Notation item := (item (native := native)).
Notation act := (act (native := native)).
Variable St : settings (native := native).
Variable forcing : bool.
Hypothesis tables : quiet_tables St forcing.
Notation reads := (reads St forcing).
Notation freads := (freads St forcing).
Notation rreads := (rreads St forcing).
Notation rreadss := (rreadss St forcing).
Notation bread := (bread St forcing).
Notation breads := (breads St forcing).
Notation unknown := (unknown St).

Definition grows (b b' : binder) : Prop :=
  (exists ps, bd_bindings b' = bd_bindings b ++ ps) /\ (exists rs, bd_refs b' = bd_refs b ++ rs) /\
  (bd_recursive b = true -> bd_recursive b' = true).
Definition outside (L : level) (G : list level) (b : binder) : list level := if bd_recursive b then L :: G else G.
Definition sits (L : level) (G : list level) (b : binder) : Prop :=
  exists fs, Forall2 (fun p f => p_form p (ctx (outside L G b)) = Ok f) (bd_bindings b) fs /\
    ((bd_refs b = [] /\ L = LSyn (bd_recursive b) fs) \/ (bd_recursive b = true /\ L = LLet (bd_refs b) fs)).

Lemma grows_refl b : grows b b.
Proof. repeat split; [exists []; rewrite app_nil_r; reflexivity .. | trivial]. Qed.
Lemma grows_trans a b c : grows a b -> grows b c -> grows a c.
Proof.
  intros ((p1 & H1) & (r1 & H2) & H3) ((p2 & H4) & (r2 & H5) & H6). repeat split.
  - exists (p1 ++ p2). rewrite H4, H1, app_assoc. reflexivity.
  - exists (r1 ++ r2). rewrite H5, H2, app_assoc. reflexivity.
  - auto.
Qed.
Lemma grows_binding b b' n p : grows b b' -> nth_error (bd_bindings b) n = Some p -> nth_error (bd_bindings b') n = Some p.
Proof. intros ((ps & ->) & _) H. rewrite nth_error_app1; [exact H | apply nth_error_Some; congruence]. Qed.
Lemma grows_ref b b' n r : grows b b' -> nth_error (bd_refs b) n = Some r -> nth_error (bd_refs b') n = Some r.
Proof. intros (_ & (ps & ->) & _) H. rewrite nth_error_app1; [exact H | apply nth_error_Some; congruence]. Qed.

Lemma forall2_nth {A B} (R : A -> B -> Prop) l l' : Forall2 R l l' -> forall n a, nth_error l n = Some a ->
  exists b, nth_error l' n = Some b /\ R a b.
Proof. induction 1 as [|x y l l' H _ IH]; intros [|n] a E; simpl in *; try discriminate; [injection E as <-; eauto | eauto]. Qed.
Lemma sits_slot L G b n p : sits L G b -> nth_error (bd_bindings b) n = Some p ->
  exists f, slot (L :: G) n = Some (outside L G b, f) /\ p_form p (ctx (outside L G b)) = Ok f.
Proof.
  intros (fs & H & HL) E. destruct (forall2_nth _ _ _ H n p E) as (f & Ef & Hf). exists f. split; [| exact Hf].
  unfold outside in *. destruct HL as [(_ & ->) | (Hr & ->)]; cbn [slot]; [rewrite Ef; reflexivity |]. rewrite Ef, Hr. reflexivity.
Qed.

(** Actions that keep to what is there. *)
Definition hushed (b b' : binder) : Prop := bd_strict b' = bd_strict b \/ Is_true forcing.
Lemma hushed_refl b : hushed b b.
Proof. left. reflexivity. Qed.
Lemma hushed_trans a b c : hushed a b -> hushed b c -> hushed a c.
Proof. intros [H1|H1] [H2|H2]; try (right; assumption). left. congruence. Qed.
Definition keeps (b b' : binder) : Prop := grows b b' /\ bd_refs b' = bd_refs b /\ hushed b b'.
Lemma keeps_refl b : keeps b b.
Proof. split; [apply grows_refl | split; [reflexivity | apply hushed_refl]]. Qed.
Lemma keeps_trans a b c : keeps a b -> keeps b c -> keeps a c.
Proof.
  intros (H1 & H2 & H5) (H3 & H4 & H6). split; [eapply grows_trans; eauto | split; [congruence | eapply hushed_trans; eauto]].
Qed.
Hint Resolve grows_refl grows_trans keeps_refl keeps_trans : core.
Definition kept {A} (m : act A) : Prop := forall b x b', m b = (x, b') -> keeps b b'.

Lemma kept_andthen {A B} (m : act A) (f : A -> act B) : kept m -> (forall a, kept (f a)) -> kept (andthen m f).
Proof.
  intros H1 H2 b x b'. unfold andthen. destruct (m b) as [[a|e] b1] eqn:E; intros H.
  - eapply keeps_trans; [eapply H1; exact E | eapply H2; exact H].
  - injection H as <- <-. eapply H1; exact E.
Qed.
Lemma kept_ret {A} (a : A) : kept (ret (native := native) a).
Proof. intros b x b' [= _ <-]. apply keeps_refl. Qed.
Lemma kept_fail {A} e : kept (fail (native := native) (A := A) e).
Proof. intros b x b' [= _ <-]. apply keeps_refl. Qed.
Lemma kept_lift {A} (r : res A) : kept (lift_res (native := native) r).
Proof. intros b x b' [= _ <-]. apply keeps_refl. Qed.
Lemma kept_ensure : kept (ensure_recursive (native := native)).
Proof.
  intros b x b' [= _ <-]. split; [| split; [reflexivity | left; reflexivity]]. split; [exists []; cbn; rewrite app_nil_r; reflexivity |].
  split; [exists []; cbn; rewrite app_nil_r; reflexivity | reflexivity].
Qed.
Lemma kept_deferred p : kept (add_deferred (native := native) p).
Proof.
  intros b x b' [= _ <-]. split; [| split; [reflexivity | left; reflexivity]]. repeat split; [exists [p] | exists [] | ]; cbn; rewrite ?app_nil_r; auto.
Qed.
Lemma kept_add t : kept (add St t).
Proof. apply kept_deferred. Qed.
Lemma kept_mark n : Is_true forcing -> kept (mark_strict (native := native) n).
Proof.
  intros F b x b'. unfold mark_strict. intros [= _ <-]. destruct (existsb _ _); [apply keeps_refl |].
  split; [| split; [reflexivity | right; exact F]].
  repeat split; [exists [] | exists [] | ]; cbn; rewrite ?app_nil_r; auto.
Qed.
Notation quiet_demand := (quiet_demand forcing).
Lemma kept_mark_if d r : quiet_demand d -> kept (mark_if_strict (native := native) d r).
Proof.
  unfold mark_if_strict, Relate.quiet_demand. destruct (Basics.Model.d_strict d); try (intros; apply kept_ret).
  destruct (Basics.Model.d_rec d); try (intros; apply kept_ret). intros F. destruct r; try apply kept_ret. apply kept_mark. auto.
Qed.
Lemma quiet_default : quiet_demand default_demand.
Proof. intros H. discriminate. Qed.
Lemma kept_or_fail (m o : act ref) : kept m -> kept o -> kept (or_fail m o).
Proof.
  intros H1 H2 b x b'. unfold or_fail. destruct (m b) as [r b1] eqn:E. intros H.
  destruct r as [a|[]]; try (injection H as <- <-; eapply H1; exact E).
  eapply keeps_trans; [eapply H1; exact E | eapply H2; exact H].
Qed.
Hint Resolve kept_andthen kept_ret kept_fail kept_lift kept_ensure kept_deferred kept_add kept_mark_if kept_or_fail : kept.

Lemma andthen_ok {A B} (m : act A) (f : A -> act B) b y b' : andthen (native := native) m f b = (Ok y, b') ->
  exists a b1, m b = (Ok a, b1) /\ f a b1 = (Ok y, b').
Proof. unfold andthen. destruct (m b) as [[a|e] b1]; [eauto | discriminate]. Qed.
Lemma andthen_err {A B} (m : act A) (f : A -> act B) b e b' : andthen (native := native) m f b = (Err e, b') ->
  m b = (Err e, b') \/ exists a b1, m b = (Ok a, b1) /\ f a b1 = (Err e, b').
Proof. unfold andthen. destruct (m b) as [[a|e1] b1]; intros H; [right; eauto | left; injection H as -> ->; reflexivity]. Qed.

(** What it is for the two ways of compiling an expression to be right. *)
Definition fails_well {A} (m : act A) (e : expr) : Prop := forall b n b', m b = (Err (FreeVar n), b') -> unknown e.
Definition binds (m : act ref) (e : expr) : Prop :=
  forall b r b', m b = (Ok r, b') -> forall L G z, grows b' z -> sits L G z ->
    bread (L :: G) (bd_refs z) (length (bd_refs b)) r e.
Definition bodies (m : act proto) (e : expr) : Prop :=
  forall b p b', m b = (Ok p, b') -> forall L G z, grows b' z -> sits L G z ->
    forall t, p_syntax p (ctx (L :: G)) = Ok t -> reads (L :: G) t e.
Record good (c : code (native := native)) (e : expr) : Prop := {
  g_bkept : forall d self, kept (c_binding c d self);
  g_kept : forall self, kept (c_body c self);
  g_fails : forall d self, fails_well (c_binding c d self) e;
  g_binds : forall d self, binds (c_binding c d self) e;
  g_bodies : forall self, bodies (c_body c self) e }.
Definition good_proto (p : proto) (e : expr) : Prop :=
  forall G, (forall t, p_syntax p (ctx G) = Ok t -> reads G t e) /\ (forall f, p_form p (ctx G) = Ok f -> freads G f e).

Lemma slot_of_deferred p b r b' L G z : add_deferred p b = (Ok r, b') -> grows b' z -> sits L G z ->
  exists n f, r = local n /\ slot (L :: G) n = Some (outside L G z, f) /\ p_form p (ctx (outside L G z)) = Ok f.
Proof.
  intros H Hg Hs. injection H as <- <-. exists (length (bd_bindings b)).
  destruct (sits_slot L G z (length (bd_bindings b)) p Hs) as (f & H1 & H2).
  { eapply grows_binding; [exact Hg |]. cbn. rewrite nth_error_app2 by lia. rewrite Nat.sub_diag. reflexivity. }
  exists f. auto.
Qed.
Lemma holder_form (t : syn) c : exists k, (k = FThunk \/ k = FValue) /\ p_form (holder St t) c = Ok (k, t).
Proof.
  unfold holder, proto_syntax. cbn. destruct (is_whnf t || s_suppress_updates St); eauto.
Qed.
Lemma slot_of_add (t : syn) b r b' L G z : add St t b = (Ok r, b') -> grows b' z -> sits L G z -> bd_recursive z = true ->
  exists n k, r = local n /\ (k = FThunk \/ k = FValue) /\ slot (L :: G) n = Some (L :: G, (k, t)).
Proof.
  intros H Hg Hs Hr. destruct (slot_of_deferred _ _ _ _ _ _ _ H Hg Hs) as (n & f & -> & H1 & H2).
  unfold outside in *. rewrite Hr in *. destruct (holder_form t (ctx (L :: G))) as (k & Hk & E). rewrite E in H2.
  injection H2 as <-. eauto.
Qed.
Lemma bread_rreads L G z i r e : sits L G z -> bread (L :: G) (bd_refs z) i r e -> rreads (L :: G) r e.
Proof.
  intros Hs H. remember (L :: G) as G1 eqn:EG. remember (bd_refs z) as rs eqn:Er.
  induction H as [G1 refs i j nm r Hj Hn | G1 refs i e r Hg | G1 refs i n G' f e Hsl Hf | G1 refs i r fx pr x rest _ IH]; subst.
  - apply rr_var. destruct Hs as (fs & _ & [(E & _) | (_ & ->)]); [rewrite E in Hn; destruct j; discriminate |].
    cbn. rewrite Hn. reflexivity.
  - apply rr_global. exact Hg.
  - eapply rr_slot; eassumption.
  - apply rr_operator. auto.
Qed.
Lemma binds_rreads m e b r b' L G z : binds m e -> m b = (Ok r, b') -> grows b' z -> sits L G z -> rreads (L :: G) r e.
Proof. intros H E Hg Hs. eapply bread_rreads; [exact Hs | eapply H; eassumption]. Qed.
Lemma binds_deferred p e : good_proto p e -> binds (add_deferred p) e.
Proof.
  intros H b r b' E L G z Hg Hs. destruct (slot_of_deferred _ _ _ _ _ _ _ E Hg Hs) as (n & f & -> & H1 & H2).
  eapply b_slot; [exact H1 |]. apply H. exact H2.
Qed.
Lemma syntax_good d take e : (forall G t, take (ctx G) = Ok t -> reads G t e) -> good_proto (proto_syntax St d take) e.
Proof.
  intros H G. split; [apply H |]. intros f. unfold proto_syntax. cbn [p_form].
  destruct (take (ctx G)) as [t|] eqn:E; [| discriminate]. cbn [bind]. intros [= <-].
  destruct (_ || _ || _); apply fr_code; auto.
Qed.

(** A let is built from its parts. *)
Lemma all_ok_forall2 {A B} (f : A -> res B) l : forall ys, all_ok (map f l) = Ok ys -> Forall2 (fun a y => f a = Ok y) l ys.
Proof.
  induction l as [|a l IH]; intros ys; simpl; [intros [= <-]; constructor |].
  destruct (f a) as [y|] eqn:E; [| discriminate]. simpl. destruct (all_ok (map f l)) as [zs|]; [| discriminate].
  simpl. intros [= <-]. constructor; auto.
Qed.
Lemma built scope rec G m t : building scope rec (ctx G) m = Ok t ->
  (scope = true -> rec = true) ->
  exists body z, m (mkBinder rec [] [] []) = (Ok body, z) /\
  (grows (mkBinder rec [] [] []) z -> (scope = false -> bd_refs z = []) -> hushed (mkBinder rec [] [] []) z ->
   exists fs idx t' L, (idx = [] \/ Is_true forcing) /\ t = let_code (bd_recursive z) fs idx t' /\ sits L G z /\
     L = (if scope then LLet (bd_refs z) fs else LSyn (bd_recursive z) fs) /\ p_syntax body (ctx (L :: G)) = Ok t').
Proof.
  unfold building. destruct (m (mkBinder rec [] [] [])) as [[body|] z]; [| discriminate]. intros H Hsr.
  exists body, z. split; [reflexivity |]. intros Hg Hr Hh. unfold realise in H.
  set (inner := mkFrame scope (bd_refs z) (length (bd_bindings z)) :: ctx G) in *.
  destruct (all_ok _) as [fs|] eqn:E; [| discriminate]. cbn [bind] in H.
  destruct (p_syntax body inner) as [t'|] eqn:Eb; [| discriminate]. cbn [bind] in H. injection H as <-.
  apply all_ok_forall2 in E.
  assert (Hlen : length (bd_bindings z) = length fs) by (clear - E; induction E; simpl; congruence).
  exists fs, (filter (fun i => match nth_error fs i with Some f => is_thunk f | None => false end) (bd_strict z)), t',
    (if scope then LLet (bd_refs z) fs else LSyn (bd_recursive z) fs).
  assert (Hin : inner = ctx ((if scope then LLet (bd_refs z) fs else LSyn (bd_recursive z) fs) :: G)).
  { unfold inner. cbn [ctx map]. destruct scope; cbn [level_frame]; rewrite Hlen; [reflexivity |]. rewrite (Hr eq_refl). reflexivity. }
  split; [destruct Hh as [Hh|Hh]; [left; cbn in Hh; rewrite Hh; reflexivity | right; exact Hh] |].
  split; [unfold let_code, force_first, forces; destruct fs; reflexivity |]. split; [| split; [reflexivity | rewrite <- Hin; exact Eb]].
  exists fs. split.
  - unfold outside. rewrite Hin in E. destruct (bd_recursive z); exact E.
  - destruct scope; [right; split; [| reflexivity] | left; split; [auto | reflexivity]].
    destruct Hg as (_ & _ & Hg). apply Hg. cbn. auto.
Qed.

(** ** References taken in the context *)
Definition fetches (L : level) (G : list level) (q : proto_ref (native := native)) (e : expr) : Prop :=
  forall r, q (ctx (L :: G)) = Ok r -> rreads (L :: G) r e.
Lemma taken L G qs es : Forall2 (fetches L G) qs es -> forall rs, take_refs qs (ctx (L :: G)) = Ok rs ->
  rreadss (L :: G) rs es /\ length rs = length qs.
Proof.
  induction 1 as [|q e qs es Hq _ IH]; intros rs; cbn [take_refs]; [intros [= <-]; split; [constructor | reflexivity] |].
  destruct (q (ctx (L :: G))) as [r|] eqn:E; [| discriminate]. cbn [bind].
  destruct (take_refs qs (ctx (L :: G))) as [rs'|]; [| discriminate]. cbn [bind]. intros [= <-].
  destruct (IH rs' eq_refl). split; [constructor; [apply Hq; exact E | assumption] | simpl; congruence].
Qed.

(** ** Applications *)
Definition good_item (x : item) : Prop := good (snd x) (fst x).

Lemma callee_kept f self : good_item f -> kept (callee St f self).
Proof.
  intros H. unfold callee. destruct (fst f) as [[n|s b n] | | | k xs]; try (destruct k); auto with kept;
    (apply kept_andthen; [apply (g_bkept _ _ H) | auto with kept]).
Qed.
Lemma callee_good f self b q i name b' : good_item f -> callee St f self b = (Ok (q, i, name), b') ->
  (forall L G z, grows b' z -> sits L G z -> fetches L G q (fst f)) /\
  (forall n, i = Some n -> exists nm xs, fst f = ENode (KIntrinsic nm) xs /\ intrinsic_index St nm = Ok n).
Proof.
  intros H. unfold callee.
  assert (D : andthen (c_binding (snd f) default_demand self) (fun r => ret (known_ref r, None, None)) b = (Ok (q, i, name), b') ->
    (forall L G z, grows b' z -> sits L G z -> fetches L G q (fst f)) /\
    (forall n, i = Some n -> exists nm xs, fst f = ENode (KIntrinsic nm) xs /\ intrinsic_index St nm = Ok n)).
  { intros E. apply andthen_ok in E. destruct E as (r & b1 & E & [= <- <- <- <-]). split; [| discriminate].
    intros L G z Hg Hs r' [= <-]. eapply (binds_rreads _ _ _ _ _ L G z); [apply (g_binds _ _ H) | exact E | exact Hg | exact Hs]. }
  destruct (fst f) as [[n|s j n] | | | k xs]; try exact D; try (destruct k; try exact D); clear D.
  - intros E. apply andthen_ok in E. destruct E as (r & b1 & [= E <-] & [= <- <- <- <-]). split; [| discriminate].
    intros L G z _ _ r' [= <-]. apply rr_global. cbn. rewrite E. reflexivity.
  - intros [= <- <- <- <-]. split; [| discriminate]. intros L G z _ _ r E. apply rr_var. exact E.
  - intros E. apply andthen_ok in E. destruct E as (r & b1 & [= E <-] & [= <- <- <- <-]). split.
    + intros L G z _ _ r' [= <-]. apply rr_global. cbn. rewrite E. reflexivity.
    + intros n [= <-]. eauto.
Qed.
Lemma argument_kept d self x : quiet_demand d -> good_item x -> kept (argument St d self x).
Proof.
  intros Q H. unfold argument. destruct (fst x) as [[n|s b n] | | | k xs]; try (destruct k); auto with kept;
    (apply kept_andthen; [apply (g_bkept _ _ H) | auto with kept]).
Qed.
Lemma argument_good d self x b q b' : quiet_demand d -> good_item x -> argument St d self x b = (Ok q, b') ->
  forall L G z, grows b' z -> sits L G z -> fetches L G q (fst x).
Proof.
  intros Q H. unfold argument.
  assert (D : andthen (c_binding (snd x) d self) (fun r => andthen (mark_if_strict d r) (fun _ => ret (known_ref r))) b = (Ok q, b') ->
    forall L G z, grows b' z -> sits L G z -> fetches L G q (fst x)).
  { intros E. apply andthen_ok in E. destruct E as (r & b1 & E & E'). apply andthen_ok in E'.
    destruct E' as (u & b2 & E' & [= <- <-]). intros L G z Hg Hs r' [= <-].
    eapply (binds_rreads _ _ _ _ _ L G z); [apply (g_binds _ _ H) | exact E | | exact Hs].
    eapply grows_trans; [eapply (proj1 (kept_mark_if _ _ Q _ _ _ E')) | exact Hg]. }
  destruct (fst x) as [[n|s j n] | | | k xs]; try exact D; try (destruct k; try exact D); clear D.
  - intros E. apply andthen_ok in E. destruct E as (r & b1 & [= E <-] & [= <- <-]).
    intros L G z _ _ r' [= <-]. apply rr_global. cbn. rewrite E. reflexivity.
  - intros [= <- <-] L G z _ _ r E. apply rr_var. exact E.
  - intros E. apply andthen_ok in E. destruct E as (r & b1 & [= E <-] & [= <- <-]).
    intros L G z _ _ r' [= <-]. apply rr_global. cbn. rewrite E. reflexivity.
Qed.
Lemma quiet_hd ds : Forall quiet_demand ds -> quiet_demand (hd default_demand ds).
Proof. intros H. destruct H; [apply quiet_default | assumption]. Qed.
Lemma quiet_tl ds : Forall quiet_demand ds -> Forall quiet_demand (tl ds).
Proof. intros H. destruct H; [constructor | assumption]. Qed.
Lemma arguments_kept self xs : Forall good_item xs -> forall ds, Forall quiet_demand ds -> kept (arguments St ds self xs).
Proof.
  induction 1 as [|x xs Hx _ IH]; intros ds Q; simpl; [apply kept_ret |].
  apply kept_andthen; [apply argument_kept; [apply quiet_hd; exact Q | exact Hx] |]. intros q.
  apply kept_andthen; [apply IH; apply quiet_tl; exact Q | intros; apply kept_ret].
Qed.
Lemma arguments_good self xs : Forall good_item xs -> forall ds, Forall quiet_demand ds -> forall b qs b', arguments St ds self xs b = (Ok qs, b') ->
  forall L G z, grows b' z -> sits L G z -> Forall2 (fetches L G) qs (map fst xs).
Proof.
  induction 1 as [|x xs Hx Hxs IH]; intros ds Q b qs b'; simpl; [intros [= <- <-]; constructor |].
  intros E L G z Hg Hs. apply andthen_ok in E. destruct E as (q & b1 & E1 & E). apply andthen_ok in E.
  destruct E as (rs & b2 & E2 & [= <- <-]). constructor; [| eapply IH; [apply quiet_tl; exact Q | eassumption ..]].
  eapply argument_good; [apply quiet_hd; exact Q | exact Hx | exact E1 | | exact Hs].
  eapply grows_trans; [eapply (proj1 (arguments_kept _ _ Hxs _ (quiet_tl _ Q) _ _ _ E2)) | exact Hg].
Qed.

Lemma forall2_len {A B} (R : A -> B -> Prop) l l' : Forall2 R l l' -> length l = length l'.
Proof. induction 1; simpl; congruence. Qed.
Lemma call_good L G q i name qs d self x xs :
  fetches L G q x -> Forall2 (fetches L G) qs xs ->
  (forall n, i = Some n -> exists nm ys, x = ENode (KIntrinsic nm) ys /\ intrinsic_index St nm = Ok n) ->
  forall t, p_syntax (call St q i name qs d self) (ctx (L :: G)) = Ok t -> reads (L :: G) t (ENode KApp (x :: xs)).
Proof.
  intros Hq Hqs Hi t. unfold call.
  assert (D : p_syntax (let direct := match arg_demands St i name with
                    | Some ds => negb (length ds =? 0) && (length ds =? length qs)
                    | None => false
                    end in
      let eager := same_name self name in
      if direct && valid St then direct_proto St q qs d eager else app_proto St q qs d eager) (ctx (L :: G)) = Ok t ->
    reads (L :: G) t (ENode KApp (x :: xs))).
  { cbv zeta. destruct (match arg_demands St i name with Some ds => _ | None => _ end) eqn:Ed; cbn [andb].
    - destruct (valid St); cbn [direct_proto app_proto proto_syntax p_syntax];
        (destruct (q (ctx (L :: G))) as [r|] eqn:E; [| discriminate]); cbn [bind];
        (destruct (take_refs qs (ctx (L :: G))) as [rs|] eqn:E2; [| discriminate]); cbn [bind]; intros [= <-];
        destruct (taken _ _ _ _ Hqs _ E2) as (H1 & H2).
      + apply r_direct; [auto | exact H1 |]. destruct (arg_demands St i name) as [ds|]; [| discriminate].
        intros ->. apply andb_prop in Ed. destruct Ed as (Ed1 & Ed2). apply Nat.eqb_eq in Ed2.
        apply negb_true_iff, Nat.eqb_neq in Ed1. simpl in H2. lia.
      + apply r_app; auto.
    - cbn [app_proto proto_syntax p_syntax].
      destruct (q (ctx (L :: G))) as [r|] eqn:E; [| discriminate]; cbn [bind];
        (destruct (take_refs qs (ctx (L :: G))) as [rs|] eqn:E2; [| discriminate]); cbn [bind]; intros [= <-];
        destruct (taken _ _ _ _ Hqs _ E2) as (H1 & H2). apply r_app; auto. }
  destruct i as [n|]; [| exact D]. destruct (Hi n eq_refl) as (nm & ys & -> & Hn).
  destruct (nth_error (s_intrinsics St) n) as [bif|] eqn:Eb; [| exact D].
  destruct (_ && _ && _) eqn:Ec; [| exact D]. clear D. apply andb_prop in Ec. destruct Ec as (Ec & Ea).
  apply andb_prop in Ec. destruct Ec as (Es & Ei). apply Nat.eqb_eq in Ea. apply negb_true_iff in Es.
  destruct (i_fusible bif && (length qs =? 2) && is_fusible_body (i_wrapper bif)) eqn:Ef.
  - apply andb_prop in Ef. destruct Ef as (Ef & Ew). apply andb_prop in Ef. destruct Ef as (Ef & El). apply Nat.eqb_eq in El.
    cbn [fused_proto proto_syntax p_syntax]. destruct (take_refs qs (ctx (L :: G))) as [rs|] eqn:E2; [| discriminate]. cbn [bind].
    destruct (taken _ _ _ _ Hqs _ E2) as (H1 & H2). rewrite El in H2. destruct rs as [|a [|b [|? ?]]]; try discriminate.
    intros [= <-]. eapply r_fused; eauto. congruence.
  - cbn [inline_proto proto_syntax p_syntax]. destruct (take_refs qs (ctx (L :: G))) as [rs|] eqn:E2; [| discriminate]. cbn [bind].
    destruct (taken _ _ _ _ Hqs _ E2) as (H1 & H2). intros [= <-]. eapply r_inline; eauto; [congruence |].
    intros Hf Hl. rewrite H2 in Hl. rewrite Hf, Hl in Ef. exact Ef.
Qed.

Lemma annotate_reads G (t : syn) e : reads G t e -> reads G (annotate St t) e.
Proof. intros H. unfold annotate. destruct (_ && _); [apply r_ann |]; exact H. Qed.
Lemma found_quiet t name ds : quiet_table forcing t -> find t name = Some ds -> Forall quiet_demand ds.
Proof.
  induction 1 as [|[n x] t H _ IH]; cbn [find]; [discriminate |]. destruct (String.eqb n name); [intros [= <-]; exact H | exact IH].
Qed.
Lemma demands_quiet i name : Forall quiet_demand match arg_demands St i name with Some ds => ds | None => [] end.
Proof.
  destruct tables as (H1 & H2 & H3). unfold arg_demands.
  assert (N : forall t, quiet_table forcing t -> forall ds, match name with Some n => find t n | None => None end = Some ds -> Forall quiet_demand ds).
  { intros t Ht ds. destruct name; [apply found_quiet; exact Ht | discriminate]. }
  match goal with |- context [or_else ?a ?b] => assert (A : forall ds, a = Some ds -> Forall quiet_demand ds); [| destruct a as [ds|]] end.
  - intros ds. destruct i as [i|]; [| discriminate]. destruct (nth_error (s_catalogue St) i); [| discriminate]. apply found_quiet. exact H1.
  - cbn [or_else]. auto.
  - cbn [or_else]. pose proof (N _ H2) as N2. pose proof (N _ H3) as N3.
    destruct (match name with Some n => find (s_user_sigs St) n | None => None end) as [ds|]; cbn [or_else]; [auto |].
    destruct (match name with Some n => find (s_prelude_sigs St) n | None => None end) as [ds|]; [auto | constructor].
Qed.
Lemma application_good f xs d self : good_item f -> Forall good_item xs ->
  good_proto (application St f xs d self) (ENode KApp (fst f :: map fst xs)).
Proof.
  intros Hf Hxs. apply syntax_good. intros G t. destruct (building _ _ _ _) as [t1|] eqn:E; [| discriminate]. cbn [bind].
  intros [= <-]. apply annotate_reads. apply built in E; [| discriminate]. destruct E as (body & z & E & H).
  apply andthen_ok in E. destruct E as (((q & i) & name) & b1 & E1 & E). apply andthen_ok in E.
  destruct E as (qs & b2 & E2 & [= <- <-]).
  pose proof (callee_kept _ _ Hf _ _ _ E1) as K1. pose proof (arguments_kept _ _ Hxs _ (demands_quiet i name) _ _ _ E2) as K2.
  pose proof (keeps_trans _ _ _ K1 K2) as (K3 & K4 & K5).
  destruct H as (fs & idx & t' & L & Hq & -> & Hs & HL & Ht); [exact K3 | intros _; exact K4 | exact K5 |]. subst L.
  apply r_syn; [exact Hq |]. destruct (callee_good _ _ _ _ _ _ _ Hf E1) as (H1 & H2).
  eapply call_good; [eapply H1; [apply (proj1 K2) | exact Hs] | | exact H2 | exact Ht].
  eapply arguments_good; [exact Hxs | apply demands_quiet | exact E2 | apply grows_refl | exact Hs].
Qed.

(** ** Lambdas and lets *)
Lemma lambda_good inl ps body self : good_item body -> good_proto (lambda St (length ps) body self) (ELam inl ps (fst body)).
Proof.
  intros H.
  assert (F : forall G f, p_form (lambda St (length ps) body self) (ctx G) = Ok f -> freads G f (ELam inl ps (fst body))).
  { intros G f. cbn [lambda proto_form p_form].
    change (mkFrame true (map local (seq 0 (length ps))) (length ps) :: ctx G) with (ctx (native := native) (LLam (length ps) :: G)).
    destruct (building _ _ _ _) as [t|] eqn:E; [| discriminate]. cbn [bind]. destruct (length ps <=? 255); [| discriminate].
    intros [= <-]. apply fr_lam. apply built in E; [| discriminate]. destruct E as (p & z & E & H1).
    pose proof (g_kept _ _ H _ _ _ _ E) as (K3 & K4 & K5).
    destruct H1 as (fs & idx & t' & L & Hq & -> & Hs & HL & Ht); [exact K3 | intros _; exact K4 | exact K5 |]. subst L.
    assert (R : reads (LLam (length ps) :: G) (let_code (bd_recursive z) fs idx t') (fst body)).
    { apply r_syn; [exact Hq |]. eapply (g_bodies _ _ H); [exact E | apply grows_refl | exact Hs | exact Ht]. }
    destruct (s_annotations St); [apply r_ann |]; exact R. }
  intros G. split; [| apply F]. intros t. specialize (F G). cbn [lambda proto_form p_form p_syntax] in *.
  destruct (bind _ _) as [f|]; [| discriminate]. cbn [bind]. intros [= <-]. apply r_lam. auto.
Qed.

Lemma let_bindings_good bs self : Forall (fun b => quiet_demand (b_demand b) /\ good_item (b_expr b)) bs -> forall b x b',
  let_bindings bs self b = (x, b') -> grows b b' /\ hushed b b' /\
  (x = Ok tt -> exists rs, bd_refs b' = bd_refs b ++ rs /\ forall L G z, grows b' z -> sits L G z ->
    breads (L :: G) (bd_refs z) (length (bd_refs b)) rs (map (fun b => fst (b_expr b)) bs)).
Proof.
  induction 1 as [|y bs (Hq & Hy) _ IH]; intros b x b'; simpl.
  - intros [= <- <-]. split; [apply grows_refl |]. split; [apply hushed_refl |]. intros _. exists []. rewrite app_nil_r. split; [reflexivity |]. intros. constructor.
  - intros E. unfold andthen in E at 1. destruct (c_binding _ _ _ b) as [r b1] eqn:E1.
    pose proof (g_bkept _ _ Hy _ _ _ _ _ E1) as (K1 & K1' & S1).
    destruct r as [r|]; [| injection E as <- <-; split; [exact K1 | split; [exact S1 | discriminate]]].
    unfold andthen in E at 1. destruct (mark_if_strict _ r b1) as [u b2] eqn:E2.
    pose proof (kept_mark_if _ _ Hq _ _ _ E2) as (K2 & K2' & S2).
    pose proof (hushed_trans _ _ _ S1 S2) as S4.
    destruct u as [u|]; [| injection E as <- <-; split; [eapply grows_trans; eassumption | split; [exact S4 | discriminate]]].
    unfold andthen in E at 1. unfold add_var_index in E.
    set (b3 := mkBinder (bd_recursive b2) (bd_bindings b2) (bd_refs b2 ++ [r]) (bd_strict b2)) in *.
    destruct (IH b3 x b' E) as (K3 & S3 & H3).
    assert (K4 : grows b b3).
    { eapply grows_trans; [eapply grows_trans; [exact K1 | exact K2] |]. unfold b3. repeat split; cbn; [exists [] | exists [r] | ];
        rewrite ?app_nil_r; auto. }
    split; [eapply grows_trans; eassumption |]. split; [eapply hushed_trans; [exact S4 | exact S3] |]. intros Hx. destruct (H3 Hx) as (rs & Hr & Hb).
    exists (r :: rs). cbn [bd_refs b3] in Hr. rewrite K2', K1', <- app_assoc in Hr. split; [exact Hr |].
    intros L G z Hg Hs. constructor.
    + eapply (g_binds _ _ Hy); [exact E1 | | exact Hs]. eapply grows_trans; [exact K2 |].
      eapply grows_trans; [| eapply grows_trans; [exact K3 | exact Hg]].
      unfold b3. repeat split; cbn; [exists [] | exists [r] | ]; rewrite ?app_nil_r; auto.
    + specialize (Hb L G z Hg Hs). cbn [bd_refs b3] in Hb. rewrite K2', K1', app_length in Hb. exact Hb.
Qed.
Lemma let_good d bs body ty self : Forall (fun b => quiet_demand (b_demand b) /\ good_item (b_expr b)) bs -> good_item body ->
  good_proto (let_proto St d bs body self)
    (ELet (map (fun b => mkBinding (b_name b) (fst (b_expr b)) (b_demand b)) bs) (fst body) ty).
Proof.
  intros Hbs Hbody. apply syntax_good. intros G t E. apply built in E; [| reflexivity]. destruct E as (p & z & E & H).
  apply andthen_ok in E. destruct E as ([] & b1 & E1 & E2).
  destruct (let_bindings_good _ _ Hbs _ _ _ E1) as (K1 & S1 & H1). destruct (H1 eq_refl) as (rs & Hr & Hb).
  pose proof (g_kept _ _ Hbody _ _ _ _ E2) as (K2 & K2' & S2).
  destruct H as (fs & idx & t' & L & Hq & -> & Hs & HL & Ht); [eapply grows_trans; eassumption | discriminate | eapply hushed_trans; [exact S1 | exact S2] |]. subst L.
  assert (bd_recursive z = true) as Hrec by (apply (grows_trans _ _ _ K1 K2); reflexivity). rewrite Hrec.
  apply (r_let St forcing) with (refs := bd_refs z); [exact Hq | |].
  - rewrite map_map. cbn [b_expr]. specialize (Hb _ _ _ K2 Hs). cbn [bd_refs length app] in Hb, Hr.
    rewrite <- K2' in Hr. rewrite <- Hr in Hb. exact Hb.
  - eapply (g_bodies _ _ Hbody); [exact E2 | apply grows_refl | exact Hs | exact Ht].
Qed.

(** ** Lists, blocks, lookups and metadata *)
Lemma list_kept xs : Forall good_item xs -> kept (list_cells St xs).
Proof.
  induction 1 as [|x xs Hx _ IH]; simpl; auto with kept. apply kept_andthen; [exact IH |]. intros last.
  apply kept_andthen; [destruct last; auto with kept |]. intros r. apply kept_andthen; [apply (g_bkept _ _ Hx) | auto with kept].
Qed.
Lemma list_fails xs k : Forall good_item xs -> forall b n b', list_cells St xs b = (Err (FreeVar n), b') -> unknown (ENode k (map fst xs)).
Proof.
  induction 1 as [|x xs Hx _ IH]; simpl; intros b n b' E; [discriminate |].
  apply andthen_err in E. destruct E as [E | (last & b1 & _ & E)].
  { specialize (IH _ _ _ E). inversion IH as [|? ? y Hin Hy]; subst. eapply un_part; [right; exact Hin | exact Hy]. }
  apply andthen_err in E. destruct E as [E | (r & b2 & _ & E)]; [destruct last; discriminate |].
  apply andthen_err in E. destruct E as [E | (r' & b3 & _ & E)]; [| discriminate].
  eapply un_part; [left; reflexivity | eapply (g_fails _ _ Hx); exact E].
Qed.
Lemma list_good xs : Forall good_item xs -> forall b last b', list_cells St xs b = (Ok last, b') ->
  forall L G z, grows b' z -> sits L G z -> bd_recursive z = true ->
  match last with Some t => reads (L :: G) t (ENode KList (map fst xs)) | None => xs = [] end.
Proof.
  induction 1 as [|x xs Hx Hxs IH]; simpl; intros b last b' E L G z Hg Hs Hr; [injection E as <- <-; reflexivity |].
  apply andthen_ok in E. destruct E as (l1 & b1 & E1 & E). apply andthen_ok in E. destruct E as (tail & b2 & E2 & E).
  apply andthen_ok in E. destruct E as (r & b3 & E3 & [= <- <-]).
  assert (K3 : grows b2 b3) by (eapply (g_bkept _ _ Hx); exact E3).
  assert (K2 : grows b1 b2) by (destruct l1; [eapply kept_add; exact E2 | eapply kept_ret; exact E2]).
  specialize (IH _ _ _ E1 L G z ltac:(eauto) Hs Hr).
  apply r_cons; [eapply (binds_rreads _ _ _ _ _ L G z); [apply (g_binds _ _ Hx) | exact E3 | exact Hg | exact Hs] |].
  destruct l1 as [t|].
  - destruct (slot_of_add _ _ _ _ L G z E2 ltac:(eauto) Hs Hr) as (n & k & -> & Hk & Hsl).
    eapply rr_slot; [exact Hsl |]. apply fr_code; [exact Hk | exact IH].
  - subst xs. injection E2 as <- <-. apply rr_global. reflexivity.
Qed.
Lemma ensure_grows b x b' z : ensure_recursive b = (x, b') -> grows b' z -> bd_recursive z = true.
Proof. intros [= _ <-] (_ & _ & H). apply H. reflexivity. Qed.

Lemma combine_fst (keys : list string) (xs : list item) :
  map (fun kx => (fst kx, fst (snd kx))) (combine keys xs) = combine keys (map fst xs).
Proof. revert xs. induction keys as [|k keys IH]; intros [|x xs]; simpl; try reflexivity. rewrite IH. reflexivity. Qed.
Definition good_pair (kx : string * item) : Prop := good_item (snd kx).
Lemma block_kept kvs : Forall good_pair kvs -> kept (block_cells St kvs).
Proof.
  induction 1 as [|[k x] kvs Hx _ IH]; simpl; auto with kept. apply kept_andthen; [exact IH |]. intros r.
  apply kept_andthen; [apply (g_bkept _ _ Hx) | auto with kept].
Qed.
Lemma block_fails kvs : Forall good_pair kvs -> forall b n b', block_cells St kvs b = (Err (FreeVar n), b') ->
  exists kx, In kx kvs /\ unknown (fst (snd kx)).
Proof.
  induction 1 as [|[k x] kvs Hx _ IH]; simpl; intros b n b' E; [discriminate |].
  apply andthen_err in E. destruct E as [E | (last & b1 & _ & E)].
  { destruct (IH _ _ _ E) as (y & Hin & Hy). eauto. }
  apply andthen_err in E. destruct E as [E | (r & b2 & _ & E)].
  - exists (k, x). split; [left; reflexivity | eapply (g_fails _ _ Hx); exact E].
  - apply andthen_err in E. destruct E as [E | (r' & b3 & _ & E)]; discriminate.
Qed.
Lemma block_good kvs : Forall good_pair kvs -> forall b r b', block_cells St kvs b = (Ok r, b') ->
  forall L G z, grows b' z -> sits L G z -> bd_recursive z = true ->
  preads St forcing (L :: G) r (map (fun kx => (fst kx, fst (snd kx))) kvs).
Proof.
  induction 1 as [|[k x] kvs Hx Hkvs IH]; simpl; intros b r b' E L G z Hg Hs Hr; [injection E as <- <-; constructor |].
  apply andthen_ok in E. destruct E as (tail & b1 & E1 & E). apply andthen_ok in E. destruct E as (v & b2 & E2 & E).
  apply andthen_ok in E. destruct E as (kv & b3 & E3 & E4).
  assert (K4 : grows b3 b') by (eapply kept_add; exact E4).
  assert (K3 : grows b2 b3) by (eapply kept_add; exact E3).
  assert (K2 : grows b1 b2) by (eapply (g_bkept _ _ Hx); exact E2).
  specialize (IH _ _ _ E1 L G z ltac:(eauto) Hs Hr). change (good_item x) in Hx.
  destruct (slot_of_add _ _ _ _ L G z E3 ltac:(eauto) Hs Hr) as (m & k1 & -> & Hk1 & Hm).
  destruct (slot_of_add _ _ _ _ L G z E4 ltac:(eauto) Hs Hr) as (n & k2 & -> & Hk2 & Hn).
  eapply pr_cons; [exact Hn | destruct Hk2; subst; reflexivity | reflexivity | exact Hm | destruct Hk1; subst; reflexivity | | exact IH].
  eapply (binds_rreads _ _ _ _ _ L G z); [apply (g_binds _ _ Hx) | exact E2 | eauto | exact Hs].
Qed.
Lemma block_code_kept kvs : Forall good_pair kvs -> kept (block_code St kvs).
Proof. intros H. apply kept_andthen; [auto with kept |]. intros _. apply kept_andthen; [apply block_kept; exact H | auto with kept]. Qed.

(** Code that is then given to a holder or a slot. *)
Record good_code (m : act syn) (e : expr) : Prop := {
  k_kept : kept m;
  k_fails : fails_well m e;
  k_reads : forall b t b', m b = (Ok t, b') -> forall L G z, grows b' z -> sits L G z -> bd_recursive z = true -> reads (L :: G) t e;
  k_rec : forall b t b' z, m b = (Ok t, b') -> grows b' z -> bd_recursive z = true }.
Lemma good_of_code m e : good_code m e ->
  good (mkCode (fun _ => andthen m (fun t => ret (holder St t))) (fun _ _ => andthen m (add St))) e.
Proof.
  intros [H1 H2 H3 H4]. constructor; cbn [c_body c_binding]; intros.
  - apply kept_andthen; [exact H1 | intros; apply kept_add].
  - apply kept_andthen; [exact H1 | intros; apply kept_ret].
  - intros b n b' E. apply andthen_err in E. destruct E as [E | (? & ? & _ & E)]; [eapply H2; exact E | discriminate].
  - intros b r b' E L G z Hg Hs. apply andthen_ok in E. destruct E as (t & b1 & E1 & E2).
    assert (K : grows b1 b') by (eapply kept_add; exact E2).
    assert (Hr : bd_recursive z = true) by (eapply H4; [exact E1 | eauto]).
    destruct (slot_of_add _ _ _ _ L G z E2 Hg Hs Hr) as (n & k & -> & Hk & Hsl).
    eapply b_slot; [exact Hsl |]. apply fr_code; [exact Hk |]. apply (H3 _ _ _ E1 _ _ z); eauto.
  - intros b p b' E L G z Hg Hs t E'. apply andthen_ok in E. destruct E as (t1 & b1 & E1 & [= <- <-]).
    injection E' as <-. eapply H3; eauto.
Qed.

Lemma block_code_good keys xs : Forall good_item xs -> good_code (block_code St (combine keys xs)) (ENode (KBlock keys) (map fst xs)).
Proof.
  intros Hxs.
  assert (H : Forall good_pair (combine keys xs)).
  { revert keys. induction Hxs as [|x xs Hx _ IH]; intros [|k keys]; simpl; constructor; auto. }
  constructor.
  - apply block_code_kept. exact H.
  - intros b n b' E. apply andthen_err in E. destruct E as [E | (? & b1 & _ & E)]; [discriminate |].
    apply andthen_err in E. destruct E as [E | (? & b2 & _ & E)]; [| discriminate].
    destruct (block_fails _ H _ _ _ E) as ([k y] & Hin & Hy). eapply un_part; [| exact Hy].
    apply in_combine_r in Hin. apply in_map. exact Hin.
  - intros b t b' E L G z Hg Hs Hr. apply andthen_ok in E. destruct E as ([] & b1 & _ & E).
    apply andthen_ok in E. destruct E as (r & b2 & E & [= <- <-]). apply r_block. rewrite <- combine_fst.
    apply (block_good _ H _ _ _ E _ _ z); eauto.
  - intros b t b' z E Hg. apply andthen_ok in E. destruct E as ([] & b1 & E1 & E).
    eapply ensure_grows; [exact E1 |]. eapply grows_trans; [| exact Hg].
    apply andthen_ok in E. destruct E as (r & b2 & E & [= <- <-]). eapply block_kept; eauto.
Qed.

Lemma lookup_code_good key obj fallback : good_item obj -> Forall good_item fallback ->
  good_code (lookup_code St key obj fallback) (ENode (KLookup key) (fst obj :: map fst fallback)).
Proof.
  intros Ho Hf.
  assert (Hk : forall o, kept match fallback with
           | x :: _ => or_fail (c_binding (snd x) default_demand None) (add St (lookup_fail St key o))
           | [] => add St (lookup_fail St key o)
           end).
  { intros o. destruct Hf as [|x rest Hx _]; [auto with kept |]. apply kept_or_fail; [apply (g_bkept _ _ Hx) | auto with kept]. }
  constructor.
  - apply kept_andthen; [auto with kept |]. intros _. apply kept_andthen; [apply (g_bkept _ _ Ho) |]. intros o.
    apply kept_andthen; [apply Hk | auto with kept].
  - intros b n b' E. apply andthen_err in E. destruct E as [E | (? & b1 & _ & E)]; [discriminate |].
    apply andthen_err in E. destruct E as [E | (o & b2 & _ & E)].
    { eapply un_part; [left; reflexivity | eapply (g_fails _ _ Ho); exact E]. }
    apply andthen_err in E. destruct E as [E | (? & b3 & _ & E)].
    + exfalso. destruct fallback as [|w rest]; [discriminate |]. unfold or_fail in E.
      destruct (c_binding (snd w) default_demand None b2) as [r b3]. destruct r as [?|[]]; discriminate.
    + apply andthen_err in E. destruct E as [E | (? & b4 & _ & E)]; discriminate.
  - intros b t b' E L G z Hg Hs Hr. apply andthen_ok in E. destruct E as ([] & b1 & _ & E).
    apply andthen_ok in E. destruct E as (o & b2 & E1 & E). apply andthen_ok in E. destruct E as (dft & b3 & E2 & E).
    apply andthen_ok in E. destruct E as (fb & b4 & E3 & [= <- <-]).
    assert (K3 : grows b3 b4) by (eapply kept_add; exact E3).
    assert (K2 : grows b2 b3) by (eapply (Hk o); exact E2).
    destruct (slot_of_add _ _ _ _ L G z E3 ltac:(eauto) Hs Hr) as (n & k & -> & Hkd & Hsl).
    eapply r_lookup; [eapply (binds_rreads _ _ _ _ _ L G z); [apply (g_binds _ _ Ho) | exact E1 | eauto | exact Hs] | | exact Hsl |
      destruct Hkd; subst; reflexivity].
    destruct Hf as [|x rest Hx _].
    + destruct (slot_of_add _ _ _ _ L G z E2 ltac:(eauto) Hs Hr) as (m & km & -> & _ & Hm). eapply d_none. exact Hm.
    + unfold or_fail in E2. destruct (c_binding (snd x) default_demand None b2) as [r b5] eqn:E5.
      assert (K5 : grows b2 b5) by (eapply (g_bkept _ _ Hx); exact E5).
      destruct r as [r|e]; [injection E2 as <- <- | destruct e; try discriminate].
      * apply d_given. eapply (binds_rreads _ _ _ _ _ L G z); [apply (g_binds _ _ Hx) | exact E5 | eauto | exact Hs].
      * destruct (slot_of_add _ _ _ _ L G z E2 ltac:(eauto) Hs Hr) as (m & km & -> & _ & Hm).
        eapply d_unknown; [eapply (g_fails _ _ Hx); exact E5 | exact Hm].
  - intros b t b' z E Hg. apply andthen_ok in E. destruct E as ([] & b1 & E1 & E).
    eapply ensure_grows; [exact E1 |]. eapply grows_trans; [| exact Hg].
    assert (Hk' : kept (andthen (c_binding (snd obj) default_demand None) (fun o =>
      andthen (match fallback with
           | x :: _ => or_fail (c_binding (snd x) default_demand None) (add St (lookup_fail St key o))
           | [] => add St (lookup_fail St key o)
           end) (fun dft =>
      andthen (add St (annotate St (SApp (RG ix_lookup_or_unboxed) [RV (s_symbol St key); dft; o] false))) (fun fb =>
      ret (SLookupLit (noted St) (RV (s_symbol St key)) o fb)))))).
    { apply kept_andthen; [apply (g_bkept _ _ Ho) |]. intros o. apply kept_andthen; [apply Hk | auto with kept]. }
    eapply Hk'. exact E.
Qed.

Lemma meta_kept e m self : good_item e -> good_item m -> kept (meta_code e m self).
Proof.
  intros He Hm. apply kept_andthen; [apply (g_bkept _ _ Hm) |]. intros r. apply kept_andthen; [apply (g_bkept _ _ He) | auto with kept].
Qed.
Lemma meta_reads e m rest self b t b' L G z : good_item e -> good_item m -> meta_code e m self b = (Ok t, b') ->
  grows b' z -> sits L G z -> reads (L :: G) t (ENode KMeta (fst e :: fst m :: rest)).
Proof.
  intros He Hm E Hg Hs. apply andthen_ok in E. destruct E as (r & b1 & E1 & E). apply andthen_ok in E.
  destruct E as (r2 & b2 & E2 & [= <- <-]).
  assert (K : grows b1 b2) by (eapply (g_bkept _ _ He); exact E2).
  apply r_meta.
  - eapply (binds_rreads _ _ _ _ _ L G z); [apply (g_binds _ _ Hm) | exact E1 | eauto | exact Hs].
  - eapply (binds_rreads _ _ _ _ _ L G z); [apply (g_binds _ _ He) | exact E2 | exact Hg | exact Hs].
Qed.
Lemma meta_fails e m rest self b n b' : good_item e -> good_item m -> meta_code e m self b = (Err (FreeVar n), b') ->
  unknown (ENode KMeta (fst e :: fst m :: rest)).
Proof.
  intros He Hm E. apply andthen_err in E. destruct E as [E | (r & b1 & _ & E)].
  - eapply un_part; [right; left; reflexivity | eapply (g_fails _ _ Hm); exact E].
  - apply andthen_err in E. destruct E as [E | (? & ? & _ & E)]; [| discriminate].
    eapply un_part; [left; reflexivity | eapply (g_fails _ _ He); exact E].
Qed.

Lemma fails_code k xs : good (mkCode (fun _ => fail Unexpected) (fun _ _ => fail k)) xs \/ exists n, k = FreeVar n.
Proof.
  destruct k as [n| | | | | | | ]; [right; eauto | left .. ];
    (constructor; cbn [c_body c_binding]; intros; auto with kept; intros ? ? ? E; discriminate).
Qed.
Lemma fst_items xs : map fst (map (fun x => (x, comp St x)) xs) = xs.
Proof. rewrite map_map. cbn [fst]. apply map_id. Qed.
Lemma items_good xs : Forall (fun e => quiet forcing e -> good (comp St e) e) xs -> quiet forcing (ENode KList xs) -> Forall good_item (map (fun x => (x, comp St x)) xs).
Proof. induction 1 as [|x xs Hx _ IH]; simpl; intros Q; constructor; [apply Hx, Q | apply IH, Q]. Qed.

(** The compiler is right on every expression. *)
Lemma comp_good e : quiet forcing e -> good (comp St e) e.
Proof.
  induction e as [v | bs body ty Hbs Hbody | inl ps body Hbody | k xs Hxs] using Scope.Proofs.expr_ind'; intros Q.
  - destruct v as [n|s b nm]; cycle 1.
    + assert (P : good_proto (var_proto St s b) (EVar (Bound s b nm))).
      { apply syntax_good. intros G t. destruct (lookup (ctx G) s b) as [r|] eqn:E; [| discriminate]. cbn [bind].
        intros [= <-]. apply r_var. exact E. }
      constructor; cbn [comp c_body c_binding]; intros.
      * intros bd x b'. destruct (if s =? 0 then running_ref b bd else None); [intros [= _ <-]; auto | apply kept_deferred].
      * apply kept_ret.
      * intros bd n b'. destruct (if s =? 0 then running_ref b bd else None); discriminate.
      * intros bd r b' E L G z Hg Hs. destruct (if s =? 0 then running_ref b bd else None) as [r'|] eqn:Er.
        -- injection E as <- <-. destruct (Nat.eqb_spec s 0) as [->|]; [| discriminate]. unfold running_ref in Er.
           destruct (bd_recursive bd); [| discriminate]. apply b_alias.
           ++ apply nth_error_Some. congruence.
           ++ eapply grows_ref; eassumption.
        -- eapply binds_deferred; [exact P | exact E | exact Hg | exact Hs].
      * intros bd p b' [= <- <-] L G z _ _ t E. apply (P (L :: G)). exact E.
    + constructor; cbn [comp c_body c_binding]; intros; auto with kept.
      * intros bd m b'. unfold lift_res. intros [= E _]. apply un_here. intros r Er. congruence.
      * intros bd r b' [= E <-] L G z _ _. apply b_global. cbn. rewrite E. reflexivity.
      * intros bd p b' E L G z _ _ t Ht. apply andthen_ok in E. destruct E as (r & b1 & [= E <-] & [= <- <-]).
        injection Ht as <-. apply r_global. cbn. rewrite E. reflexivity.
  - set (bs' := map (fun b => mkBinding (b_name b) (b_expr b, comp St (b_expr b)) (b_demand b)) bs).
    assert (P : forall d self, good_proto (let_proto St d bs' (body, comp St body) self) (ELet bs body ty)).
    { intros d self.
      assert (E : map (fun b => mkBinding (b_name b) (fst (b_expr b)) (b_demand b)) bs' = bs).
      { unfold bs'. rewrite map_map. cbn [b_name b_expr b_demand fst]. rewrite <- (map_id bs) at 2. apply map_ext.
        intros [? ? ?]. reflexivity. }
      rewrite <- E. apply (let_good d bs' (body, comp St body)); [| apply Hbody, Q].
      unfold bs'. destruct Q as (Q & _). clear - Hbs Q. induction Hbs as [|b bs Hb _ IH]; simpl; constructor; [| apply IH, Q].
      split; [apply Q | apply Hb, Q]. }
    constructor; cbn [comp c_body c_binding]; intros; auto with kept.
    + intros ? ? ? E. discriminate.
    + apply binds_deferred. apply P.
    + intros ? ? ? [= <- <-] L G z _ _ t Ht. exact (proj1 (P _ _ (L :: G)) _ Ht).
  - assert (P : forall self, good_proto (lambda St (length ps) (body, comp St body) self) (ELam inl ps body)).
    { intros self. apply (lambda_good inl ps (body, comp St body)). apply Hbody, Q. }
    constructor; cbn [comp c_body c_binding]; intros; auto with kept.
    + intros ? ? ? E. discriminate.
    + apply binds_deferred. apply P.
    + intros ? ? ? [= <- <-] L G z _ _ t Ht. exact (proj1 (P _ (L :: G)) _ Ht).
  - pose proof (items_good _ Hxs Q) as HI. set (ys := map (fun x => (x, comp St x)) xs) in *.
    assert (Efst : map fst ys = xs) by apply fst_items.
    assert (N : forall e k, (forall n, e <> FreeVar n) -> good (mkCode (fun _ => fail Unexpected) (fun _ _ => fail e)) (ENode k xs)).
    { intros e k0 He. destruct (fails_code e (ENode k0 xs)) as [H | (n & H)]; [exact H | destruct (He n H)]. }
    cbn [comp]. fold ys. clearbody ys.
    destruct k as [name|p|key|nm|j|j| |keys| | | |br|fx pr|nm|nm| | | | ]; try (apply N; discriminate).
    + (* intrinsic *)
      constructor; cbn [c_body c_binding]; intros; auto with kept.
      * intros ? ? ? E. apply andthen_err in E. destruct E as [[= E _] | (? & ? & _ & E)]; [| discriminate].
        exfalso. unfold intrinsic_index in E. destruct (position _ _); discriminate.
      * intros ? r ? E L G z _ _. apply andthen_ok in E. destruct E as (i & ? & [= E <-] & [= <- <-]). apply b_global. cbn. rewrite E. reflexivity.
      * intros ? ? ? E L G z _ _ t Ht. apply andthen_ok in E. destruct E as (i & ? & [= E <-] & [= <- <-]).
        injection Ht as <-. apply r_global. cbn. rewrite E. reflexivity.
    + (* literal *)
      constructor; cbn [c_body c_binding]; intros; auto with kept.
      * intros ? ? ? E. discriminate.
      * apply binds_deferred. apply syntax_good. intros G t [= <-]. apply r_literal.
      * intros ? ? ? [= <- <-] L G z _ _ t [= <-]. apply r_literal.
    + (* lookup *)
      destruct ys as [|o fb]; [apply N; discriminate |]. inversion HI as [|? ? Ho Hf]; subst.
      cbn [map]. apply good_of_code. apply lookup_code_good; assumption.
    + (* list *)
      rewrite <- Efst. constructor; cbn [c_body c_binding]; intros.
      * apply kept_andthen; [auto with kept |]. intros _. apply kept_andthen; [apply list_kept; exact HI |]. intros [t|]; auto with kept.
      * apply kept_andthen; [auto with kept |]. intros _. apply kept_andthen; [apply list_kept; exact HI |]. auto with kept.
      * intros ? ? ? E. apply andthen_err in E. destruct E as [E | (? & ? & _ & E)]; [discriminate |].
        apply andthen_err in E. destruct E as [E | ([t|] & ? & _ & E)]; [| discriminate | discriminate].
        eapply list_fails; [exact HI | exact E].
      * intros b r b' E L G z Hg Hs. apply andthen_ok in E. destruct E as ([] & b1 & E1 & E).
        apply andthen_ok in E. destruct E as (last & b2 & E2 & E3).
        assert (K2 : grows b1 b2) by (eapply list_kept; [exact HI | exact E2]).
        assert (K3 : grows b2 b') by (destruct last; [eapply kept_add; exact E3 | eapply kept_ret; exact E3]).
        assert (Hr : bd_recursive z = true) by (eapply ensure_grows; [exact E1 | eauto]).
        pose proof (list_good _ HI _ _ _ E2 L G z ltac:(eauto) Hs Hr) as R. destruct last as [t|].
        -- destruct (slot_of_add _ _ _ _ L G z E3 Hg Hs Hr) as (n & k & -> & Hk & Hsl).
           eapply b_slot; [exact Hsl |]. apply fr_code; [exact Hk | exact R].
        -- subst ys. injection E3 as <- <-. apply b_global. reflexivity.
      * intros b p b' E L G z Hg Hs t Ht. apply andthen_ok in E. destruct E as ([] & b1 & E1 & E).
        apply andthen_ok in E. destruct E as (last & b2 & E2 & [= <- <-]).
        assert (K2 : grows b1 b2) by (eapply list_kept; [exact HI | exact E2]).
        assert (Hr : bd_recursive z = true) by (eapply ensure_grows; [exact E1 | eauto]).
        pose proof (list_good _ HI _ _ _ E2 L G z ltac:(eauto) Hs Hr) as R. injection Ht as <-. destruct last as [t|]; [exact R |].
        subst ys. apply r_global. reflexivity.
    + (* block *)
      rewrite <- Efst. apply good_of_code. apply block_code_good. exact HI.
    + (* metadata *)
      destruct ys as [|e [|m rest]]; try (apply N; discriminate). inversion HI as [|? ? He HI']; subst. inversion HI' as [|? ? Hm _]; subst.
      cbn [map]. constructor; cbn [c_body c_binding]; intros.
      * apply kept_andthen; [auto with kept |]. intros _. apply kept_andthen; [apply meta_kept; assumption | auto with kept].
      * apply kept_andthen; [apply meta_kept; assumption | auto with kept].
      * intros ? ? ? E. apply andthen_err in E. destruct E as [E | (? & ? & _ & E)]; [discriminate |].
        apply andthen_err in E. destruct E as [E | (? & ? & _ & E)]; [| discriminate]. eapply meta_fails; [| | exact E]; assumption.
      * intros b r b' E L G z Hg Hs. apply andthen_ok in E. destruct E as ([] & b1 & E1 & E).
        apply andthen_ok in E. destruct E as (t & b2 & E2 & E3).
        assert (K3 : grows b2 b') by (eapply kept_add; exact E3).
        assert (K2 : grows b1 b2) by (eapply meta_kept; [| | exact E2]; assumption).
        assert (Hr : bd_recursive z = true) by (eapply ensure_grows; [exact E1 | eauto]).
        destruct (slot_of_add _ _ _ _ L G z E3 Hg Hs Hr) as (n & k & -> & Hk & Hsl).
        eapply b_slot; [exact Hsl |]. apply fr_code; [exact Hk |]. eapply (meta_reads _ _ _ _ _ _ _ L G z); [| | exact E2 | eauto | exact Hs]; assumption.
      * intros b p b' E L G z Hg Hs t Ht. apply andthen_ok in E. destruct E as (t1 & b1 & E & [= <- <-]). injection Ht as <-.
        eapply meta_reads; [| | exact E | exact Hg | exact Hs]; assumption.
    + (* application *)
      destruct ys as [|f args]; [apply N; discriminate |]. inversion HI as [|? ? Hf Ha]; subst. cbn [map].
      constructor; cbn [c_body c_binding]; intros; auto with kept.
      * intros ? ? ? E. discriminate.
      * apply binds_deferred. apply application_good; assumption.
      * intros ? ? ? [= <- <-] L G z _ _ t Ht. exact (proj1 (application_good f args _ _ Hf Ha (L :: G)) _ Ht).
    + (* operator *)
      destruct ys as [|x rest]; [apply N; discriminate |]. inversion HI as [|? ? Hx _]; subst. cbn [map].
      constructor; cbn [c_body c_binding]; intros.
      * apply (g_bkept _ _ Hx).
      * apply (g_kept _ _ Hx).
      * intros ? ? ? E. eapply un_part; [left; reflexivity |]. eapply (g_fails _ _ Hx); exact E.
      * intros b r b' E L G z Hg Hs. apply b_operator. eapply (g_binds _ _ Hx); eassumption.
      * intros b p b' E L G z Hg Hs t Ht. apply r_operator. eapply (g_bodies _ _ Hx); eassumption.
Qed.

Theorem compile_reads (e : expr) self t : s_render St = Headless -> quiet forcing e -> compile St e self = Ok t -> reads [] t e.
Proof.
  intros Hr Q. unfold compile. rewrite Hr. intros E.
  change (@nil (frame (native := native))) with (ctx (native := native) []) in E. apply built in E; [| discriminate].
  destruct E as (p & z & E & H). pose proof (comp_good e Q) as Hg.
  pose proof (g_kept _ _ Hg _ _ _ _ E) as (K3 & K4 & K5).
  destruct H as (fs & idx & t' & L & Hq & -> & Hs & HL & Ht); [exact K3 | intros _; exact K4 | exact K5 |]. subst L.
  apply r_syn; [exact Hq |]. eapply (g_bodies _ _ Hg); [exact E | apply grows_refl | exact Hs | exact Ht].
Qed.

(** The program that is compiled: the expression, or a call of what renders it. *)
Definition rendering (e : expr) : expr :=
  match s_render St with
  | Headless => e
  | RenderDoc => ENode KApp [ENode (KIntrinsic "RENDER_DOC") []; e]
  | RenderFragment => ENode KApp [ENode (KIntrinsic "RENDER") []; e]
  end.
Theorem compile_reads_any (e : expr) self t :
  intrinsic_index St "RENDER_DOC" = Ok (N.to_nat ix_render_doc) -> intrinsic_index St "RENDER" = Ok (N.to_nat ix_render) ->
  quiet forcing e -> compile St e self = Ok t -> reads [] t (rendering e).
Proof.
  intros HD HR Q. unfold rendering. destruct (s_render St) eqn:Er; [apply compile_reads; assumption | |]; unfold compile; rewrite Er; intros E.
  all: change (@nil (frame (native := native))) with (ctx (native := native) []) in E; apply built in E; [| discriminate];
    destruct E as (p & z & E & H); pose proof (comp_good e Q) as Hg; apply andthen_ok in E; destruct E as (r & b1 & E & [= <- <-]);
    pose proof (g_bkept _ _ Hg _ _ _ _ _ E) as (K3 & K4 & K5);
    destruct H as (fs & idx & t' & L & Hq & -> & Hs & HL & Ht); [exact K3 | intros _; exact K4 | exact K5 |]; subst L;
    apply r_syn; [exact Hq |]; injection Ht as <-; apply r_app;
    [apply rr_global; cbn; rewrite ?HD, ?HR; reflexivity | apply rs_cons; [| apply rs_nil]];
    eapply (binds_rreads _ _ _ _ _ _ _ b1); [apply (g_binds _ _ Hg) | exact E | apply grows_refl | exact Hs].
Qed.
End Reads.
