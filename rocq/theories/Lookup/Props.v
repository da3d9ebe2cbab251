(** * Generalised lookup and the bodies of units *)
From Coq Require Import String List Bool Arith Lia.
From Verif.Scope Require Import Model Spec Proofs.
From Verif.Lookup Require Import Model Spec Proofs.
Import ListNotations.
Local Open Scope string_scope.
Local Open Scope list_scope.

(** ** C106: an expression after a dot is evaluated with the block's names first

    The dynamic route: the expression becomes a function of the block.  Under it, every
    free name of a normal identifier is looked up in the block and means what it meant
    outside if it is not there; everything else is unchanged. *)
Theorem C106_meaning (I : interp) normal param e rho env :
  closed_under 0 e -> not_free param e ->
  (exists n, In n (free_vars e) /\ normal n = true) ->
  den I rho env (dynamise normal param e) =
  i_lam I false [param] (fun vs => den I (looked_up I normal (hd (i_dangling I) vs) rho) env e).
Proof.
  intros C N F. apply closed_inner in C. unfold dynamise.
  apply (flagged_inner normal e 0 C) in F. rewrite F. cbn.
  apply i_lam_ext. intros vs. unfold succ. rewrite succ_inner by (apply process_inner; auto).
  etransitivity; [apply (close_den I [param] vs _ rho [] env)|]. cbn [app].
  rewrite process_den by auto. apply den_but with (x := param); auto.
  intros n Hn. unfold looked_up. cbn [bind_names]. rewrite String.eqb_refl.
  destruct (String.eqb_spec param n) as [E|_]; [congruence|]. reflexivity.
Qed.
Print Assumptions C106_meaning.

(** An expression without such names is left as it is. *)
Theorem C106_no_names normal param e :
  closed_under 0 e -> (forall n, In n (free_vars e) -> normal n = false) ->
  dynamise normal param e = e.
Proof.
  intros C N. apply closed_inner in C. unfold dynamise.
  destruct (flagged normal 0 e) eqn:F.
  - apply (flagged_inner normal e 0 C) in F as (n & Hn & F). rewrite N in F by auto. discriminate.
  - apply process_id; auto.
Qed.
Print Assumptions C106_no_names.

Lemma exports_all I bs : forall vs rho n,
  exports I (fun _ => true) bs vs rho n =
  if existsb (fun b => String.eqb (b_name b) n) bs then exports I (fun _ => true) bs vs (fun _ => rho n) n else rho n.
Proof.
  induction bs as [|b bs IH]; intros vs rho n; cbn; auto. rewrite andb_true_r.
  destruct (String.eqb (b_name b) n); cbn; auto.
Qed.

(** The dynamic and the static route agree: for a block of declarations with normal
    names and with values [vs], represented at run time by a value [block] in which
    lookup finds them, the expression means the same when its names are looked up in
    the block and when they are bound to the declarations. *)
Theorem C106_agree (I : interp) normal bs vs block e rho env :
  closed_under 0 e ->
  (forall b, In b bs -> normal (b_name b) = true) ->
  (forall n fallback, i_node I (KLookup n) [block; fallback] = exports I (fun _ => true) bs vs (fun _ => fallback) n) ->
  den I (looked_up I normal block rho) env e = den I (exports I (fun _ => true) bs vs rho) (vs :: env) e.
Proof.
  intros C N L. change (den I (looked_up I normal block rho) ([] ++ env) e =
    den I (exports I (fun _ => true) bs vs rho) ([] ++ vs :: env) e).
  apply den_ext. eapply every_ref_impl; [|exact C]. intros d [n|s b n]; cbn; [intros _|lia].
  unfold looked_up. rewrite exports_all. destruct (normal n) eqn:E.
  - rewrite L. rewrite exports_all. destruct (existsb _ bs); reflexivity.
  - destruct (existsb _ bs) eqn:X; auto. apply existsb_exists in X as (b & Hb & X).
    apply String.eqb_eq in X. rewrite <- X, N in E by auto. discriminate.
Qed.
Print Assumptions C106_agree.

(** A small interpretation for examples: values are texts. *)
Definition texts : interp.
Proof.
  refine (mkInterp string
    (fun k xs => match k with
       | KLookup n => match xs with
           | [b; f] => if String.eqb b ("has " ++ n)%string then "field" else f
           | _ => "?" end
       | KLiteral (PNum s) => s
       | _ => String.concat "," xs end)
    (fun _ _ f => ("fn " ++ f ["has x"])%string)
    (fun _ ns _ b => b (map (fun n => ("the " ++ n)%string) ns)) "dangling" _ _).
  - intros i ps f g H. rewrite H. reflexivity.
  - intros t ns f g b c H1 H2. apply H2.
Defined.
Definition outer (n : string) : string := ("outer " ++ n)%string.
Definition letters (n : string) : bool := negb (String.eqb n "+").
Definition x_plus_y : expr := ENode (KSoup false) [EVar (Free "x"); EVar (Free "+"); EVar (Free "y")].

Example lookup_example :
  closed_under 0 x_plus_y /\ not_free "__g1" x_plus_y /\ (exists n, In n (free_vars x_plus_y) /\ letters n = true) /\
  den texts outer [] (dynamise letters "__g1" x_plus_y) = "fn field,outer +,outer y".
Proof.
  repeat split; try discriminate. exists "x". split; [left|]; reflexivity.
Qed.
Example no_names_example : dynamise letters "__g1" (ENode (KSoup false) [EVar (Free "+")]) = ENode (KSoup false) [EVar (Free "+")].
Proof. reflexivity. Qed.
Example agree_example :
  let bs := [mkBinding "x" (ENode (KLiteral (PNum "1")) []) default_demand] in
  (forall n f, i_node texts (KLookup n) ["has x"; f] = exports texts (fun _ => true) bs ["field"] (fun _ => f) n) /\
  den texts (looked_up texts letters "has x" outer) [] x_plus_y = "field,outer +,outer y".
Proof.
  split; [|reflexivity]. intros n f. cbn. rewrite andb_true_r.
  destruct (String.eqb_spec "x" n) as [<-|Hn]; [reflexivity|].
  destruct (String.eqb_spec "has x" ("has " ++ n)) as [E|_]; auto.
Qed.

(** Refuted: that the routes agree for every block.  An operator declared in the block
    is used by the static route and is not seen by the dynamic one. *)
Theorem C106_operators_refuted :
  ~ (forall (I : interp) normal bs vs block e rho env,
       closed_under 0 e ->
       (forall n fallback, i_node I (KLookup n) [block; fallback] = exports I (fun _ => true) bs vs (fun _ => fallback) n) ->
       den I (looked_up I normal block rho) env e = den I (exports I (fun _ => true) bs vs rho) (vs :: env) e).
Proof.
  intros H.
  pose (J := mkInterp string (fun k xs => match k with KLookup n => if String.eqb n "+" then "mine" else nth 1 xs "" | _ => "" end)
    (fun _ _ _ => "") (fun _ _ _ _ => "") "" (fun _ _ _ _ _ => eq_refl) (fun _ _ _ _ _ _ _ _ => eq_refl)).
  specialize (H J letters [mkBinding "+" (ENode KList []) default_demand] ["mine"] "" (EVar (Free "+")) outer []).
  assert (X : "outer +" = "mine"); [|discriminate X]. apply H.
  - cbn. auto.
  - intros n f. cbn -[String.eqb]. rewrite andb_true_r, String.eqb_sym. destruct (String.eqb "+" n); reflexivity.
Qed.
Print Assumptions C106_operators_refuted.

(** Refuted: that the fallback of a name bound outside the expression is that binding.
    The reference is moved out by two scopes, when one lambda is added. *)
Theorem C106_bound_refuted :
  ~ (forall (I : interp) normal param b n rho env, normal n = true -> n <> param ->
       den I rho env (dynamise normal param (EVar (Bound 0 b (Some n)))) =
       i_lam I false [param] (fun vs => i_node I (KLookup n) [hd (i_dangling I) vs; lookup I env 0 b])).
Proof.
  intros H. specialize (H texts letters "__g1" 0 "y" outer [["bound y"]] eq_refl ltac:(discriminate)).
  discriminate H.
Qed.
Print Assumptions C106_bound_refuted.

(** ** C107: what an expression put under a unit's declarations sees

    What it means for a declaration to be internal. *)
Lemma entry_nth n : forall ks xs r, entry ks xs n = Some r <->
  exists i, nth_error ks i = Some n /\ (forall j, j < i -> nth_error ks j <> Some n) /\ nth_error xs i = Some r.
Proof.
  induction ks as [|k ks IH]; intros xs r; cbn.
  - split; [discriminate|]. intros (i & H & _). destruct i; discriminate.
  - destruct xs as [|x xs].
    + split; [discriminate|]. intros (i & _ & _ & H). destruct i; discriminate.
    + destruct (String.eqb_spec k n) as [->|Hk].
      * split.
        -- intros H. injection H as <-. exists 0. repeat split; auto. intros j Hj. lia.
        -- intros (i & H1 & H2 & H3). destruct i as [|i]; [exact H3|]. exfalso. apply (H2 0); [lia|reflexivity].
      * rewrite IH. split.
        -- intros (i & H1 & H2 & H3). exists (S i). repeat split; auto. intros [|j] Hj; cbn; [congruence|]. apply H2. lia.
        -- intros (i & H1 & H2 & H3). destruct i as [|i]; [cbn in H1; congruence|]. exists i. repeat split; auto.
           intros j Hj. apply (H2 (S j)). lia.
Qed.
Theorem C107_internal e : has_internal_export e = true <-> says_internal e.
Proof.
  split.
  - destruct e as [v|bs b t|i ps b|k xs]; try discriminate. destruct k; try discriminate.
    destruct xs as [|d [|m [|]]]; try discriminate; cbn; try (destruct m; try discriminate; destruct k; discriminate).
    destruct m as [v|bs b t|i ps b|k xs]; try discriminate. destruct k; try discriminate.
    destruct (entry keys xs "export") as [r|] eqn:E; [|discriminate].
    destruct r as [v|bs b t|i ps b|k ys]; try discriminate. destruct k; try discriminate. destruct p; try discriminate.
    intros H. apply String.eqb_eq in H. subst s. apply entry_nth in E as (i & H1 & H2 & H3).
    exists d, keys, xs, i, ys. auto.
  - intros (d & ks & xs & i & ys & -> & H1 & H2 & H3). cbn.
    assert (E : entry ks xs "export" = Some (ENode (KLiteral (PSym "internal")) ys)) by (apply entry_nth; eauto).
    rewrite E. reflexivity.
Qed.
Print Assumptions C107_internal.

Theorem C107_internal_names n e : In n (internal_names e) <-> declares_internal n e.
Proof.
  split.
  - induction e as [v|bs body t IHbs IHb|i ps body IHb|k xs IHxs] using expr_ind'; cbn; try solve [intros []].
    + intros H. apply in_app_or in H as [H|H]; [|apply DI_body; auto].
      apply in_map_iff in H as (b & E & Hb). apply filter_In in Hb as [Hb S]. apply C107_internal in S. eapply DI_here; eauto.
    + destruct k; try solve [intros []]. destruct xs as [|e m]; [intros []|]. inversion IHxs; subst. intros H. apply DI_meta; auto.
  - induction 1 as [bs body t b Hb E S|bs body t _ IH|e m _ IH]; cbn.
    + apply in_or_app. left. apply in_map_iff. exists b. split; auto. apply filter_In. split; auto. apply C107_internal; auto.
    + apply in_or_app. auto.
    + exact IH.
Qed.
Print Assumptions C107_internal_names.

(** The expression put under a unit's lets means what it says where every name has the
    value of the first public declaration of it in the innermost let that has one.  A
    name without one means what it means outside, unless the unit declares it internal:
    then it is a name nobody can write. *)
Theorem C107_meaning (I : interp) self new rho env (internal : string -> bool) :
  not_free placeholder self -> not_free placeholder new ->
  (forall n, internal n = true <-> declares_internal n self) ->
  den I rho env (rebody self new) =
  within I (fun e => negb (has_internal_export e)) (fun rho env => den I rho env new)
    (fun n => if internal n then rho ("__eu_internal:" ++ n)%string else rho n) env self.
Proof.
  intros N1 N2 Hi.
  assert (Hn : forall n, existsb (fun s => String.eqb s n) (internal_names self) = internal n).
  { intros n. apply eq_true_iff_eq. rewrite Hi, <- C107_internal_names, existsb_exists. split.
    - intros (s & Hs & E). apply String.eqb_eq in E. congruence.
    - intros H. exists n. split; auto using String.eqb_refl. }
  assert (M : den I rho env (rebody self new) =
    den I (fun n => if internal n then rho ("__eu_internal:" ++ n)%string else rho n) env (rebody_int [] self new)).
  { unfold rebody. destruct (internal_names self) as [|x l] eqn:E.
    - change (den I rho ([] ++ env) (rebody_int [] self new) =
        den I (fun n => if internal n then rho ("__eu_internal:" ++ n)%string else rho n) ([] ++ env) (rebody_int [] self new)).
      apply den_ext. clear - Hn. generalize (rebody_int [] self new), (@List.length (list (D I)) []).
      intros e. induction e as [[n|s b n]|bs body t IHbs IHb|i ps body IHb|k xs IHxs] using expr_ind'; intros d; cbn; auto.
      + rewrite <- Hn. reflexivity.
      + split; auto. apply every_ref_bs. eapply Forall_impl; [|exact IHbs]. cbn. auto.
      + apply every_ref_xs. eapply Forall_impl; [|exact IHxs]. auto.
    - unfold mask_internal_free_vars.
      etransitivity; [apply (substs_den I _ (rebody_int [] self new) rho [] env)|].
      + intros n r. destruct (existsb _ _); [|discriminate]. intros H. injection H as <-. cbn. auto.
      + change ([] ++ env) with env. change env with ([] ++ env) at 1. change env with ([] ++ env) at 2.
        apply den_ext. generalize (rebody_int [] self new), (@List.length (list (D I)) []).
        intros e. induction e as [[n|s b n]|bs body t IHbs IHb|i ps body IHb|k xs IHxs] using expr_ind'; intros d; cbn [every_ref]; auto.
        * rewrite Hn. destruct (internal n); reflexivity.
        * split; auto. apply every_ref_bs. eapply Forall_impl; [|exact IHbs]. cbn. auto.
        * apply every_ref_xs. eapply Forall_impl; [|exact IHxs]. auto. }
  rewrite M. apply rebody_int_den; auto.
Qed.
Print Assumptions C107_meaning.

(** The static route of a lookup: the expression is evaluated under the block's
    declarations, and the result is not a block to look things up in statically. *)
Theorem C107_static (I : interp) bs body e rho env (internal : string -> bool) :
  spine_end body -> not_free placeholder (ELet bs body DefaultBlockLet) -> not_free placeholder e ->
  (forall n, internal n = true <-> declares_internal n (ELet bs body DefaultBlockLet)) ->
  let rho' := fun n => if internal n then rho ("__eu_internal:" ++ n)%string else rho n in
  den I rho env (static_lookup (ELet bs body DefaultBlockLet) e) =
  i_let I OtherLet (map b_name bs)
    (fun vs => map (fun b => den I rho' (vs :: env) (b_expr b)) bs)
    (fun vs => den I (exports I (fun e => negb (has_internal_export e)) bs vs rho') (vs :: env) e).
Proof.
  intros S N1 N2 Hi rho'.
  assert (SL : exists bs' body', rebody (ELet bs body DefaultBlockLet) e = ELet bs' body' DefaultBlockLet /\
    static_lookup (ELet bs body DefaultBlockLet) e = ELet bs' body' OtherLet /\
    ELet bs' body' OtherLet = rebody (ELet bs body OtherLet) e).
  { unfold static_lookup, rebody. cbn [rebody_int]. change (internal_names (ELet bs body OtherLet)) with (internal_names (ELet bs body DefaultBlockLet)).
    destruct (internal_names (ELet bs body DefaultBlockLet)); cbn; eauto 6. }
  destruct SL as (bs' & body' & _ & -> & ->). rewrite C107_meaning with (internal := internal); auto.
  - cbn [within]. apply i_let_ext; intros vs; auto.
    destruct body as [v|? ? ?|? ? ?|k xs]; cbn [spine_end within] in *; try tauto. destruct k; auto. destruct xs; tauto.
  - intros n. rewrite Hi. split; inversion 1; subst; eauto using DI_here, DI_body.
Qed.
Print Assumptions C107_static.

(** Internal declarations are private: the names under a let only depend on the values
    of the public declarations. *)
Theorem C107_private (I : interp) (public : expr -> bool) : forall bs vs vs' rho n,
  (forall i b, nth_error bs i = Some b -> public (b_expr b) = true -> nth i vs (i_dangling I) = nth i vs' (i_dangling I)) ->
  exports I public bs vs rho n = exports I public bs vs' rho n.
Proof.
  induction bs as [|b bs IH]; intros vs vs' rho n H; cbn; auto.
  destruct (String.eqb (b_name b) n); cbn [andb].
  2: apply IH; intros i c Hc P; specialize (H (S i) c Hc P); destruct vs, vs'; cbn in *; auto; destruct i; auto.
  destruct (public (b_expr b)) eqn:P.
  - specialize (H 0 b eq_refl P). destruct vs, vs'; auto.
  - apply IH; intros i c Hc P'; specialize (H (S i) c Hc P'); destruct vs, vs'; cbn in *; auto; destruct i; auto.
Qed.
Print Assumptions C107_private.

(** A library with a public and an internal declaration. *)
Definition num (s : string) : expr := ENode (KLiteral (PNum s)) [].
Definition private_num (s : string) : expr :=
  ENode KMeta [num s; ENode (KBlock ["export"]) [ENode (KLiteral (PSym "internal")) []]].
Definition library : expr :=
  ELet [mkBinding "x" (num "1") default_demand; mkBinding "helper" (private_num "2") default_demand]
    (ENode (KBlock ["x"]) [EVar (Bound 0 0 (Some "x"))]) DefaultBlockLet.
Example library_example :
  not_free placeholder library /\ declares_internal "helper" library /\ ~ declares_internal "x" library /\
  rebody library (ENode KList [EVar (Free "x"); EVar (Free "y")]) =
    ELet [mkBinding "x" (num "1") default_demand; mkBinding "helper" (private_num "2") default_demand]
      (ENode KList [EVar (Bound 0 0 (Some "x")); EVar (Free "y")]) DefaultBlockLet /\
  den texts outer [] (static_lookup library (ENode KList [EVar (Free "x"); EVar (Free "y")])) = "the x,outer y".
Proof.
  split; [cbn; repeat split; auto; discriminate|]. split; [apply C107_internal_names; cbn; auto|].
  split; [|split; reflexivity]. rewrite <- C107_internal_names. cbn. intuition discriminate.
Qed.

(** Refuted: that an internal declaration leaves importers alone.  Where one import
    declares [helper] publicly and another declares its own internal [helper], the
    importer cannot use the public one: its reference is replaced with a name that
    nothing declares. *)
Theorem C107_collision_refuted :
  exists other lib main,
    free_vars (rebody other main) = [] /\
    ~ In "helper" (free_vars lib) /\ free_vars main = ["helper"] /\
    (forall n, declares_internal n lib -> n = "helper") /\ ~ declares_internal "helper" other /\
    free_vars (rebody other (rebody lib main)) = ["__eu_internal:helper"].
Proof.
  exists (ELet [mkBinding "helper" (num "5") default_demand] (ENode KList []) DefaultBlockLet), library, (EVar (Free "helper")).
  repeat split; try reflexivity.
  - cbn. tauto.
  - intros n H. apply C107_internal_names in H. cbn in H. intuition.
  - rewrite <- C107_internal_names. cbn. tauto.
Qed.
Print Assumptions C107_collision_refuted.
