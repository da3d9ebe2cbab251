(** C29: subtyping. *)
From Coq Require Import Ascii String List Bool Arith Lia.
From Verif.Types Require Import Model Spec Basics RuleProofs SimProofs TermProofs TransProofs SoundProofs UnionProofs.
Import ListNotations.
Open Scope string_scope.
Open Scope list_scope.
Open Scope nat_scope.

(** ** The check decides the rules *)
(** For types without gradual parts the check always answers. *)
Theorem C29_terminates s t : ground [] s = true -> ground [] t = true -> exists fuel b, is_subtype fuel s t = Some b.
Proof. apply subtype_terminates. Qed.
(** It says yes exactly when the rules, read coinductively, relate the types. *)
Theorem C29_decides s t : ground [] s = true -> ground [] t = true -> (accepted s t <-> related s t).
Proof. intros Gs Gt. split; [now apply accepted_related|now apply related_accepted]. Qed.
(** It never says no to related types, however it is bounded. *)
Theorem C29_complete s t fuel : ground [] s = true -> ground [] t = true -> related s t -> is_subtype fuel s t <> Some false.
Proof. intros Gs Gt (R & HR & H). now apply (related_not_rejected R). Qed.
Print Assumptions C29_terminates.
Print Assumptions C29_decides.
Print Assumptions C29_complete.

(** ** Reflexivity and transitivity *)
Definition is_redex (t : type) : bool := match t with TApp (TLam _ _) _ => true | _ => false end.
(** Every type is a subtype of itself, with gradual parts or not. *)
Theorem C29_reflexive t : is_redex t = false -> accepted t t.
Proof.
  intros H. exists 1. unfold is_subtype. cbn [subtype].
  assert (B : beta_reduce 0 t = Some t) by (destruct t as [| | | | |f x| | | | | | | | | | |]; try reflexivity; destruct f; try reflexivity; discriminate).
  rewrite B. cbn [bind]. now rewrite type_eqb_refl.
Qed.
(** Missing: records with optional fields, closed records together with dictionaries, and
    recursive types that recur at once. Each of these breaks transitivity, see below. *)
Theorem C29_transitive_partial dicts s t u :
  Forall (fun t => ground [] t = true /\ contractive t = true /\ records dicts t = true) [s; t; u] ->
  accepted s t -> accepted t u -> accepted s u.
Proof.
  intros F H1 H2. inversion F as [|? ? Hs F1]; subst. inversion F1 as [|? ? Ht F2]; subst. inversion F2 as [|? ? Hu _]; subst.
  apply C29_decides; [apply Hs|apply Hu|]. apply (related_trans dicts s t u); auto; apply C29_decides; auto; first [apply Hs|apply Ht|apply Hu].
Qed.
Print Assumptions C29_reflexive.
Print Assumptions C29_transitive_partial.

(** ** Soundness *)
Section Sound.
Variable call : nat -> value -> value -> Prop.
Variable perform : nat -> value -> Prop.
Variable is_lens is_traversal : (value -> Prop) -> (value -> Prop) -> nat -> Prop.
Variable other : type -> nat -> Prop.
Hypothesis optics : optics_grow is_lens is_traversal.
Notation inhabits := (inhabits call perform is_lens is_traversal other).
Definition covered (dicts : bool) (t : type) : Prop :=
  ground [] t = true /\ contractive t = true /\ records dicts t = true /\ data_recursive t = true.
Lemma covered_plain dicts t : covered dicts t <-> plain dicts t.
Proof. unfold covered, plain, tame. tauto. Qed.

(** Every value of the subtype is a value of the supertype. Missing: the types excluded from
    transitivity, of which the first two are unsound, and recursion through functions. *)
Theorem C29_sound_partial dicts s t v : covered dicts s -> covered dicts t -> accepted s t -> inhabits v s -> inhabits v t.
Proof.
  intros Hs Ht H. apply (inhabits_sound call perform is_lens is_traversal other optics dicts); try now apply covered_plain.
  apply C29_decides; [apply Hs|apply Ht|exact H].
Qed.
(** The union the checker builds has the values of its members, whatever it merges. *)
Theorem C29_union dicts ts v : Forall (covered dicts) ts -> (inhabits v (union ts) <-> exists t, In t ts /\ inhabits v t).
Proof.
  intros F. apply (union_means call perform is_lens is_traversal other optics dicts). rewrite Forall_forall in *. intros t Ht. now apply covered_plain, F.
Qed.
(** Taking a type away from another, as in the other branch of a test, loses no value but those of
    the type taken away and adds none. *)
Theorem C29_subtract dicts fuel t r u v : covered dicts t -> covered dicts r -> subtract_type fuel t r = Some u ->
  (inhabits v t -> inhabits v r \/ inhabits v u) /\ (inhabits v u -> inhabits v t).
Proof. intros Ht Hr. apply (subtract_means call perform is_lens is_traversal other optics dicts); now apply covered_plain. Qed.

(** Membership says what it should of each kind of type: the bound on nesting in its definition is
    not felt. *)
Theorem C29_membership dicts v t : covered dicts t ->
  (inhabits v t <->
   match t with
   | TTop => True
   | TNever => False
   | TSymLit s => v = VSym s
   | TStrLit s => v = VStr s
   | TBase String => exists s, v = VStr s
   | TBase Symbol => exists s, v = VSym s
   | TBase b => exists n, v = VPrim b n
   | TFun a b => exists f, v = VFun f /\ forall x r, inhabits x a -> call f x r -> inhabits r b
   | TUnion ts => exists t, In t ts /\ inhabits v t
   | TMu x b => inhabits v (unfold_mu x b (TMu x b))
   | TTuple ts => exists l, v = VList l /\ Forall2 inhabits l ts
   | TPrefix ts t => exists l1 l2, v = VList (l1 ++ l2) /\ Forall2 inhabits l1 ts /\ Forall (fun v => inhabits v t) l2
   | TRecord fields _ _ => exists kvs, v = VBlock kvs /\ forall k p, In (k, p) fields -> exists v, get k kvs = Some v /\ inhabits v (pty p)
   | TApp (TCon n) t =>
       if String.eqb n "List" then exists l, v = VList l /\ Forall (fun v => inhabits v t) l
       else if String.eqb n "NonEmpty" then exists l, v = VList l /\ l <> [] /\ Forall (fun v => inhabits v t) l
       else if String.eqb n "Dict" then exists kvs, v = VBlock kvs /\ Forall (fun kv => inhabits (snd kv) t) kvs
       else if String.eqb n "IO" then exists i, v = VAct i /\ forall r, perform i r -> inhabits r t
       else exists i, v = VOther i /\ other (TApp (TCon n) t) i
   | _ => inhabits v t
   end).
Proof.
  intros C. apply covered_plain in C. pose proof (plain_hereditary dicts t C) as HP.
  set (L := leaves call perform is_lens is_traversal other (rank t)).
  assert (LL : forall v t, L v t -> is_leaf t = true) by apply leaves_leaf.
  assert (H0 : inhabits v t <-> has L v t) by apply inhabits_has.
  assert (DN : forall k w u, In u (parts t) -> rank u <= k -> (inhabits w u <-> den call perform is_lens is_traversal other k w u)).
  { intros k w u Hu. apply (inhabits_den call perform is_lens is_traversal other optics dicts). now apply HP. }
  assert (DH : forall w u, In u (parts t) -> (inhabits w u <-> has L w u)).
  { intros w u Hu. rewrite (DN (rank t) w u Hu); [apply den_has|]. apply (rank_hereditary dicts (rank t) t); auto. }
  assert (F2 : forall l us, (forall u, In u us -> In u (parts t)) -> (Forall2 (has L) l us <-> Forall2 inhabits l us)).
  { intros l us Hus. split; intros F; induction F; constructor; try (apply DH; [apply Hus; now left|assumption]); apply IHF; intros; apply Hus; now right. }
  assert (FA : forall l u, In u (parts t) -> (Forall (fun v => has L v u) l <-> Forall (fun v => inhabits v u) l)).
  { intros l u Hu. rewrite !Forall_forall. split; intros F w Hw; apply DH; auto. }
  rewrite H0. destruct t as [b| | | |n|f x|ts|ts t|fs o rs|a b|ts|s|s|x k|x b|bs b|x b]; try (now rewrite <- H0).
  - split.
    + intros H. inversion H; subst; try (eexists; reflexivity); [destruct b; try contradiction; now eexists|].
      match goal with X : L _ _ |- _ => apply LL in X; discriminate X end.
    + destruct b; intros (y & ->); constructor; discriminate.
  - split; auto. intros _. apply has_top.
  - split; [|contradiction]. intros H. now apply has_never_inv in H.
  - destruct f as [| | | |n| | | | | | | | | | | |]; try (now rewrite <- H0).
    assert (In x (parts (TApp (TCon n) x))) as Hx by now left.
    destruct (String.eqb n "List") eqn:N1.
    { apply String.eqb_eq in N1 as ->. split.
      - intros H; apply has_list_inv in H; [|exact LL]. destruct H as (l & -> & F). exists l. rewrite <- FA by exact Hx. auto.
      - intros (l & -> & F). apply has_list. now apply FA. }
    destruct (String.eqb n "NonEmpty") eqn:N2.
    { apply String.eqb_eq in N2 as ->. split.
      - intros H; apply has_nonempty_inv in H; [|exact LL]. destruct H as (l & -> & Ne & F). exists l. rewrite <- FA by exact Hx. auto.
      - intros (l & -> & Ne & F). apply has_nonempty; [exact Ne|]. now apply FA. }
    destruct (String.eqb n "Dict") eqn:N3.
    { apply String.eqb_eq in N3 as ->. split.
      - intros H; apply has_dict_inv in H; [|exact LL]. destruct H as (l & -> & F). exists l. split; [reflexivity|].
        rewrite Forall_forall in *. intros w Hw. apply DH; auto.
      - intros (l & -> & F). apply has_dict. rewrite Forall_forall in *. intros w Hw. apply DH; auto. }
    assert (D : data_con n = false) by (unfold data_con, mem; cbn; now rewrite N1, N2, N3).
    assert (E : forall v, has L v (TApp (TCon n) x) <-> Spec.leaf call perform is_lens is_traversal other (den call perform is_lens is_traversal other (rank x)) v (TApp (TCon n) x)).
    { intros w. subst L. cbn [rank]. rewrite D. split; [intros H; apply has_leaf_inv in H; [exact H|]; cbn [is_leaf]; now rewrite D|intros H; now apply has_leaf]. }
    rewrite E. cbn [Spec.leaf]. rewrite D. destruct (String.eqb n "IO") eqn:N4; [|reflexivity].
    split; intros (i & -> & H); exists i; (split; [reflexivity|]); intros r Hr; exact (H r Hr).
  - split; [intros H; apply has_tuple_inv in H; [revert H|exact LL]|]; intros (l & -> & F); [exists l; split; [reflexivity|]|apply has_tuple]; apply F2; auto.
  - split; [intros H; apply has_prefix_inv in H; [revert H|exact LL]|]; intros (l1 & l2 & -> & F & G); [exists l1, l2; split; [reflexivity|split]|apply has_prefix];
      try (apply F2; [intros u Hu; apply in_or_app; now left|exact F]); apply FA; auto; apply in_or_app; right; now left.
  - destruct C as ((_ & _ & R) & _). split.
    + intros H. apply has_record_inv in H; [|exact LL]. destruct H as (kvs & -> & H1 & _). exists kvs. split; [reflexivity|].
      intros k p Hin. destruct p as [t|t]; [|exfalso; exact (records_required dicts _ _ _ _ _ R Hin)]. destruct (H1 k t Hin) as (w & Hg & Hw).
      exists w. split; [exact Hg|]. apply DH; [apply in_map_iff; now exists (k, Required t)|exact Hw].
    + intros (kvs & -> & H1). apply has_record; intros k t; [|intros w Hin; exfalso; exact (records_required dicts _ _ _ _ _ R Hin)].
      intros Hin. destruct (H1 k _ Hin) as (w & Hg & Hw). exists w. split; [exact Hg|]. apply DH; [apply in_map_iff; now exists (k, Required t)|exact Hw].
  - split.
    + intros H. apply has_leaf_inv in H; [|reflexivity]. destruct H as (i & -> & H). exists i. split; [reflexivity|].
      intros x r Hx Hc. apply (DN (max (rank a) (rank b))); [right; now left|lia|]. apply (H x r); [|exact Hc]. apply DN; [now left|lia|exact Hx].
    + intros (i & -> & H). apply has_leaf. exists i. split; [reflexivity|]. intros x r Hx Hc. apply DN; [right; now left|lia|].
      apply (H x r); [|exact Hc]. apply (DN (max (rank a) (rank b))); [now left|lia|exact Hx].
  - rewrite <- H0. now apply (inhabits_union call perform is_lens is_traversal other optics dicts).
  - split; [intros H; now apply has_symlit_inv in H|intros ->; apply has_symlit].
  - split; [intros H; now apply has_strlit_inv in H|intros ->; apply has_strlit].
  - rewrite DH by now left. split; [apply has_mu_inv; exact LL|apply has_mu].
Qed.
End Sound.
Print Assumptions C29_sound_partial.
Print Assumptions C29_union.
Print Assumptions C29_subtract.
Print Assumptions C29_membership.

(** ** Cases that meet the hypotheses *)
(** JSON: scalars, lists and dictionaries of JSON. *)
Definition json : type := TMu "j" (TUnion [TBase Number; TBase String; TBase Bool; list_of (TVar "j" Star); dict_of (TVar "j" Star)]).
(** Trees with a number, and optionally more, at each node. *)
Definition tree : type := TMu "t" (TRecord [("label", Required (TStrLit "x")); ("sub", Required (list_of (TVar "t" Star)))] true []).
Definition tree' : type := TMu "u" (TRecord [("sub", Required (list_of (TUnion [TVar "u" Star; TBase Number])))] true []).
Example json_covered : covered true json /\ covered true tree /\ covered true tree' /\ covered true (TFun tree' (io_of json)).
Proof. repeat split. Qed.
Example numbers_json : accepted (list_of (TTuple [TBase Number; TStrLit "a"])) json.
Proof. exists 20. reflexivity. Qed.
Example tree_sub : accepted tree tree' /\ accepted (TFun tree' json) (TFun tree (TUnion [json; TBase DateTime])) /\ is_subtype 30 tree' tree = Some false.
Proof. split; [exists 20; reflexivity|]. split; [exists 20; reflexivity|reflexivity]. Qed.
Example tree_value call perform is_lens is_traversal other :
  inhabits call perform is_lens is_traversal other (VBlock [("label", VStr "x"); ("sub", VList [VBlock [("sub", VList []); ("label", VStr "x")]])]) tree.
Proof.
  unfold inhabits, tree. cbn [rank]. apply has_mu. cbn. apply has_record; cbn.
  - intros k t [[= <- <-]|[[= <- <-]|[]]]; cbn; eexists; (split; [reflexivity|]); [apply has_strlit|]. apply (has_list _ _ tree). constructor; [|constructor].
    apply has_mu. cbn. apply has_record; cbn; [|intros k t v [[=]|[[=]|[]]]].
    intros k t [[= <- <-]|[[= <- <-]|[]]]; cbn; eexists; (split; [reflexivity|]); [apply has_strlit|]. now apply (has_list _ _ tree).
  - intros k t v [[=]|[[=]|[]]].
Qed.
Example transitive_case : accepted (list_of tree) (list_of tree') /\ accepted (list_of tree') (TUnion [list_of tree'; json]).
Proof. split; exists 20; reflexivity. Qed.
Example subtract_case : subtract_type 20 (TUnion [TStrLit "a"; TBase Number; list_of TTop]) (TUnion [TBase String; json]) = Some (list_of TTop).
Proof. reflexivity. Qed.
Example union_case : union [TUnion [TStrLit "a"; TBase Number]; TNever; TBase String; TBase Number] = TUnion [TBase Number; TBase String].
Proof. reflexivity. Qed.
Example optics_case : optics_grow (fun _ B i => exists v, B v) (fun _ B i => exists v, B v).
Proof. split; [intros A B A' B' i HA HB; split; intros (v & Hv); eauto|auto]. Qed.

(** ** What is not so *)
Lemma not_accepted s t fuel : ground [] s = true -> ground [] t = true -> is_subtype fuel s t = Some false -> ~ accepted s t.
Proof. intros Gs Gt E H. apply C29_decides in H; [|exact Gs|exact Gt]. now apply (C29_complete s t fuel Gs Gt H). Qed.
Definition num := TBase Number.
Definition str := TBase String.
Definition ab : type := TRecord [("a", Required num); ("b", Required str)] false [].
Definition a_only : type := TRecord [("a", Required num)] false [].

(** Transitivity, as documented, fails: a record may lose a field and then be taken for a dictionary. *)
Theorem C29_transitive_refuted : exists s t u, Forall (fun t => ground [] t = true) [s; t; u] /\ accepted s t /\ accepted t u /\ ~ accepted s u.
Proof.
  exists ab, a_only, (dict_of num). split; [repeat constructor|]. split; [exists 10; reflexivity|]. split; [exists 10; reflexivity|].
  now apply (not_accepted _ _ 10).
Qed.
(** So it does when a field is lost and then taken to be optional. *)
Theorem C29_optional_refuted : exists s t u, Forall (fun t => ground [] t = true) [s; t; u] /\ accepted s t /\ accepted t u /\ ~ accepted s u.
Proof.
  exists a_only, (TRecord [] false []), (TRecord [("a", Optional str)] false []). split; [repeat constructor|]. split; [exists 10; reflexivity|].
  split; [exists 10; reflexivity|]. now apply (not_accepted _ _ 10).
Qed.
(** A recursive type that recurs at once is between any two types. *)
Theorem C29_contractive_refuted : forall s t, ground [] s = true -> ground [] t = true -> is_mu s = false -> 
  accepted s (TMu "x" (TVar "x" Star)) /\ accepted (TMu "x" (TVar "x" Star)) t.
Proof.
  intros s t Gs Gt Ms.
  assert (U : unfold_mu "x" (TVar "x" Star) (TMu "x" (TVar "x" Star)) = TMu "x" (TVar "x" Star)) by reflexivity.
  split; apply C29_decides; try assumption; try reflexivity.
  - exists (fun a b => a = s /\ b = TMu "x" (TVar "x" Star)). split; [|auto]. intros a b [-> ->]. right. apply by_unfolding_right; [exact Ms|]. now rewrite U.
  - exists (fun a b => a = TMu "x" (TVar "x" Star) /\ b = t). split; [|auto]. intros a b [-> ->]. right. apply by_unfolding_left. now rewrite U.
Qed.
(** Whatever values a type has: if some value of the two-field record is not a dictionary of numbers,
    subtyping is unsound. *)
Theorem C29_sound_refuted (member : value -> type -> Prop) : (exists v, member v ab /\ ~ member v (dict_of num)) ->
  ~ (forall s t v, ground [] s = true -> ground [] t = true -> accepted s t -> member v s -> member v t).
Proof.
  intros (v & H1 & H2) S. apply H2. apply (S a_only); [reflexivity|reflexivity|exists 10; reflexivity|].
  apply (S ab); [reflexivity|reflexivity|exists 10; reflexivity|exact H1].
Qed.
Example two_fields call perform is_lens is_traversal other :
  let v := VBlock [("a", VPrim Number 1); ("b", VStr "s")] in
  inhabits call perform is_lens is_traversal other v ab /\ ~ inhabits call perform is_lens is_traversal other v (dict_of num).
Proof.
  split.
  - apply has_record; cbn; [|intros k t v [[=]|[[=]|[]]]]. intros k t [[= <- <-]|[[= <- <-]|[]]]; cbn; eexists; (split; [reflexivity|]); constructor; discriminate.
  - intros H. apply inhabits_has in H. apply has_dict_inv in H; [|apply leaves_leaf]. destruct H as (kvs & [= <-] & F).
    inversion F as [|? ? _ F1]. inversion F1 as [|? ? H2 _]. cbn in H2. inversion H2; subst. match goal with X : False |- _ => exact X end.
Qed.
(** A lens read as a way to get the part of a whole is not a lens on a larger type, yet accepted as one. *)
Theorem C29_lens_refuted call perform other : let is_lens := fun (A B : value -> Prop) (i : nat) => forall w, A w -> B w in
  exists s t v, ground [] s = true /\ ground [] t = true /\ accepted s t /\
    inhabits call perform is_lens is_lens other v s /\ ~ inhabits call perform is_lens is_lens other v t.
Proof.
  exists (lens_of num num), (lens_of TTop num), (VOptic 0). split; [reflexivity|]. split; [reflexivity|]. split; [exists 10; reflexivity|]. split.
  - apply has_leaf. cbn. exists 0. auto.
  - intros H. apply inhabits_has in H. apply has_leaf_inv in H; [|reflexivity]. cbn in H. destruct H as (i & _ & H).
    specialize (H (VStr "s") (has_top _ _)). inversion H; subst. match goal with X : _ |- _ => now apply leaf_is_leaf in X end.
Qed.
(** Widening a literal where it is an argument narrows the function. *)
Theorem C29_widen_refuted : exists t, ground [] t = true /\ ~ accepted t (widen_literals t).
Proof. exists (TFun (TStrLit "a") num). split; [reflexivity|]. now apply (not_accepted _ _ 10). Qed.
Print Assumptions C29_transitive_refuted.
Print Assumptions C29_optional_refuted.
Print Assumptions C29_contractive_refuted.
Print Assumptions C29_sound_refuted.
Print Assumptions C29_lens_refuted.
Print Assumptions C29_widen_refuted.
