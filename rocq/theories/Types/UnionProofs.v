(** What the checker's union and difference of types mean. *)
From Coq Require Import Ascii String List Bool Arith Lia.
From Verif.Types Require Import Model Spec Basics RuleProofs SimProofs TermProofs TransProofs SoundProofs.
Import ListNotations.
Open Scope string_scope.
Open Scope list_scope.
Open Scope nat_scope.

Lemma existsb_type_In t l : existsb (type_eqb t) l = true <-> In t l.
Proof.
  rewrite existsb_exists. split.
  - intros (u & Hin & E). apply type_eqb_eq in E. now subst.
  - intros Hin. exists t. split; [exact Hin|apply type_eqb_refl].
Qed.
Lemma dedup_In t l : In t (dedup l) <-> In t l.
Proof.
  unfold dedup.
  assert (A : forall l seen, In t (fold_left (fun seen t => if existsb (type_eqb t) seen then seen else seen ++ [t]) l seen) <-> In t seen \/ In t l).
  { clear l. induction l as [|a l IH]; intros seen; cbn; [tauto|]. rewrite IH. destruct (existsb (type_eqb a) seen) eqn:E.
    - apply existsb_type_In in E. intuition (subst; auto).
    - rewrite in_app_iff. cbn. tauto. }
  rewrite A. cbn. tauto.
Qed.
Definition flat (ts : list type) : list type := flat_map (fun t => match t with TUnion vs => vs | t => [t] end) ts.
Definition kept (ts : list type) : list type :=
  let seen := dedup (filter (fun t => negb (is_never t)) (flat ts)) in
  filter (fun t => match t with TSymLit _ => negb (existsb (type_eqb (TBase Symbol)) seen) | TStrLit _ => negb (existsb (type_eqb (TBase String)) seen) | _ => true end) seen.
Definition collapse (l : list type) : type := match l with [] => TNever | [t] => t | _ => TUnion l end.
Lemma union_kept ts : existsb is_any (flat ts) = false -> union ts = collapse (kept ts).
Proof. intros E. unfold union. fold (flat ts). rewrite E. cbv zeta. fold (kept ts). destruct (kept ts) as [|? [|? ?]]; reflexivity. Qed.

Section Unions.
Variable call : nat -> value -> value -> Prop.
Variable perform : nat -> value -> Prop.
Variable is_lens is_traversal : (value -> Prop) -> (value -> Prop) -> nat -> Prop.
Variable other : type -> nat -> Prop.
Hypothesis GROW : optics_grow is_lens is_traversal.
Variable d : bool.
Notation inhabits := (inhabits call perform is_lens is_traversal other).
Notation den := (den call perform is_lens is_traversal other).
Notation stable := (den_stable call perform is_lens is_traversal other GROW d).

Lemma inhabits_has v t : inhabits v t <-> has (leaves call perform is_lens is_traversal other (rank t)) v t.
Proof. apply den_has. Qed.
Lemma inhabits_never v : inhabits v TNever -> False.
Proof. intros H. apply inhabits_has in H. now apply has_never_inv in H; [|apply leaves_leaf]. Qed.
Lemma inhabits_den k v t : plain d t -> rank t <= k -> (inhabits v t <-> den k v t).
Proof. intros P L. unfold Spec.inhabits. apply stable; auto. Qed.
Lemma plain_union l : plain d (TUnion l) <-> Forall (plain d) l.
Proof.
  unfold plain, tame. cbn [ground contractive records data_recursive]. rewrite !forallb_forall, Forall_forall. firstorder.
Qed.
Lemma inhabits_union v l : plain d (TUnion l) -> (inhabits v (TUnion l) <-> exists t, In t l /\ inhabits v t).
Proof.
  intros P. pose proof (proj1 (plain_union l) P) as F. rewrite Forall_forall in F.
  rewrite (inhabits_den (rank (TUnion l)) v (TUnion l) P (le_n _)), den_has. split.
  - intros H. apply has_union_inv in H; [|apply leaves_leaf]. destruct H as (t & Hin & H). exists t. split; [exact Hin|].
    rewrite (inhabits_den (rank (TUnion l)) v t (F t Hin) (list_max_In rank l t Hin)). now apply den_has.
  - intros (t & Hin & H). apply (has_union _ v t); [exact Hin|]. apply den_has.
    now apply (inhabits_den (rank (TUnion l)) v t (F t Hin) (list_max_In rank l t Hin)).
Qed.
Lemma inhabits_collapse v l : Forall (plain d) l ->
  (inhabits v (collapse l) <-> exists t, In t l /\ inhabits v t).
Proof.
  intros F. destruct l as [|t [|u l]].
  - split; [|intros (t & [] & _)]. intros H. destruct (inhabits_never v H).
  - split; [intros H; exists t; split; [now left|exact H]|]. intros (t' & [<-|[]] & H). exact H.
  - apply inhabits_union. now apply plain_union.
Qed.
Lemma inhabits_flat v ts : Forall (plain d) ts -> ((exists t, In t (flat ts) /\ inhabits v t) <-> exists t, In t ts /\ inhabits v t).
Proof.
  intros F. rewrite Forall_forall in F. unfold flat. split.
  - intros (u & Hin & H). apply in_flat_map in Hin. destruct Hin as (t & Ht & Hu). exists t. split; [exact Ht|].
    specialize (F t Ht). destruct t; try (destruct Hu as [<-|[]]; exact H). apply inhabits_union; [exact F|]. now exists u.
  - intros (t & Ht & H). specialize (F t Ht). destruct t as [| | | | | | | | | |l| | | | | |]; try (eexists; split; [apply in_flat_map; eexists; split; [exact Ht|now left]|exact H]).
    apply inhabits_union in H; [|exact F]. destruct H as (u & Hu & H). exists u. split; [|exact H].
    apply in_flat_map. exists (TUnion l). split; [exact Ht|exact Hu].
Qed.
Lemma flat_plain ts : Forall (plain d) ts -> Forall (plain d) (flat ts).
Proof.
  intros F. rewrite Forall_forall in *. intros u Hin. apply in_flat_map in Hin. destruct Hin as (t & Ht & Hu). specialize (F t Ht).
  destruct t; try (destruct Hu as [<-|[]]; exact F). apply plain_union in F. rewrite Forall_forall in F. auto.
Qed.
Lemma plain_no_any ts : Forall (plain d) ts -> existsb is_any (flat ts) = false.
Proof.
  intros F. apply flat_plain in F. apply existsb_none. intros a Ha. rewrite Forall_forall in F. destruct (F a Ha) as ((G & _) & _).
  destruct a; try reflexivity. discriminate G.
Qed.
Lemma kept_incl ts t : In t (kept ts) -> In t (flat ts).
Proof. unfold kept. intros H. apply filter_In in H as [H _]. rewrite dedup_In in H. apply filter_In in H. apply H. Qed.
Lemma inhabits_kept v ts : (exists t, In t (kept ts) /\ inhabits v t) <-> exists t, In t (flat ts) /\ inhabits v t.
Proof.
  split; [intros (t & Hin & H); exists t; split; [now apply kept_incl|exact H]|]. intros (t & Hin & H). unfold kept.
  assert (N : is_never t = false).
  { destruct t; try reflexivity. destruct (inhabits_never v H). }
  set (seen := dedup (filter (fun t => negb (is_never t)) (flat ts))).
  assert (Hs : In t seen) by (unfold seen; rewrite dedup_In, filter_In; now rewrite N).
  destruct t; try (eexists; split; [apply filter_In; split; [exact Hs|reflexivity]|exact H]).
  - destruct (existsb (type_eqb (TBase Symbol)) seen) eqn:E.
    + exists (TBase Symbol). split; [apply filter_In; split; [now apply existsb_type_In|reflexivity]|].
      apply inhabits_has in H. apply has_symlit_inv in H; [|apply leaves_leaf]. subst. apply inhabits_has. apply has_sym.
    + eexists. split; [apply filter_In; split; [exact Hs|reflexivity]|exact H].
  - destruct (existsb (type_eqb (TBase String)) seen) eqn:E.
    + exists (TBase String). split; [apply filter_In; split; [now apply existsb_type_In|reflexivity]|].
      apply inhabits_has in H. apply has_strlit_inv in H; [|apply leaves_leaf]. subst. apply inhabits_has. apply has_str.
    + eexists. split; [apply filter_In; split; [exact Hs|reflexivity]|exact H].
Qed.
Theorem union_means v ts : Forall (plain d) ts -> (inhabits v (union ts) <-> exists t, In t ts /\ inhabits v t).
Proof.
  intros F. rewrite union_kept by now apply plain_no_any. rewrite inhabits_collapse.
  - rewrite inhabits_kept. now apply inhabits_flat.
  - apply flat_plain in F. rewrite Forall_forall in *. intros t Ht. apply F. now apply kept_incl.
Qed.

Lemma mapm_spec {A B} (f : A -> option B) l r : mapm f l = Some r -> Forall2 (fun a b => f a = Some b) l r.
Proof.
  revert r. induction l as [|a l IH]; cbn; intros r; [intros [= <-]; constructor|]. destruct (f a) eqn:E; [|discriminate]. cbn.
  destruct (mapm f l); [|discriminate]. cbn. intros [= <-]. constructor; [exact E|now apply IH].
Qed.
Theorem subtract_means fuel t r u v : plain d t -> plain d r -> subtract_type fuel t r = Some u ->
  (inhabits v t -> inhabits v r \/ inhabits v u) /\ (inhabits v u -> inhabits v t).
Proof.
  intros Pt Pr.
  assert (S : forall s, plain d s -> is_subtype fuel s r = Some true -> inhabits v s -> inhabits v r).
  { intros s Ps E. apply (inhabits_sound call perform is_lens is_traversal other GROW d v s r); auto.
    apply accepted_related; [apply Ps|apply Pr|now exists fuel]. }
  assert (G : forall s, plain d s -> (do b <- is_subtype fuel s r; Some (if b then TNever else s)) = Some u ->
    (inhabits v s -> inhabits v r \/ inhabits v u) /\ (inhabits v u -> inhabits v s)).
  { intros s Ps. destruct (is_subtype fuel s r) as [[|]|] eqn:E; try discriminate; intros [= <-].
    - split; [intros H; left; now apply (S s)|]. intros H. destruct (inhabits_never v H).
    - auto. }
  destruct t as [| | | | | | | | | |l| | | | | |]; try (apply G; exact Pt). clear G.
  cbn [subtract_type]. destruct (mapm _ l) as [keep|] eqn:K; [|discriminate]. cbn [bind]. intros E0.
  assert (E1 : u = collapse (map fst (filter snd keep))).
  { injection E0 as <-. destruct (map fst (filter snd keep)) as [|? [|? ?]]; reflexivity. }
  clear E0. subst u. apply mapm_spec in K. pose proof (proj1 (plain_union l) Pt) as F.
  assert (KP : forall a b, In (a, b) keep <-> In a l /\ (do c <- is_subtype fuel a r; Some (a, negb c)) = Some (a, b)).
  { intros a b. clear -K. induction K as [|x y l keep Hxy K IH]; cbn; [tauto|]. rewrite IH. destruct (is_subtype fuel x r) eqn:E; [|discriminate].
    cbn in Hxy. injection Hxy as <-. split.
    - intros [[= <- <-]|[H1 H2]]; [|tauto]. rewrite E. cbn. auto.
    - intros [[<-|Hin] H2]; [|tauto]. rewrite E in H2. cbn in H2. injection H2 as <-. now left. }
  assert (IN : forall a, In a (map fst (filter snd keep)) <-> In a l /\ is_subtype fuel a r = Some false).
  { intros a. rewrite in_map_iff. split.
    - intros ((a', b) & <- & H). apply filter_In in H as [H E]. cbn in E. subst b. apply KP in H as [H1 H2]. split; [exact H1|]. cbn.
      destruct (is_subtype fuel a' r) as [[|]|]; try discriminate. reflexivity.
    - intros [H1 H2]. exists (a, true). split; [reflexivity|]. apply filter_In. split; [|reflexivity]. apply KP. split; [exact H1|]. now rewrite H2. }
  assert (PK : Forall (plain d) (map fst (filter snd keep))).
  { rewrite Forall_forall in *. intros a Ha. apply F. now apply IN. }
  rewrite (inhabits_collapse v (map fst (filter snd keep)) PK). rewrite (inhabits_union v l Pt). split.
  - intros (t & Hin & H). rewrite Forall_forall in F.
    assert (A : exists b, is_subtype fuel t r = Some b).
    { destruct (is_subtype fuel t r) eqn:E; [eauto|]. exfalso. clear -K Hin E. induction K as [|x y l keep Hxy K IH]; [destruct Hin|].
      destruct Hin as [<-|Hin]; [rewrite E in Hxy; discriminate|now apply IH]. }
    destruct A as [[|] E]; [left; apply (S t); auto|]. right. exists t. split; [apply IN; auto|exact H].
  - intros (t & Hin & H). exists t. split; [now apply IN|exact H].
Qed.
End Unions.
