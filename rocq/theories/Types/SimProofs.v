(** The checker accepts exactly the pairs in the greatest relation closed under the rules. *)
From Coq Require Import Ascii String List Bool Arith Lia.
From Verif.Types Require Import Model Spec Basics RuleProofs.
Import ListNotations.
Open Scope string_scope.
Open Scope list_scope.
Open Scope nat_scope.

Notation closed t := (ground [] t = true).

Lemma beta_ground n t : closed t -> beta_reduce n t = Some t.
Proof.
  destruct t as [| | | | |f x| | | | | | | | | | |]; auto. destruct f; auto. cbn. discriminate.
Qed.
Lemma ground_parts B t : is_mu t = false -> ground B t = true -> forall u, In u (parts t) -> ground B u = true.
Proof.
  intros M. destruct t as [| | | | |f x|l|l a|f o r|a b|l| | | |x b| |]; cbn [ground parts]; try discriminate; intros G u Hin; try contradiction.
  - rewrite !andb_true_iff in G. destruct G as [[Gf Gx] _]. destruct f as [| | | |n|f y| | | | | | | | | | |]; try contradiction.
    + destruct Hin as [<-|[]]. exact Gx.
    + cbn in Gf. rewrite !andb_true_iff in Gf. destruct Gf as [[_ Gy] _]. destruct f; try contradiction.
      destruct Hin as [<-|[<-|[]]]; assumption.
  - exact (forallb_In _ _ G _ Hin).
  - rewrite !andb_true_iff in G. destruct G as [[_ Gl] Ga]. apply in_app_or in Hin as [Hin|[<-|[]]]; [exact (forallb_In _ _ Gl _ Hin)|assumption].
  - rewrite andb_true_iff in G. apply in_map_iff in Hin. destruct Hin as [[k p] [<- Hin]]. exact (forallb_In _ _ (proj1 G) _ Hin).
  - rewrite andb_true_iff in G. destruct Hin as [<-|[<-|[]]]; apply G.
  - exact (forallb_In _ _ G _ Hin).
Qed.
Lemma ground_hereditary : hereditary (fun t => closed t).
Proof.
  intros t G u Hin. destruct (is_mu t) eqn:M; [|now apply (ground_parts [] t)].
  destruct t; try discriminate. destruct Hin as [<-|[]]. now apply ground_unfold_mu.
Qed.

(** ** Accepted pairs are related *)
Definition unfolded (fuel : nat) (s t : type) (A : list (type * type)) : option bool :=
  match s, t with
  | TMu x b, _ => subtype fuel (unfold_mu x b s) t A
  | _, TMu x b => subtype fuel s (unfold_mu x b t) A
  | _, _ => None
  end.
Inductive coherent : list (type * type) -> Prop :=
| coherent_nil : coherent []
| coherent_cons s t A fuel : coherent A -> closed s -> closed t -> unfolded fuel s t ((s, t) :: A) = Some true -> coherent ((s, t) :: A).
Lemma coherent_In A s t : coherent A -> In (s, t) A ->
  exists A' fuel, coherent A' /\ closed s /\ closed t /\ unfolded fuel s t A' = Some true.
Proof.
  induction 1 as [|s' t' A fuel HA IH Gs Gt U]; intros Hin; [contradiction|]. destruct Hin as [E|Hin]; [|auto].
  injection E as -> ->. exists ((s, t) :: A), fuel. repeat split; auto. econstructor; eassumption.
Qed.

Definition derived (s t : type) : Prop :=
  closed s /\ closed t /\ exists fuel A, coherent A /\ subtype fuel s t A = Some true.
Lemma ground_not_var s : closed s -> is_var s = false.
Proof. destruct s; cbn; auto. Qed.
Lemma unfolded_derived fuel s t A : coherent A -> closed s -> closed t -> unfolded fuel s t A = Some true -> step derived s t.
Proof.
  intros HA Gs Gt U. unfold unfolded in U. destruct (is_mu s) eqn:Ms.
  - destruct s; try discriminate. apply by_unfolding_left. repeat split; auto; [now apply ground_unfold_mu|eauto].
  - assert (is_mu t = true) as Mt by (destruct s, t; try discriminate; reflexivity).
    destruct t; try discriminate. apply by_unfolding_right; [assumption|]. repeat split; auto; [now apply ground_unfold_mu|].
    exists fuel, A. split; [assumption|]. destruct s; try discriminate; exact U.
Qed.
Theorem derived_simulation : simulation derived.
Proof.
  intros s t (Gs & Gt & fuel & A & HA & H). destruct fuel as [|fuel]; [discriminate|]. cbn [subtype] in H.
  rewrite !beta_ground in H by assumption. cbn [bind] in H.
  destruct (type_eqb s t) eqn:E; [left; now apply type_eqb_eq|]. right.
  assert (N : s <> t) by (intros ->; rewrite type_eqb_refl in E; discriminate). clear E.
  destruct (assumes A s t) eqn:EA.
  { apply assumes_In in EA. destruct (coherent_In A s t HA EA) as (A' & f & HA' & _ & _ & U). now apply (unfolded_derived f s t A'). }
  destruct (is_mu s || is_mu t) eqn:M.
  - assert (U : unfolded fuel s t ((s, t) :: A) = Some true).
    { unfold unfolded. destruct s, t; try discriminate; exact H. }
    apply (unfolded_derived fuel s t ((s, t) :: A)); auto. econstructor; eassumption.
  - apply orb_false_iff in M as [Ms Mt].
    assert (R : rules (fun s t => subtype fuel s t A) s t = Some true) by (destruct s, t; try discriminate; exact H).
    apply (rules_true _ s t [] []) in R; auto; try now apply ground_not_var.
    apply (step_parts (fun t => closed t)) in R; auto; [|exact ground_hereditary].
    revert R. apply step_mono. intros a b (Hs & Ga & Gb). repeat split; eauto.
Qed.
Theorem accepted_related s t : closed s -> closed t -> accepted s t -> related s t.
Proof.
  intros Gs Gt [fuel H]. exists derived. split; [exact derived_simulation|]. repeat split; auto. exists fuel, []. split; [constructor|exact H].
Qed.

(** ** Related pairs are not rejected *)
Theorem related_not_rejected R s t fuel A : simulation R -> closed s -> closed t -> R s t -> subtype fuel s t A <> Some false.
Proof.
  intros HR. revert s t A. induction fuel as [|fuel IH]; intros s t A Gs Gt Hr; [discriminate|]. cbn [subtype].
  rewrite !beta_ground by assumption. cbn [bind]. destruct (type_eqb s t) eqn:E; [discriminate|].
  destruct (assumes A s t); [discriminate|].
  destruct (HR s t Hr) as [->|H]; [rewrite type_eqb_refl in E; discriminate|].
  destruct (is_mu s) eqn:Ms; [|destruct (is_mu t) eqn:Mt].
  - destruct s; try discriminate. inversion H; subst; try discriminate. apply IH; auto. now apply ground_unfold_mu.
  - destruct t; try discriminate. assert (Hr' : R s (unfold_mu x t (TMu x t))) by (inversion H; subst; auto; discriminate).
    assert (U : subtype fuel s (unfold_mu x t (TMu x t)) ((s, TMu x t) :: A) <> Some false) by (apply IH; auto; now apply ground_unfold_mu).
    destruct s; try discriminate; exact U.
  - assert (U : rules (fun s t => subtype fuel s t A) s t <> Some false).
    { apply (step_parts (fun t => closed t)) in H; auto; [|exact ground_hereditary].
      apply (rules_false _ (fun a b => R a b /\ closed a /\ closed b) s t [] []); auto. intros a b (Hab & Ga & Gb). auto. }
    destruct s, t; try discriminate; exact U.
Qed.

(** ** Related pairs make up one relation *)
Theorem related_simulation : simulation related.
Proof.
  intros s t (R & HR & H). destruct (HR s t H) as [->|H']; [now left|right].
  revert H'. apply step_mono. intros a b Hab. now exists R.
Qed.
Lemma related_refl t : related t t.
Proof. exists eq. split; [intros a b ->; now left|reflexivity]. Qed.
