(** Subtyping is transitive for contractive types without optional fields, where dictionaries and
    closed records do not meet. *)
From Coq Require Import Ascii String List Bool Arith Lia.
From Verif.Types Require Import Model Spec Basics RuleProofs SimProofs TermProofs.
Import ListNotations.
Open Scope string_scope.
Open Scope list_scope.
Open Scope nat_scope.

(** ** How many unions and recursive types come first *)
Fixpoint head (t : type) : nat :=
  match t with
  | TMu _ b => S (head b)
  | TUnion l => S (list_max (map head l))
  | _ => 0
  end.
Lemma list_max_In {A} (f : A -> nat) l a : In a l -> f a <= list_max (map f l).
Proof.
  intros H. pose proof (proj1 (list_max_le (map f l) (list_max (map f l))) (le_n _)) as F.
  rewrite Forall_forall in F. apply F, in_map, H.
Qed.
Lemma head_unfold x r t : forall B, ground B t = true -> guarded x t = true -> head (unfold_mu x t r) = head t.
Proof.
  induction t using type_induction; intros B; cbn [ground guarded unfold_mu head]; auto; try discriminate.
  - rewrite !andb_true_iff. intros [[Gn _] _] _. rewrite prefix_list_nonempty by now rewrite nonempty_map. reflexivity.
  - intros G C. f_equal. rewrite map_map. f_equal. apply map_ext_in. intros a Ha. rewrite Forall_forall in H.
    apply (H a Ha B); [exact (forallb_In _ _ G _ Ha)|exact (forallb_In _ _ C _ Ha)].
  - intros _ C. apply negb_true_iff in C. now rewrite C.
  - intros G C. destruct (String.eqb x0 x) eqn:E; [reflexivity|]. cbn. f_equal. now apply (IHt (x0 :: B)).
Qed.

(** ** The types in question *)
Definition tame (d : bool) (t : type) : Prop := closed t /\ contractive t = true /\ records d t = true.
Lemma contractive_parts t : is_mu t = false -> contractive t = true -> forall u, In u (parts t) -> contractive u = true.
Proof.
  intros M. destruct t as [| | | | |f x|l|l a|f o r|a b|l| | | |x b| |]; cbn [contractive parts]; try discriminate; intros G u Hin; try contradiction.
  - rewrite !andb_true_iff in G. destruct G as [Gf Gx]. destruct f as [| | | |n|f y| | | | | | | | | | |]; try contradiction.
    + destruct Hin as [<-|[]]. exact Gx.
    + cbn in Gf. rewrite !andb_true_iff in Gf. destruct f; try contradiction. destruct Hin as [<-|[<-|[]]]; [apply Gf|exact Gx].
  - exact (forallb_In _ _ G _ Hin).
  - rewrite !andb_true_iff in G. apply in_app_or in Hin as [Hin|[<-|[]]]; [exact (forallb_In _ _ (proj1 G) _ Hin)|apply G].
  - apply in_map_iff in Hin. destruct Hin as [[k p] [<- Hin]]. exact (forallb_In _ _ G _ Hin).
  - rewrite andb_true_iff in G. destruct Hin as [<-|[<-|[]]]; apply G.
  - exact (forallb_In _ _ G _ Hin).
Qed.
Lemma records_parts d t : is_mu t = false -> records d t = true -> forall u, In u (parts t) -> records d u = true.
Proof.
  intros M. destruct t as [| | | | |f x|l|l a|f o r|a b|l| | | |x b| |]; cbn [records parts]; try discriminate; intros G u Hin; try contradiction.
  - rewrite !andb_true_iff in G. destruct G as [Gf Gx]. destruct f as [| | | |n|f y| | | | | | | | | | |]; try contradiction.
    + destruct Hin as [<-|[]]. exact Gx.
    + cbn in Gf. rewrite !andb_true_iff in Gf. destruct f; try contradiction. destruct Hin as [<-|[<-|[]]]; [apply Gf|exact Gx].
  - exact (forallb_In _ _ G _ Hin).
  - rewrite !andb_true_iff in G. apply in_app_or in Hin as [Hin|[<-|[]]]; [exact (forallb_In _ _ (proj1 G) _ Hin)|apply G].
  - apply in_map_iff in Hin. destruct Hin as [[k p] [<- Hin]]. rewrite !andb_true_iff in G. destruct G as [G _].
    pose proof (forallb_In _ _ G _ Hin) as E. cbn in E. rewrite andb_true_iff in E. apply E.
  - rewrite andb_true_iff in G. destruct Hin as [<-|[<-|[]]]; apply G.
  - exact (forallb_In _ _ G _ Hin).
Qed.
Lemma tame_hereditary d : hereditary (tame d).
Proof.
  intros t (G & C & D) u Hin. split; [exact (ground_hereditary t G u Hin)|]. destruct (is_mu t) eqn:M.
  - destruct t; try discriminate. destruct Hin as [<-|[]]. cbn in C. split.
    + apply contractive_unfold; auto. apply andb_true_iff in C. apply C.
    + now apply records_unfold.
  - split; [now apply (contractive_parts t)|now apply (records_parts d t)].
Qed.
Lemma head_parts d x b : tame d (TMu x b) -> head (unfold_mu x b (TMu x b)) < head (TMu x b).
Proof.
  intros (G & C & _). cbn in G, C. apply andb_true_iff in C. rewrite (head_unfold x _ b [x]); [cbn; lia|exact G|apply C].
Qed.

(** ** Composition *)
Section Compose.
Variable d : bool.
Let R (s t : type) : Prop := related s t /\ tame d s /\ tame d t.
Let RR (s u : type) : Prop := exists t, R s t /\ R t u.

Lemma Forall2_comp l1 l2 l3 : Forall2 R l1 l2 -> Forall2 R l2 l3 -> Forall2 RR l1 l3.
Proof.
  intros H. revert l3. induction H; intros l3 H3; inversion H3; subst; constructor; [exists y; auto|auto].
Qed.
Lemma Forall2_Forall_comp l1 l2 t : Forall2 R l1 l2 -> Forall (fun s => R s t) l2 -> Forall (fun s => RR s t) l1.
Proof. intros H F. induction H; inversion F; subst; constructor; [exists y; auto|auto]. Qed.
Lemma Forall_comp l t u : Forall (fun s => R s t) l -> R t u -> Forall (fun s => RR s u) l.
Proof. intros F H. rewrite Forall_forall in *. intros a Ha. exists t. auto. Qed.
Lemma comp a b c : R a b -> R b c -> RR a c.
Proof. intros H1 H2. exists b. auto. Qed.

Lemma records_required f o r k u : records d (TRecord f o r) = true -> ~ In (k, Optional u) f.
Proof.
  cbn. rewrite andb_true_iff. intros [G _] Hin. pose proof (forallb_In _ _ G _ Hin) as E. discriminate.
Qed.
Lemma record_dict_apart sf t : tame d (TRecord sf false []) -> tame d (dict_of t) -> False.
Proof.
  intros (_ & _ & A) (_ & _ & B). cbn in A, B. rewrite andb_true_iff in A, B. destruct A as [_ A], B as [B _].
  destruct d; discriminate.
Qed.
Lemma Forall2_app_inv {A B} (P : A -> B -> Prop) l l1 l2 : Forall2 P l (l1 ++ l2) ->
  exists k1 k2, l = k1 ++ k2 /\ Forall2 P k1 l1 /\ Forall2 P k2 l2.
Proof. intros H. apply Forall2_app_inv_r in H. destruct H as (k1 & k2 & H1 & H2 & ->). eauto. Qed.

Ltac kill := try discriminate; try contradiction; try congruence.

Lemma compose s t u : tame d s -> tame d t -> tame d u -> is_mu s = false -> is_mu t = false -> is_mu u = false ->
  is_union t = false -> step R s t -> step R t u -> step RR s u.
Proof.
  intros Ts Tt Tu Ms Mt Mu Ut H1 H2.
  destruct (type_dec s TNever) as [->|Ns]; [now apply by_never|]. destruct (type_dec u TTop) as [->|Nu]; [now apply by_top|].
  destruct (type_dec t TNever) as [->|Nt].
  { inversion H1; subst; kill. }
  destruct (type_dec t TTop) as [->|Ntt].
  { inversion H2; subst; kill. }
  destruct (is_union s) eqn:Us.
  { destruct s; kill. inversion H1; subst; kill. apply by_union_left; auto.
    - intros ->. inversion H2; subst; kill.
    - rewrite Forall_forall in *. intros a Ha. exists t. split; [auto|]. 
      split; [|split; auto]. exists (fun a b => related a b \/ (a = t /\ b = u)). split; [|now right].
      intros x y [Hxy|[-> ->]].
      + destruct (related_simulation x y Hxy) as [->|Hs]; [now left|right]. revert Hs. apply step_mono. auto.
      + right. revert H2. apply step_mono. intros a' b' [H' _]. now left. }
  assert (Rtu : R t u).
  { split; [|split; auto]. exists (fun a b => related a b \/ (a = t /\ b = u)). split; [|now right].
      intros x y [Hxy|[-> ->]].
      + destruct (related_simulation x y Hxy) as [->|Hs]; [now left|right]. revert Hs. apply step_mono. auto.
      + right. revert H2. apply step_mono. intros a' b' [H' _]. now left. }
  assert (Rst : R s t).
  { split; [|split; auto]. exists (fun a b => related a b \/ (a = s /\ b = t)). split; [|now right].
      intros x y [Hxy|[-> ->]].
      + destruct (related_simulation x y Hxy) as [->|Hs]; [now left|right]. revert Hs. apply step_mono. auto.
      + right. revert H1. apply step_mono. intros a' b' [H' _]. now left. }
  destruct (is_union u) eqn:Uu.
  { destruct u; kill. inversion H2; subst; kill. apply by_union_right; auto.
    - intros ->. inversion H1; subst; kill.
    - rewrite Exists_exists in *. match goal with H : exists x, In x _ /\ _ |- _ => destruct H as [v [Hv Hr]] end.
      exists v. split; [exact Hv|]. exists t. auto. }
  destruct H1; kill; inversion H2; subst; kill.
  all: try (match goal with A : tame d (TRecord _ false []), B : tame d (dict_of _) |- _ => exfalso; exact (record_dict_apart _ _ A B) end).
  all: try (match goal with A : tame d (TRecord _ false []), B : tame d (TApp (TCon "Dict") _) |- _ => exfalso; exact (record_dict_apart _ _ A B) end).
  all: try (constructor; eauto using comp, Forall2_comp, Forall2_Forall_comp, Forall_comp; fail).
  - (* tuple, tuple, non-empty list *)
    apply by_tuple_nonempty; [|eauto using Forall2_Forall_comp].
    intros ->. match goal with H : Forall2 R [] ?l, N : ?l <> [] |- _ => inversion H; subst; now apply N end.
  - (* tuple, tuple, prefix *)
    match goal with H : Forall2 R ss (_ ++ _) |- _ => apply Forall2_app_inv in H; destruct H as (k1 & k2 & -> & F1 & F2) end.
    apply by_tuple_prefix; eauto using Forall2_comp, Forall2_Forall_comp.
  - (* tuple, non-empty list, prefix *)
    destruct ss as [|e ss]; [contradiction|].
    match goal with H : Forall _ (e :: ss) |- _ => inversion H; subst end.
    apply (by_tuple_prefix RR [e] ss); [constructor; [eauto using comp|constructor]|eauto using Forall_comp].
  - (* tuple, prefix, prefix *)
    match goal with H : Forall2 R ss1 (_ ++ _) |- _ => apply Forall2_app_inv in H; destruct H as (k1 & k2 & -> & F1 & F2) end.
    rewrite <- app_assoc. apply by_tuple_prefix; [eauto using Forall2_comp|].
    apply Forall_app. split; eauto using Forall2_Forall_comp, Forall_comp.
  - (* tuple, prefix, list *)
    apply by_tuple_list, Forall_app. split; eauto using Forall2_Forall_comp, Forall_comp.
  - (* prefix, prefix, prefix *)
    match goal with H : Forall2 R ss1 (_ ++ _) |- _ => apply Forall2_app_inv in H; destruct H as (k1 & k2 & -> & F1 & F2) end.
    rewrite <- app_assoc. apply by_prefix; [eauto using Forall2_comp| |eauto using comp].
    apply Forall_app. split; eauto using Forall2_Forall_comp, Forall_comp.
  - (* prefix, prefix, list *)
    apply by_prefix_list; [apply Forall_app; split|]; eauto using Forall2_Forall_comp, Forall_comp, comp.
  - (* non-empty list, prefix, prefix *)
    match goal with H : ss1 ++ ss2 = [_] |- _ => rename H into E end.
    destruct ss1 as [|e ss1].
    { match goal with H : Forall2 R [] ts |- _ => inversion H; subst end. destruct Tu as (Gu & _). cbn in Gu. discriminate. }
    injection E as -> E. apply app_eq_nil in E as [-> ->].
    match goal with H : Forall2 R [_] ts |- _ => inversion H as [|? y ? l' Hy Hl]; subst; inversion Hl; subst end.
    apply by_nonempty_prefix; eauto using comp.
  - (* records *)
    apply by_record.
    + intros k v Hin. match goal with H : forall k t, In (k, Required t) tf0 -> _ |- _ => destruct (H k v Hin) as (w & Hw & Hr) end.
      apply get_In in Hw. match goal with H : forall k t, In (k, Required t) tf -> _ |- _ => destruct (H k w Hw) as (z & Hz & Hr') end.
      exists z. split; [exact Hz|]. exists w. auto.
    + intros k v p Hin. exfalso. destruct Tu as (_ & _ & Du). exact (records_required _ _ _ _ _ Du Hin).
    + auto.
  - (* dictionary, record, record *)
    destruct tf as [|[k [v|v]] tf].
    + destruct Tu as (Gu & _). cbn in Gu. destruct tr; [|discriminate].
      match goal with H : opened true rows -> _ |- _ => destruct (H (or_introl eq_refl)) as [->|N] end; [apply by_dict_record|contradiction].
    + match goal with H : forall k t, In (k, Required t) _ -> _ |- _ => destruct (H k v (or_introl eq_refl)) as (w & Hw & _) end. discriminate.
    + exfalso. destruct Tu as (_ & _ & Du). exact (records_required _ _ _ k v Du (or_introl eq_refl)).
Qed.

Lemma related_step s t : step related s t -> related s t.
Proof.
  intros H. exists (fun a b => related a b \/ (a = s /\ b = t)). split; [|now right].
  intros x y [Hxy|[-> ->]].
  - destruct (related_simulation x y Hxy) as [->|Hs]; [now left|right]. revert Hs. apply step_mono. auto.
  - right. revert H. apply step_mono. auto.
Qed.
Lemma R_refl t : tame d t -> R t t.
Proof. intros T. split; [apply related_refl|auto]. Qed.
Lemma R_cases s t : R s t -> s = t \/ step R s t.
Proof.
  intros (H & Ts & Tt). destruct (related_simulation s t H) as [->|Hs]; [now left|right].
  apply (step_parts (tame d)) in Hs; auto using tame_hereditary.
Qed.
Lemma R_RR s t : R s t -> RR s t.
Proof. intros H. exists t. split; [exact H|]. apply R_refl. apply H. Qed.

Lemma compose_simulation : simulation RR.
Proof.
  intros s u (t & H1 & H2).
  remember (head t) as n eqn:En. assert (L : head t <= n) by lia. clear En. revert t H1 H2 L.
  induction n as [n IH] using lt_wf_ind. intros t H1 H2 L.
  pose proof (proj1 (proj2 H1)) as Ts. pose proof (proj2 (proj2 H1)) as Tt. pose proof (proj2 (proj2 H2)) as Tu.
  destruct (R_cases s t H1) as [->|S1].
  { destruct (R_cases t u H2) as [->|S2]; [now left|right]. revert S2. apply step_mono. exact R_RR. }
  destruct (R_cases t u H2) as [->|S2].
  { right. revert S1. apply step_mono. exact R_RR. }
  destruct (is_mu s) eqn:Ms.
  { right. destruct s; try discriminate. inversion S1; subst; try discriminate. apply by_unfolding_left. exists t. auto. }
  destruct (is_mu t) eqn:Mt.
  { destruct t; try discriminate. assert (A : R s (unfold_mu x t (TMu x t))) by (inversion S1; subst; try discriminate; auto).
    assert (B : R (unfold_mu x t (TMu x t)) u) by (inversion S2; subst; try discriminate; auto).
    pose proof (head_parts d x t Tt). apply (IH (head (unfold_mu x t (TMu x t))) ltac:(lia) _ A B). lia. }
  destruct (is_mu u) eqn:Mu.
  { right. destruct u; try discriminate. apply by_unfolding_right; [exact Ms|]. exists t. split; [exact H1|].
    inversion S2; subst; try discriminate; auto. }
  destruct (is_union t) eqn:Ut; [|right; now apply (compose s t u)].
  destruct t; try discriminate.
  destruct (is_union s) eqn:Us.
  - right. destruct (type_dec u TTop) as [->|Nu]; [now apply by_top|]. destruct s; try discriminate. apply by_union_left; auto.
    + intros ->. inversion S2; subst; try discriminate; congruence.
    + assert (F : Forall (fun s => R s (TUnion variants)) variants0) by (inversion S1; subst; try discriminate; auto).
      rewrite Forall_forall in *. intros a Ha. exists (TUnion variants). auto.
  - destruct (type_dec s TNever) as [->|Ns]; [right; now apply by_never|].
    destruct (type_dec u TTop) as [->|Nu]; [right; now apply by_top|].
    assert (E : Exists (R s) variants) by (inversion S1; subst; try discriminate; try congruence; auto).
    assert (F : Forall (fun s => R s u) variants) by (inversion S2; subst; try discriminate; try congruence; auto).
    apply Exists_exists in E. destruct E as (v & Hv & Hr). rewrite Forall_forall in F.
    pose proof (list_max_In head variants v Hv). cbn [head] in L. apply (IH (head v) ltac:(lia) v Hr (F v Hv)). lia.
Qed.
End Compose.

Theorem related_trans d s t u : tame d s -> tame d t -> tame d u -> related s t -> related t u -> related s u.
Proof.
  intros Ts Tt Tu H1 H2. eexists. split; [exact (compose_simulation d)|]. exists t. auto.
Qed.
