(** The rules as a program and as a relation. *)
From Coq Require Import Ascii String List Bool Arith Lia.
From Verif.Types Require Import Model Spec Basics.
Import ListNotations.
Open Scope string_scope.
Open Scope list_scope.
Open Scope nat_scope.

(** ** Short-circuiting connectives *)
Lemma andm_true x y : andm x y = Some true <-> x = Some true /\ y = Some true.
Proof. destruct x as [[]|], y as [[]|]; cbn; split; try congruence; try tauto; intros [? ?]; congruence. Qed.
Lemma andm_false x y : andm x y = Some false -> x = Some false \/ y = Some false.
Proof. destruct x as [[]|], y as [[]|]; cbn; intros; try congruence; auto. Qed.
Lemma andm_none x y : andm x y = None -> x = None \/ y = None.
Proof. destruct x as [[]|], y as [[]|]; cbn; intros; try congruence; auto. Qed.
Lemma allm_true {A} (f : A -> option bool) l : allm f l = Some true <-> Forall (fun a => f a = Some true) l.
Proof.
  induction l as [|a l IH]; cbn; [split; auto|]. rewrite andm_true, IH. split; [intros []; now constructor|].
  intros H. inversion H. auto.
Qed.
Lemma allm_false {A} (f : A -> option bool) l : allm f l = Some false -> Exists (fun a => f a = Some false) l.
Proof. induction l as [|a l IH]; cbn; [discriminate|]. intros H. apply andm_false in H as [H|H]; [now left|right; auto]. Qed.
Lemma allm_none {A} (f : A -> option bool) l : allm f l = None -> Exists (fun a => f a = None) l.
Proof. induction l as [|a l IH]; cbn; [discriminate|]. intros H. apply andm_none in H as [H|H]; [now left|right; auto]. Qed.
Lemma anym_true {A} (f : A -> option bool) l : anym f l = Some true -> Exists (fun a => f a = Some true) l.
Proof.
  induction l as [|a l IH]; cbn; [discriminate|]. destruct (f a) as [[]|] eqn:E; cbn; intros H; try discriminate; [now left|right; auto].
Qed.
Lemma anym_false {A} (f : A -> option bool) l : anym f l = Some false -> Forall (fun a => f a = Some false) l.
Proof.
  induction l as [|a l IH]; cbn; [auto|]. destruct (f a) as [[]|] eqn:E; cbn; intros H; try discriminate. constructor; auto.
Qed.
Lemma anym_none {A} (f : A -> option bool) l : anym f l = None -> Exists (fun a => f a = None) l.
Proof.
  induction l as [|a l IH]; cbn; [discriminate|]. destruct (f a) as [[]|] eqn:E; cbn; intros H; try discriminate; [right; auto|now left].
Qed.

(** ** Two lists *)
Lemma combine_Forall2 {A B} (R : A -> B -> Prop) l : forall l', length l = length l' ->
  Forall (fun p => R (fst p) (snd p)) (combine l l') <-> Forall2 R l l'.
Proof.
  induction l as [|a l IH]; intros [|b l'] E; cbn in *; try discriminate; [split; constructor|].
  split; intros H; inversion H; subst; constructor; auto; apply IH; auto.
Qed.
Lemma combine_firstn {A B} (l : list A) : forall (l' : list B), combine l l' = combine (firstn (length l') l) l'.
Proof. induction l as [|a l IH]; intros [|b l']; cbn; auto. now rewrite IH. Qed.
Lemma Forall2_app_length {A B} (R : A -> B -> Prop) l l' : Forall2 R l l' -> length l = length l'.
Proof. induction 1; cbn; auto. Qed.

Lemma matches_prefix_true (sub : type -> type -> option bool) es p a : matches_prefix sub es p a = Some true ->
  exists es1 es2, es = es1 ++ es2 /\ Forall2 (fun s t => sub s t = Some true) es1 p /\ Forall (fun s => sub s a = Some true) es2.
Proof.
  unfold matches_prefix. destruct (length p <=? length es) eqn:E; [|discriminate]. apply Nat.leb_le in E.
  rewrite andm_true, !allm_true. intros [H1 H2]. exists (firstn (length p) es), (skipn (length p) es).
  rewrite firstn_skipn. repeat split; auto. rewrite combine_firstn in H1.
  apply (combine_Forall2 (fun s t => sub s t = Some true)) in H1; [exact H1|]. rewrite firstn_length. lia.
Qed.
Lemma skipn_app_exact {A} (l l' : list A) n : n = length l -> skipn n (l ++ l') = l'.
Proof. intros ->. rewrite skipn_app, skipn_all, Nat.sub_diag. reflexivity. Qed.
Lemma firstn_app_exact {A} (l l' : list A) n : n = length l -> firstn n (l ++ l') = l.
Proof. intros ->. rewrite firstn_app, firstn_all, Nat.sub_diag. cbn. apply app_nil_r. Qed.
Lemma matches_prefix_false (sub : type -> type -> option bool) (R : type -> type -> Prop) es1 es2 p a :
  (forall s t, R s t -> sub s t <> Some false) -> Forall2 R es1 p -> Forall (fun s => R s a) es2 ->
  matches_prefix sub (es1 ++ es2) p a <> Some false.
Proof.
  intros HR F1 F2. unfold matches_prefix. pose proof (Forall2_app_length _ _ _ F1) as L.
  replace (length p <=? length (es1 ++ es2)) with true by (symmetry; apply Nat.leb_le; rewrite app_length; lia).
  rewrite combine_firstn, firstn_app_exact, skipn_app_exact by auto. intros H. apply andm_false in H as [H|H]; apply allm_false, Exists_exists in H.
  - destruct H as [[s t] [Hin H]]. cbn in H. apply (combine_Forall2 R) in F1; [|exact L].
    rewrite Forall_forall in F1. exact (HR _ _ (F1 _ Hin) H).
  - destruct H as [s [Hin H]]. rewrite Forall_forall in F2. exact (HR _ _ (F2 _ Hin) H).
Qed.

(** ** The parts a rule compares *)
Definition parts (t : type) : list type :=
  match t with
  | TMu x b => [unfold_mu x b t]
  | TApp (TCon _) a => [a]
  | TApp (TApp (TCon _) a) b => [a; b]
  | TTuple l | TUnion l => l
  | TPrefix l a => l ++ [a]
  | TRecord f _ _ => map (fun kp => pty (snd kp)) f
  | TFun a b => [a; b]
  | _ => []
  end.
Definition hereditary (Q : type -> Prop) : Prop := forall t, Q t -> forall u, In u (parts t) -> Q u.

Lemma step_mono (R R' : type -> type -> Prop) s t : (forall a b, R a b -> R' a b) -> step R s t -> step R' s t.
Proof.
  intros M H. assert (F2 : forall l l', Forall2 R l l' -> Forall2 R' l l') by (intros l l' F; induction F; constructor; auto).
  assert (F1 : forall t l, Forall (fun s => R s t) l -> Forall (fun s => R' s t) l) by (intros u l F; induction F; constructor; auto).
  destruct H; try (constructor; auto; fail).
  - apply by_record; auto. intros k u Hin. destruct (H k u Hin) as [s [Hs Hr]]. eauto. eauto.
  - apply by_record_dict. eauto.
  - apply by_union_right; auto. rewrite Exists_exists in *. destruct H2 as [u [Hu Hr]]. eauto.
Qed.
Lemma step_parts (Q : type -> Prop) (R : type -> type -> Prop) s t : hereditary Q -> Q s -> Q t -> step R s t ->
  step (fun a b => R a b /\ Q a /\ Q b) s t.
Proof.
  intros HQ Qs Qt H.
  assert (F2 : forall l l', Forall2 R l l' -> (forall a, In a l -> Q a) -> (forall a, In a l' -> Q a) ->
    Forall2 (fun a b => R a b /\ Q a /\ Q b) l l').
  { intros l l' F. induction F; intros A B; constructor; [repeat split; [assumption|apply A; now left|apply B; now left]|].
    apply IHF; intros; [apply A|apply B]; now right. }
  assert (F1 : forall u l, Forall (fun s => R s u) l -> (forall a, In a l -> Q a) -> Q u -> Forall (fun a => R a u /\ Q a /\ Q u) l).
  { intros u l F A B. rewrite Forall_forall in *. auto. }
  pose proof (HQ s Qs) as Ps. pose proof (HQ t Qt) as Pt. clear HQ.
  destruct H; cbn [parts] in Ps, Pt; unfold non_empty_of, list_of, dict_of, lens_of, traversal_of in *; cbn [parts] in Ps, Pt.
  all: try (constructor; auto; repeat split; auto; first [apply Ps; cbn; solve [auto]|apply Pt; cbn; solve [auto]]; fail).
  - apply by_tuple_list, F1; [assumption|auto|apply Pt; now left].
  - apply by_tuple_nonempty; [assumption|]. apply F1; [assumption|auto|apply Pt; now left].
  - apply by_tuple_prefix; [apply F2|apply F1]; auto.
    + intros; apply Ps, in_or_app; auto. + intros; apply Pt, in_or_app; auto.
    + intros; apply Ps, in_or_app; auto. + apply Pt, in_or_app. right. now left.
  - apply by_prefix; [apply F2|apply F1|repeat split]; auto.
    + intros; apply Ps, in_or_app; left; apply in_or_app; auto. + intros; apply Pt, in_or_app; auto.
    + intros; apply Ps, in_or_app; left; apply in_or_app; auto. + apply Pt, in_or_app. right. now left.
    + apply Ps, in_or_app. right. now left. + apply Pt, in_or_app. right. now left.
  - apply by_prefix_list; [apply F1|repeat split]; auto.
    + intros; apply Ps, in_or_app; auto. + apply Pt. now left.
    + apply Ps, in_or_app. right. now left. + apply Pt. now left.
  - apply by_record; [| |exact H1].
    + intros k u Hin. destruct (H k u Hin) as [s [Hs Hr]]. exists s. repeat split; auto.
      * apply Ps, in_map_iff. exists (k, Required s). split; [reflexivity|]. now apply get_In in Hs.
      * apply Pt, in_map_iff. now exists (k, Required u).
    + intros k u p Hin Hg. repeat split; eauto.
      * apply Ps, in_map_iff. exists (k, p). split; [reflexivity|]. now apply get_In in Hg.
      * apply Pt, in_map_iff. now exists (k, Optional u).
  - apply by_record_dict. intros k p Hin. repeat split; eauto; [|apply Pt; now left].
    apply Ps, in_map_iff. now exists (k, p).
  - apply by_union_right; auto. rewrite Exists_exists in *. destruct H2 as [u [Hu Hr]]. exists u. repeat split; auto.
Qed.

(** ** The program follows the relation *)
Lemma record_subtype_true sub sf so sr tf t_open tr : record_subtype sub sf so sr tf t_open tr = Some true ->
  step (fun a b => sub a b = Some true) (TRecord sf so sr) (TRecord tf t_open tr).
Proof.
  unfold record_subtype. destruct (allm _ tf) as [[]|] eqn:E; cbn; try discriminate. intros [= H].
  apply allm_true in E. rewrite Forall_forall in E. apply by_record.
  - intros k t Hin. specialize (E _ Hin). cbn in E. destruct (get k sf) as [[s|s]|]; try discriminate. eauto.
  - intros k t p Hin Hg. specialize (E _ Hin). cbn in E. rewrite Hg in E. exact E.
  - intros O. unfold opened. destruct t_open; [now left|]. destruct tr as [|? ?]; [|right; discriminate]. cbn in H.
    apply negb_true_iff, orb_false_iff in H as [-> H]. destruct O as [O|O]; [discriminate|]. destruct sr; [contradiction|discriminate].
Qed.
Lemma step_record R sf so sr tf t_open tr : step R (TRecord sf so sr) (TRecord tf t_open tr) ->
  (forall k t, In (k, Required t) tf -> exists s, get k sf = Some (Required s) /\ R s t) /\
  (forall k t p, In (k, Optional t) tf -> get k sf = Some p -> R (pty p) t) /\
  (opened so sr -> opened t_open tr).
Proof. intros H. inversion H; subst; auto. Qed.
Lemma record_subtype_false sub (R : type -> type -> Prop) sf so sr tf t_open tr : (forall s t, R s t -> sub s t <> Some false) ->
  step R (TRecord sf so sr) (TRecord tf t_open tr) -> record_subtype sub sf so sr tf t_open tr <> Some false.
Proof.
  intros HR H. apply step_record in H as [H1 [H2 H3]]. unfold record_subtype. intros E.
  destruct (allm _ tf) as [[]|] eqn:A; cbn in E; try discriminate.
  - injection E as E. apply negb_false_iff, andb_true_iff in E as [E1 E2]. apply negb_true_iff, orb_false_iff in E1 as [-> E1].
    destruct tr; [|discriminate]. destruct H3 as [O|O]; try congruence.
    apply orb_true_iff in E2 as [->|E2]; [now left|right]. destruct sr; discriminate.
  - apply allm_false, Exists_exists in A. destruct A as [[k p] [Hin A]]. cbn in A. destruct p as [t|t].
    + destruct (H1 k t Hin) as [s [Hg Hr]]. rewrite Hg in A. exact (HR _ _ Hr A).
    + destruct (get k sf) as [p|] eqn:Hg; [|discriminate]. exact (HR _ _ (H2 k t p Hin Hg) A).
Qed.

Lemma arg_of_some n t u : arg_of n t = Some u -> t = TApp (TCon n) u.
Proof.
  unfold arg_of. destruct t as [| | | | |f x| | | | | | | | | | |]; try discriminate. destruct f; try discriminate.
  cbn. destruct (String.eqb n0 n) eqn:E; [|discriminate]. apply String.eqb_eq in E. congruence.
Qed.
Lemma arg_of_con n u : arg_of n (TApp (TCon n) u) = Some u.
Proof. unfold arg_of. cbn. now rewrite String.eqb_refl. Qed.
Lemma as_single_some t n u : as_single t = Some (n, u) -> t = TApp (TCon n) u.
Proof. destruct t as [| | | | |f x| | | | | | | | | | |]; try discriminate. destruct f; try discriminate. cbn. congruence. Qed.
Lemma as_two_some t n a b : as_two t = Some (n, a, b) -> t = TApp (TApp (TCon n) a) b.
Proof.
  destruct t as [| | | | |f x| | | | | | | | | | |]; try discriminate. destruct f as [| | | | |f y| | | | | | | | | | |]; try discriminate.
  destruct f; try discriminate. cbn. congruence.
Qed.

Lemma app_subtype_true sub s t : s <> t -> app_subtype sub s t = Some true -> step (fun a b => sub a b = Some true) s t.
Proof.
  intros N. unfold app_subtype.
  assert (S : match as_single s with
    | Some (sn, si) => match as_single t with
        | Some (tn, ti) => if String.eqb sn tn then if covariant sn then sub si ti else Some (type_eqb si ti)
            else if String.eqb sn "NonEmpty" && String.eqb tn "List" then sub si ti else Some (type_eqb s t)
        | None => Some (type_eqb s t) end
    | None => Some (type_eqb s t) end = Some true -> step (fun a b => sub a b = Some true) s t).
  { destruct (as_single s) as [[sn si]|] eqn:Es; [|rewrite type_eqb_neq by assumption; discriminate].
    destruct (as_single t) as [[tn ti]|] eqn:Et; [|rewrite type_eqb_neq by assumption; discriminate].
    apply as_single_some in Es, Et. subst. destruct (String.eqb sn tn) eqn:E1.
    - apply String.eqb_eq in E1. subst. destruct (covariant tn) eqn:C.
      + intros H. now apply by_constructor.
      + intros [= H]. apply type_eqb_eq in H. congruence.
    - destruct (_ && _) eqn:E2; [|rewrite type_eqb_neq by assumption; discriminate].
      apply andb_true_iff in E2 as [E2 E3]. apply String.eqb_eq in E2, E3. subst. intros H. now apply by_emptying. }
  destruct (as_two s) as [[[sn sa] sb]|] eqn:Es; [|exact S].
  destruct (as_two t) as [[[tn ta] tb]|] eqn:Et; [|exact S].
  destruct (_ || _ || _) eqn:E; [|exact S]. clear S. apply as_two_some in Es, Et. subst.
  rewrite andm_true. intros [H1 H2]. rewrite !orb_true_iff, !andb_true_iff, !String.eqb_eq in E.
  destruct E as [[[-> ->]|[-> ->]]|[-> ->]]; [apply by_lens|apply by_traversal|apply by_lens_traversal]; assumption.
Qed.

Lemma rules_true sub s t B B' : ground B s = true -> ground B' t = true -> is_mu s = false -> is_mu t = false ->
  is_var s = false -> is_var t = false -> s <> t ->
  rules sub s t = Some true -> step (fun a b => sub a b = Some true) s t.
Proof.
  intros Gs Gt Ms Mt Vs Vt N H.
  assert (UL : forall ss, s = TUnion ss -> t <> TNever -> allm (fun v => sub v t) ss = Some true -> step (fun a b => sub a b = Some true) s t).
  { intros ss -> Nt A. apply by_union_left; auto. now apply allm_true. }
  assert (UR : forall ts, t = TUnion ts -> is_union s = false -> s <> TTop -> anym (fun v => sub s v) ts = Some true ->
    step (fun a b => sub a b = Some true) s t).
  { intros ts -> Us Nt A. apply by_union_right; auto. now apply anym_true. }
  destruct s as [bs| | | |cs|fs xs|ls|ps as_|sf so sr|a b|ss|ls|ls|vs ks|ms bs|qs bs|zs bs]; try discriminate;
  destruct t as [bt| | | |ct|ft xt|lt|pt at_|tf t_open tr|c d|ts|lt|lt|vt kt|mt bt|qt bt|zt bt]; try discriminate;
  cbn [rules] in H; try discriminate; try (now apply by_never); try (now apply by_top);
  try (eapply UR; [reflexivity|reflexivity|discriminate|exact H]);
  try (eapply UL; [reflexivity|discriminate|exact H]);
  try (cbn [ground] in Gs; destruct ps; discriminate); try (cbn [ground] in Gt; destruct pt; discriminate).
  all: try (destruct ps as [|? ?]; [cbn in Gs; discriminate|]); try (destruct pt as [|? ?]; [cbn in Gt; discriminate|]).
  all: try discriminate.
  all: try (eapply UR; [reflexivity|reflexivity|discriminate|exact H]).
  all: try (eapply UL; [reflexivity|discriminate|exact H]).
  all: try (apply app_subtype_true; [assumption|exact H]).
  all: try (apply record_subtype_true; exact H).
  - destruct (arg_of "NonEmpty" _) as [u|] eqn:E; [|discriminate]. apply arg_of_some in E. injection E as -> ->.
    destruct pt; [|discriminate]. apply andm_true in H as [H1 H2]. now apply by_nonempty_prefix.
  - destruct (arg_of "Dict" _) as [u|] eqn:E; [|discriminate]. apply arg_of_some in E. injection E as -> ->.
    injection H as H. apply andb_true_iff in H as [-> H]. destruct tf; [|discriminate]. apply by_dict_record.
  - destruct (arg_of "List" _) as [u|] eqn:E.
    + apply arg_of_some in E. injection E as -> ->. apply by_tuple_list. now apply allm_true.
    + destruct (arg_of "NonEmpty" _) as [u|] eqn:E'; [|discriminate]. apply arg_of_some in E'. injection E' as -> ->.
      destruct ls; [discriminate|]. apply by_tuple_nonempty; [discriminate|]. now apply allm_true.
  - destruct (length ls =? length lt) eqn:E; [|discriminate]. apply Nat.eqb_eq in E. apply by_tuple.
    apply allm_true in H. now apply (combine_Forall2 (fun s t => sub s t = Some true)) in H.
  - apply matches_prefix_true in H. destruct H as [e1 [e2 [-> [F1 F2]]]]. now apply by_tuple_prefix.
  - destruct (arg_of "List" _) as [u|] eqn:E; [|discriminate]. apply arg_of_some in E. injection E as -> ->.
    apply andm_true in H as [H1 H2]. apply by_prefix_list; [now apply allm_true|assumption].
  - apply andm_true in H as [H1 H2]. apply matches_prefix_true in H1. destruct H1 as [e1 [e2 [E [F1 F2]]]].
    rewrite E. now apply by_prefix.
  - destruct (arg_of "Dict" _) as [u|] eqn:E; [|discriminate]. apply arg_of_some in E. injection E as -> ->.
    destruct so; [discriminate|]. destruct sr; [|discriminate]. cbn in H. apply by_record_dict.
    apply allm_true in H. rewrite Forall_forall in H. intros k p Hin. exact (H _ Hin).
  - apply andm_true in H as [H1 H2]. now apply by_function.
  - destruct bt; try discriminate. apply by_symbol.
  - destruct bt; try discriminate. apply by_string.
Qed.

Lemma rules_false sub (R : type -> type -> Prop) s t B B' : ground B s = true -> ground B' t = true ->
  is_mu s = false -> is_mu t = false -> (forall a b, R a b -> sub a b <> Some false) ->
  step R s t -> rules sub s t <> Some false.
Proof.
  intros Gs Gt Ms Mt HR H.
  assert (AF : forall u l, Forall (fun s => R s u) l -> allm (fun s => sub s u) l <> Some false).
  { intros u l F E. apply allm_false, Exists_exists in E. destruct E as [a [Hin E]]. rewrite Forall_forall in F. exact (HR _ _ (F _ Hin) E). }
  assert (AM : forall a b c d, R a b -> R c d -> andm (sub a b) (sub c d) <> Some false).
  { intros a b c d H1 H2 E. apply andm_false in E as [E|E]; [exact (HR _ _ H1 E)|exact (HR _ _ H2 E)]. }
  destruct H; try discriminate.
  - intros E. destruct s as [| | | | | | |[|]| | | | | | | | |]; discriminate E.
  - cbn [rules]. unfold app_subtype. cbn [as_two as_single]. rewrite String.eqb_refl, H. auto.
  - cbn. auto.
  - cbn. auto.
  - cbn. auto.
  - cbn. auto.
  - cbn. rewrite (Forall2_app_length _ _ _ H), Nat.eqb_refl. intros E. apply allm_false, Exists_exists in E.
    destruct E as [[a b] [Hin E]]. apply (combine_Forall2 R) in H; [|exact (Forall2_app_length _ _ _ H)].
    rewrite Forall_forall in H. exact (HR _ _ (H _ Hin) E).
  - cbn. now apply AF.
  - cbn. destruct ss; [contradiction|]. cbn [nonempty]. now apply AF.
  - cbn. destruct ts as [|u ts]; [discriminate|]. now apply (matches_prefix_false _ R).
  - cbn in Gs, Gt. rewrite !andb_true_iff in Gs, Gt. cbn [rules].
    destruct (ss1 ++ ss2) eqn:E; [destruct Gs as [[Gs _] _]; discriminate|]. rewrite <- E. destruct ts as [|u ts]; [destruct Gt as [[Gt _] _]; discriminate|].
    intros F. apply andm_false in F as [F|F]; [|exact (HR _ _ H1 F)]. revert F. now apply (matches_prefix_false _ R).
  - cbn in Gs. rewrite !andb_true_iff in Gs. destruct ss; [destruct Gs as [[Gs _] _]; discriminate|]. cbn [rules].
    unfold list_of. rewrite arg_of_con. intros F. apply andm_false in F as [F|F]; [exact (AF _ _ H F)|exact (HR _ _ H0 F)].
  - cbn. auto.
  - cbn [rules]. apply (record_subtype_false _ R); [assumption|]. now apply by_record.
  - cbn. intros E. apply allm_false, Exists_exists in E. destruct E as [[k p] [Hin E]]. exact (HR _ _ (H _ _ Hin) E).
  - cbn. auto.
  - destruct t; try discriminate; try contradiction; try (now apply AF); cbn in Gt.
    cbn [rules]. destruct prefix; [discriminate|]. now apply AF.
  - assert (U : anym (fun v => sub s v) ts <> Some false).
    { intros E. apply anym_false in E. apply Exists_exists in H2. destruct H2 as [u [Hin Hr]].
      rewrite Forall_forall in E. exact (HR _ _ Hr (E _ Hin)). }
    destruct s; try discriminate; try contradiction; try exact U.
    cbn [rules]. cbn in Gs. destruct prefix; [discriminate|]. exact U.
Qed.
