(** C30: unification. *)
From Coq Require Import Ascii String List Bool Arith Lia.
From Verif.Types Require Import Model Spec Basics RuleProofs TermProofs UnifySpec ResProofs ApplyProofs UnifyProofs HeadProofs.
Import ListNotations.
Open Scope string_scope.
Open Scope list_scope.
Open Scope nat_scope.

(** ** What holds *)
(** Of first-order types, from a substitution that is not cyclic: unification ends; the bindings there
    were are kept; the substitution it leaves is not cyclic; and if it succeeds, the two types with that
    substitution applied agree. *)
Theorem C30_unify_partial dicts s t1 t2 :
  subst_first_order dicts s -> acyclic s -> first_order dicts t1 = true -> first_order dicts t2 = true ->
  exists s' e, unifies t1 t2 s s' e /\ extends s s' /\ subst_first_order dicts s' /\ acyclic s' /\
    (e = None -> exists u1 u2, applies s' t1 u1 /\ applies s' t2 u2 /\ agree u1 u2).
Proof.
  intros GS GA F1 F2. destruct (enough_vars s t1 t2) as (V & I1 & I2 & IS).
  destruct (unify_result dicts V t1 t2 s (conj GS (conj GA IS)) F1 F2 I1 I2) as (N & s' & e & RUN & (G' & E' & _) & A & _).
  pose proof G' as (GS' & GA' & _). exists s', e. split; [now exists N|]. split; [exact E'|]. split; [exact GS'|]. split; [exact GA'|].
  intros He. destruct (good_total dicts V s' t1 G' F1) as (u1 & Q1), (good_total dicts V s' t2 G' F2) as (u2 & Q2).
  exists u1, u2. split; [now apply (applies_res dicts s' GS')|]. split; [now apply (applies_res dicts s' GS')|]. exact (A He u1 u2 Q1 Q2).
Qed.
(** A substitution that is not cyclic can be applied to any first-order type, gives one type, and
    leaves in it no variable the substitution binds. *)
Theorem C30_apply_partial dicts s t :
  subst_first_order dicts s -> acyclic s -> first_order dicts t = true ->
  exists u, applies s t u /\ first_order dicts u = true /\ (forall x, occurs x u = true -> get x s = None) /\ (forall u', applies s t u' -> u' = u).
Proof.
  intros GS GA F. destruct (res_total dicts s GS t GA F) as (u & Q). exists u. split; [now apply (applies_res dicts s GS)|].
  split; [exact (res_fo dicts s t u GS Q F)|]. split; [exact (res_resolved s t u Q)|]. intros u' H. apply (applies_res dicts s GS) in H; [|exact F]. exact (res_functional s t u' H u Q).
Qed.
(** If the two types have a common instance, unification succeeds and the instance is still one of
    what it leaves: nothing is bound that need not be. *)
Theorem C30_most_general_partial dicts s t1 t2 v :
  subst_first_order dicts s -> acyclic s -> first_order dicts t1 = true -> first_order dicts t2 = true ->
  (forall x t, get x s = Some t -> exact t = true) -> exact t1 = true -> exact t2 = true ->
  (forall x, kind_of (v x) = Star) -> solves v s -> instance v t1 = instance v t2 ->
  exists s', unifies t1 t2 s s' None /\ solves v s'.
Proof.
  intros GS GA F1 F2 HE X1 X2 HK HS HI. destruct (enough_vars s t1 t2) as (V & I1 & I2 & IS).
  destruct (unify_result dicts V t1 t2 s (conj GS (conj GA IS)) F1 F2 I1 I2) as (N & s' & e & RUN & _ & _ & FI).
  destruct (FI HE X1 X2 v HK HS HI) as (-> & _ & HS'). exists s'. split; [now exists N|exact HS'].
Qed.

(** Without [any], literals, records and lists known not to be empty, agreeing is being equal. *)
Theorem C30_agree_is_equal a b : agree a b -> plain a = true -> plain b = true -> a = b.
Proof.
  assert (L : forall l l', Forall2 (fun a b => plain a = true -> plain b = true -> a = b) l l' -> forallb plain l = true -> forallb plain l' = true -> l = l').
  { induction 1 as [|x y l l' K _ IHl]; cbn; [reflexivity|]. rewrite !andb_true_iff. intros [] []. f_equal; auto. }
  induction 1 as [t|t|t|l|l|l|l|f g a b IH1 IH2|a b _|a b _|l l' H|l l' a b H IH|a b c e IH1 IH2|f o g o' _ _] using agree_induction; cbn; try discriminate; auto;
    rewrite ?andb_true_iff.
  - intros [] []. f_equal; auto.
  - intros P Q. f_equal. exact (L _ _ H P Q).
  - intros [P Pa] [Q Qa]. f_equal; [exact (L _ _ H P Q)|now apply IH].
  - intros [] []. f_equal; auto.
Qed.

(** ** What does not hold *)
Section Steps.
(** With nothing bound, a step looks at the types as they are. *)
Lemma unify_empty fuel t1 t2 : unify (S (S fuel)) t1 t2 [] = unify_heads (unify (S fuel)) (S fuel) t1 t2 [].
Proof. reflexivity. Qed.
Lemma unify_one t1 t2 s : unify 1 t1 t2 s = None.
Proof. reflexivity. Qed.
End Steps.
(** Two recursive types that differ in the name of the bound variable only: unification never ends. *)
Definition lists (x : string) : type := TMu x (list_of (TVar x Star)).
Theorem C30_terminates_refuted : unify_diverges (lists "x") (lists "y") [].
Proof.
  intros fuel. enough (forall n fuel, fuel <= n -> unify fuel (lists "x") (lists "y") [] = None /\ unify fuel (lists "y") (lists "x") [] = None) as H by now apply (H fuel fuel).
  clear fuel. induction n as [|n IH]; intros fuel Hf; [replace fuel with 0 by lia; split; reflexivity|].
  assert (STEP : forall a b, (a = "x" /\ b = "y") \/ (a = "y" /\ b = "x") -> (forall f, f <= n -> unify f (lists b) (lists a) [] = None) -> unify fuel (lists a) (lists b) [] = None).
  { intros a b AB K. destruct fuel as [|[|[|[|[|f]]]]]; try (destruct AB as [[-> ->]|[-> ->]]; reflexivity).
    specialize (K (S (S f)) ltac:(lia)).
    transitivity (unify (S (S f)) (lists b) (lists a) []); [|exact K]. destruct AB as [[-> ->]|[-> ->]]; reflexivity. }
  split; [apply STEP; [now left|]|apply STEP; [now right|]]; intros f Hle; apply IH; lia.
Qed.
(** Two records, each with a field the other lacks and a row variable for the rest: unification
    succeeds and leaves a cyclic substitution, which cannot be applied to either type. *)
Definition left_record : type := TRecord [("x", Required (TBase Number))] false ["a"].
Definition right_record : type := TRecord [("y", Required (TBase Bool))] false ["b"].
Definition rest_of_left : type := TRecord [("y", Required (TBase Bool))] true ["b"].
Definition rest_of_right : type := TRecord [("x", Required (TBase Number))] true ["a"].
Definition cyclic : subst := [("b", rest_of_right); ("a", rest_of_left)].
Lemma cyclic_diverges fuel : apply_subst fuel rest_of_left cyclic = None /\ apply_subst fuel rest_of_right cyclic = None.
Proof.
  induction fuel as [|fuel [A B]]; [split; reflexivity|]. destruct fuel as [|fuel]; [split; reflexivity|].
  split; [change (apply_subst (S (S fuel)) rest_of_left cyclic) with (bind (bind (apply_subst (S fuel) rest_of_right cyclic) (fun b => Some (absorb b (mkAcc [("y", Required (TBase Bool))] [] true [])))) (fun a => Some (TRecord (a_fields a) (a_open a) (a_rows a ++ a_extra a))))
  |change (apply_subst (S (S fuel)) rest_of_right cyclic) with (bind (bind (apply_subst (S fuel) rest_of_left cyclic) (fun b => Some (absorb b (mkAcc [("x", Required (TBase Number))] [] true [])))) (fun a => Some (TRecord (a_fields a) (a_open a) (a_rows a ++ a_extra a))))];
  rewrite ?A, ?B; reflexivity.
Qed.
Theorem C30_acyclic_refuted : exists s', unifies left_record right_record [] s' None /\ ~ acyclic s' /\ apply_diverges left_record s' /\ apply_diverges right_record s'.
Proof.
  exists cyclic. split; [exists 6; intros fuel H; do 6 (destruct fuel as [|fuel]; [lia|]); reflexivity|].
  split; [|split].
  - intros A. assert (forall x, Acc (mentions cyclic) x -> (x = "a" \/ x = "b") -> False) as K.
    { intros x H. induction H as [x _ IH]. intros [-> | ->]; [apply (IH "b")|apply (IH "a")]; auto; eexists; (split; [reflexivity|reflexivity]). }
    exact (K "a" (A "a") (or_introl eq_refl)).
  - intros [|[|fuel]]; try reflexivity.
    change (apply_subst (S (S fuel)) left_record cyclic) with (bind (bind (apply_subst (S fuel) rest_of_left cyclic) (fun b => Some (absorb b (mkAcc [("x", Required (TBase Number))] [] false [])))) (fun a => Some (TRecord (a_fields a) (a_open a) (a_rows a ++ a_extra a)))).
    now rewrite (proj1 (cyclic_diverges (S fuel))).
  - intros [|[|fuel]]; try reflexivity.
    change (apply_subst (S (S fuel)) right_record cyclic) with (bind (bind (apply_subst (S fuel) rest_of_right cyclic) (fun b => Some (absorb b (mkAcc [("y", Required (TBase Bool))] [] false [])))) (fun a => Some (TRecord (a_fields a) (a_open a) (a_rows a ++ a_extra a)))).
    now rewrite (proj2 (cyclic_diverges (S fuel))).
Qed.
(** The variables put for those a type quantifies over are always named from the same start, so they may
    be taken for others that are there: a function that returns what the other's result stands for is
    refused, though the result can stand for a number. *)
Definition to_number : type := TForall [("a", Star)] (TFun (TVar "a" Star) (TBase Number)).
Definition from_string : type := TFun (TBase String) (TVar "_t0" Star).
Theorem C30_fresh_refuted : (exists s' e, unifies to_number from_string [] s' (Some e)) /\
  exists s, unifies to_number (TFun (TBase String) (TVar "c" Star)) [] s None /\ applies s (TVar "c" Star) (TBase Number).
Proof.
  split.
  - do 2 eexists. exists 8. intros fuel H. do 8 (destruct fuel as [|fuel]; [lia|]). reflexivity.
  - eexists. split; [exists 8; intros fuel H; do 8 (destruct fuel as [|fuel]; [lia|]); reflexivity|]. exists 3. reflexivity.
Qed.
(** And a type that quantifies over a variable of that name is never instantiated. *)
Definition own_name : type := TForall [("_t0", Star)] (TFun (TVar "_t0" Star) (TBase Number)).
Theorem C30_own_name_refuted : unify_diverges own_name (TFun (TBase String) (TBase Number)) [].
Proof.
  assert (V : forall fuel, apply_subst fuel (TVar "_t0" Star) [("_t0", TVar "_t0" Star)] = None) by (induction fuel as [|fuel IH]; [reflexivity|exact IH]).
  intros [|[|[|fuel]]]; try reflexivity.
  change (unify (S (S (S fuel))) own_name (TFun (TBase String) (TBase Number)) []) with
    (bind (bind (apply_subst (S fuel) (TVar "_t0" Star) [("_t0", TVar "_t0" Star)]) (fun a => bind (apply_subst (S fuel) (TBase Number) [("_t0", TVar "_t0" Star)]) (fun b => Some (TFun a b))))
      (fun b => unify (S (S fuel)) b (TFun (TBase String) (TBase Number)) [])).
  now rewrite V.
Qed.

(** ** Cases that meet the hypotheses *)
(** [(a -> b) -> [a] -> [b]] with [(number -> string) -> c], [b] being known to be a pair. *)
Definition map_type : type := TFun (TFun (TVar "a" Star) (TVar "b" Star)) (TFun (list_of (TVar "a" Star)) (list_of (TVar "b" Star))).
Definition used : type := TFun (TFun (TBase Number) (TTuple [TBase String; TVar "e" Star])) (TVar "c" Star).
Definition known : subst := [("b", TTuple [TVar "d" Star; TBase Bool])].
Example C30_example_known : subst_first_order true known /\ acyclic known /\ first_order true map_type = true /\ first_order true used = true.
Proof.
  split; [|split; [|split; reflexivity]].
  - intros x t H. cbn in H. destruct (String.eqb x "b"); [|discriminate]. injection H as <-. reflexivity.
  - assert (D : forall x, x <> "b" -> Acc (mentions known) x).
    { intros x Hx. constructor. intros y (t & H & _). cbn in H. destruct (String.eqb x "b") eqn:E; [apply String.eqb_eq in E; contradiction|discriminate]. }
    intros x. constructor. intros y (t & H & O). cbn in H. destruct (String.eqb x "b"); [|discriminate]. injection H as <-. cbn -[String.eqb] in O.
    rewrite !orb_false_r in O. apply String.eqb_eq in O. subst y. apply D. discriminate.
Qed.
Example C30_example_run : exists s', unifies map_type used known s' None /\ applies s' (TVar "c" Star) (TFun (list_of (TBase Number)) (list_of (TTuple [TBase String; TBase Bool]))).
Proof.
  eexists. split; [exists 12; intros fuel H; do 12 (destruct fuel as [|fuel]; [lia|]); reflexivity|]. exists 12. reflexivity.
Qed.
Example C30_example_instance : let v x := if String.eqb x "a" then TBase Number else if String.eqb x "b" then TTuple [TBase String; TBase Bool] else
    if String.eqb x "c" then TFun (list_of (TBase Number)) (list_of (TTuple [TBase String; TBase Bool])) else if String.eqb x "d" then TBase String else TBase Bool in
  (forall x t, get x known = Some t -> exact t = true) /\ exact map_type = true /\ exact used = true /\ (forall x, kind_of (v x) = Star) /\ solves v known /\ instance v map_type = instance v used.
Proof.
  cbn zeta. split; [|split; [reflexivity|split; [reflexivity|split; [|split; [|reflexivity]]]]].
  - intros x t H. cbn in H. destruct (String.eqb x "b"); [|discriminate]. injection H as <-. reflexivity.
  - intros x. destruct (String.eqb x "a"), (String.eqb x "b"), (String.eqb x "c"), (String.eqb x "d"); reflexivity.
  - intros x t H. cbn in H. destruct (String.eqb x "b") eqn:E; [|discriminate]. apply String.eqb_eq in E. subst. injection H as <-. reflexivity.
Qed.
(** Records: an open one with a field of its own and one with more. *)
Example C30_example_records : exists s', unifies (TRecord [("x", Required (TVar "a" Star))] true []) (TRecord [("x", Optional (TStrLit "on")); ("y", Required TAny)] false []) [] s' None /\
  applies s' (TVar "a" Star) (TBase String).
Proof. eexists. split; [exists 8; intros fuel H; do 8 (destruct fuel as [|fuel]; [lia|]); reflexivity|]. exists 5. reflexivity. Qed.
(** What fails: a type inside itself. *)
Example C30_example_fails : exists s' x t, unifies (TVar "a" Star) (list_of (TVar "a" Star)) [] s' (Some (OccursCheck x t)).
Proof. do 3 eexists. exists 8. intros fuel H. do 8 (destruct fuel as [|fuel]; [lia|]). reflexivity. Qed.

Print Assumptions C30_unify_partial.
Print Assumptions C30_apply_partial.
Print Assumptions C30_most_general_partial.
Print Assumptions C30_agree_is_equal.
Print Assumptions C30_terminates_refuted.
Print Assumptions C30_acyclic_refuted.
Print Assumptions C30_fresh_refuted.
Print Assumptions C30_own_name_refuted.
