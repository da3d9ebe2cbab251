(** Theorems about scopes of core expressions. *)
From Coq Require Import List Bool Arith String Lia.
From Verif.Scope Require Import Model Spec Proofs.
Import ListNotations.

(** ** C05: closing and opening scopes *)

(** Opening a scope that was just closed gives back what was closed. *)
Theorem C05_open_close : forall bindings body,
  let '(bs, b) := close_let_scope bindings body in open_let_scope_full bs b = (bindings, body).
Proof.
  intros bindings body. unfold close_let_scope, open_let_scope_full. rewrite !map_map. cbn [b_name b_expr]. f_equal.
  - apply map_id_forall. apply Forall_forall. intros [n e] _. cbn [fst snd]. rewrite open_close. reflexivity.
  - apply open_close.
Qed.
Print Assumptions C05_open_close.

Theorem C05_open_close_lam : forall params body,
  let '(ps, b) := close_lam_scope params body in open_lam_scope ps b = body.
Proof. intros. apply open_close. Qed.
Print Assumptions C05_open_close_lam.

(** Closing a scope that was just opened gives back the scope, when its names are
    distinct and none of them also occurs free in it. *)
Theorem C05_close_open : forall names e, NoDup names -> named_after names e ->
  (forall n, In n names -> not_free n e) -> close_expr_vars names 0 (open_expr_vars names 0 e) = e.
Proof.
  intros names e ND HN HF. apply close_open; auto.
  eapply every_ref_impl; [|exact (every_ref_and _ _ _ _ HN (every_ref_forall (fun n d v => match v with Free m => m <> n | Bound _ _ _ => True end) names e 0 HF))].
  cbn. intros d [m|s b m] [H1 H2]; auto. intros Hm. exact (H2 m Hm eq_refl).
Qed.
Print Assumptions C05_close_open.

(** Binding names: under any interpretation, the closed expression inside a scope of
    values [vs] has the value the expression had when the names had those values and
    every other name and every outer scope is as before. *)
Theorem C05_close_meaning : forall (I : interp) names e rho env vs,
  den I rho (vs :: env) (close_expr_vars names 0 e) =
  den I (bind_names (i_dangling I) names vs rho) env e.
Proof. intros. apply (close_den I names vs e rho [] env). Qed.
Print Assumptions C05_close_meaning.

(** Opening: references to the scope become the names, all others are unchanged. *)
Theorem C05_open_meaning : forall (I : interp) names e rho env, named_after names e ->
  den I rho env (open_expr_vars names 0 e) = den I rho (map rho names :: env) e.
Proof.
  intros I names e rho env H. apply (open_den I names e rho [] env). cbn [List.length].
  eapply every_ref_impl; [|exact H]. intros d [m|s b m]; auto. intros K Es. destruct (K Es) as (x & E & _).
  apply nth_error_Some. congruence.
Qed.
Print Assumptions C05_open_meaning.

(** Binding free names in the body of an existing scope changes only those names. *)
Theorem C05_bind_free_meaning : forall (I : interp) names e rho env vs,
  den I rho (vs :: env) (bind_free_vars names 0 e) =
  den I (bind_names (i_dangling I) names vs rho) (vs :: env) e.
Proof. intros. apply (bind_free_den I names vs e rho [] env). Qed.
Print Assumptions C05_bind_free_meaning.

(** Substitution for names, by expressions without references to outside scopes. *)
Theorem C05_substitution_meaning : forall (I : interp) sub e rho env,
  (forall n r, sub n = Some r -> closed_under 0 r) ->
  den I rho env (substs_free sub e) =
  den I (fun n => match sub n with Some r => den I rho [] r | None => rho n end) env e.
Proof. intros. apply (substs_den I sub e rho [] env); auto. Qed.
Print Assumptions C05_substitution_meaning.

(** The binding verifier accepts only expressions whose references all resolve, and
    closing or opening scopes does not upset it. *)
Theorem C05_verify_sound : forall e, verify e = true -> closed_under 0 e.
Proof. intros e H. apply (verify_closed [] e H 0 0). reflexivity. Qed.
Print Assumptions C05_verify_sound.

Theorem C05_verify_close : forall scopes bindings body t,
  Forall (fun b => verify_in scopes (snd b) = true) bindings -> verify_in scopes body = true ->
  let '(bs, b) := close_let_scope bindings body in verify_in scopes (ELet bs b t) = true.
Proof.
  intros scopes bindings body t H1 H2. cbn [close_let_scope verify_in]. rewrite map_map. cbn [b_name].
  apply andb_true_intro. split.
  - apply forallb_forall. intros b Hb. apply in_map_iff in Hb. destruct Hb as ([n e] & <- & Hb). cbn [b_expr].
    rewrite Forall_forall in H1. apply (verify_close (map fst bindings) e []). apply (H1 _ Hb).
  - apply (verify_close (map fst bindings) body []). auto.
Qed.
Print Assumptions C05_verify_close.

Theorem C05_verify_open : forall scopes bs body t, verify_in scopes (ELet bs body t) = true ->
  let '(bindings, b) := open_let_scope_full bs body in
  Forall (fun b => verify_in scopes (snd b) = true) bindings /\ verify_in scopes b = true.
Proof.
  intros scopes bs body t H. cbn [verify_in] in H. apply andb_prop in H. destruct H as [H1 H2].
  cbn [open_let_scope_full]. split.
  - apply Forall_map. apply Forall_forall. intros b Hb. cbn [snd]. rewrite forallb_forall in H1.
    apply (verify_open _ _ [] scopes). apply (H1 b Hb).
  - apply (verify_open _ _ [] scopes). auto.
Qed.
Print Assumptions C05_verify_open.

(** A let over two names, one shadowed inside a lambda, in an outer scope. *)
Local Open Scope string_scope.
Example C05_example :
  let body := ENode KApp [EVar (Free "f"); EVar (Free "x"); EVar (Bound 0 3 (Some "z"));
                          ELam false ["x"] (ENode KList [EVar (Bound 0 0 (Some "x")); EVar (Free "x"); EVar (Bound 1 3 (Some "z"))])] in
  close_let_scope [("x", EVar (Free "f")); ("f", EVar (Free "y"))] body =
  ([mkBinding "x" (EVar (Bound 0 1 (Some "f"))) default_demand; mkBinding "f" (EVar (Free "y")) default_demand],
   ENode KApp [EVar (Bound 0 1 (Some "f")); EVar (Bound 0 0 (Some "x")); EVar (Bound 1 3 (Some "z"));
               ELam false ["x"] (ENode KList [EVar (Bound 0 0 (Some "x")); EVar (Bound 1 0 (Some "x")); EVar (Bound 2 3 (Some "z"))])]).
Proof. reflexivity. Qed.
(** The condition of [C05_close_open] is met by it. *)
Example C05_example_condition :
  let '(_, b) := close_let_scope [("x", EVar (Free "f")); ("f", EVar (Free "y"))]
    (ENode KApp [EVar (Free "f"); ELam false ["x"] (EVar (Free "x"))]) in
  named_after ["x"; "f"] b /\ (forall n, In n ["x"; "f"] -> not_free n b).
Proof.
  cbn. split.
  - unfold named_after. cbn. repeat split; auto.
    + intros _. exists "f". auto.
    + intros _. exists "x". auto.
  - intros n _. unfold not_free. cbn. auto.
Qed.

(** ** C06: shifting references *)

(** Pushing an expression under one more scope and taking it out again is the identity. *)
Theorem C06_pred_succ : forall e, pred (succ e) = Some e.
Proof. intros e. apply pred_succ. Qed.
Print Assumptions C06_pred_succ.

(** Taking an expression out of a scope it does not refer to succeeds, and putting it
    back is the identity. *)
Theorem C06_succ_pred : forall e, avoids_scope e -> exists e', pred e = Some e' /\ succ e' = e.
Proof. intros e H. apply succ_pred, H. Qed.
Print Assumptions C06_succ_pred.

(** Neither changes what any reference denotes. *)
Theorem C06_succ_meaning : forall (I : interp) e rho env vs,
  den I rho (vs :: env) (succ e) = den I rho env e.
Proof. intros. apply (succ_den I vs e rho [] env). Qed.
Print Assumptions C06_succ_meaning.

Theorem C06_pred_meaning : forall (I : interp) e e' rho env vs, avoids_scope e -> pred e = Some e' ->
  den I rho env e' = den I rho (vs :: env) e.
Proof.
  intros I e e' rho env vs H E. destruct (C06_succ_pred e H) as (e2 & E2 & <-). rewrite E in E2. injection E2 as <-.
  symmetry. apply C06_succ_meaning.
Qed.
Print Assumptions C06_pred_meaning.

(** Closedness moves by one, and the shifted expression does not refer to the new scope. *)
Theorem C06_succ_closed : forall e n, closed_under n e -> closed_under (S n) (succ e) /\ avoids_scope (succ e).
Proof.
  intros e n H. split; (eapply succ_refs; [..|exact H]); cbn; auto; intros d s b x L; destruct (Nat.leb_spec d s); lia.
Qed.
Print Assumptions C06_succ_closed.

Example C06_example :
  succ (ELam false ["x"] (ENode KList [EVar (Bound 0 0 (Some "x")); EVar (Bound 1 2 (Some "y"))])) =
  ELam false ["x"] (ENode KList [EVar (Bound 0 0 (Some "x")); EVar (Bound 2 2 (Some "y"))]).
Proof. reflexivity. Qed.
