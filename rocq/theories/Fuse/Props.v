(** Folding lookups into literal blocks and heads and tails of literal lists (C11): the
    properties. *)
From Coq Require Import String List Bool Arith Lia.
From Verif.Scope Require Import Model Spec Proofs.
From Verif.Fuse Require Import Model Spec Proofs.
From Verif.Letrec Require Import Proofs.
Import ListNotations.
Local Open Scope string_scope.
Local Open Scope list_scope.

Lemma fuse_good e r : fuse e = Some r -> good e r.
Proof. intros E. destruct (fuse_ok (S (size e)) e) as (r' & E' & G); [lia|]. unfold fuse in E. replace r with r' by congruence. exact G. Qed.

(** Folding ends, always with a result. *)
Theorem C11_total : forall e, exists r, fuse e = Some r.
Proof. intros e. destruct (fuse_ok (S (size e)) e) as (r & E & _); [lia|]. eauto. Qed.
(** It does not change what the expression means, in any context. *)
Theorem C11_meaning : forall I e r rho env, lawful I -> shaped e -> fuse e = Some r -> den I rho env r = den I rho env e.
Proof. intros I e r rho env L S E. apply (g_den _ _ (fuse_good e r E)); auto. Qed.
(** Afterwards there is nothing left to fold; folding again changes nothing. *)
Theorem C11_complete : forall e r, shaped e -> fuse e = Some r -> nothing_to_fold r.
Proof. intros e r S E. pose proof (fuse_good e r E) as G. apply normal_iff; [apply (g_shaped _ _ G), S|apply (g_normal _ _ G)]. Qed.
Theorem C11_idempotent : forall e r, fuse e = Some r -> fuse r = Some r.
Proof. intros e r E. apply fuse_normal; [lia|]. apply (g_normal _ _ (fuse_good e r E)). Qed.
(** An expression with nothing to fold is not changed. *)
Theorem C11_unchanged : forall e, shaped e -> nothing_to_fold e -> fuse e = Some e.
Proof. intros e S N. apply fuse_normal; [lia|]. apply normal_iff; auto. Qed.
(** The result passes verification in every context the expression did, has no unresolved
    names the expression did not have, and is no larger. *)
Theorem C11_verified : forall e r, fuse e = Some r ->
  (forall scopes, verify_in scopes e = true -> verify_in scopes r = true) /\
  (forall n, not_free n e -> not_free n r) /\ (shaped e -> shaped r) /\ size r <= size e.
Proof.
  intros e r E. pose proof (fuse_good e r E) as G. split; [apply (g_verify _ _ G)|]. split; [|split; [apply (g_shaped _ _ G)|apply (g_size _ _ G)]].
  intros n H. apply (not_free_iff n r 0). intros K. apply (g_free _ _ G) in K. apply (not_free_iff n e 0) in K; auto.
Qed.

(** ** An interpretation to which the theorems apply: values are trees, lookups, heads and
    tails are carried out, a let is unfolded [N] times. *)
Inductive value := V (k : kind) (vs : list value).
Definition apply_node (k : kind) (vs : list value) : value :=
  match k, vs with
  | KLookup key, V (KBlock keys) ws :: fallback =>
      match position keys key, fallback with
      | Some i, _ => nth i ws (V KErrEliminated [])
      | None, [d] => d
      | None, _ => V k vs
      end
  | KApp, [V (KIntrinsic name) []; V KList (w :: ws)] =>
      if String.eqb name "HEAD" then w else if String.eqb name "TAIL" then V KList ws else V k vs
  | _, _ => V k vs
  end.
Definition structures (N : nat) : interp.
Proof.
  refine (mkInterp value apply_node
    (fun _ ps f => V KArgTuple [f (map (fun p => V (KName p) []) ps)])
    (fun _ names F B => B (Nat.iter N F (map (fun n => V (KErrUnresolved n) []) names))) (V KErrEliminated []) _ _).
  - intros _ ps f g H. rewrite H. reflexivity.
  - intros _ ns f g b c H1 H2. rewrite H2. f_equal. unfold Nat.iter. induction N as [|N IH]; cbn; auto. rewrite IH, H1. reflexivity.
Defined.
Lemma structures_lawful N : lawful (structures N).
Proof.
  constructor; try reflexivity; cbn.
  - intros before key after vs v ws fallback Hn L.
    assert (E : position (before ++ key :: after) key = Some (List.length before)).
    { clear -Hn. induction before as [|x before IH]; cbn; [rewrite String.eqb_refl; reflexivity|].
      destruct (String.eqb_spec x key) as [->|_]; [exfalso; apply Hn; left; reflexivity|]. rewrite IH; [reflexivity|]. intros K. apply Hn. right. exact K. }
    rewrite E, app_nth2 by lia. rewrite L, Nat.sub_diag. reflexivity.
  - intros keys key vs d Hn. apply position_none in Hn. rewrite Hn. reflexivity.
Qed.
Example C11_applies : forall N e r rho env, shaped e -> fuse e = Some r -> den (structures N) rho env r = den (structures N) rho env e.
Proof. intros. apply C11_meaning; auto. apply structures_lawful. Qed.

(** An example: nested folding, under binders, with a fallback, and folding what folding
    produces. *)
Definition lit (s : string) := ENode (KLiteral (PStr s)) [].
Definition call1 (f : string) (x : expr) := ENode KApp [ENode (KIntrinsic f) []; x].
Definition block2 := ENode (KBlock ["a"; "b"]) [ENode KList [lit "x"; EVar (Bound 0 0 (Some "p")); lit "z"]; EVar (Free "q")].
Definition c11_in := ELam false ["p"] (ENode KList
  [call1 "HEAD" (call1 "TAIL" (ENode (KLookup "a") [block2]));
   ENode (KLookup "c") [block2; ENode (KLookup "b") [block2]];
   ENode (KLookup "c") [block2];
   call1 "HEAD" (ENode KList [])]).
Definition c11_out := ELam false ["p"] (ENode KList
  [EVar (Bound 0 0 (Some "p")); EVar (Free "q"); ENode (KLookup "c") [block2]; call1 "HEAD" (ENode KList [])]).
Example C11_example : verify c11_in = true /\ shaped c11_in /\ fuse c11_in = Some c11_out.
Proof.
  split; [reflexivity|]. split; [|reflexivity]. unfold shaped, c11_in, call1, block2, lit. cbn. repeat split; auto; repeat (constructor; cbn; try (intros K; repeat destruct K as [K|K]; discriminate || contradiction)).
Qed.

Print Assumptions C11_total.
Print Assumptions C11_meaning.
Print Assumptions C11_complete.
Print Assumptions C11_idempotent.
Print Assumptions C11_unchanged.
Print Assumptions C11_verified.
