(** Inlining (C40): the properties. *)
From Coq Require Import String List Bool Arith Lia.
From Verif.Scope Require Import Model Spec Proofs.
From Verif.Letrec Require Import Proofs.
From Verif.Fuse Require Import Model Spec Proofs.
From Verif.Inline Require Import Model Spec Proofs Proofs2.
Import ListNotations.
Local Open Scope string_scope.
Local Open Scope list_scope.
Local Open Scope nat_scope.

(** ** Applying inlinable functions *)

(** Applying never fails and gives an expression that means the same. *)
Theorem C40_apply_meaning : forall e, well_named e -> exists r, beta_reduce e = Some r /\ same e r.
Proof. intros e W. apply beta_ok, W. Qed.
(** No call is duplicated: there are no more calls afterwards than before. *)
Theorem C40_apply_calls : forall e r, beta_reduce e = Some r -> calls r <= calls e.
Proof. intros e r E. apply (beta_more e r E). Qed.
(** The result passes verification in every context the expression did and has no
    unresolved names the expression did not have. *)
Theorem C40_apply_verified : forall e r scopes, beta_reduce e = Some r -> verify_in scopes e = true ->
  verify_in scopes r = true /\ (forall n, not_free n e -> not_free n r).
Proof.
  intros e r scopes E V. destruct (beta_more e r E) as (_ & K1 & K2). split; auto.
  intros n H. apply (not_free_iff n r 0). intros K. apply (K2 scopes n V) in K. apply (not_free_iff n e 0) in K; auto.
Qed.

(** ** Tagging *)

(** Tagging changes nothing but tags. *)
Fixpoint untag (e : expr) : expr :=
  match e with
  | EVar _ => e
  | ELet bs body t => ELet (map (map_b untag) bs) (untag body) t
  | ELam _ ps body => ELam false ps (untag body)
  | ENode k xs => ENode k (map untag xs)
  end.
Theorem C40_tag_only : forall e, untag (tag_combinators e) = untag e.
Proof.
  intros e. unfold tag_combinators. generalize (@None string). induction e as [v|bs body t IHbs IHb|i ps body IHb|k xs IHxs] using expr_ind'; intros sn; auto.
  - cbn. rewrite IHb, map_map. f_equal. apply map_ext_forall. eapply Forall_impl; [|exact IHbs]. cbn. intros b H. unfold map_b. cbn. rewrite H. reflexivity.
  - cbn. destruct i; cbn; [rewrite IHb; reflexivity|]. destruct (closed_body body || destructuring ps body); [reflexivity|].
    destruct (match sn with Some n => recursive_combinator n body | None => false end); cbn; rewrite IHb; reflexivity.
  - assert (H : forall f : expr -> option string, map untag (map (fun x => tag_named (f x) x) xs) = map untag xs).
    { intros f. rewrite map_map. apply map_ext_forall. eapply Forall_impl; [|exact IHxs]. cbn. auto. }
    specialize (H (fun _ => None)). destruct k; try (cbn [tag_named untag]; f_equal; exact H).
    destruct xs as [|x xs]; [reflexivity|]. cbn [tag_named untag map] in *. f_equal. inversion IHxs as [|? ? H1 H2]; subst. rewrite H1. f_equal. injection H. auto.
Qed.

(** ** Distributing inlinable functions to their call sites *)
Definition lit (s : string) := ENode (KLiteral (PStr s)) [].
Definition bd (n : string) (e : expr) := mkBinding n e default_demand.
Definition call (f : string) (xs : list expr) := ENode KApp (ENode (KIntrinsic f) [] :: xs).

(** Distributing a function that refers to an enclosing scope to a place inside another
    binder makes the reference point at that binder: a well-formed expression, tagged by
    the tagging pass, is turned into one in which a reference goes astray. *)
Definition c40_outer := ELam false ["k"]
  (ELet [bd "f" (ELam false ["p"] (ELet [bd "h" (call "HEAD" [EVar (Bound 1 0 (Some "p"))])]
                                     (call "ADD" [EVar (Bound 0 0 (Some "h")); EVar (Bound 3 0 (Some "k"))]) DestructureListLet))]
     (ELam false ["y"] (ENode KApp [EVar (Bound 1 0 (Some "f")); EVar (Bound 0 0 (Some "y"))])) OtherLet).
Theorem C40_distribute_refuted : exists e r, verify e = true /\ inline_pass 20 (tag_combinators e) = Some r /\ verify r = false.
Proof. exists c40_outer. eexists. split; [reflexivity|]. split; vm_compute; reflexivity. Qed.

(** Distributing drops the metadata of a function: an interpretation in which metadata can
    be asked for. *)
Inductive value := V (k : kind) (vs : list value).
Definition read_node (k : kind) (vs : list value) : value :=
  match k, vs with
  | KApp, [V (KIntrinsic name) []; V KMeta [_; m]] => if String.eqb name "META" then m else V k vs
  | _, _ => V k vs
  end.
Definition reading (N : nat) : interp.
Proof.
  refine (mkInterp value read_node
    (fun _ ps f => V KArgTuple [f (map (fun p => V (KName p) []) ps)])
    (fun _ names F B => B (Nat.iter N F (map (fun n => V (KErrUnresolved n) []) names))) (V KErrEliminated []) _ _).
  - intros _ ps f g H. rewrite H. reflexivity.
  - intros _ ns f g b c H1 H2. rewrite H2. f_equal. unfold Nat.iter. induction N as [|N IH]; cbn; auto. rewrite IH, H1. reflexivity.
Defined.
Definition c40_meta := ELet [bd "id" (ENode KMeta [ELam false ["x"] (EVar (Bound 0 0 (Some "x"))); ENode (KBlock ["doc"]) [lit "identity"]])]
  (call "META" [EVar (Bound 0 0 (Some "id"))]) OtherLet.
Theorem C40_metadata_refuted : exists e r, verify e = true /\ inline_pass 20 (tag_combinators e) = Some r /\
  forall N rho, 0 < N -> den (reading N) rho [] e = V (KBlock ["doc"]) [V (KLiteral (PStr "identity")) []] /\
    den (reading N) rho [] r = V KApp [V (KIntrinsic "META") []; V KArgTuple [V (KName "x") []]].
Proof.
  exists c40_meta. eexists. split; [reflexivity|]. split; [vm_compute; reflexivity|]. intros [|N] rho H; [lia|]. split; reflexivity.
Qed.

(** ** Examples *)

(** An argument used twice is shared, one used once is copied under a binder, a variable
    is copied. *)
Definition c40_fun := ELam true ["a"; "b"; "c"]
  (call "ADD" [EVar (Bound 0 0 (Some "a")); call "ADD" [EVar (Bound 0 0 (Some "a"));
     ELam false ["z"] (ENode KList [EVar (Bound 0 0 (Some "z")); EVar (Bound 1 1 (Some "b")); EVar (Bound 1 2 (Some "c")); EVar (Bound 1 2 (Some "c"))])]]).
Definition c40_in := ELam false ["y"] (ENode KApp
  [c40_fun; call "MUL" [EVar (Bound 0 0 (Some "y")); EVar (Free "__shared_a")]; call "NEG" [EVar (Bound 0 0 (Some "y"))]; EVar (Bound 0 0 (Some "y"))]).
Definition c40_out := ELam false ["y"] (ELet
  [bd "__shared1_a" (call "MUL" [EVar (Bound 1 0 (Some "y")); EVar (Free "__shared_a")])]
  (call "ADD" [EVar (Bound 0 0 (Some "__shared1_a")); call "ADD" [EVar (Bound 0 0 (Some "__shared1_a"));
     ELam false ["z"] (ENode KList [EVar (Bound 0 0 (Some "z")); call "NEG" [EVar (Bound 2 0 (Some "y"))]; EVar (Bound 2 0 (Some "y")); EVar (Bound 2 0 (Some "y"))])]]) OtherLet).
Example C40_example : verify c40_in = true /\ well_named c40_in /\ beta_reduce c40_in = Some c40_out /\ calls c40_out = 4 /\ calls c40_in = 5.
Proof.
  split; [reflexivity|]. split; [|repeat split; reflexivity].
  unfold well_named, c40_in, c40_fun, call. cbn. repeat match goal with |- _ /\ _ => split | |- True => exact I end.
  - repeat (constructor; cbn; try (intros K; repeat destruct K as [K|K]; discriminate || contradiction)).
  - intros p Hp. unfold not_free. cbn. repeat split.
  - intros K. eexists. split; reflexivity.
  - intros K. eexists. split; reflexivity.
  - intros K. discriminate K.
  - intros K. eexists. split; reflexivity.
  - intros K. eexists. split; reflexivity.
  - intros K. eexists. split; reflexivity.
Qed.

Print Assumptions C40_apply_meaning.
Print Assumptions C40_apply_calls.
Print Assumptions C40_apply_verified.
Print Assumptions C40_tag_only.
Print Assumptions C40_distribute_refuted.
Print Assumptions C40_metadata_refuted.
