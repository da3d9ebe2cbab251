(** Removing eliminated bindings: the properties (C08). *)
From Coq Require Import List Bool Arith String Lia.
From Verif.Scope Require Import Model Spec.
From Verif.Simplify Require Import Compress CompressSpec CompressProofs.
Import ListNotations.
Open Scope string_scope.

(** ** An interpretation that drops unused bindings: expand every let [N] times. *)
Inductive tree := TNode (k : kind) (xs : list tree) | TLam (ps : list string) (body : tree) | TParam (p : string)
  | TName (n : string) | TCut | TDangling.
Fixpoint iter {A} (n : nat) (f : A -> A) (x : A) : A := match n with 0 => x | S n => f (iter n f x) end.
Definition unfolding (N : nat) : interp.
Proof.
  refine (mkInterp tree TNode (fun _ ps f => TLam ps (f (map TParam ps)))
    (fun _ names F B => B (iter N F (repeat TCut (List.length names)))) TDangling _ _).
  - intros _ ps f g H. rewrite H. reflexivity.
  - intros _ ns f g b c H1 H2. rewrite H2. f_equal. induction N as [|N IH]; cbn; auto. rewrite IH. apply H1.
Defined.
Lemma sel_repeat {A B} (x : A) : forall (m : list bool) (l : list B), List.length m = List.length l ->
  sel m (repeat x (List.length l)) = repeat x (List.length (sel m l)).
Proof. induction m as [|[] m IH]; intros [|y l] L; cbn in *; try discriminate; auto. f_equal. auto. Qed.
Lemma unfolding_drops N : drops_unused (unfolding N).
Proof.
  split.
  - intros t names mask F B F' B' L HF HB. cbn. rewrite <- HB. f_equal.
    rewrite <- (sel_repeat TCut mask names L). clear HB. change (D (unfolding N)) with tree in *. generalize N. clear N. intros N. induction N as [|N IH]; cbn; auto. rewrite <- HF. f_equal. exact IH.
  - intros t F B H. cbn. f_equal. destruct N; cbn; auto.
Qed.

(** Compression keeps the meaning of every expression it accepts. *)
Theorem C08_meaning : forall I rho e e', drops_unused I -> compress e = Done e' -> den I rho [] e = den I rho [] e'.
Proof.
  intros I rho e e' L H. apply (compress_den I L rho e [] e' H). intros [|s] m E; discriminate.
Qed.
(** It accepts exactly the expressions in which no surviving part refers to an eliminated
    or missing binding; everything else is reported or, for references beyond the
    outermost scope only, panics. *)
Theorem C08_accepts : forall e, (exists e', compress e = Done e') <-> refs_live [] e.
Proof. intros e. exact (compress_success e []). Qed.
Theorem C08_no_panic : forall e, closed_under 0 e -> compress e <> Panic.
Proof. intros e A H. exact (compress_panic e [] H 0 0 eq_refl A). Qed.
(** The result passes verification if the input did: every reference is in range and
    carries the name of the binder it refers to. *)
Theorem C08_verified : forall e e', verify e = true -> compress e = Done e' -> verify e' = true.
Proof. intros e e' V H. apply (compress_verify e [] e' H [] []); auto. intros [|s] m E; discriminate. Qed.
(** Lets that lost all bindings are gone. *)
Theorem C08_no_empty_lets : forall e e', compress e = Done e' -> no_empty_let e'.
Proof. intros e e' H. exact (compress_no_empty e [] e' H). Qed.
(** When there is nothing to remove nothing changes. *)
Theorem C08_unchanged : forall e, nothing_eliminated e -> no_empty_let e -> refs_live [] e -> compress e = Done e.
Proof. intros e N E R. apply (compress_id e N E []); auto. Qed.

(** Examples: the case of the unit test with an outer reference added to the inner let
    and an inner let that disappears. *)
Definition elim := ENode KErrEliminated [].
Definition lit (n : string) := ENode (KLiteral (PSym n)) [].
Definition bd (n : string) (e : expr) := mkBinding n e default_demand.
Definition c08_in := ELet
  [bd "b" elim;
   bd "a" (ELet [bd "d" elim; bd "e" (lit "two")] (ENode KApp [EVar (Bound 0 1 (Some "e")); EVar (Bound 1 2 (Some "c"))]) OtherLet);
   bd "c" (ELet [bd "f" elim] (ELam false ["x"] (ENode KApp [EVar (Bound 0 0 (Some "x")); EVar (Bound 2 1 (Some "a"))])) OtherLet)]
  (EVar (Bound 0 1 (Some "a"))) OtherLet.
Definition c08_out := ELet
  [bd "a" (ELet [bd "e" (lit "two")] (ENode KApp [EVar (Bound 0 0 (Some "e")); EVar (Bound 1 1 (Some "c"))]) OtherLet);
   bd "c" (ELam false ["x"] (ENode KApp [EVar (Bound 0 0 (Some "x")); EVar (Bound 1 0 (Some "a"))]))]
  (EVar (Bound 0 0 (Some "a"))) OtherLet.
Example C08_example : compress c08_in = Done c08_out /\ verify c08_in = true /\ closed_under 0 c08_in /\
  drops_unused (unfolding 3) /\ den (unfolding 3) TName [] c08_in = den (unfolding 3) TName [] c08_out /\
  den (unfolding 3) TName [] c08_in <> den (unfolding 2) TName [] c08_in.
Proof.
  split; [reflexivity|]. split; [reflexivity|]. split; [cbn; intuition lia|]. split; [apply unfolding_drops|].
  split; [reflexivity|]. cbn. discriminate.
Qed.
Example C08_example_unchanged : nothing_eliminated c08_out /\ no_empty_let c08_out /\ refs_live [] c08_out /\ compress c08_out = Done c08_out.
Proof.
  assert (R : refs_live [] c08_out) by (apply C08_accepts; eexists; reflexivity).
  cbn in *. intuition (try discriminate; auto).
Qed.
Example C08_example_error : compress (ELet [bd "a" elim] (EVar (Bound 0 0 (Some "a"))) OtherLet) = Error /\
  compress (EVar (Bound 0 0 None)) = Panic.
Proof. split; reflexivity. Qed.

Print Assumptions C08_meaning.
Print Assumptions C08_accepts.
Print Assumptions C08_no_panic.
Print Assumptions C08_verified.
Print Assumptions C08_no_empty_lets.
Print Assumptions C08_unchanged.
