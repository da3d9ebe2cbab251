(** When two core expressions mean the same, as far as calling functions and naming
    intermediate results goes. *)
From Coq Require Import String List Bool Arith.
From Verif.Scope Require Import Model Spec.
From Verif.Fuse Require Spec.
Import ListNotations.

(** Putting expressions in place of the references to the scope [d] levels up, and
    removing that scope.  The expressions are moved inside the [d] scopes. *)
Fixpoint instantiate (vs : list expr) (d : nat) (e : expr) : expr :=
  match e with
  | EVar (Free _) => e
  | EVar (Bound s b n) =>
      if s =? d then match nth_error vs b with Some v => Nat.iter d succ v | None => e end
      else if d <? s then EVar (Bound (s - 1) b n)
      else e
  | ELet bs body t => ELet (map (map_b (instantiate vs (S d))) bs) (instantiate vs (S d) body) t
  | ELam inlined ps body => ELam inlined ps (instantiate vs (S d) body)
  | ENode k xs => ENode k (map (instantiate vs d) xs)
  end.

(** The smallest equivalence that is preserved by putting expressions into the same
    context and in which
    - a function applied to as many arguments as it has parameters equals its body with
      the arguments in place of the parameters;
    - a let whose definitions do not mention the names it binds equals its body with the
      definitions in place of those names. *)
Inductive same : expr -> expr -> Prop :=
| Same_call inlined ps body xs : List.length ps = List.length xs ->
    same (ENode KApp (ELam inlined ps body :: xs)) (instantiate xs 0 body)
| Same_let ns vs ds body t : List.length ns = List.length vs -> List.length ns = List.length ds ->
    same (ELet (map (fun nvd => mkBinding (fst (fst nvd)) (succ (snd (fst nvd))) (snd nvd)) (combine (combine ns vs) ds)) body t)
         (instantiate vs 0 body)
| Same_refl e : same e e
| Same_sym e f : same e f -> same f e
| Same_trans e f g : same e f -> same f g -> same e g
| Same_let_in bs bs' body body' t :
    Forall2 (fun b b' => b_name b = b_name b' /\ same (b_expr b) (b_expr b')) bs bs' -> same body body' ->
    same (ELet bs body t) (ELet bs' body' t)
| Same_lam_in inlined ps body body' : same body body' -> same (ELam inlined ps body) (ELam inlined ps body')
| Same_node_in k xs xs' : Forall2 same xs xs' -> same (ENode k xs) (ENode k xs').

(** The parameters of inlinable functions are distinct, are not also unresolved names in
    the body, and references in the body carry their names. *)
Definition well_named (e : expr) : Prop := Fuse.Spec.everywhere (fun x =>
  match x with
  | ELam true ps body => NoDup ps /\ (forall p, In p ps -> not_free p body) /\ named_after ps body
  | _ => True
  end) e.

(** The number of calls written in an expression. *)
Fixpoint calls (e : expr) : nat :=
  match e with
  | EVar _ => 0
  | ELet bs body _ => list_sum (map (fun b => calls (b_expr b)) bs) + calls body
  | ELam _ _ body => calls body
  | ENode k xs =>
      match k with
      | KLiteral _ | KIntrinsic _ => 0
      | KApp => S (list_sum (map calls xs))
      | _ => list_sum (map calls xs)
      end
  end.
