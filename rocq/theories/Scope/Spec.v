(** What core expressions mean, for the purpose of stating that an operation on scopes
    keeps every reference pointing at the same thing.

    A meaning is any compositional interpretation: every kind of node is interpreted by
    some function of its children's values, a lambda by some functional of the map from
    parameter values to body value, a let by some functional of the two maps from the
    values of its bindings to the values of their definitions and of the body.  The
    theorems hold for every interpretation. *)
From Coq Require Import List Bool Arith String.
From Verif.Scope Require Import Model.
Import ListNotations.

Record interp := mkInterp {
  D : Type;
  i_node : kind -> list D -> D;
  i_lam : bool -> list string -> (list D -> D) -> D;
  i_let : lettype -> list string -> (list D -> list D) -> (list D -> D) -> D;
  (** a reference beyond all scopes, or beyond the end of one *)
  i_dangling : D;
  (** interpretations only see the values of the maps they are given *)
  i_lam_ext : forall inlined ps f g, (forall vs, f vs = g vs) -> i_lam inlined ps f = i_lam inlined ps g;
  i_let_ext : forall t ns f g b c, (forall vs, f vs = g vs) -> (forall vs, b vs = c vs) ->
    i_let t ns f b = i_let t ns g c }.

Section Den.
  Variable I : interp.
  (** The value a bound reference has when [env] lists the values of the enclosing
      scopes' binders, innermost scope first. *)
  Definition lookup (env : list (list (D I))) (s b : nat) : D I :=
    match nth_error env s with
    | Some vs => nth b vs (i_dangling I)
    | None => i_dangling I
    end.

  (** The value of an expression, given the values of free names and of the enclosing
      scopes' binders. *)
  Fixpoint den (rho : string -> D I) (env : list (list (D I))) (e : expr) : D I :=
    match e with
    | EVar (Free n) => rho n
    | EVar (Bound s b _) => lookup env s b
    | ELet bs body t =>
        i_let I t (map b_name bs)
          (fun vs => map (fun b => den rho (vs :: env) (b_expr b)) bs)
          (fun vs => den rho (vs :: env) body)
    | ELam inlined ps body => i_lam I inlined ps (fun vs => den rho (vs :: env) body)
    | ENode k xs => i_node I k (map (den rho env) xs)
    end.
End Den.

(** [refers e P]: every reference in [e], at [d] scopes below the root, satisfies [P d]. *)
Fixpoint every_ref (P : nat -> var -> Prop) (d : nat) (e : expr) : Prop :=
  match e with
  | EVar v => P d v
  | ELet bs body _ =>
      fold_right (fun b acc => every_ref P (S d) (b_expr b) /\ acc) True bs /\ every_ref P (S d) body
  | ELam _ _ body => every_ref P (S d) body
  | ENode _ xs => fold_right (fun x acc => every_ref P d x /\ acc) True xs
  end.

(** All bound references stay within [n] enclosing scopes. *)
Definition closed_under (n : nat) (e : expr) : Prop :=
  every_ref (fun d v => match v with Bound s _ _ => s < d + n | Free _ => True end) 0 e.
(** No reference to the innermost enclosing scope. *)
Definition avoids_scope (e : expr) : Prop :=
  every_ref (fun d v => match v with Bound s _ _ => s <> d | Free _ => True end) 0 e.
(** No free occurrence of a name. *)
Definition not_free (n : string) (e : expr) : Prop :=
  every_ref (fun _ v => match v with Free m => m <> n | Bound _ _ _ => True end) 0 e.
(** References to the innermost enclosing scope are in range and carry the binder's
    name: the invariant the verifier (src/core/verify/binding.rs) checks. *)
Definition named_after (names : list string) (e : expr) : Prop :=
  every_ref (fun d v => match v with
    | Bound s b n => s = d -> exists x, nth_error names b = Some x /\ n = Some x
    | Free _ => True end) 0 e.

(** Values of names, after binding [names] to [vs]: the first occurrence of a name
    counts. *)
Fixpoint bind_names {A} (dangling : A) (names : list string) (vs : list A) (rho : string -> A) (n : string) : A :=
  match names with
  | [] => rho n
  | x :: xs => if String.eqb x n then hd dangling vs else bind_names dangling xs (tl vs) rho n
  end.
