(** What looking an expression up in a block, and putting an expression under the
    declarations of a unit, should mean; in terms of the interpretations of
    [Verif.Scope.Spec]. *)
From Coq Require Import String List Bool Arith.
From Verif.Scope Require Import Model Spec.
Import ListNotations.
Local Open Scope string_scope.
Local Open Scope list_scope.

(** A declaration whose metadata is a block that says [export: :internal]. *)
Definition says_internal (e : expr) : Prop :=
  exists decl ks xs i rest,
    e = ENode KMeta [decl; ENode (KBlock ks) xs] /\
    nth_error ks i = Some "export" /\ (forall j, j < i -> nth_error ks j <> Some "export") /\
    nth_error xs i = Some (ENode (KLiteral (PSym "internal")) rest).

Section Meaning.
  Variable I : interp.

  (** Names, when those of normal identifiers are looked up in a value first and mean
      what they meant before if they are not found there. *)
  Definition looked_up (normal : string -> bool) (block : D I) (rho : string -> D I) (n : string) : D I :=
    if normal n then i_node I (KLookup n) [block; rho n] else rho n.

  (** Names under a list of declarations with values [vs]: the first public
      declaration of the name counts. *)
  Fixpoint exports (public : expr -> bool) (bs : list (binding expr)) (vs : list (D I)) (rho : string -> D I)
      (n : string) : D I :=
    match bs with
    | [] => rho n
    | b :: bs =>
        if String.eqb (b_name b) n && public (b_expr b) then hd (i_dangling I) vs
        else exports public bs (tl vs) rho n
    end.

  (** The meaning of nested lets whose innermost body is [k], a meaning that depends on
      the values of names and of the enclosing scopes. *)
  Fixpoint within (public : expr -> bool) (k : (string -> D I) -> list (list (D I)) -> D I)
      (rho : string -> D I) (env : list (list (D I))) (self : expr) : D I :=
    match self with
    | ELet bs body t =>
        i_let I t (map b_name bs)
          (fun vs => map (fun b => den I rho (vs :: env) (b_expr b)) bs)
          (fun vs => within public k (exports public bs vs rho) (vs :: env) body)
    | ENode KMeta (e :: m) => i_node I KMeta (within public k rho env e :: map (den I rho env) m)
    | _ => k rho env
    end.
End Meaning.

(** A name declared internal by some of the nested lets. *)
Inductive declares_internal (n : string) : expr -> Prop :=
| DI_here bs body t b : In b bs -> b_name b = n -> says_internal (b_expr b) -> declares_internal n (ELet bs body t)
| DI_body bs body t : declares_internal n body -> declares_internal n (ELet bs body t)
| DI_meta e m : declares_internal n e -> declares_internal n (ENode KMeta (e :: m)).

(** Whether an expression is the end of the nested lets. *)
Definition spine_end (e : expr) : Prop :=
  match e with ELet _ _ _ => False | ENode KMeta (_ :: _) => False | _ => True end.
