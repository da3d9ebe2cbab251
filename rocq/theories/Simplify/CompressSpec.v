(** What removing eliminated bindings should achieve. *)
From Coq Require Import List Bool Arith String.
From Verif.Scope Require Import Model Spec.
From Verif.Simplify Require Import Compress.
Import ListNotations.

(** The elements of a list at the positions marked true. *)
Fixpoint sel {A} (mask : list bool) (l : list A) : list A :=
  match mask, l with
  | true :: m, x :: xs => x :: sel m xs
  | false :: m, _ :: xs => sel m xs
  | _, _ => []
  end.

(** Interpretations for which bindings that are not used make no difference: when the
    kept definitions and the body depend on the kept values only, the let means what it
    means without the other bindings; and a let of nothing means its body. *)
Record drops_unused (I : interp) : Prop := {
  drop_unused : forall t names mask F B F' B', List.length mask = List.length names ->
    (forall vs, F' (sel mask vs) = sel mask (F vs)) -> (forall vs, B' (sel mask vs) = B vs) ->
    i_let I t names F B = i_let I t (sel mask names) F' B';
  drop_let : forall t F B, (forall vs, F vs = []) -> i_let I t [] F B = B [] }.

(** Which bindings of a let are kept. *)
Definition kept (bs : list (binding expr)) : list bool := map (fun b => negb (is_eliminated (b_expr b))) bs.

(** Every reference outside eliminated bindings is to a binder that exists and is kept;
    [scopes] lists the enclosing scopes' binders, innermost first, and says of each
    whether it is kept. *)
Fixpoint refs_live (scopes : list (list bool)) (e : expr) : Prop :=
  match e with
  | EVar (Free _) => True
  | EVar (Bound s b _) => exists m, nth_error scopes s = Some m /\ nth_error m b = Some true
  | ELet bs body _ =>
      (fix all (l : list (binding expr)) := match l with
        | [] => True
        | b :: l => (is_eliminated (b_expr b) = false -> refs_live (kept bs :: scopes) (b_expr b)) /\ all l
        end) bs /\
      refs_live (kept bs :: scopes) body
  | ELam _ ps body => refs_live (repeat true (List.length ps) :: scopes) body
  | ENode _ xs => (fix all (l : list expr) := match l with [] => True | x :: l => refs_live scopes x /\ all l end) xs
  end.

(** No let binds nothing. *)
Fixpoint no_empty_let (e : expr) : Prop :=
  match e with
  | EVar _ => True
  | ELet bs body _ => bs <> [] /\
      (fix all (l : list (binding expr)) := match l with [] => True | b :: l => no_empty_let (b_expr b) /\ all l end) bs /\
      no_empty_let body
  | ELam _ _ body => no_empty_let body
  | ENode _ xs => (fix all (l : list expr) := match l with [] => True | x :: l => no_empty_let x /\ all l end) xs
  end.
(** No let has an eliminated binding. *)
Fixpoint nothing_eliminated (e : expr) : Prop :=
  match e with
  | EVar _ => True
  | ELet bs body _ =>
      (fix all (l : list (binding expr)) := match l with
        | [] => True
        | b :: l => (is_eliminated (b_expr b) = false /\ nothing_eliminated (b_expr b)) /\ all l
        end) bs /\
      nothing_eliminated body
  | ELam _ _ body => nothing_eliminated body
  | ENode _ xs => (fix all (l : list expr) := match l with [] => True | x :: l => nothing_eliminated x /\ all l end) xs
  end.
