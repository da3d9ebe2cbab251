(** Core expressions and the operations on their scopes: src/core/expr.rs,
    src/core/binding.rs, src/core/transform/succ.rs.

    Simplifications: source locations ([Smid]) are left out; scope and binder indices
    are unbounded natural numbers instead of [u32]; reference counting and pointer
    equality (an optimisation of [try_walk]) are not visible. *)
From Coq Require Import List Bool Arith String NArith.
From Verif.Basics Require Model.
Import ListNotations.

(** [Var] and [BoundVar], src/core/binding.rs:42-58. *)
Inductive var :=
| Free (name : string)
| Bound (scope binder : nat) (name : option string).

(** [LetType], src/core/expr.rs:165-174. *)
Inductive lettype := DefaultBlockLet | DestructureBlockLet | DestructureListLet | OtherLet.

(** [Primitive], src/core/expr.rs:47-56; numbers are kept as their text. *)
Inductive prim := PStr (s : string) | PSym (s : string) | PNum (s : string) | PBool (b : bool) | PNull | PTypeData (s : string).

(** [Fixity], src/core/expr.rs:59-67. *)
Inductive fixity := UnaryPrefix | UnaryPostfix | InfixLeft | InfixRight | Nullary.

(** The variants of [Expr], src/core/expr.rs:326-377, other than [Var], [Let] and
    [Lam]: which variant it is and its fields that are not expressions.  Their
    expression fields are the children of [ENode], in order: [Lookup] has the target
    and then the fallback if there is one; a [Block] has one child per key; [Meta] has
    the expression and then the metadata; [App] has the function and then the
    arguments; the variants without expression fields have no children. *)
Inductive kind :=
| KIntrinsic (name : string)
| KLiteral (p : prim)
| KLookup (key : string)
| KName (name : string)
| KBlockAnaphor (n : nat)
| KExprAnaphor (n : nat)
| KList
| KBlock (keys : list string)
| KMeta
| KArgTuple
| KApp
| KSoup (bracket : bool)
| KOperator (f : fixity) (prec : nat)
| KErrUnresolved (name : string)
| KErrRedeclaration (name : string)
| KErrEliminated
| KErrPseudoDot
| KErrPseudoCall
| KErrPseudoCat.

Notation demand := Basics.Model.demand.

(** [CoreBinding], src/core/binding.rs:16-24. *)
Record binding (T : Type) := mkBinding { b_name : string; b_expr : T; b_demand : demand }.
Arguments mkBinding {T}.
Arguments b_name {T}.
Arguments b_expr {T}.
Arguments b_demand {T}.

(** [Expr] tied to [RcExpr], src/core/expr.rs:326-379, 496-505. *)
Inductive expr :=
| EVar (v : var)
| ELet (bs : list (binding expr)) (body : expr) (t : lettype)
| ELam (inlined : bool) (params : list string) (body : expr)
| ENode (k : kind) (xs : list expr).

(** [Demand::default()], src/core/demand.rs:118-128. *)
Definition default_demand : demand :=
  Basics.Model.mkD Basics.Model.CUnknown Basics.Model.SUnknown false false.

Definition map_b {T U} (f : T -> U) (b : binding T) : binding U :=
  mkBinding (b_name b) (f (b_expr b)) (b_demand b).

(** [RcExpr::walk], src/core/expr.rs:745-799. *)
Definition walk (f : expr -> expr) (e : expr) : expr :=
  match e with
  | EVar v => EVar v
  | ELet bs body t => ELet (map (map_b f) bs) (f body) t
  | ELam inlined ps body => ELam inlined ps (f body)
  | ENode k xs => ENode k (map f xs)
  end.

(** [names.iter().position(..)]. *)
Fixpoint position (names : list string) (n : string) : option nat :=
  match names with
  | [] => None
  | x :: xs => if String.eqb x n then Some 0 else option_map S (position xs n)
  end.

(** [bind_free_vars], src/core/expr.rs:1520-1571. *)
Fixpoint bind_free_vars (names : list string) (depth : nat) (e : expr) : expr :=
  match e with
  | EVar (Free n) =>
      match position names n with
      | Some i => EVar (Bound depth i (Some n))
      | None => e
      end
  | EVar (Bound _ _ _) => e
  | ELet bs body t =>
      ELet (map (map_b (bind_free_vars names (S depth))) bs) (bind_free_vars names (S depth) body) t
  | ELam inlined ps body => ELam inlined ps (bind_free_vars names (S depth) body)
  | ENode k xs => ENode k (map (bind_free_vars names depth) xs)
  end.

(** [close_expr_vars], src/core/expr.rs:1576-1635. *)
Fixpoint close_expr_vars (names : list string) (depth : nat) (e : expr) : expr :=
  match e with
  | EVar (Free n) =>
      match position names n with
      | Some i => EVar (Bound depth i (Some n))
      | None => e
      end
  | EVar (Bound s b n) => if depth <=? s then EVar (Bound (s + 1) b n) else e
  | ELet bs body t =>
      ELet (map (map_b (close_expr_vars names (S depth))) bs) (close_expr_vars names (S depth) body) t
  | ELam inlined ps body => ELam inlined ps (close_expr_vars names (S depth) body)
  | ENode k xs => ENode k (map (close_expr_vars names depth) xs)
  end.

Definition or_else {A} (a b : option A) : option A := match a with Some x => Some x | None => b end.
Definition unwrap_or {A} (d : A) (a : option A) : A := match a with Some x => x | None => d end.

(** [open_expr_vars], src/core/expr.rs:1639-1698; the names are all [Some] at every
    call, lines 1476-1510. *)
Fixpoint open_expr_vars (names : list string) (depth : nat) (e : expr) : expr :=
  match e with
  | EVar (Free _) => e
  | EVar (Bound s b n) =>
      if s =? depth then EVar (Free (unwrap_or "_"%string (or_else (nth_error names b) n)))
      else if depth <? s then EVar (Bound (s - 1) b n)
      else e
  | ELet bs body t =>
      ELet (map (map_b (open_expr_vars names (S depth))) bs) (open_expr_vars names (S depth) body) t
  | ELam inlined ps body => ELam inlined ps (open_expr_vars names (S depth) body)
  | ENode k xs => ENode k (map (open_expr_vars names depth) xs)
  end.

(** [close_let_scope], src/core/expr.rs:1449-1461. *)
Definition close_let_scope (bindings : list (string * expr)) (body : expr) : list (binding expr) * expr :=
  let names := map fst bindings in
  (map (fun nv => mkBinding (fst nv) (close_expr_vars names 0 (snd nv)) default_demand) bindings,
   close_expr_vars names 0 body).

(** [close_lam_scope], src/core/expr.rs:1464-1471. *)
Definition close_lam_scope (params : list string) (body : expr) : list string * expr :=
  (params, close_expr_vars params 0 body).

(** [open_let_scope_full], src/core/expr.rs:1492-1505. *)
Definition open_let_scope_full (bs : list (binding expr)) (body : expr) : list (string * expr) * expr :=
  let names := map b_name bs in
  (map (fun b => (b_name b, open_expr_vars names 0 (b_expr b))) bs, open_expr_vars names 0 body).

(** [open_lam_scope], src/core/expr.rs:1508-1511. *)
Definition open_lam_scope (params : list string) (body : expr) : expr := open_expr_vars params 0 body.

(** [BoundVarNudger::process] with [encounter_succ], src/core/transform/succ.rs:9-11,
    17-24, 50-82. *)
Fixpoint succ_at (depth : nat) (e : expr) : expr :=
  match e with
  | EVar (Free _) => e
  | EVar (Bound s b n) => if depth <=? s then EVar (Bound (s + 1) b n) else e
  | ELet bs body t => ELet (map (map_b (succ_at (S depth))) bs) (succ_at (S depth) body) t
  | ELam inlined ps body => ELam inlined ps (succ_at (S depth) body)
  | ENode k xs => ENode k (map (succ_at depth) xs)
  end.
Definition succ (e : expr) : expr := succ_at 0 e.

Fixpoint sequence {A} (l : list (option A)) : option (list A) :=
  match l with
  | [] => Some []
  | x :: xs => match x, sequence xs with Some a, Some l => Some (a :: l) | _, _ => None end
  end.
Definition seq_b {T} (b : binding (option T)) : option (binding T) :=
  option_map (fun e => mkBinding (b_name b) e (b_demand b)) (b_expr b).

(** [BoundVarNudger::process] with [encounter_pred], src/core/transform/succ.rs:13-15,
    26-33, 50-82.  Decrementing a scope of zero underflows: [None]. *)
Fixpoint pred_at (depth : nat) (e : expr) : option expr :=
  match e with
  | EVar (Free _) => Some e
  | EVar (Bound s b n) =>
      if depth <=? s then (if s =? 0 then None else Some (EVar (Bound (s - 1) b n))) else Some e
  | ELet bs body t =>
      match sequence (map (fun b => seq_b (map_b (pred_at (S depth)) b)) bs), pred_at (S depth) body with
      | Some bs', Some body' => Some (ELet bs' body' t)
      | _, _ => None
      end
  | ELam inlined ps body => option_map (ELam inlined ps) (pred_at (S depth) body)
  | ENode k xs => option_map (ENode k) (sequence (map (pred_at depth) xs))
  end.
Definition pred (e : expr) : option expr := pred_at 0 e.

(** [visit_free_vars], src/core/expr.rs:1782-1829: the names visited, in order. *)
Fixpoint free_vars (e : expr) : list string :=
  match e with
  | EVar (Free n) => [n]
  | EVar (Bound _ _ _) => []
  | ELet bs body _ => flat_map (fun b => free_vars (b_expr b)) bs ++ free_vars body
  | ELam _ _ body => free_vars body
  | ENode _ xs => flat_map free_vars xs
  end.

(** [substs_free], src/core/expr.rs:1206-1228, and [substs], 1192-1200 (which looks the
    name up in an association list). *)
Fixpoint substs_free (sub : string -> option expr) (e : expr) : expr :=
  match e with
  | EVar (Free n) => match sub n with Some r => r | None => e end
  | EVar (Bound _ _ _) => e
  | ELet bs body t => ELet (map (map_b (substs_free sub)) bs) (substs_free sub body) t
  | ELam inlined ps body => ELam inlined ps (substs_free sub body)
  | ENode k xs => ENode k (map (substs_free sub) xs)
  end.
Fixpoint assoc {A} (l : list (string * A)) (n : string) : option A :=
  match l with
  | [] => None
  | (x, a) :: l => if String.eqb x n then Some a else assoc l n
  end.
Definition substs (mappings : list (string * expr)) (e : expr) : expr := substs_free (assoc mappings) e.

(** [verify], src/core/verify/binding.rs:7-82: [false] where it panics.  The stack
    holds the names of each enclosing scope. *)
Definition opt_string_eqb (a b : option string) : bool :=
  match a, b with
  | Some x, Some y => String.eqb x y
  | None, None => true
  | _, _ => false
  end.
Fixpoint verify_in (scopes : list (list string)) (e : expr) : bool :=
  match e with
  | EVar (Free _) => true
  | EVar (Bound s b n) =>
      match nth_error scopes s with
      | None => false
      | Some names => match nth_error names b with
                      | None => false
                      | Some x => opt_string_eqb (Some x) n
                      end
      end
  | ELet bs body _ =>
      forallb (fun b => verify_in (map b_name bs :: scopes) (b_expr b)) bs && verify_in (map b_name bs :: scopes) body
  | ELam _ ps body => verify_in (ps :: scopes) body
  | ENode _ xs => forallb (verify_in scopes) xs
  end.
Definition verify (e : expr) : bool := verify_in [] e.
