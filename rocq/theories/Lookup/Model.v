(** Generalised lookup: src/core/transform/dynamise.rs, and replacing the body of a let:
    [RcExpr::rebody] and its helpers in src/core/expr.rs.

    Expressions and the operations on their scopes are those of [Verif.Scope.Model].

    Simplifications: source locations are left out, except that the name of the
    implicit parameter, which is made from one, is an argument; that a name is made of
    the characters of a normal identifier is the variable [normal] (the character
    classes belong to the lexer); the mutable flag [wrap_lambda] is computed by a
    separate pass over the same expression. *)
From Coq Require Import Ascii String List Bool Arith.
From Verif.Scope Require Import Model.
Import ListNotations.
Local Open Scope string_scope.
Local Open Scope list_scope.

Section Dynamise.
  (** [is_normal], src/core/transform/dynamise.rs:34-38. *)
  Variable normal : string -> bool.
  (** [Dynamiser::param], src/core/transform/dynamise.rs:28: [__g] and the number of
      the source location. *)
  Variable param : string.

  (** [Dynamiser::wrap], src/core/transform/dynamise.rs:53-87, without setting the
      flag. *)
  Definition wrap (depth : nat) (v : var) : expr :=
    match v with
    | Free n =>
        if normal n then ENode (KLookup n) [EVar (Free param); EVar (Free n)] else EVar (Free n)
    | Bound s b nm =>
        match nm with
        | Some n =>
            if Nat.leb depth s && normal n then
              ENode (KLookup n) [EVar (Free param); EVar (Bound s b nm)]
            else EVar (Bound s b nm)
        | None => EVar (Bound s b nm)
        end
    end.
  (** Whether [wrap] sets [wrap_lambda], src/core/transform/dynamise.rs:57-58, 73-74. *)
  Definition wraps (depth : nat) (v : var) : bool :=
    match v with
    | Free n => normal n
    | Bound s b nm =>
        match nm with Some n => Nat.leb depth s && normal n | None => false end
    end.

  (** [Dynamiser::process], src/core/transform/dynamise.rs:103-120. *)
  Fixpoint process (depth : nat) (e : expr) : expr :=
    match e with
    | EVar v => wrap depth v
    | ELet bs body t => ELet (map (map_b (process (S depth))) bs) (process (S depth) body) t
    | ELam inlined ps body => ELam inlined ps (process (S depth) body)
    | ENode k xs => ENode k (map (process depth) xs)
    end.
  (** The flag [wrap_lambda] after [process], src/core/transform/dynamise.rs:21, 58, 74. *)
  Fixpoint flagged (depth : nat) (e : expr) : bool :=
    match e with
    | EVar v => wraps depth v
    | ELet bs body _ => existsb (fun b => flagged (S depth) (b_expr b)) bs || flagged (S depth) body
    | ELam _ _ body => flagged (S depth) body
    | ENode _ xs => existsb (flagged depth) xs
    end.

  (** [Dynamiser::dynamise], src/core/transform/dynamise.rs:89-101; [core::lam],
      src/core/expr.rs:1913-1915, makes a lambda that is not inlined and closes its
      body. *)
  Definition dynamise (e : expr) : expr :=
    let p := process 0 e in
    if flagged 0 e then
      let '(ps, body) := close_lam_scope [param] (succ p) in ELam false ps body
    else p.
End Dynamise.

(** The placeholder for a name that nothing may be bound to, src/core/expr.rs:619. *)
Definition placeholder : string := String zero EmptyString.

(** [IndexMap::get] on the entries of a block, src/core/expr.rs:1716. *)
Fixpoint entry (ks : list string) (xs : list expr) (n : string) : option expr :=
  match ks, xs with
  | k :: ks, x :: xs => if String.eqb k n then Some x else entry ks xs n
  | _, _ => None
  end.
(** [has_internal_export], src/core/expr.rs:1707-1719. *)
Definition has_internal_export (e : expr) : bool :=
  match e with
  | ENode KMeta [_; ENode (KBlock ks) xs] =>
      match entry ks xs "export" with
      | Some (ENode (KLiteral (PSym s)) _) => String.eqb s "internal"
      | _ => false
      end
  | _ => false
  end.

(** [prepare_capture_vars], src/core/expr.rs:589-596: the names (each is mapped to
    itself). *)
Definition capture_vars (bs : list (binding expr)) : list string :=
  map b_name (filter (fun b => negb (has_internal_export (b_expr b))) bs).
(** The names to bind, src/core/expr.rs:613-623. *)
Definition capture_mask (bs : list (binding expr)) : list string :=
  map (fun b => if has_internal_export (b_expr b) then placeholder else b_name b) bs.

(** [rebody_int], src/core/expr.rs:601-652; the environment is the list of the names
    in all its frames. *)
Fixpoint rebody_int (env : list string) (self new : expr) : expr :=
  match self with
  | ELet bs body t =>
      ELet bs (bind_free_vars (capture_mask bs) 0 (rebody_int (capture_vars bs ++ env) body new)) t
  | ENode KMeta (e :: m) => ENode KMeta (rebody_int env e new :: m)
  | _ => substs_free (fun n => if existsb (String.eqb n) env then Some (EVar (Free n)) else None) new
  end.

(** [collect_internal_binding_names], src/core/expr.rs:1730-1749. *)
Fixpoint internal_names (e : expr) : list string :=
  match e with
  | ELet bs body _ =>
      map b_name (filter (fun b => has_internal_export (b_expr b)) bs) ++ internal_names body
  | ENode KMeta (e :: _) => internal_names e
  | _ => []
  end.
(** [INTERNAL_FREE_VAR_PREFIX], src/core/expr.rs:1725. *)
Definition internal_prefix : string := "__eu_internal:".
(** [mask_internal_free_vars], src/core/expr.rs:1754-1765. *)
Definition mask_internal_free_vars (ns : list string) (e : expr) : expr :=
  substs_free (fun n => if existsb (fun s => String.eqb s n) ns
                        then Some (EVar (Free (internal_prefix ++ n)%string)) else None) e.

(** [RcExpr::rebody], src/core/expr.rs:568-583. *)
Definition rebody (self new : expr) : expr :=
  let result := rebody_int [] self new in
  match internal_names self with
  | [] => result
  | ns => mask_internal_free_vars ns result
  end.

(** A lookup in a block written out to the left of the dot,
    src/core/desugar/rowan_ast.rs:2459-2472. *)
Definition static_lookup (dlet e : expr) : expr :=
  match rebody dlet e with
  | ELet bs body DefaultBlockLet => ELet bs body OtherLet
  | r => r
  end.
