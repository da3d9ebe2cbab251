(** Removing eliminated bindings: src/core/simplify/compress.rs. *)
From Coq Require Import List Bool Arith String.
From Verif.Scope Require Import Model.
Import ListNotations.

(** The result of a pass: it may return an error, or an index may be out of bounds. *)
Inductive outcome (A : Type) := Done (a : A) | Error | Panic.
Arguments Done {A}.
Arguments Error {A}.
Arguments Panic {A}.
Definition obind {A B} (x : outcome A) (f : A -> outcome B) : outcome B :=
  match x with Done a => f a | Error => Error | Panic => Panic end.
Definition of_opt {A} (x : option A) : outcome A := match x with Some a => Done a | None => Panic end.
(** Collecting results in order, stopping at the first failure. *)
Fixpoint collect {A} (l : list (outcome A)) : outcome (list A) :=
  match l with
  | [] => Done []
  | x :: xs => obind x (fun a => obind (collect xs) (fun l => Done (a :: l)))
  end.

Definition is_eliminated (e : expr) : bool := match e with ENode KErrEliminated _ => true | _ => false end.

(** [permutation_from_let_scope], lines 118-131. *)
Fixpoint let_perm_from (i : nat) (bs : list (binding expr)) : list (option nat) :=
  match bs with
  | [] => []
  | b :: bs => if is_eliminated (b_expr b) then None :: let_perm_from i bs else Some i :: let_perm_from (S i) bs
  end.
Definition let_perm (bs : list (binding expr)) : list (option nat) := let_perm_from 0 bs.
(** [permutation_from_lam_scope], lines 133-140. *)
Definition lam_perm (ps : list string) : list (option nat) := map Some (seq 0 (List.length ps)).

(** [encounter], lines 32-40: indexing the stack of permutations may panic. *)
Definition encounter (perms : list (list (option nat))) (s b : nat) (n : option string) : outcome expr :=
  match nth_error perms s with
  | None => Panic
  | Some perm => match nth_error perm b with
                 | Some (Some i) => Done (EVar (Bound s i n))
                 | _ => Error
                 end
  end.

(** [ScopeCompressor::compress], lines 42-115. *)
Fixpoint compress_in (perms : list (list (option nat))) (e : expr) : outcome expr :=
  match e with
  | EVar (Free _) => Done e
  | EVar (Bound s b n) => encounter perms s b n
  | ELet bs body t =>
      let perms' := let_perm bs :: perms in
      obind (collect (flat_map (fun b =>
               if is_eliminated (b_expr b) then []
               else [obind (compress_in perms' (b_expr b)) (fun v => Done (mkBinding (b_name b) v (b_demand b)))]) bs))
        (fun new_bindings =>
      obind (compress_in perms' body) (fun new_body =>
        match new_bindings with
        | [] => of_opt (pred new_body)
        | _ => Done (ELet new_bindings new_body t)
        end))
  | ELam inlined ps body =>
      obind (compress_in (lam_perm ps :: perms) body) (fun body => Done (ELam inlined ps body))
  | ENode k xs => obind (collect (map (compress_in perms) xs)) (fun xs => Done (ENode k xs))
  end.
Definition compress (e : expr) : outcome expr := compress_in [] e.
