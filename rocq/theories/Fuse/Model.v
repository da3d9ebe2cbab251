(** Folding lookups into literal blocks and heads and tails of literal lists:
    src/core/transform/fuse.rs. *)
From Coq Require Import String List Bool Arith.
From Verif.Scope Require Import Model.
Import ListNotations.
Local Open Scope string_scope.
Local Open Scope list_scope.

(** [block_map.get(key)]: a [BlockMap] has each key once, src/core/expr.rs:380-490. *)
Definition block_get (keys : list string) (xs : list expr) (key : string) : option expr :=
  match position keys key with Some i => nth_error xs i | None => None end.
(** [fold_block_lookup], fuse.rs:21-32. *)
Definition fold_block_lookup (e : expr) : option expr :=
  match e with
  | ENode (KLookup key) (target :: fallback) =>
      match target with
      | ENode (KBlock keys) xs =>
          match block_get keys xs key with
          | Some v => Some v
          | None => match fallback with d :: _ => Some d | [] => None end
          end
      | _ => None
      end
  | _ => None
  end.
(** [fold_head_call], fuse.rs:37-50. *)
Definition fold_head_call (e : expr) : option expr :=
  match e with
  | ENode KApp (ENode (KIntrinsic name) _ :: xs) =>
      if String.eqb name "HEAD" && Nat.eqb (List.length xs) 1 then
        match xs with
        | ENode KList elements :: _ => match elements with first :: _ => Some first | [] => None end
        | _ => None
        end
      else None
  | _ => None
  end.
(** [fold_tail_call], fuse.rs:56-70. *)
Definition fold_tail_call (e : expr) : option expr :=
  match e with
  | ENode KApp (ENode (KIntrinsic name) _ :: xs) =>
      if String.eqb name "TAIL" && Nat.eqb (List.length xs) 1 then
        match xs with
        | ENode KList elements :: _ => match elements with _ :: tail => Some (ENode KList tail) | [] => None end
        | _ => None
        end
      else None
  | _ => None
  end.
(** [RcExpr::try_walk_safe], src/core/expr.rs:1025-1170, without the sharing of unchanged
    nodes. *)
Definition try_walk (f : expr -> option expr) (e : expr) : option expr :=
  match e with
  | EVar _ => Some e
  | ELet bs body t =>
      match sequence (map (fun b => seq_b (map_b f b)) bs), f body with
      | Some bs', Some body' => Some (ELet bs' body' t)
      | _, _ => None
      end
  | ELam inlined ps body => option_map (ELam inlined ps) (f body)
  | ENode k xs => option_map (ENode k) (sequence (map f xs))
  end.
(** The folding rules in the order they are tried, fuse.rs:80-83. *)
Definition fold_step (e : expr) : option expr :=
  or_else (or_else (fold_block_lookup e) (fold_head_call e)) (fold_tail_call e).
(** [fuse], fuse.rs:75-89.  The depth of the recursion is bounded by [fuel]; [None] says
    that it did not suffice. *)
Fixpoint fuse_in (fuel : nat) (e : expr) : option expr :=
  match fuel with
  | 0 => None
  | S fuel =>
      match try_walk (fuse_in fuel) e with
      | None => None
      | Some reduced =>
          match fold_step reduced with
          | Some folded => fuse_in fuel folded
          | None => Some reduced
          end
      end
  end.
(** The number of nodes, to bound the recursion by. *)
Fixpoint size (e : expr) : nat :=
  match e with
  | EVar _ => 1
  | ELet bs body _ => S (list_sum (map (fun b => size (b_expr b)) bs) + size body)
  | ELam _ _ body => S (size body)
  | ENode _ xs => S (list_sum (map size xs))
  end.
Definition fuse (e : expr) : option expr := fuse_in (S (size e)) e.
