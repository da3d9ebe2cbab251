(** What a set expression denotes, independently of the implementation. *)
From Coq Require Import List NArith ZArith Bool Permutation.
From Verif.Sets Require Import Model.
Import ListNotations.

(** Equality of primitives as the language sees it: same kind, same string,
    symbol or number. *)
Definition same (a b : prim) : Prop :=
  match a, b with
  | PNum x, PNum y => units x = units y
  | PStr x, PStr y => x = y
  | PSym x, PSym y => x = y
  | _, _ => False
  end.

(** Strict order of rendering: numbers, then strings, then symbols. *)
Inductive bytes_lt : list N -> list N -> Prop :=
| bl_nil y b : bytes_lt [] (y :: b)
| bl_lt x y a b : (x < y)%N -> bytes_lt (x :: a) (y :: b)
| bl_eq x a b : bytes_lt a b -> bytes_lt (x :: a) (x :: b).
Definition before (a b : prim) : Prop :=
  match a, b with
  | PNum x, PNum y => (units x < units y)%Z
  | PStr x, PStr y => bytes_lt x y
  | PSym x, PSym y => (x < y)%N
  | PNum _, PStr _ | PNum _, PSym _ | PStr _, PSym _ => True
  | _, _ => False
  end.

(** Programs over sets. *)
Inductive sexp :=
| EEmpty | EOf (ps : list prim)
| EAdd (p : prim) (e : sexp) | ERemove (p : prim) (e : sexp)
| EUnion (a b : sexp) | EInter (a b : sexp) | EDiff (a b : sexp).

Fixpoint denotes (e : sexp) (p : prim) : Prop :=
  match e with
  | EEmpty => False
  | EOf ps => exists q, In q ps /\ same p q
  | EAdd q e => same p q \/ denotes e p
  | ERemove q e => ~ same p q /\ denotes e p
  | EUnion a b => denotes a p \/ denotes b p
  | EInter a b => denotes a p /\ denotes b p
  | EDiff a b => denotes a p /\ ~ denotes b p
  end.

(** Running a program: after each operation the hash table may iterate in any
    order. *)
Inductive runs : sexp -> hset -> Prop :=
| r_empty : runs EEmpty hs_empty
| r_of ps s : Permutation (from_primitives ps) s -> runs (EOf ps) s
| r_add p e s s' : runs e s -> Permutation (with_added s p) s' -> runs (EAdd p e) s'
| r_remove p e s s' : runs e s -> Permutation (with_removed s p) s' -> runs (ERemove p e) s'
| r_union a b s t u : runs a s -> runs b t -> Permutation (union s t) u -> runs (EUnion a b) u
| r_inter a b s t u : runs a s -> runs b t -> Permutation (intersect s t) u -> runs (EInter a b) u
| r_diff a b s t u : runs a s -> runs b t -> Permutation (diff s t) u -> runs (EDiff a b) u.

(** A primitive with only one representation. *)
Definition plain (p : prim) : Prop :=
  match p with PNum f => negzero f = false | _ => True end.
(** The elements a program may put into its result. *)
Fixpoint mentions (e : sexp) : list prim :=
  match e with
  | EEmpty => []
  | EOf ps => ps
  | EAdd p e => p :: mentions e
  | ERemove p e => mentions e
  | EUnion a b | EInter a b | EDiff a b => mentions a ++ mentions b
  end.
