(** What computing strongly connected components means. *)
From Coq Require Import List Arith.
Import ListNotations.

(** The graph given by lists of successors. *)
Definition edge (deps : list (list nat)) (x y : nat) : Prop := exists ws, nth_error deps x = Some ws /\ In y ws.
Inductive reaches (deps : list (list nat)) : nat -> nat -> Prop :=
| reach_refl x : reaches deps x x
| reach_step x y z : edge deps x y -> reaches deps y z -> reaches deps x z.
Definition mutual (deps : list (list nat)) (x y : nat) : Prop := reaches deps x y /\ reaches deps y x.
(** All successors are vertices. *)
Definition in_range (deps : list (list nat)) : Prop := forall x y, edge deps x y -> y < List.length deps.
