(** Arrays as functions on coordinates. *)
From Coq Require Import List Arith ZArith Bool.
From Verif.NdArray Require Import Model.
Import ListNotations.

(** A coordinate list that addresses an element of a shape. *)
Definition valid (sh coords : list nat) : Prop := Forall2 (fun c d => c < d) coords sh.

(** Every array the program can hold has as many elements as its shape says. *)
Definition wf {A} (a : nd A) : Prop := length (flat a) = prod (shape a).

(** Row-major order: last coordinate varies fastest. *)
Inductive coords_lt : list nat -> list nat -> Prop :=
| cl_lt x y a b : x < y -> coords_lt (x :: a) (y :: b)
| cl_eq x a b : coords_lt a b -> coords_lt (x :: a) (x :: b).

(** [coords] displaced by an offset. *)
Definition displaced (coords : list nat) (off : list Z) (n : list nat) : Prop :=
  map Z.of_nat n = map (fun p => (Z.of_nat (fst p) + snd p)%Z) (combine coords off).
