(** Native sets: src/eval/memory/set.rs. *)
From Coq Require Import List NArith ZArith Bool Permutation.
Import ListNotations.

(** A finite [f64]: every finite double is an integral multiple of 2^-1074, so it
    is given by that multiple, and by its sign bit when it is a zero.  NaN and
    infinities cannot be eucalypt numbers ([serde_json::Number] rejects them). *)
Record f64 := mkF { units : Z; negzero : bool }.

(** [OrderedFloat::cmp] on finite doubles: numeric comparison (the two zeros are
    equal). *)
Definition f64_cmp (a b : f64) : comparison := Z.compare (units a) (units b).

(** Rounding of a natural number to 53 significant bits, ties to even: the
    conversion [as f64] of a 64-bit integer. *)
Definition round53 (n : N) : N :=
  if (n <? 2 ^ 53)%N then n
  else
    let s := (N.log2 n - 52)%N in
    let q := (n / 2 ^ s)%N in
    let r := (n mod 2 ^ s)%N in
    let half := (2 ^ (s - 1))%N in
    if (r <? half)%N || ((r =? half)%N && N.even q) then (q * 2 ^ s)%N else ((q + 1) * 2 ^ s)%N.

(** [serde_json::Number] (integers of 64 bits, finite doubles). *)
Inductive number := NInt (z : Z) | NFloat (f : f64).

(** [Number::as_f64]. *)
Definition as_f64 (n : number) : f64 :=
  match n with
  | NInt z => mkF (Z.sgn z * Z.of_N (round53 (Z.abs_N z)) * 2 ^ 1074) false
  | NFloat f => f
  end.

(** [Primitive], lines 19-24.  Strings are their UTF-8 bytes, symbols their ids. *)
Inductive prim := PNum (f : f64) | PStr (s : list N) | PSym (id : N).

(** [Primitive::from_number], lines 39-41. *)
Definition from_number (n : number) : prim := PNum (as_f64 n).

(** [str::cmp]. *)
Fixpoint bytes_cmp (a b : list N) : comparison :=
  match a, b with
  | [], [] => Eq
  | [], _ => Lt
  | _, [] => Gt
  | x :: a', y :: b' => match N.compare x y with Eq => bytes_cmp a' b' | c => c end
  end.

(** [Primitive::cmp], lines 58-72. *)
Definition prim_cmp (a b : prim) : comparison :=
  match a, b with
  | PNum x, PNum y => f64_cmp x y
  | PStr x, PStr y => bytes_cmp x y
  | PSym x, PSym y => N.compare x y
  | PNum _, _ => Lt
  | _, PNum _ => Gt
  | PStr _, PSym _ => Lt
  | PSym _, PStr _ => Gt
  end.

(** [==] on primitives (derived; on floats [OrderedFloat]'s, which identifies the
    zeros), lines 19. *)
Definition prim_eqb (a b : prim) : bool :=
  match a, b with
  | PNum x, PNum y => Z.eqb (units x) (units y)
  | PStr x, PStr y => if list_eq_dec N.eq_dec x y then true else false
  | PSym x, PSym y => N.eqb x y
  | _, _ => false
  end.

(** A [HashSet] is the list of its elements in some iteration order. *)
Definition hset := list prim.

(** [contains], lines 115-117. *)
Definition contains (s : hset) (p : prim) : bool := existsb (prim_eqb p) s.

(** [HashSet::insert]: an equal element already present stays. *)
Definition hinsert (s : hset) (p : prim) : hset := if contains s p then s else s ++ [p].
Definition hcollect (ps : list prim) : hset := fold_left hinsert ps [].

(** [empty] 87-91, [from_primitives] 94-98, [with_added] 101-105,
    [with_removed] 108-112. *)
Definition hs_empty : hset := [].
Definition from_primitives (ps : list prim) : hset := hcollect ps.
Definition with_added (s : hset) (p : prim) : hset := hinsert s p.
Definition with_removed (s : hset) (p : prim) : hset := filter (fun q => negb (prim_eqb p q)) s.
(** [len], lines 120-122. *)
Definition hs_len (s : hset) : nat := length s.

(** [HashSet::difference]. *)
Definition hdifference (a b : hset) : list prim := filter (fun p => negb (contains b p)) a.
(** [union], lines 130-134; std iterates the larger set and then what the other
    adds. *)
Definition union (a b : hset) : hset :=
  hcollect (if Nat.leb (length b) (length a) then a ++ hdifference b a else b ++ hdifference a b).
(** [intersect], lines 137-145; std iterates the smaller set. *)
Definition intersect (a b : hset) : hset :=
  hcollect (if Nat.leb (length a) (length b) then filter (contains b) a else filter (contains a) b).
(** [diff], lines 148-152. *)
Definition diff (a b : hset) : hset := hcollect (hdifference a b).

(** [sorted_elements], lines 155-159: a stable sort of the iteration order. *)
Fixpoint sort_insert (p : prim) (l : list prim) : list prim :=
  match l with
  | [] => [p]
  | q :: l' => match prim_cmp p q with
               | Gt => q :: sort_insert p l'
               | _ => p :: l
               end
  end.
Definition sorted_elements (s : hset) : list prim := fold_right sort_insert [] s.
