(** What the theorems about numbers are stated with. *)
From Coq Require Import ZArith List Bool Floats.SpecFloat.
From Verif.Numbers Require Import Model.
Import ListNotations.
Open Scope Z_scope.

(** The integers a number can stand for, and the numbers that occur: unsigned or negative 64-bit integers
    and finite doubles in canonical form. *)
Inductive integer : number -> Z -> Prop :=
| int_pos n : 0 <= n <= 2 ^ 64 - 1 -> integer (PosInt n) n
| int_neg n : - 2 ^ 63 <= n < 0 -> integer (NegInt n) n.
Definition double (f : spec_float) : Prop := is_finite f = true /\ valid_binary 53 1024 f = true.
Definition proper (x : number) : Prop := match x with Float f => double f | x => exists z, integer x z end.

(** Every double is a whole multiple of the smallest positive one, 2^-1074; [units] says which. *)
Definition scale : Z := 2 ^ 1074.
Definition units (f : spec_float) : Z :=
  match f with S754_finite s m e => cond_Zopp s (Zpos m * 2 ^ (e + 1074)) | _ => 0 end.
(** The exact value of a number, in the same units. *)
Definition exactly (x : number) : Z := match x with PosInt z | NegInt z => z * scale | Float f => units f end.
(** The value as a double. *)
Definition roughly (x : number) : Z := units (as_f64 x).

(** [f] is a double nearest to the exact value [v], given in units. *)
Definition nearest_double (v : Z) (f : spec_float) : Prop :=
  double f /\ forall g, double g -> Z.abs (units f - v) <= Z.abs (units g - v).

(** [f] is a double nearest to the exact value [n / d], given in units: multiplied by the size of [d], its
    distance is no greater than another's. *)
Definition nearest_ratio (n d : Z) (f : spec_float) : Prop :=
  double f /\ forall g, double g -> Z.abs (units f * d - n) <= Z.abs (units g * d - n).

(** Both operands fit a signed 64-bit word, or neither is negative. *)
Definition signed (z : Z) : Prop := - 2 ^ 63 <= z < 2 ^ 63.
Definition alike (a b : Z) : Prop := (signed a /\ signed b) \/ (0 <= a /\ 0 <= b).

(** Both operands are integers of the same kind. *)
Definition both_alike (x y : number) : Prop := exists a b, integer x a /\ integer y b /\ alike a b.
(** The only quotient of signed words that is not one. *)
Definition lowest_by_minus_one (a b : Z) : Prop := a = - 2 ^ 63 /\ b = -1.
(** Both numbers are integers, or doubles represent both exactly. *)
Definition comparable (x y : number) : Prop :=
  (exists a b, integer x a /\ integer y b) \/ (exactly x = roughly x /\ exactly y = roughly y).
(** The signed word of the same value as a number, which may be an integer or a double. *)
Definition word (x : number) (a : Z) : Prop := proper x /\ signed a /\ exactly x = a * scale.

(** Lists. *)
Inductive ascending : list Z -> Prop :=
| asc_nil : ascending []
| asc_cons z l : (forall z', In z' l -> z <= z') -> ascending l -> ascending (z :: l).
(** The sums of the first elements of a list, starting from [acc]. *)
Fixpoint sums (acc : Z) (l : list Z) : list Z := match l with [] => [] | z :: l => (acc + z) :: sums (acc + z) l end.
(** The greatest, or the least, of a list of values, in the order [le]. *)
Definition tops (le : Z -> Z -> Prop) (l : list Z) (v : Z) : Prop := In v l /\ forall w, In w l -> le w v.
