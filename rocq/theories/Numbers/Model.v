(** Numbers and the intrinsics that compute with them: src/eval/stg/{arith,eq,list,running,support}.rs.
    Element-wise arithmetic on arrays, which the same intrinsics dispatch to, is left out. *)
From Coq Require Import ZArith NArith List Bool Floats.SpecFloat.
Import ListNotations.
Open Scope Z_scope.

(** A [serde_json::Number] (serde_json 1.0 without [arbitrary_precision]): an unsigned 64-bit
    integer, a negative signed 64-bit integer, or a finite double. Doubles are those of the standard
    library's [SpecFloat]: [S754_finite s m e] is (-1)^s * m * 2^e. *)
Inductive number := PosInt (n : Z) | NegInt (z : Z) | Float (f : spec_float).

Definition i64_min := - 2 ^ 63. Definition i64_max := 2 ^ 63 - 1. Definition u64_max := 2 ^ 64 - 1.
Definition in_i64 (z : Z) : bool := (i64_min <=? z) && (z <=? i64_max).
Definition in_u64 (z : Z) : bool := (0 <=? z) && (z <=? u64_max).

(** The doubles' operations: precision 53, exponents below 1024, rounding to nearest, ties to even. *)
Definition f_add := SFadd 53 1024. Definition f_sub := SFsub 53 1024.
Definition f_mul := SFmul 53 1024. Definition f_div := SFdiv 53 1024.
(** [z as f64]. *)
Definition f_of_int (z : Z) : spec_float := binary_normalize 53 1024 z 0 false.
Definition is_finite (f : spec_float) : bool :=
  match f with S754_zero _ | S754_finite _ _ _ => true | _ => false end.
(** A finite double with its integer part taken by [part], which is given the numerator and the
    denominator; a zero result has the sign of the argument. All of floor, ceil and trunc are exact. *)
Definition f_integral (part : Z -> Z -> Z) (f : spec_float) : spec_float :=
  match f with
  | S754_finite s m e =>
      if 0 <=? e then f
      else match part (cond_Zopp s (Zpos m)) (2 ^ (- e)) with
           | 0 => S754_zero s
           | z => f_of_int z
           end
  | f => f
  end.
Definition f_floor := f_integral Z.div.
Definition f_ceil := f_integral (fun a b => - (- a / b)).
Definition f_trunc := f_integral Z.quot.
(** [l % r] on doubles: the exact remainder of truncated division. *)
Definition f_rem (l r : spec_float) : spec_float :=
  match l, r with
  | S754_nan, _ | _, S754_nan | S754_infinity _, _ | _, S754_zero _ => S754_nan
  | S754_zero _, _ | _, S754_infinity _ => l
  | S754_finite s m e, S754_finite _ m' e' =>
      let e0 := Z.min e e' in
      binary_normalize 53 1024 (cond_Zopp s ((Zpos m * 2 ^ (e - e0)) mod (Zpos m' * 2 ^ (e' - e0)))) e0 s
  end.
(** The integer part of a finite double, and [f as i64], which saturates. *)
Definition f_int (f : spec_float) : Z :=
  match f with
  | S754_finite s m e => if 0 <=? e then cond_Zopp s (Zpos m * 2 ^ e) else Z.quot (cond_Zopp s (Zpos m)) (2 ^ (- e))
  | _ => 0
  end.
Definition f_to_i64 (f : spec_float) : Z := Z.max i64_min (Z.min i64_max (f_int f)).
Definition f_eqb (a b : spec_float) : bool := match SFcompare a b with Some Eq => true | _ => false end.
Definition f_leb (a b : spec_float) : bool := match SFcompare a b with Some (Eq | Lt) => true | _ => false end.

(** serde_json number.rs: the views of a number, and numbers from integers and doubles. *)
Definition as_i64 (x : number) : option Z :=
  match x with
  | PosInt n => if n <=? i64_max then Some n else None
  | NegInt z => Some z
  | Float _ => None
  end.
Definition as_u64 (x : number) : option Z := match x with PosInt n => Some n | _ => None end.
Definition as_f64 (x : number) : spec_float := match x with PosInt z | NegInt z => f_of_int z | Float f => f end.
Definition of_int (z : Z) : number := if z <? 0 then NegInt z else PosInt z.
Definition of_f64 (f : spec_float) : option number := if is_finite f then Some (Float f) else None.

(** The errors these intrinsics raise (error.rs). *)
Inductive num_error := RangeError | DomainError | DivisionByZero | ComplexResult | NotInteger | ShiftRange.
Inductive result (A : Type) := Ok (a : A) | Err (e : num_error).
Arguments Ok {A}. Arguments Err {A}.
Definition ok_or {A} (o : option A) (e : num_error) : result A := match o with Some a => Ok a | None => Err e end.
Definition map_ok {A B} (f : A -> B) (r : result A) : result B := match r with Ok a => Ok (f a) | Err e => Err e end.
Definition and_then {A B} (r : result A) (f : A -> result B) : result B := match r with Ok a => f a | Err e => Err e end.

(** Checked integer operations of Rust. *)
Definition checked_i64 (z : Z) : option Z := if in_i64 z then Some z else None.
Definition checked_u64 (z : Z) : option Z := if in_u64 z then Some z else None.
Definition checked_div_i64 (a b : Z) : option Z := if b =? 0 then None else checked_i64 (Z.quot a b).
(** The remainder is refused exactly when the quotient is. *)
Definition checked_rem_i64 (a b : Z) : option Z :=
  if b =? 0 then None else if in_i64 (Z.quot a b) then Some (Z.rem a b) else None.
Definition checked_div_u64 (a b : Z) : option Z := if b =? 0 then None else Some (a / b).
Definition checked_rem_u64 (a b : Z) : option Z := if b =? 0 then None else Some (a mod b).

(** The shape all the two-place intrinsics share (e.g. arith.rs 108-138): both operands as i64, or else both as u64, or
    else both as f64. *)
Definition tiered {A} (on_i64 on_u64 : Z -> Z -> A) (on_f64 : spec_float -> spec_float -> A) (x y : number) : A :=
  match as_i64 x, as_i64 y with
  | Some l, Some r => on_i64 l r
  | _, _ => match as_u64 x, as_u64 y with
            | Some l, Some r => on_u64 l r
            | _, _ => on_f64 (as_f64 x) (as_f64 y)
            end
  end.
Definition from_i64 (o : option Z) : result number := map_ok of_int (ok_or o RangeError).
Definition from_f64 (f : spec_float) : result number := ok_or (of_f64 f) DomainError.

(** arith.rs 88-139. *)
Definition add : number -> number -> result number :=
  tiered (fun l r => from_i64 (checked_i64 (l + r))) (fun l r => from_i64 (checked_u64 (l + r)))
         (fun l r => from_f64 (f_add l r)).
(** arith.rs 155-206. *)
Definition sub : number -> number -> result number :=
  tiered (fun l r => from_i64 (checked_i64 (l - r))) (fun l r => from_i64 (checked_u64 (l - r)))
         (fun l r => from_f64 (f_sub l r)).
(** arith.rs 222-273. *)
Definition mul : number -> number -> result number :=
  tiered (fun l r => from_i64 (checked_i64 (l * r))) (fun l r => from_i64 (checked_u64 (l * r)))
         (fun l r => from_f64 (f_mul l r)).

(** arith.rs 31-33. *)
Definition is_zero (x : number) : bool :=
  match as_i64 x with Some 0 => true | _ => false end || match as_u64 x with Some 0 => true | _ => false end ||
  f_eqb (as_f64 x) (S754_zero false).
(** arith.rs 39-49. The signs differ when the exclusive or of the words is negative. *)
Definition floor_div_i64 (a b : Z) : option Z :=
  match checked_div_i64 a b, checked_rem_i64 a b with
  | Some d, Some r => if negb (r =? 0) && (Z.lxor r b <? 0) then Some (d - 1) else Some d
  | _, _ => None
  end.
(** arith.rs 55-62. *)
Definition floor_mod_i64 (a b : Z) : option Z :=
  match checked_rem_i64 a b with
  | Some r => if negb (r =? 0) && (Z.lxor r b <? 0) then Some (r + b) else Some r
  | None => None
  end.
(** arith.rs 66-74. *)
Definition num_from_floored (f : spec_float) : option number :=
  if is_finite f && f_leb (f_of_int i64_min) f && f_leb f (f_of_int i64_max) then
    let i := f_to_i64 f in
    if f_eqb (f_of_int i) f then Some (of_int i) else of_f64 f
  else of_f64 f.
Definition guarded (y : number) (r : result number) : result number := if is_zero y then Err DivisionByZero else r.
(** arith.rs 289-348. *)
Definition div (x y : number) : result number :=
  guarded y (tiered (fun l r => from_i64 (floor_div_i64 l r)) (fun l r => from_i64 (checked_div_u64 l r))
                    (fun l r => ok_or (num_from_floored (f_floor (f_div l r))) DomainError) x y).
(** arith.rs 360-411. *)
Definition modulo (x y : number) : result number :=
  guarded y (tiered (fun l r => from_i64 (floor_mod_i64 l r)) (fun l r => from_i64 (checked_rem_u64 l r))
                    (fun l r => from_f64 (f_sub l (f_mul r (f_floor (f_div l r))))) x y).
(** arith.rs 833-868. *)
Definition precise_div (x y : number) : result number := guarded y (from_f64 (f_div (as_f64 x) (as_f64 y))).
(** arith.rs 880-930. *)
Definition quot (x y : number) : result number :=
  guarded y (tiered (fun l r => from_i64 (checked_div_i64 l r)) (fun l r => from_i64 (checked_div_u64 l r))
                    (fun l r => ok_or (num_from_floored (f_trunc (f_div l r))) DomainError) x y).
(** arith.rs 942-991. *)
Definition rem (x y : number) : result number :=
  guarded y (tiered (fun l r => from_i64 (checked_rem_i64 l r)) (fun l r => from_i64 (checked_rem_u64 l r))
                    (fun l r => from_f64 (f_rem l r)) x y).
(** arith.rs 688-713, 725-750. *)
Definition round_with (part : spec_float -> spec_float) (x : number) : result number :=
  match x with Float f => from_f64 (part f) | x => Ok x end.
Definition ceiling := round_with f_ceil.
Definition floor := round_with f_floor.

Section Pow.
(** [f64::powf]. *)
Variable powf : spec_float -> spec_float -> spec_float.
(** arith.rs 816-821: exponents beyond u32 count as overflow. *)
Definition checked_int_pow (b e : Z) : option Z := if e <=? 2 ^ 32 - 1 then checked_i64 (b ^ e) else None.
(** arith.rs 765-812. The exponent of [checked_pow] is cut off at the largest u32. *)
Definition pow (x y : number) : result number :=
  let in_f64 :=
    let b := as_f64 x in let e := as_f64 y in let r := powf b e in
    match of_f64 r with
    | Some n => Ok n
    | None => if match r with S754_nan => true | _ => false end && match SFcompare b (S754_zero false) with Some Lt => true | _ => false end
                 && negb (f_eqb (f_trunc e) e)
              then Err ComplexResult else Err DomainError
    end in
  match as_i64 x, as_u64 y with
  | Some b, Some e => match checked_int_pow b e with Some z => Ok (of_int z) | None => in_f64 end
  | _, _ => match as_u64 x, as_u64 y with
            | Some b, Some e => match checked_u64 (b ^ Z.min e (2 ^ 32 - 1)) with Some z => Ok (of_int z) | None => in_f64 end
            | _, _ => in_f64
            end
  end.
End Pow.

(** eq.rs 82-92. *)
Definition num_eq : number -> number -> bool := tiered Z.eqb Z.eqb f_eqb.
(** arith.rs 525-541. *)
Definition num_ord : number -> number -> option comparison :=
  tiered (fun l r => Some (l ?= r)) (fun l r => Some (l ?= r)) SFcompare.
(** arith.rs 544-574 with the predicates at 596, 622, 648, 674. [None] is an error. *)
Definition ordered (pred : comparison -> bool) (x y : number) : option bool :=
  match num_ord x y with Some c => Some (pred c) | None => None end.
Definition gt := ordered (fun c => match c with Gt => true | _ => false end).
Definition gte := ordered (fun c => match c with Lt => false | _ => true end).
Definition lt := ordered (fun c => match c with Lt => true | _ => false end).
Definition lte := ordered (fun c => match c with Gt => false | _ => true end).

(** arith.rs 997-1022. *)
Definition require_i64 (x : number) : result Z :=
  match as_i64 x with
  | Some i => Ok i
  | None =>
      match as_u64 x with
      | Some u => if u <=? i64_max then Ok u else Err NotInteger
      | None =>
          let f := as_f64 x in
          if f_eqb (f_trunc f) f && f_leb (f_of_int i64_min) f && f_leb f (f_of_int i64_max)
          then Ok (f_to_i64 f) else Err NotInteger
      end
  end.
Definition on_i64 (op : Z -> Z -> result Z) (x y : number) : result number :=
  and_then (require_i64 x) (fun l => and_then (require_i64 y) (fun r => map_ok of_int (op l r))).
(** arith.rs 1032-1119. The bitwise operations of Z are those of two's complement of any width. *)
Definition bit_and := on_i64 (fun l r => Ok (Z.land l r)).
Definition bit_or := on_i64 (fun l r => Ok (Z.lor l r)).
Definition bit_xor := on_i64 (fun l r => Ok (Z.lxor l r)).
Definition bit_not (x : number) : result number := map_ok (fun i => of_int (Z.lnot i)) (require_i64 x).
(** Two's complement wrapping to 64 bits. *)
Definition wrap_i64 (z : Z) : Z := (z + 2 ^ 63) mod 2 ^ 64 - 2 ^ 63.
Definition in_shift (k : Z) : bool := (0 <=? k) && (k <? 64).
(** arith.rs 1131-1149, 1161-1179. *)
Definition shl := on_i64 (fun n k => if in_shift k then Ok (wrap_i64 (n * 2 ^ k)) else Err ShiftRange).
Definition shr := on_i64 (fun n k => if in_shift k then Ok (n / 2 ^ k) else Err ShiftRange).

(** support.rs 616-642, 669-681: a list of numbers to doubles and back; what is not finite comes back
    as 0. *)
Definition collect_num_list (xs : list number) : list spec_float := map as_f64 xs.
Definition return_num_list (fs : list spec_float) : list number :=
  map (fun f => match of_f64 f with Some n => n | None => PosInt 0 end) fs.
(** list.rs 425-438: a stable sort ([slice::sort_by]). *)
Fixpoint insert (f : spec_float) (l : list spec_float) : list spec_float :=
  match l with
  | [] => [f]
  | g :: l' => match SFcompare f g with Some Gt => g :: insert f l' | _ => f :: l end
  end.
Definition sort_nums (xs : list number) : list number :=
  return_num_list (fold_right insert [] (collect_num_list xs)).
(** running.rs 47-66, 79-98, 111-130: [step] is max, min or addition. *)
Fixpoint running (step : spec_float -> spec_float -> spec_float) (acc : spec_float) (fs : list spec_float) : list spec_float :=
  match fs with [] => [] | f :: fs => step acc f :: running step (step acc f) fs end.
Definition f_max (a b : spec_float) := match SFcompare a b with Some Lt => b | _ => a end.
Definition f_min (a b : spec_float) := match SFcompare a b with Some Gt => b | _ => a end.
Definition running_max (xs : list number) := return_num_list (running f_max (S754_infinity true) (collect_num_list xs)).
Definition running_min (xs : list number) := return_num_list (running f_min (S754_infinity false) (collect_num_list xs)).
Definition running_sum (xs : list number) := return_num_list (running f_add (S754_zero false) (collect_num_list xs)).
