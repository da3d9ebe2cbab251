(** * Formatting one value: FMT

    Models src/eval/stg/printf.rs and the wrapper and body of FMT, src/eval/stg/string.rs:296-415:
    what [str.fmt] and an interpolation such as "{n:%06d}" give.

    Simplifications: a text is the list of its code points, a format string too (the code reads its
    bytes; bytes of other characters are never part of a specifier).  How Rust prints the absolute
    value of a double is a parameter.  Dates, and natives that are always refused, are left out. *)
From Coq Require Import ZArith NArith List Bool Floats.SpecFloat.
From Verif Require Import Numbers.Model.
Import ListNotations.
Open Scope N_scope.

Definition text := list N.

(** The characters the code compares against. *)
Definition PERCENT : N := 37. Definition MINUS : N := 45. Definition PLUS : N := 43.
Definition SPACE : N := 32. Definition ZERO : N := 48. Definition QUOTE : N := 39.
Definition HASH : N := 35. Definition DOT : N := 46. Definition NINE : N := 57.

(** ** The specifier *)

(** Flags.  src/eval/stg/printf.rs:22-60.  The flags for space, grouping and alternate form are
    never looked at. *)
Record flags := mkFlags { left_align : bool; prepend_plus : bool; prepend_zero : bool;
                          prepend_space : bool; grouping : bool; alternate : bool }.

Definition no_flags : flags := mkFlags false false false false false false.

(** DoubleFormat and Specifier.  src/eval/stg/printf.rs:62-107. *)
Inductive double_format := Normal | UpperNormal | Scientific | UpperScientific
  | Auto | UpperAuto | HexF | UpperHexF.
Inductive specifier := Int | Uint | Octal | Double (f : double_format) | String | Char | Hex | UpperHex.

(** Argument, without the length, which is parsed and not used.  src/eval/stg/printf.rs:109-116. *)
Record argument := mkArgument { aflags : flags; width : N; precision : option N; spec : specifier }.

(** parse_flags.  src/eval/stg/printf.rs:122-138. *)
Fixpoint parse_flags (f : flags) (sub : text) : flags * text :=
  match sub with
  | c :: r =>
    if c =? MINUS then
      parse_flags (mkFlags true (prepend_plus f) (prepend_zero f) (prepend_space f) (grouping f) (alternate f)) r
    else if c =? PLUS then
      parse_flags (mkFlags (left_align f) true (prepend_zero f) (prepend_space f) (grouping f) (alternate f)) r
    else if c =? SPACE then
      parse_flags (mkFlags (left_align f) (prepend_plus f) (prepend_zero f) true (grouping f) (alternate f)) r
    else if c =? ZERO then
      parse_flags (mkFlags (left_align f) (prepend_plus f) true (prepend_space f) (grouping f) (alternate f)) r
    else if c =? QUOTE then
      parse_flags (mkFlags (left_align f) (prepend_plus f) (prepend_zero f) (prepend_space f) true (alternate f)) r
    else if c =? HASH then
      parse_flags (mkFlags (left_align f) (prepend_plus f) (prepend_zero f) (prepend_space f) (grouping f) true) r
    else (f, sub)
  | [] => (f, [])
  end.

(** parse_width, on a usize that wraps as it does in a release build.
    src/eval/stg/printf.rs:140-156. *)
Fixpoint parse_width (w : N) (sub : text) : N * text :=
  match sub with
  | c :: r =>
    if (ZERO <=? c) && (c <=? NINE) then parse_width ((w * 10 + N.land c 15) mod 2 ^ 64) r else (w, sub)
  | [] => (w, [])
  end.

(** parse_precision.  src/eval/stg/printf.rs:158-170. *)
Definition parse_precision (sub : text) : option N * text :=
  match sub with
  | c :: r => if c =? DOT then let '(p, r') := parse_width 0 r in (Some p, r') else (None, sub)
  | [] => (None, [])
  end.

(** parse_length: h hh l ll z t, dropped.  src/eval/stg/printf.rs:189-204. *)
Definition parse_length (sub : text) : text :=
  match sub with
  | 104 :: r => match r with 104 :: r' => r' | _ => r end
  | 108 :: r => match r with 108 :: r' => r' | _ => r end
  | 122 :: r => r
  | 116 :: r => r
  | _ => sub
  end.

(** The letters of parse_format.  src/eval/stg/printf.rs:221-255. *)
Definition letter (c : N) : option specifier :=
  match c with
  | 100 | 105 => Some Int
  | 120 => Some Hex
  | 88 => Some UpperHex
  | 117 => Some Uint
  | 111 => Some Octal
  | 102 => Some (Double Normal)
  | 70 => Some (Double UpperNormal)
  | 101 => Some (Double Scientific)
  | 69 => Some (Double UpperScientific)
  | 103 => Some (Double Auto)
  | 71 => Some (Double UpperAuto)
  | 97 => Some (Double HexF)
  | 65 => Some (Double UpperHexF)
  | 115 => Some String
  | 99 => Some Char
  | _ => None
  end.

(** parse_format.  src/eval/stg/printf.rs:206-264.  What follows the letter is not looked at. *)
Definition parse_format (s : text) : option argument :=
  match s with
  | c :: sub =>
    if c =? PERCENT then
      let '(f, sub) := parse_flags no_flags sub in
      let '(w, sub) := parse_width 0 sub in
      let '(p, sub) := parse_precision sub in
      let sub := parse_length sub in
      match letter (hd 0 sub) with
      | Some x => Some (mkArgument f w p x)
      | None => None
      end
    else None
  | [] => None
  end.

(** ** Rust's own formatting *)

(** The digits of a number in a base, most significant first, in the code points Rust uses.  The
    fuel is the number of binary digits, so it is never short. *)
Definition digit (upper : bool) (d : N) : N :=
  if d <? 10 then 48 + d else (if upper then 55 else 87) + d.

Fixpoint digits (upper : bool) (base : N) (fuel : nat) (n : N) (acc : text) : text :=
  match fuel with
  | O => acc
  | S fuel =>
    let acc := digit upper (n mod base) :: acc in
    if n / base =? 0 then acc else digits upper base fuel (n / base) acc
  end.

(** core::fmt for o, x and X of an i64: of its bits as a u64. *)
Definition radix_text (upper : bool) (base : N) (z : Z) : text :=
  let n := Z.to_N (z mod 2 ^ 64) in digits upper base (S (N.to_nat (N.log2 n))) n [].

(** The alignment and padding of a Rust format argument. *)
Inductive align := Left | Right | SignAware.

Definition padding (c : N) (w : N) (len : nat) : text := repeat c (N.to_nat w - len).

(** Formatter::pad_integral and pad_formatted_parts: the sign apart from the digits, so that zeros
    go between. *)
Definition pad (a : align) (w : N) (sign body : text) : text :=
  match a with
  | Left => sign ++ body ++ padding SPACE w (length (sign ++ body))
  | Right => padding SPACE w (length (sign ++ body)) ++ sign ++ body
  | SignAware => sign ++ padding ZERO w (length (sign ++ body)) ++ body
  end.

(** Formatter::pad of a str: cut to the precision, then padded. *)
Definition pad_str (a : align) (w p : N) (s : text) : text := pad a w [] (firstn (N.to_nat p) s).

Inductive outcome := Done (t : text) | BadFormat | BadNumericType | Panic.

(** How many bytes a character takes. *)
Definition utf8_len (c : N) : N :=
  if c <? 128 then 1 else if c <? 2048 then 2 else if c <? 65536 then 3 else 4.

Definition byte_len (s : text) : N := fold_right (fun c n => utf8_len c + n) 0 s.

(** serde_json::Number::as_i64. *)
Definition as_i64 (x : number) : option Z :=
  match x with
  | PosInt n => if in_i64 n then Some n else None
  | NegInt z => Some z
  | Float _ => None
  end.

Definition is_negative (f : spec_float) : bool :=
  match f with S754_zero s | S754_finite s _ _ | S754_infinity s => s | S754_nan => false end.

(** Notations of core::fmt for doubles: Display, LowerExp, UpperExp. *)
Inductive notation := Plain | LowerExp | UpperExp.

Section Fmt.

(** What Rust prints for the absolute value of a finite double. *)
Variable float_text : notation -> option N -> spec_float -> text.

(** The largest width or precision that Rust's formatting takes: 65535 since Rust 1.87, which
    panics above it, none before. *)
Variable limit : option N.

Definition within (n : N) : bool := match limit with Some l => n <=? l | None => true end.

(** write_str.  src/eval/stg/printf.rs:277-290. *)
Definition write_str (f : flags) (w : N) (p : option N) (s : text) : outcome :=
  let p := match p with Some p => p | None => byte_len s end in
  if within w && within p then Done (pad_str (if left_align f then Left else Right) w p s) else Panic.

(** The branches at the end of write_numeric.  src/eval/stg/printf.rs:378-395. *)
Definition numeric_align (f : flags) : align :=
  if left_align f then Left else if prepend_zero f then SignAware else Right.

(** write_flags and write_using for an integer; the precision is dropped by Rust. *)
Definition write_radix (f : flags) (w : N) (p : option N) (upper : bool) (base : N) (x : number) : outcome :=
  match as_i64 x with
  | Some z =>
    if within w && match p with Some p => within p | None => true end then
      Done (pad (numeric_align f) w (if prepend_plus f then [PLUS] else []) (radix_text upper base z))
    else Panic
  | None => BadNumericType
  end.

Definition write_double (f : flags) (w : N) (p : option N) (n : notation) (x : number) : outcome :=
  let d := as_f64 x in
  if within w && match p with Some p => within p | None => true end then
    Done (pad (numeric_align f) w
            (if is_negative d then [MINUS] else if prepend_plus f then [PLUS] else [])
            (float_text n p (SFabs d)))
  else Panic.

(** write_numeric.  src/eval/stg/printf.rs:292-396. *)
Definition write_numeric (a : argument) (x : number) : outcome :=
  let '(mkArgument f w p s) := a in
  match s with
  | Octal => write_radix f w p false 8 x
  | Hex => write_radix f w p false 16 x
  | UpperHex => write_radix f w p true 16 x
  | Double Scientific => write_double f w p LowerExp x
  | Double UpperScientific => write_double f w p UpperExp x
  | _ => write_double f w p Plain x
  end.

(** What FMT is given: a string or symbol, a number, a boolean or null. *)
Inductive value := Text (s : text) | Num (x : number) | Bool (b : bool) | Unit.

(** "true", "false", "null". *)
Definition TRUE : text := [116; 114; 117; 101].
Definition FALSE : text := [102; 97; 108; 115; 101].
Definition NULL : text := [110; 117; 108; 108].

(** FMT: its wrapper, and printf::fmt.  src/eval/stg/string.rs:327-388;
    src/eval/stg/printf.rs:398-483. *)
Definition fmt (s : text) (v : value) : outcome :=
  match v with
  | Bool true => Done TRUE
  | Bool false => Done FALSE
  | Unit => Done NULL
  | Text t =>
    match parse_format s with
    | Some a => write_str (aflags a) (width a) (precision a) t
    | None => BadFormat
    end
  | Num x =>
    match parse_format s with Some a => write_numeric a x | None => BadFormat end
  end.

End Fmt.
