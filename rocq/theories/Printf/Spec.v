(** What a user expects of a format specifier, in terms of the characters written.  Refers to the
    model only for the kinds of value that can be formatted. *)
From Coq Require Import ZArith NArith List Bool Floats.SpecFloat.
From Verif Require Import Numbers.Model Numbers.Spec Printf.Model.
Import ListNotations.
Open Scope N_scope.

(** ** Numerals *)

Definition digit_of (c : N) : N :=
  if c <=? 57 then c - 48 else if c <=? 70 then c - 55 else c - 87.

(** 0-9, then a-f or A-F. *)
Definition is_digit (upper : bool) (base c : N) : Prop :=
  (48 <= c <= 57 \/ (if upper then 65 <= c <= 70 else 97 <= c <= 102)) /\ digit_of c < base.

Fixpoint value_in (base : N) (t : text) : N :=
  match t with
  | [] => 0
  | c :: r => digit_of c * base ^ N.of_nat (length r) + value_in base r
  end.

(** The numeral of [n]: no leading zeros, except for zero itself. *)
Definition numeral (upper : bool) (base n : N) (t : text) : Prop :=
  t <> [] /\ Forall (is_digit upper base) t /\ value_in base t = n /\ (hd 0 t = 48 -> t = [48]).

(** ** Specifiers as they are written: %[flags][width][.precision][length]letter *)

Record request := mkRequest
  { marks : text; wide : text; precise : option text; long : text; conv : N }.

Definition spelled (r : request) : text :=
  37 :: marks r ++ wide r ++
    match precise r with None => [] | Some p => 46 :: p end ++ long r ++ [conv r].

Definition decimal_digits (t : text) : Prop := Forall (fun c => 48 <= c <= 57) t.

(** The flags are any of - + space 0 ' #, the width a decimal number that does not start with 0, the
    length one of h hh l ll z t or nothing, the letter one of d i u o x X f F e E g G a A s c. *)
Definition well_formed (r : request) : Prop :=
  Forall (fun c => In c [45; 43; 32; 48; 39; 35]) (marks r) /\
  decimal_digits (wide r) /\ hd 0 (wide r) <> 48 /\
  match precise r with None => True | Some p => decimal_digits p end /\
  In (long r) [[]; [104]; [104; 104]; [108]; [108; 108]; [122]; [116]] /\
  In (conv r) [100; 105; 117; 111; 120; 88; 102; 70; 101; 69; 103; 71; 97; 65; 115; 99].

Definition min_width (r : request) : N := value_in 10 (wide r).

(** Widths and precisions that Rust can hold and format with. *)
Definition usable (limit : option N) (n : N) : Prop :=
  n < 2 ^ 64 /\ match limit with Some l => n <= l | None => True end.

Definition sizes_usable (limit : option N) (r : request) : Prop :=
  usable limit (min_width r) /\
  match precise r with None => True | Some p => usable limit (value_in 10 p) end.

(** ** Fields *)

Definition fills (w : N) (body out : text) : Prop :=
  N.of_nat (length out) = N.max w (N.of_nat (length body)).

(** [out] is [body] with only spaces added, on one side, up to the width. *)
Definition on_left (w : N) (body out : text) : Prop :=
  fills w body out /\ exists k, out = body ++ repeat 32 k.
Definition on_right (w : N) (body out : text) : Prop :=
  fills w body out /\ exists k, out = repeat 32 k ++ body.
(** The same with zeros between sign and digits. *)
Definition zero_filled (w : N) (sign body out : text) : Prop :=
  fills w (sign ++ body) out /\ exists k, out = sign ++ repeat 48 k ++ body.

Definition text_field (r : request) (body out : text) : Prop :=
  (In 45 (marks r) -> on_left (min_width r) body out) /\
  (~ In 45 (marks r) -> on_right (min_width r) body out).

Definition number_field (r : request) (sign body out : text) : Prop :=
  (In 45 (marks r) -> on_left (min_width r) (sign ++ body) out) /\
  (~ In 45 (marks r) -> In 48 (marks r) -> zero_filled (min_width r) sign body out) /\
  (~ In 45 (marks r) -> ~ In 48 (marks r) -> on_right (min_width r) (sign ++ body) out).

(** The part of a text that the precision leaves. *)
Definition kept (r : request) (s : text) : text :=
  match precise r with None => s | Some p => firstn (N.to_nat (value_in 10 p)) s end.

(** The sign of a number that is negative or not. *)
Definition sign_of (r : request) (negative : Prop) (sign : text) : Prop :=
  (negative -> sign = [45]) /\
  (~ negative -> In 43 (marks r) -> sign = [43]) /\
  (~ negative -> ~ In 43 (marks r) -> sign = []).

(** Rust's Display of doubles: a whole number up to 2^53 is its decimal numeral. *)
Definition prints_whole (float_text : notation -> option N -> spec_float -> text) : Prop :=
  forall f n, double f -> units f = (Z.of_N n * scale)%Z -> n <= 2 ^ 53 ->
    numeral false 10 n (float_text Plain None f).
