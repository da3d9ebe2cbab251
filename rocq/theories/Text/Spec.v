(** What string literals mean, written without the scanner, the lexers or the parser. *)
From Coq Require Import List NArith ZArith Bool.
Import ListNotations.
From Verif.Text Require Import Model.
Open Scope N_scope.

(** ** Characters *)

(** A Unicode scalar value. *)
Definition scalar (c : N) : Prop := c < 0xD800 \/ (0xDFFF < c /\ c <= 0x10FFFF).

(** [c] is the hexadecimal digit of value [d]: 0-9, a-f or A-F. *)
Definition Digit (c d : N) : Prop :=
  (d < 10 /\ c = 48 + d) \/ (10 <= d < 16 /\ (c = 87 + d \/ c = 55 + d)).

(** [s] is [n] hexadecimal digits of value [v], most significant first. *)
Inductive Hex : nat -> text -> N -> Prop :=
| Hex_nil : Hex 0 [] 0
| Hex_snoc : forall n s c v d, Hex n s v -> Digit c d -> Hex (S n) (s ++ [c]) (16 * v + d).

(** The one-letter escapes of the c-string syntax: n, r, t, backslash, double quote, 0 and
    the braces. *)
Definition letter_escapes : list (N * N) :=
  [(110, 10); (114, 13); (116, 9); (92, 92); (34, 34); (48, 0); (123, 123); (125, 125)].

(** The escapes with digits: x takes two, u four, U eight. *)
Definition digit_escapes : list (N * nat) := [(120, 2%nat); (117, 4%nat); (85, 8%nat)].

(** [Unit_ s c]: the characters [s] of a c-string write the one character [c]. *)
Inductive Unit_ : text -> N -> Prop :=
| Unit_plain : forall c, c <> 92 -> Unit_ [c] c
| Unit_letter : forall e c, In (e, c) letter_escapes -> Unit_ [92; e] c
| Unit_digits : forall e n s v, In (e, n) digit_escapes -> Hex n s v -> scalar v -> Unit_ (92 :: e :: s) v.

(** [Spells s t]: the c-string content [s] writes the text [t]. *)
Inductive Spells : text -> text -> Prop :=
| Spells_nil : Spells [] []
| Spells_cons : forall u c s t, Unit_ u c -> Spells s t -> Spells (u ++ s) (c :: t).

(** [Fault s e]: [s] begins with a malformed escape, to be reported as [e]. *)
Inductive Fault : text -> escape_error -> Prop :=
| Fault_end : Fault [92] UnexpectedEndOfString
| Fault_unknown : forall e s,
    ~ In e (map fst letter_escapes) -> ~ In e (map fst digit_escapes) ->
    Fault (92 :: e :: s) (InvalidEscape e)
| Fault_short : forall e n k ds v, In (e, n) digit_escapes -> Hex k ds v -> (k < n)%nat ->
    Fault (92 :: e :: ds) TruncatedEscape
| Fault_digit : forall e n k ds v c s, In (e, n) digit_escapes -> Hex k ds v -> (k < n)%nat ->
    (forall d, ~ Digit c d) -> Fault (92 :: e :: ds ++ c :: s) (InvalidHexDigit c)
| Fault_point : forall e n ds v s, In (e, n) digit_escapes -> Hex n ds v -> ~ scalar v ->
    Fault (92 :: e :: ds ++ s) (InvalidCodePoint v).

(** One way to write any text in a c-string: a backslash before each backslash, double quote
    and brace. *)
Definition c_quote (t : text) : text :=
  flat_map (fun c => if existsb (N.eqb c) [92; 34; 123; 125] then [92; c] else [c]) t.

(** Braces doubled, as plain and raw strings write them. *)
Definition double_braces (t : text) : text :=
  flat_map (fun c => if existsb (N.eqb c) [123; 125] then [c; c] else [c]) t.

(** ** Templates *)

(** A part of a template: text, with the source it is written as; or a hole, the names of
    its dotted path and its format. *)
Inductive item := Text (source value : text) | Hole (names : list text) (format : option text).

Fixpoint join (sep : text) (l : list text) : text :=
  match l with [] => [] | [x] => x | x :: l => x ++ sep ++ join sep l end.

(** The source of a template, between its quotes. *)
Definition item_source (i : item) : text :=
  match i with
  | Text s _ => s
  | Hole names format =>
      [123] ++ join [46] names ++ match format with None => [] | Some f => 58 :: f end ++ [125]
  end.
Definition source (is : list item) : text := concat (map item_source is).

(** [Number s z]: [s] is a decimal numeral, maybe with a sign, of a 32 bit value [z]. *)
Inductive Decimal : text -> Z -> Prop :=
| Decimal_nil : Decimal [] 0
| Decimal_snoc : forall s d z, Decimal s z -> d < 10 -> Decimal (s ++ [48 + d]) (10 * z + Z.of_N d).
Definition Number (s : text) (z : Z) : Prop :=
  (- 2 ^ 31 <= z < 2 ^ 31)%Z /\ exists sign ds v, s = sign ++ ds /\ ds <> [] /\ Decimal ds v /\
    ((sign = [] \/ sign = [43]) /\ z = v \/ sign = [45] /\ z = (- v)%Z).

(** What a hole refers to: nothing for the next argument, a number for that argument, a name,
    or a dotted path of names. *)
Inductive Refers : list text -> target -> Prop :=
| Refers_next : Refers [] Anonymous
| Refers_number : forall n z, Number n z -> Refers [n] (Numbered z)
| Refers_name : forall n, (forall z, ~ Number n z) -> Refers [n] (Name n)
| Refers_path : forall n m more, Refers (n :: m :: more) (Path n (m :: more)).

(** The value of a template when [show] gives the text of each hole.  Holes are numbered
    from [k], because the holes without a name take the arguments in turn. *)
Inductive Value (show : nat -> target -> option text -> text) : nat -> list item -> text -> Prop :=
| Value_nil : forall k, Value show k [] []
| Value_text : forall k s v is t, Value show k is t -> Value show k (Text s v :: is) (v ++ t)
| Value_hole : forall k ns r f is t, Refers ns r -> Value show (S k) is t -> Value show k (Hole ns f :: is) (show k r f ++ t).

(** The value of the pieces a string is compiled to: they are joined in order. *)
Fixpoint joined (show : nat -> target -> option text -> text) (k : nat) (ps : list piece) : text :=
  match ps with
  | [] => []
  | PText s :: ps => s ++ joined show k ps
  | PHole r f :: ps => show k r f ++ joined show (S k) ps
  end.

(** The string [content] compiles, and to pieces with the value of the template. *)
Definition means (p : prefix) (content : text) (is : list item) : Prop :=
  exists ps, pieces p content = Some (Ok ps) /\ forall show, Value show 0 is (joined show 0 ps).

(** Names and formats as the syntax expects them: not empty, without the characters that end
    them, and without quotes, backslashes and braces. *)
Definition name_ok (n : text) : Prop :=
  n <> [] /\ Forall (fun c => is_whitespace c = false /\ ~ In c [34; 92; 123; 125; 58; 46]) n.
Definition format_ok (f : text) : Prop :=
  exists c f', f = c :: f' /\ is_whitespace c = false /\ c <> 46 /\ Forall (fun c => ~ In c [34; 92; 123; 125; 58]) f.
Definition hole_ok (i : item) : Prop :=
  match i with
  | Text _ _ => True
  | Hole ns f => Forall name_ok ns /\ match f with None => True | Some f => format_ok f end
  end.

(** Text as a plain or raw string writes it: braces doubled, and no double quote. *)
Definition plain_text (i : item) : Prop :=
  match i with Text s v => s = double_braces v /\ ~ In 34 v | Hole _ _ => True end.

(** Text as a c-string writes it: no bare brace and no bare quote. *)
Inductive CSpells : text -> text -> Prop :=
| CSpells_nil : CSpells [] []
| CSpells_cons : forall u c s t, Unit_ u c -> ~ (exists b, In b [34; 123; 125] /\ u = [b]) -> CSpells s t -> CSpells (u ++ s) (c :: t).
Definition c_text (i : item) : Prop :=
  match i with Text s v => CSpells s v | Hole _ _ => True end.

(** [follows is s]: [s] is what the template has after one of its holes. *)
Definition follows (is : list item) (s : text) : Prop :=
  exists pre ns f post, is = pre ++ Hole ns f :: post /\ s = source post.
Definition begins (c : N) (s : text) : Prop := exists s', s = c :: s'.

(** Without the closing braces at the start of the text after a hole. *)
Fixpoint drop_close (v : text) : text :=
  match v with c :: v' => if N.eqb c 125 then drop_close v' else v | [] => [] end.
Fixpoint without_leading_close (after_hole : bool) (is : list item) : list item :=
  match is with
  | [] => []
  | Hole ns f :: is => Hole ns f :: without_leading_close true is
  | Text s v :: is =>
      let v' := if after_hole then drop_close v else v in
      Text (double_braces v') v' :: without_leading_close (after_hole && match v' with [] => true | _ => false end) is
  end.

(** ** The shell *)

(** [Word s v]: POSIX (Shell Command Language 2.2) reads the characters [s] as one word of
    value [v], with no expansion: single quotes keep everything up to the next one, a
    backslash keeps the next character (not a newline), and letters, digits and - _ . / stand for themselves. *)
Definition harmless (c : N) : Prop :=
  48 <= c <= 57 \/ 65 <= c <= 90 \/ 97 <= c <= 122 \/ In c [45; 95; 46; 47].
Inductive Word : text -> text -> Prop :=
| Word_nil : Word [] []
| Word_quoted : forall s rest v, ~ In 39 s -> Word rest v -> Word ([39] ++ s ++ [39] ++ rest) (s ++ v)
| Word_backslash : forall c rest v, c <> 10 -> Word rest v -> Word (92 :: c :: rest) (c :: v)
| Word_plain : forall c rest v, harmless c -> Word rest v -> Word (c :: rest) (c :: v).

(** [Quoted s v]: POSIX reads the characters [s] between double quotes as [v], with no
    expansion: a backslash keeps dollar, backtick, double quote and backslash, removes a
    newline, and otherwise stands for itself. *)
Inductive Quoted : text -> text -> Prop :=
| Quoted_nil : Quoted [] []
| Quoted_escape : forall c s v, In c [36; 96; 34; 92] -> Quoted s v -> Quoted (92 :: c :: s) (c :: v)
| Quoted_newline : forall s v, Quoted s v -> Quoted (92 :: 10 :: s) v
| Quoted_backslash : forall c s v, ~ In c [36; 96; 34; 92; 10] -> Quoted s v -> Quoted (92 :: c :: s) (92 :: c :: v)
| Quoted_plain : forall c s v, ~ In c [36; 96; 34; 92] -> Quoted s v -> Quoted (c :: s) (c :: v).

(** Every backslash twice. *)
Definition double_backslashes (s : text) : text :=
  flat_map (fun c => if N.eqb c 92 then [92; 92] else [c]) s.
