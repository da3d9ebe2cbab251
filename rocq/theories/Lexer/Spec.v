(** What the lexer and the formatter should do, written without them. *)
From Coq Require Import List NArith Bool Arith.
Import ListNotations.
From Verif.Text Require Import Model.
From Verif.Lexer Require Import Model.
Open Scope N_scope.

(** Facts about the Unicode tables: no whitespace character is a letter or a digit, or a
    symbol, or punctuation.  (Its general category is Zs, Zl, Zp or Cc.) *)
Definition unicode (U : tables) : Prop :=
  forall c, is_whitespace c = true -> alphabetic U c = false /\ alphanumeric U c = false /\ general_category U c = Other.

(** ** Tokens and the source *)

(** The text of a list of tokens. *)
Definition text_of_all (ts : list token) : text := concat (map text_of ts).

(** Nothing but whitespace is missing between the tokens. *)
Definition visible (s : text) : text := filter (fun c => negb (is_whitespace c)) s.

(** A token is the part of the source at its position. *)
Definition slice (s : text) (t : token) : Prop :=
  text_of t <> [] /\ firstn (length (text_of t)) (skipn (start t) s) = text_of t.

(** Each token starts where the one before ends, or later. *)
Fixpoint in_order (from : nat) (ts : list token) : Prop :=
  match ts with
  | [] => True
  | t :: ts => (from <= start t)%nat /\ in_order (start t + length (text_of t)) ts
  end.

(** ** The shapes of tokens *)

(** A numeral: digits, maybe with a point and more digits, maybe with a sign. *)
Definition Numeral (s : text) : Prop :=
  exists sign ds more, s = sign ++ ds ++ more /\ (sign = [] \/ sign = [45]) /\ ds <> [] /\ Forall (fun c => 48 <= c <= 57) ds /\
    (more = [] \/ exists ds', more = 46 :: ds' /\ Forall (fun c => 48 <= c <= 57) ds').

(** [Quote q s]: [s] is [q], characters other than [q], and [q]. *)
Definition Quote (q : N) (s : text) : Prop := exists n, s = q :: n ++ [q] /\ ~ In q n.
(** The same, without the last [q]. *)
Definition Unclosed (q : N) (s : text) : Prop := exists n, s = q :: n /\ ~ In q n.

(** The content of a c-string: no bare double quote, and a backslash goes with the character after it. *)
Inductive CContent : text -> Prop :=
| CContent_nil : CContent []
| CContent_plain : forall c s, c <> 34 -> c <> 92 -> CContent s -> CContent (c :: s)
| CContent_escape : forall c s, CContent s -> CContent (92 :: c :: s).
Definition CQuote (s : text) : Prop := exists n, s = 34 :: n ++ [34] /\ CContent n.
Definition CUnclosed (s : text) : Prop := exists n, s = 34 :: n /\ (CContent n \/ exists n', n = n' ++ [92] /\ CContent n').

(** [Closed t]: if the token [t] begins a quotation it ends it. *)
Definition Closed (t : token) : Prop :=
  let s := text_of t in
  match kind_of t with
  | SINGLE_QUOTE_IDENTIFIER => Quote 39 s
  | SYMBOL => forall s', s = 58 :: 39 :: s' -> Quote 39 (39 :: s')
  | STRING => Quote 34 s
  | RAW_STRING | T_STRING | S_STRING => exists p s', s = p :: s' /\ Quote 34 s'
  | C_STRING => exists p s', s = p :: s' /\ CQuote s'
  | _ => True
  end.

(** What the text of a token of each kind looks like. *)
Definition Identifier (U : tables) (s : text) : Prop :=
  exists c s', s = c :: s' /\ is_normal_start U c = true /\ Forall (fun c => is_normal_continuation U c = true) s'.
Definition Shape (U : tables) (t : token) : Prop :=
  let s := text_of t in
  match kind_of t with
  | WHITESPACE => s <> [] /\ Forall (fun c => is_whitespace c = true) s
  | COMMENT => exists s', s = 35 :: s' /\ ~ In 10 s'
  | UNQUOTED_IDENTIFIER => Identifier U s
  | OPERATOR_IDENTIFIER => exists c s', s = c :: s' /\ is_oper_start U c = true /\ Forall (fun c => is_oper_continuation U c = true) s'
  | NUMBER => Numeral s
  | SYMBOL => exists s', s = 58 :: s' /\ (Identifier U s' \/ Quote 39 s' \/ Unclosed 39 s')
  | SINGLE_QUOTE_IDENTIFIER => Quote 39 s \/ Unclosed 39 s
  | STRING => Quote 34 s \/ Unclosed 34 s
  | C_STRING => exists s', s = 99 :: s' /\ (CQuote s' \/ CUnclosed s')
  | RAW_STRING => exists s', s = 114 :: s' /\ (Quote 34 s' \/ Unclosed 34 s')
  | T_STRING => exists s', s = 116 :: s' /\ (Quote 34 s' \/ Unclosed 34 s')
  | S_STRING => exists s', s = 115 :: s' /\ (Quote 34 s' \/ Unclosed 34 s')
  | OPEN_PAREN | OPEN_PAREN_APPLY => s = [40]
  | CLOSE_PAREN => s = [41]
  | OPEN_SQUARE | OPEN_SQUARE_APPLY => s = [91]
  | CLOSE_SQUARE => s = [93]
  | OPEN_BRACE | OPEN_BRACE_APPLY => s = [123]
  | CLOSE_BRACE => s = [125]
  | COMMA => s = [44]
  | BACKTICK => s = [96]
  | COLON => s = [58]
  | BRACKET_OPEN => exists c, s = [c] /\ 128 <= c /\ opening U c = true
  | BRACKET_CLOSE => exists c, s = [c] /\ 128 <= c /\ closing U c = true
  | PATTERN_START Plain => s = [34]
  | PATTERN_START CString => s = [99; 34]
  | PATTERN_START Raw => s = [114; 34]
  | PATTERN_END _ => s = [34]
  | _ => True
  end.

(** ** Where tokens end *)

(** The text is at an end, or its first character does not meet [p]. *)
Definition stops (p : N -> bool) (r : text) : Prop := match r with [] => True | c :: _ => p c = false end.

(** [Maximal t rest]: with [rest] after it in the source, the token [t] could not have gone on. *)
Definition Maximal (U : tables) (t : token) (rest : text) : Prop :=
  let s := text_of t in
  match kind_of t with
  | WHITESPACE => stops is_whitespace rest
  | COMMENT => stops (fun c => negb (c =? 10)) rest
  | UNQUOTED_IDENTIFIER =>
      stops (is_normal_continuation U) rest /\
      (In s [[99]; [114]; [116]; [115]] -> stops (N.eqb 34) rest)
  | OPERATOR_IDENTIFIER => stops (is_oper_continuation U) rest /\ (s = [45] -> stops ascii_digit rest)
  | NUMBER => stops ascii_digit rest /\ (~ In 46 s -> stops (N.eqb 46) rest)
  | SYMBOL => Identifier U (tl s) -> stops (is_normal_continuation U) rest
  | COLON => stops (is_normal_start U) rest /\ stops (N.eqb 39) rest
  | _ => True
  end.

(** ** Formatting *)

(** The tokens without their places and without whitespace. *)
Definition words (ts : list token) : list (kind * text) :=
  map (fun t => (kind_of t, text_of t)) (filter (fun t => match kind_of t with WHITESPACE => false | _ => true end) ts).

(** The column after a text that begins at column [col], with tab stops every eight columns
    and carriage returns of no width. *)
Fixpoint display (col : nat) (s : text) : nat :=
  match s with
  | [] => col
  | c :: s =>
      display (if c =? 10 then 0%nat else if c =? 9 then (8 * (col / 8 + 1))%nat else if c =? 13 then col else (col + 1)%nat) s
  end.

(** The number of line ends. *)
Definition lines (s : text) : nat := count_occ N.eq_dec s 10.

(** A whitespace token of nothing but carriage returns. *)
Definition only_returns (t : token) : Prop := kind_of t = WHITESPACE /\ Forall (fun c => c = 13) (text_of t).
