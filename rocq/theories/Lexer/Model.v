(** The lexer and the conservative formatter. *)
From Coq Require Import List NArith Bool Arith.
Import ListNotations.
From Verif.Text Require Import Model.
Open Scope N_scope.

(** ** Characters *)

(** [GeneralCategory], as far as the lexer tells the categories apart (lex.rs:11-34): the
    symbols (Sm, Sc, Sk, So), the other punctuation (Pc, Pd, Po), opening (Ps), initial
    (Pi), closing (Pe) and final (Pf) punctuation, and all others. *)
Inductive category := Symbol | Punctuation | Open | Initial | Close | Final | Other.

(** What the Unicode tables say of characters that are not ASCII: [char::is_alphabetic],
    [char::is_alphanumeric] and [get_general_category]. *)
Record tables := { alphabetic : N -> bool; alphanumeric : N -> bool; general_category : N -> category }.

(** Membership in ASCII ranges and sets. *)
Definition between (a c b : N) : bool := (a <=? c) && (c <=? b).
Definition one_of (cs : list N) (c : N) : bool := existsb (N.eqb c) cs.

Definition is_ascii (c : N) : bool := c <? 128.
Definition ascii_digit (c : N) : bool := between 48 c 57.
Definition ascii_letter (c : N) : bool := between 65 c 90 || between 97 c 122.

Definition is_alphabetic (U : tables) (c : N) : bool :=
  if is_ascii c then ascii_letter c else alphabetic U c.
Definition is_alphanumeric (U : tables) (c : N) : bool :=
  if is_ascii c then ascii_letter c || ascii_digit c else alphanumeric U c.

(** [get_general_category].  In ASCII the symbols are [$+<=>^`|~], the brackets open and
    close, and the punctuation is the double quote, the single quote and [!#%&*,-./:;?@\_]. *)
Definition get_general_category (U : tables) (c : N) : category :=
  if is_ascii c then
    if one_of [36; 43; 60; 61; 62; 94; 96; 124; 126] c then Symbol
    else if one_of [40; 91; 123] c then Open
    else if one_of [41; 93; 125] c then Close
    else if one_of [33; 34; 35; 37; 38; 39; 42; 44; 45; 46; 47; 58; 59; 63; 64; 92; 95] c then Punctuation
    else Other
  else general_category U c.

Definition symbol_or_punctuation (k : category) : bool :=
  match k with Symbol | Punctuation => true | _ => false end.

(** [is_normal_start], lex.rs:68-76: the bullet (U+2022) and [$?_], or a letter. *)
Definition is_normal_start (U : tables) (c : N) : bool :=
  one_of [0x2022; 36; 63; 95] c || is_alphabetic U c.

(** [is_normal_continuation], lex.rs:79-89: [$?_!-*], letters and digits. *)
Definition is_normal_continuation (U : tables) (c : N) : bool :=
  one_of [36; 63; 95; 33; 45; 42] c || is_alphanumeric U c.

(** [is_oper_start], lex.rs:92-135: in ASCII [.!@%^&*|></+=-~;] are, the quotes, [,:_],
    letters, digits and brackets are not, and the others by category. *)
Definition is_oper_start (U : tables) (c : N) : bool :=
  if is_ascii c then
    if one_of [46; 33; 64; 37; 94; 38; 42; 124; 62; 60; 47; 43; 61; 45; 126; 59] c then true
    else if one_of [34; 39; 95; 32; 9; 10; 13; 40; 41; 91; 93; 123; 125; 44; 58] c || ascii_letter c || ascii_digit c then false
    else symbol_or_punctuation (get_general_category U c)
  else symbol_or_punctuation (get_general_category U c).

(** [is_oper_continuation], lex.rs:138-181: the same, with [$] and [?]. *)
Definition is_oper_continuation (U : tables) (c : N) : bool :=
  if is_ascii c then
    if one_of [46; 33; 64; 36; 37; 94; 38; 42; 124; 62; 60; 47; 63; 43; 61; 45; 126; 59] c then true
    else if one_of [34; 39; 44; 58; 95; 32; 9; 10; 13; 40; 41; 91; 93; 123; 125] c || ascii_letter c || ascii_digit c then false
    else symbol_or_punctuation (get_general_category U c)
  else symbol_or_punctuation (get_general_category U c).

(** [is_reserved_open], [is_reserved_close], lex.rs:183-205, and [is_bracket_open],
    [is_bracket_close], brackets.rs:24-50. *)
Definition opening (U : tables) (c : N) : bool := match get_general_category U c with Open | Initial => true | _ => false end.
Definition closing (U : tables) (c : N) : bool := match get_general_category U c with Close | Final => true | _ => false end.
Definition is_reserved_open (U : tables) (c : N) : bool := if is_ascii c then one_of [40; 91; 123] c else opening U c.
Definition is_reserved_close (U : tables) (c : N) : bool := if is_ascii c then one_of [41; 93; 125] c else closing U c.
Definition is_bracket_open (U : tables) (c : N) : bool := if is_ascii c then false else opening U c.
Definition is_bracket_close (U : tables) (c : N) : bool := if is_ascii c then false else closing U c.

(** ** Tokens *)

(** The kinds of token, src/syntax/rowan/kind.rs:6-125. *)
Inductive kind :=
| OPEN_BRACE | OPEN_BRACE_APPLY | CLOSE_BRACE | BACKTICK | COLON
| OPEN_SQUARE | OPEN_SQUARE_APPLY | CLOSE_SQUARE | COMMA | WHITESPACE | COMMENT
| OPEN_PAREN | OPEN_PAREN_APPLY | CLOSE_PAREN
| UNQUOTED_IDENTIFIER | OPERATOR_IDENTIFIER | SINGLE_QUOTE_IDENTIFIER | NUMBER | STRING | SYMBOL
| RESERVED_OPEN | RESERVED_CLOSE
| PATTERN_START (p : prefix) | PATTERN_END (p : prefix)
| STRING_LITERAL_CONTENT | STRING_INTERPOLATION_TARGET | STRING_FORMAT_SPEC
| STRING_ESCAPED_OPEN | STRING_ESCAPED_CLOSE
| C_STRING | RAW_STRING | T_STRING | S_STRING
| BRACKET_OPEN | BRACKET_CLOSE | ERROR_RESERVED_CHAR.

(** [is_callable_terminal], kind.rs:130-139. *)
Definition callable (k : kind) : bool :=
  match k with
  | CLOSE_PAREN | CLOSE_BRACE | CLOSE_SQUARE | BRACKET_CLOSE | UNQUOTED_IDENTIFIER | PATTERN_END _ => true
  | _ => false
  end.

(** [is_trivial], kind.rs:157-159. *)
Definition is_trivial (k : kind) : bool := match k with COMMENT | WHITESPACE => true | _ => false end.

(** A token with its place in the source, counted in characters where the code counts
    bytes. *)
Record token := mkTok { kind_of : kind; start : nat; text_of : text }.

(** The kinds of a pattern's tokens, string_lex.rs:129-194. *)
Definition pattern_kind (k : Text.Model.kind) : kind :=
  match k with
  | KLiteral => STRING_LITERAL_CONTENT
  | KEscapedOpen => STRING_ESCAPED_OPEN
  | KEscapedClose => STRING_ESCAPED_CLOSE
  | KOpen => OPEN_BRACE
  | KClose => CLOSE_BRACE
  | KColon => COLON
  | KDot => OPERATOR_IDENTIFIER
  | KTarget => STRING_INTERPOLATION_TARGET
  | KSpec => STRING_FORMAT_SPEC
  end.

(** ** src/syntax/rowan/lex.rs: the lexer *)

(** [StringPrefix], lex.rs:37-46. *)
Inductive string_prefix := SText (p : prefix) | TString | SString.

Definition simple_kind (p : string_prefix) : kind :=
  match p with
  | SText Plain => STRING | SText CString => C_STRING | SText Raw => RAW_STRING
  | TString => T_STRING | SString => S_STRING
  end.

(** [dquote], lex.rs:329-454, after the opening quote.  [lead] is the prefix and the quote.
    The tokens, and the characters left.  [None] if the pattern lexer's fuel runs out. *)
Definition dquote (p : string_prefix) (pos : nat) (lead s : text) : option (list token * text) :=
  match scan (match p with SText CString => true | _ => false end) s with
  | None => Some ([mkTok (simple_kind p) pos (lead ++ s)], [])
  | Some (content, rest) =>
      let simple := Some ([mkTok (simple_kind p) pos (lead ++ content ++ [DQUOTE])], rest) in
      match p with
      | SText q =>
          if has_interpolation q content then
            let at_ := (pos + length lead)%nat in
            option_map (fun ts =>
              (mkTok (PATTERN_START q) pos lead
               :: map (fun t => mkTok (pattern_kind (t_kind t)) (at_ + t_start t) (t_text t)) ts
               ++ [mkTok (PATTERN_END q) (at_ + length content) [DQUOTE]], rest))
              (lex (is_c q) content)
          else simple
      | _ => simple
      end
  end.

(** One token of kind [k] from the first character and those consumed after it. *)
Definition single (k : kind) (pos : nat) (c : N) (ab : text * text) : option (list token * text) :=
  Some ([mkTok k pos (c :: fst ab)], snd ab).

(** A delimited token, [consume_delimited], lex.rs:604-616, and its callers (312-320, 491-503): up to and
    including the next single quote, or to the end. *)
Fixpoint delimited (s : text) : text * text :=
  match s with
  | [] => ([], [])
  | c :: s' => if c =? SQUOTE then ([c], s') else let '(a, b) := delimited s' in (c :: a, b)
  end.

(** [normal], lex.rs:262-296, with [dquote_with_prefix], 299-309. *)
Definition normal (U : tables) (pos : nat) (c : N) (s : text) : option (list token * text) :=
  let '(a, b) := consume (is_normal_continuation U) s in
  let ident := Some ([mkTok UNQUOTED_IDENTIFIER pos (c :: a)], b) in
  match a, b with
  | [], q :: b' =>
      if q =? DQUOTE then
        if c =? 99 then dquote (SText CString) pos [c; q] b'
        else if c =? 114 then dquote (SText Raw) pos [c; q] b'
        else if c =? 116 then dquote TString pos [c; q] b'
        else if c =? 115 then dquote SString pos [c; q] b'
        else ident
      else ident
  | _, _ => ident
  end.

(** [colon], lex.rs:471-508. *)
Definition colon (U : tables) (pos : nat) (s : text) : option (list token * text) :=
  match s with
  | [] => single COLON pos 58 ([], [])
  | c :: s' =>
      if is_normal_start U c then
        let '(a, b) := consume (is_normal_continuation U) s' in single SYMBOL pos 58 (c :: a, b)
      else if c =? SQUOTE then
        let '(a, b) := delimited s' in single SYMBOL pos 58 (c :: a, b)
      else single COLON pos 58 ([], s)
  end.

(** [number], lex.rs:520-529, after the first digit or sign. *)
Definition number (pos : nat) (c : N) (s : text) : option (list token * text) :=
  let '(a, b) := consume ascii_digit s in
  match b with
  | d :: b' =>
      if d =? DOT then let '(a', b'') := consume ascii_digit b' in single NUMBER pos c (a ++ d :: a', b'')
      else single NUMBER pos c (a, b)
  | [] => single NUMBER pos c (a, b)
  end.

(** [minus], lex.rs:511-517, and [oper], lex.rs:323-326. *)
Definition oper (U : tables) (pos : nat) (c : N) (s : text) : option (list token * text) :=
  single OPERATOR_IDENTIFIER pos c (consume (is_oper_continuation U) s).
Definition minus (U : tables) (pos : nat) (c : N) (s : text) : option (list token * text) :=
  if match s with d :: _ => ascii_digit d | [] => false end then number pos c s else oper U pos c s.

(** The lexer's memory, lex.rs:55-58: the last token that is not trivial, and whether there
    was whitespace after it. *)
Record memory := mkMem { last_token : option kind; space_since : bool }.

(** [paren], [brace], [square], lex.rs:532-574. *)
Definition applied (m : memory) : bool :=
  match last_token m with Some k => callable k && negb (space_since m) | None => false end.

(** [next], lex.rs:625-697, other than the buffer: the tokens of a string pattern come at once. *)
Definition step (U : tables) (m : memory) (pos : nat) (c : N) (s : text) : option (list token * text) :=
  if c =? OPEN then single (if applied m then OPEN_BRACE_APPLY else OPEN_BRACE) pos c ([], s)
  else if c =? CLOSE then single CLOSE_BRACE pos c ([], s)
  else if c =? 91 then single (if applied m then OPEN_SQUARE_APPLY else OPEN_SQUARE) pos c ([], s)
  else if c =? 93 then single CLOSE_SQUARE pos c ([], s)
  else if c =? 40 then single (if applied m then OPEN_PAREN_APPLY else OPEN_PAREN) pos c ([], s)
  else if c =? 41 then single CLOSE_PAREN pos c ([], s)
  else if c =? 44 then single COMMA pos c ([], s)
  else if c =? 96 then single BACKTICK pos c ([], s)
  else if c =? 58 then colon U pos s
  else if c =? 35 then single COMMENT pos c (consume (fun c => negb (c =? 10)) s)
  else if c =? SQUOTE then single SINGLE_QUOTE_IDENTIFIER pos c (delimited s)
  else if c =? DQUOTE then dquote (SText Plain) pos [c] s
  else if c =? 45 then minus U pos c s
  else if ascii_digit c then number pos c s
  else if is_normal_start U c then normal U pos c s
  else if is_oper_start U c then oper U pos c s
  else if is_whitespace c then single WHITESPACE pos c (consume is_whitespace s)
  else if is_reserved_open U c then single (if is_bracket_open U c then BRACKET_OPEN else RESERVED_OPEN) pos c ([], s)
  else if is_reserved_close U c then single (if is_bracket_close U c then BRACKET_CLOSE else RESERVED_CLOSE) pos c ([], s)
  else single ERROR_RESERVED_CHAR pos c ([], s).

(** The update of the memory by a token, lex.rs:627-634 and 686-693. *)
Definition remember (m : memory) (t : token) : memory :=
  match kind_of t with
  | WHITESPACE => mkMem (last_token m) true
  | COMMENT => m
  | k => mkMem (Some k) false
  end.

(** The iteration.  [None] if [fuel] runs out. *)
Fixpoint run (fuel : nat) (U : tables) (m : memory) (pos : nat) (s : text) : option (list token) :=
  match s with
  | [] => Some []
  | c :: s' =>
      match fuel with
      | O => None
      | S fuel =>
          match step U m pos c s' with
          | None => None
          | Some (ts, rest) =>
              option_map (app ts) (run fuel U (fold_left remember ts m) (pos + (length s - length rest)) rest)
          end
      end
  end.
Definition tokens (U : tables) (s : text) : option (list token) :=
  run (length s) U (mkMem None false) 0 s.

(** ** src/syntax/rowan/validate.rs: the checks of quotes *)

Definition starts_with (p s : text) : bool := if list_eq_dec N.eq_dec (firstn (length p) s) p then true else false.
Definition ends_with (c : N) (s : text) : bool := last s 0 =? c.

(** [validate] of a symbol, the strings and a quoted identifier, lines 77-193: whether an error
    is pushed for an unclosed quote.  (No text ends in the character 0 here: tokens are not empty.) *)
Definition unclosed_quote (t : token) : bool :=
  let s := text_of t in
  match kind_of t with
  | SYMBOL | SINGLE_QUOTE_IDENTIFIER => starts_with [SQUOTE] s && negb (ends_with SQUOTE s)
  | STRING => starts_with [DQUOTE] s && negb (ends_with DQUOTE s)
  | C_STRING => starts_with [99; DQUOTE] s && negb (ends_with DQUOTE s)
  | RAW_STRING => starts_with [114; DQUOTE] s && negb (ends_with DQUOTE s)
  | T_STRING => starts_with [116; DQUOTE] s && negb (ends_with DQUOTE s)
  | S_STRING => starts_with [115; DQUOTE] s && negb (ends_with DQUOTE s)
  | _ => false
  end.

(** ** src/syntax/export/format.rs: the conservative mode *)

(** [normalize_whitespace], lines 689-730. *)
Definition tab_stop (col : nat) : nat := ((col / 8 + 1) * 8)%nat.
Fixpoint normalize (col : nat) (ws : text) : text :=
  match ws with
  | [] => []
  | c :: ws =>
      if c =? 10 then 10 :: normalize 0 ws
      else if c =? 9 then repeat 32 (tab_stop col - col) ++ normalize (tab_stop col) ws
      else if c =? 32 then 32 :: normalize (S col) ws
      else if c =? 13 then normalize col ws
      else c :: normalize (S col) ws
  end.

(** The tracking of the column, lines 653-663 and 676-683. *)
Fixpoint column (col : nat) (s : text) : nat :=
  match s with
  | [] => col
  | c :: s => column (if c =? 10 then 0%nat else S col) s
  end.

(** [process_token_conservative], lines 642-687, on the tokens of the tree in order: those of
    the lexer, as the assertion of [build] (parse.rs:170-185) makes sure. *)
Fixpoint conserve (col : nat) (ts : list token) : text :=
  match ts with
  | [] => []
  | t :: ts =>
      let out := match kind_of t with WHITESPACE => normalize col (text_of t) | _ => text_of t end in
      out ++ conserve (column col out) ts
  end.

(** [format_unit], lines 70-78, and [format_source], lines 764-776, in conservative mode, of a source that
    parses without errors.  Rendering a text of the pretty printer gives that text. *)
Definition finish (s : text) : text :=
  match s with [] => [] | _ => if ends_with 10 s then s else s ++ [10] end.
Definition format (U : tables) (s : text) : option text :=
  option_map (fun ts => finish (conserve 0 ts)) (tokens U s).
