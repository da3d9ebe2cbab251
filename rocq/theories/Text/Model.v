(** String literals: scanning, c-string escapes, interpolation patterns, and the shell
    quoting functions of the prelude.  A string is the list of its code points. *)
From Coq Require Import List NArith ZArith Bool Arith.
Import ListNotations.
Open Scope N_scope.

Definition text := list N.

(** The characters the code compares against. *)
Definition DQUOTE : N := 34.
Definition SQUOTE : N := 39.
Definition BACKSLASH : N := 92.
Definition OPEN : N := 123.
Definition CLOSE : N := 125.
Definition COLON : N := 58.
Definition DOT : N := 46.
Definition PERCENT : N := 37.
Definition DOLLAR : N := 36.
Definition BACKTICK : N := 96.

(** ** src/core/desugar/escape.rs *)

(** [EscapeError], lines 12-24.  The text carried by [TruncatedEscape] is a message. *)
Inductive escape_error :=
| InvalidEscape (c : N)
| TruncatedEscape
| InvalidHexDigit (c : N)
| InvalidCodePoint (n : N)
| UnexpectedEndOfString.

Inductive result (E A : Type) := Ok (a : A) | Err (e : E).
Arguments Ok {E A} a.
Arguments Err {E A} e.
Definition rbind {E A B} (r : result E A) (f : A -> result E B) : result E B :=
  match r with Ok a => f a | Err e => Err e end.

(** [char::is_ascii_hexdigit] with the digit's value, as [from_str_radix(_, 16)] reads it. *)
Definition hex_digit (c : N) : option N :=
  if (48 <=? c) && (c <=? 57) then Some (c - 48)
  else if (97 <=? c) && (c <=? 102) then Some (c - 87)
  else if (65 <=? c) && (c <=? 70) then Some (c - 55)
  else None.

(** [read_hex_digits] followed by [from_str_radix], lines 62-84, 99-118: the value of
    the [count] digits read, and the characters left. *)
Fixpoint read_hex (count : nat) (acc : N) (s : text) : result escape_error (N * text) :=
  match count with
  | O => Ok (acc, s)
  | S n =>
      match s with
      | [] => Err TruncatedEscape
      | c :: s' =>
          match hex_digit c with
          | Some d => read_hex n (acc * 16 + d) s'
          | None => Err (InvalidHexDigit c)
          end
      end
  end.

(** [char_from_code_point], lines 120-123: [char::from_u32]. *)
Definition char_from_code_point (n : N) : result escape_error N :=
  if (n <? 0xD800) || ((0xDFFF <? n) && (n <=? 0x10FFFF)) then Ok n else Err (InvalidCodePoint n).

(** The escapes of one letter, lines 49-56. *)
Definition simple_escape (c : N) : option N :=
  if c =? 110 then Some 10 else
  if c =? 114 then Some 13 else
  if c =? 116 then Some 9 else
  if c =? BACKSLASH then Some BACKSLASH else
  if c =? DQUOTE then Some DQUOTE else
  if c =? 48 then Some 0 else
  if c =? OPEN then Some OPEN else
  if c =? CLOSE then Some CLOSE else None.

(** [process_escapes], lines 43-97.  [fuel] bounds the characters; [None] if it runs out. *)
Fixpoint escapes (fuel : nat) (s : text) : option (result escape_error text) :=
  match fuel with
  | O => match s with [] => Some (Ok []) | _ => None end
  | S fuel =>
      let push c rest := option_map (fun r => rbind r (fun t => Ok (c :: t))) (escapes fuel rest) in
      match s with
      | [] => Some (Ok [])
      | c :: s =>
          if c =? BACKSLASH then
            match s with
            | [] => Some (Err UnexpectedEndOfString)
            | e :: s =>
                match simple_escape e with
                | Some c => push c s
                | None =>
                    if e =? 120 then
                      match read_hex 2 0 s with Ok (b, s) => push b s | Err x => Some (Err x) end
                    else if e =? 117 then
                      match read_hex 4 0 s with
                      | Ok (n, s) => match char_from_code_point n with Ok c => push c s | Err x => Some (Err x) end
                      | Err x => Some (Err x)
                      end
                    else if e =? 85 then
                      match read_hex 8 0 s with
                      | Ok (n, s) => match char_from_code_point n with Ok c => push c s | Err x => Some (Err x) end
                      | Err x => Some (Err x)
                      end
                    else Some (Err (InvalidEscape e))
                end
            end
          else push c s
      end
  end.
Definition process_escapes (s : text) : option (result escape_error text) := escapes (length s) s.

(** ** src/syntax/rowan/lex.rs: scanning a string *)

(** The prefixes that make string values, [StringPrefix], lines 37-46; t-strings and
    s-strings are other kinds of literal. *)
Inductive prefix := Plain | CString | Raw.
Definition is_c (p : prefix) : bool := match p with CString => true | _ => false end.

(** The loop of [dquote], lines 339-374, from just after the opening quote: the content and
    the characters after the closing quote; [None] when the string is unterminated. *)
Fixpoint scan (cstring : bool) (s : text) : option (text * text) :=
  match s with
  | [] => None
  | c :: s' =>
      if c =? DQUOTE then Some ([], s')
      else if (c =? BACKSLASH) && cstring then
        match s' with
        | [] => None
        | d :: s'' => option_map (fun '(t, r) => (c :: d :: t, r)) (scan cstring s'')
        end
      else option_map (fun '(t, r) => (c :: t, r)) (scan cstring s')
  end.

(** [content_has_unescaped_braces_cstring], lines 457-469. *)
Fixpoint unescaped_braces (s : text) : bool :=
  match s with
  | [] => false
  | c :: s' =>
      if c =? BACKSLASH then match s' with [] => false | _ :: s'' => unescaped_braces s'' end
      else if (c =? OPEN) || (c =? CLOSE) then true
      else unescaped_braces s'
  end.

(** [has_interpolation], lines 403-416. *)
Definition has_interpolation (p : prefix) (content : text) : bool :=
  if is_c p then unescaped_braces content
  else existsb (fun c => (c =? OPEN) || (c =? CLOSE)) content.

(** ** src/syntax/rowan/string_lex.rs *)

Inductive kind := KLiteral | KEscapedOpen | KEscapedClose | KOpen | KClose | KColon | KDot | KTarget | KSpec.

(** A token: its kind, where it starts in the content (counted in characters, where the code
    counts bytes), and its text. *)
Record token := mkTok { t_kind : kind; t_start : nat; t_text : text }.

(** [StringPatternLexer] and [CStringPatternLexer], lines 9-22 and 200-213: the characters
    left, the position and the two flags. *)
Record lexer := mkLex { l_rest : text; l_pos : nat; l_interp : bool; l_spec : bool }.

(** [char::is_whitespace]. *)
Definition is_whitespace (c : N) : bool :=
  ((9 <=? c) && (c <=? 13)) || (c =? 32) || (c =? 0x85) || (c =? 0xA0) || (c =? 0x1680) ||
  ((0x2000 <=? c) && (c <=? 0x200A)) || (c =? 0x2028) || (c =? 0x2029) || (c =? 0x202F) ||
  (c =? 0x205F) || (c =? 0x3000).

(** [consume], lines 59-71: the characters taken and those left. *)
Fixpoint consume (p : N -> bool) (s : text) : text * text :=
  match s with
  | [] => ([], [])
  | c :: s' => if p c then let '(a, b) := consume p s' in (c :: a, b) else ([], s)
  end.

(** [literal_content] of a c-string, lines 268-294. *)
Fixpoint c_literal (s : text) : text * text :=
  match s with
  | [] => ([], [])
  | c :: s' =>
      if c =? BACKSLASH then
        match s' with
        | [] => ([c], [])
        | d :: s'' => let '(a, b) := c_literal s'' in (c :: d :: a, b)
        end
      else if (c =? OPEN) || (c =? CLOSE) then ([], s)
      else let '(a, b) := c_literal s' in (c :: a, b)
  end.

(** [literal_content], lines 79-83 and 268-294. *)
Definition literal_content (cstring : bool) (s : text) : text * text :=
  if cstring then c_literal s else consume (fun c => negb ((c =? OPEN) || (c =? CLOSE))) s.

(** [interpolation_content], lines 102-110 and 297-305. *)
Definition target_char (c : N) : bool :=
  negb (is_whitespace c) && negb (c =? CLOSE) && negb (c =? COLON) && negb (c =? DOT).

(** [format_content], lines 113-117 and 308-312. *)
Definition spec_char (c : N) : bool := negb (c =? CLOSE) && negb (c =? COLON).

(** A token of the first character [c] and the characters [a] consumed after it. *)
Definition tok (k : kind) (pos : nat) (c : N) (ab : text * text) (interp spec : bool) : token * lexer :=
  let '(a, b) := ab in
  (mkTok k pos (c :: a), mkLex b (pos + S (length a)) interp spec).

(** [next], lines 129-194 (plain and raw strings) and 325-374 (c-strings). *)
Definition next (cstring : bool) (l : lexer) : option (token * lexer) :=
  let '(skipped, rest) := if l_interp l then consume is_whitespace (l_rest l) else ([], l_rest l) in
  let pos := (l_pos l + length skipped)%nat in
  match rest with
  | [] => None
  | c :: s =>
      let doubled := match s with d :: _ => (d =? c) && negb cstring | [] => false end in
      let pair k := Some (tok k pos c (firstn 1 s, skipn 1 s) (l_interp l) (l_spec l)) in
      if c =? OPEN then
        if doubled then pair KEscapedOpen
        else Some (tok KOpen pos c ([], s) true false)
      else if c =? CLOSE then
        if doubled then pair KEscapedClose
        else if l_interp l then Some (tok KClose pos c ([], s) false false)
        else Some (tok KLiteral pos c (literal_content cstring s) false (l_spec l))
      else if l_interp l then
        if c =? COLON then Some (tok KColon pos c ([], s) true true)
        else if c =? DOT then Some (tok KDot pos c ([], s) true (l_spec l))
        else if l_spec l then Some (tok KSpec pos c (consume spec_char s) true true)
        else Some (tok KTarget pos c (consume target_char s) true false)
      else Some (tok KLiteral pos c (literal_content cstring s) false (l_spec l))
  end.

(** The iteration of lex.rs:432-443.  [None] if [fuel] runs out. *)
Fixpoint tokens (fuel : nat) (cstring : bool) (l : lexer) : option (list token) :=
  match next cstring l with
  | None => Some []
  | Some (t, l') =>
      match fuel with
      | O => None
      | S fuel => option_map (cons t) (tokens fuel cstring l')
      end
  end.
Definition lex (cstring : bool) (content : text) : option (list token) :=
  tokens (length content) cstring (mkLex content 0 false false).

(** ** src/syntax/rowan/parse.rs: the pattern's tree *)

(** The children of a pattern node that [StringChunk] recognises (ast.rs:1257-1297).  An
    interpolation has the names of its soup, or a single target, or neither; and a format. *)
Inductive chunk :=
| CLiteral (s : text)
| CEscapedOpen
| CEscapedClose
| CInterpolation (soup : option (list text)) (target : option text) (format : option text).

Definition kind_is (k : kind) (t : token) : bool :=
  match k, t_kind t with
  | KLiteral, KLiteral | KEscapedOpen, KEscapedOpen | KEscapedClose, KEscapedClose
  | KOpen, KOpen | KClose, KClose | KColon, KColon | KDot, KDot | KTarget, KTarget | KSpec, KSpec => true
  | _, _ => false
  end.

Fixpoint take_while {A} (p : A -> bool) (l : list A) : list A :=
  match l with [] => [] | x :: l => if p x then x :: take_while p l else [] end.

(** A token of kind [k] at the head. *)
Definition eat (k : kind) (ts : list token) : option (text * list token) :=
  match ts with t :: ts => if kind_is k t then Some (t_text t, ts) else None | [] => None end.

(** The alternating dots and targets, lines 1045-1068: the names, and the tokens left. *)
Fixpoint dotted (ts : list token) : list text * list token :=
  match ts with
  | d :: ts' =>
      if kind_is KDot d then
        match ts' with
        | t :: ts'' => if kind_is KTarget t then let '(ns, r) := dotted ts'' in (t_text t :: ns, r) else ([], ts')
        | [] => ([], [])
        end
      else ([], ts)
  | [] => ([], [])
  end.

(** [parse_string_interpolation_content], lines 1018-1095.  The lookahead for dots is cut at the end of the
    string; the code's runs on past it when the interpolation is not closed.  The names of
    the soup are those that [desugar_rowan_string_pattern] (rowan_ast.rs:1984-1996) keeps. *)
Definition parse_content (ts : list token) : chunk * list token :=
  let has_dots := existsb (kind_is KDot) (take_while (fun t => negb (kind_is KClose t || kind_is KColon t)) ts) in
  let '(soup, target, ts) :=
    if has_dots then
      let '(first, ts) := match eat KTarget ts with Some (n, ts) => ([n], ts) | None => ([], ts) end in
      let '(names, ts) := dotted ts in
      (Some (first ++ names), None, ts)
    else match eat KTarget ts with
         | Some (n, ts) => (None, Some n, ts)
         | None => (None, None, ts)
         end in
  let '(format, ts) :=
    match eat KColon ts with
    | Some (_, ts) => match eat KSpec ts with Some (f, ts) => (Some f, ts) | None => (None, ts) end
    | None => (None, ts)
    end in
  (CInterpolation soup target format, ts).

(** The search for the closing brace, lines 970-1003: the tokens left, and whether it was
    found. *)
Fixpoint close (ts : list token) : list token * bool :=
  match ts with
  | [] => ([], false)
  | t :: ts' => if kind_is KClose t then (ts', true) else if kind_is KLiteral t then (ts, false) else close ts'
  end.

Inductive parse_error := UnclosedStringInterpolation | UnexpectedToken.

(** [parse_string_pattern], lines 917-1016: the chunks and the errors.  [UnexpectedToken]
    stands for lines 1008-1011, where a token is consumed without an event, so that the
    assertion at lines 179-185 fails.  [None] if [fuel] runs out. *)
Fixpoint parse (fuel : nat) (ts : list token) : option (list chunk * list parse_error) :=
  match ts with
  | [] => Some ([], [])
  | t :: ts =>
      match fuel with
      | O => None
      | S fuel =>
          let add c ts := option_map (fun '(cs, es) => (c :: cs, es)) (parse fuel ts) in
          match t_kind t with
          | KLiteral => add (CLiteral (t_text t)) ts
          | KEscapedOpen => add CEscapedOpen ts
          | KEscapedClose => add CEscapedClose ts
          | KOpen =>
              let '(c, ts) := parse_content ts in
              let '(ts, found) := close ts in
              option_map (fun '(cs, es) => (c :: cs, if found then es else UnclosedStringInterpolation :: es)) (parse fuel ts)
          | _ => option_map (fun '(cs, es) => (cs, UnexpectedToken :: es)) (parse fuel ts)
          end
      end
  end.

(** ** src/core/desugar/rowan_ast.rs: what the pattern means *)

(** [str::parse::<i32>]. *)
Fixpoint digits (acc : Z) (s : text) : option Z :=
  match s with
  | [] => Some acc
  | c :: s => if (48 <=? c) && (c <=? 57) then digits (acc * 10 + Z.of_N (c - 48))%Z s else None
  end.
Definition parse_i32 (s : text) : option Z :=
  let unsigned s := match s with [] => None | _ => digits 0 s end in
  let z := match s with
           | 45 :: s => option_map Z.opp (unsigned s)
           | 43 :: s => unsigned s
           | _ => unsigned s
           end in
  match z with
  | Some z => if ((-2147483648 <=? z) && (z <=? 2147483647))%Z then Some z else None
  | None => None
  end.

(** What an interpolation refers to: the next argument, a numbered argument, a variable, or
    a lookup path starting at a variable. *)
Inductive target := Anonymous | Numbered (n : Z) | Name (n : text) | Path (n : text) (more : list text).

(** A part of the joined list: text, or the [STR] of a target with its format. *)
Inductive piece := PText (s : text) | PHole (t : target) (format : option text).

Inductive desugar_error := BadEscape (e : escape_error) | InvalidStringInterpolation.

(** One chunk of [desugar_rowan_string_pattern], lines 1944-2112.  An empty target or format
    never reaches the code, since tokens are not empty. *)
Definition desugar_chunk (p : prefix) (c : chunk) : option (result desugar_error piece) :=
  match c with
  | CLiteral s =>
      if is_c p then option_map (fun r => match r with Ok t => Ok (PText t) | Err e => Err (BadEscape e) end) (process_escapes s)
      else Some (Ok (PText s))
  | CEscapedOpen => Some (Ok (PText [OPEN]))
  | CEscapedClose => Some (Ok (PText [CLOSE]))
  | CInterpolation (Some []) _ _ => Some (Err InvalidStringInterpolation)
  | CInterpolation (Some [n]) _ f => Some (Ok (PHole (Name n) f))
  | CInterpolation (Some (n :: more)) _ f => Some (Ok (PHole (Path n more) f))
  | CInterpolation None None f => Some (Ok (PHole Anonymous f))
  | CInterpolation None (Some n) f =>
      Some (Ok (PHole (match parse_i32 n with Some z => Numbered z | None => Name n end) f))
  end.
Fixpoint desugar_chunks (p : prefix) (cs : list chunk) : option (result desugar_error (list piece)) :=
  match cs with
  | [] => Some (Ok [])
  | c :: cs =>
      match desugar_chunk p c with
      | None => None
      | Some (Err e) => Some (Err e)
      | Some (Ok x) => option_map (fun r => rbind r (fun xs => Ok (x :: xs))) (desugar_chunks p cs)
      end
  end.

Inductive string_error := Parse (es : list parse_error) | Desugar (e : desugar_error).

(** A string's content, from its tokens to the pieces that are joined: lex.rs:417-454,
    parse.rs:917-1016, rowan_ast.rs:600-640 (no interpolation) and 1937-2112. *)
Definition pieces (p : prefix) (content : text) : option (result string_error (list piece)) :=
  let desugared cs := option_map (fun r => match r with Ok x => Ok x | Err e => Err (Desugar e) end) (desugar_chunks p cs) in
  if has_interpolation p content then
    match lex (is_c p) content with
    | None => None
    | Some ts =>
        match parse (length ts) ts with
        | None => None
        | Some (cs, []) => desugared cs
        | Some (_, es) => Some (Err (Parse es))
        end
    end
  else desugared [CLiteral content].

(** ** lib/prelude.eu: quoting for the shell *)

(** [STR_REPLACE] (src/eval/stg/string.rs:512-534) for a pattern that matches exactly the one
    character [c], and a replacement in which no [$] is followed by anything. *)
Definition replace (c : N) (by_ : text) (s : text) : text :=
  flat_map (fun x => if x =? c then by_ else [x]) s.

(** [shell-escape], lib/prelude.eu:1155. *)
Definition shell_escape (s : text) : text :=
  [SQUOTE] ++ replace SQUOTE [SQUOTE; BACKSLASH; SQUOTE; SQUOTE] s ++ [SQUOTE].

(** [dq-escape], lib/prelude.eu:1159.  The c-string literals there stand for: the pattern
    of one backslash, and its replacement, four backslashes. *)
Definition dq_escape (s : text) : text :=
  replace DQUOTE [BACKSLASH; DQUOTE]
    (replace BACKTICK [BACKSLASH; BACKTICK]
      (replace DOLLAR [BACKSLASH; DOLLAR]
        (replace BACKSLASH [BACKSLASH; BACKSLASH; BACKSLASH; BACKSLASH] s))).
