(** * Positions, references and renaming in the language server

    Models LineIndex of src/driver/lsp/diagnostics.rs, position_to_offset of src/driver/lsp/selection.rs,
    find_identifier_at of src/driver/lsp/navigation.rs, src/driver/lsp/references.rs,
    src/driver/lsp/rename.rs and byte_range_to_lsp_range of src/driver/lsp/alias_index.rs.

    Simplifications: offsets are unbounded (the code has 32 bits).  The syntax tree is the list of
    its tokens in order, each with whether one of its ancestors is the head of a declaration. *)
From Coq Require Import List NArith Arith Bool.
Import ListNotations.

(** A text is a list of characters, each given by its code point. *)
Definition text := list N.
Definition newline : N := 10%N.

(** char::len_utf8 and char::len_utf16. *)
Definition len_utf8 (c : N) : nat :=
  if (c <? 128)%N then 1 else if (c <? 2048)%N then 2 else if (c <? 65536)%N then 3 else 4.
Definition len_utf16 (c : N) : nat := if (c <? 65536)%N then 1 else 2.

(** str::len. *)
Fixpoint bytes (t : text) : nat := match t with [] => 0 | c :: r => len_utf8 c + bytes r end.

(** A position: line and character, from 0. *)
Definition position := (nat * nat)%type.

(** LineIndex::new.  src/driver/lsp/diagnostics.rs:191-202. *)
Fixpoint starts_from (offset : nat) (t : text) : list nat :=
  match t with
  | [] => []
  | c :: r => (if (c =? newline)%N then [offset + 1] else []) ++ starts_from (offset + len_utf8 c) r
  end.
Definition line_starts (t : text) : list nat := 0 :: starts_from 0 t.

(** str::is_char_boundary. *)
Fixpoint is_char_boundary (t : text) (p : nat) : bool :=
  match p, t with
  | O, _ => true
  | _, [] => false
  | _, c :: r => if p <? len_utf8 c then false else is_char_boundary r (p - len_utf8 c)
  end.

(** floor_char_boundary.  src/driver/lsp/diagnostics.rs:288-298. *)
Fixpoint walk_back (t : text) (p : nat) : nat :=
  match p with O => O | S q => if is_char_boundary t p then p else walk_back t q end.
Definition floor_char_boundary (t : text) (p : nat) : nat := if bytes t <=? p then bytes t else walk_back t p.

(** Slices of a text at character boundaries. *)
Fixpoint from (n : nat) (t : text) : text :=
  match n, t with
  | O, _ => t
  | _, [] => []
  | _, c :: r => from (n - len_utf8 c) r
  end.
Fixpoint upto (n : nat) (t : text) : text :=
  match n, t with
  | O, _ => []
  | _, [] => []
  | _, c :: r => c :: upto (n - len_utf8 c) r
  end.

Fixpoint units (t : text) : nat := match t with [] => 0 | c :: r => len_utf16 c + units r end.

(** byte_col_to_utf16.  src/driver/lsp/diagnostics.rs:273-285. *)
Definition byte_col_to_utf16 (t : text) (byte_start byte_end : nat) : nat :=
  let s := floor_char_boundary t (Nat.min byte_start (bytes t)) in
  let e := floor_char_boundary t (Nat.min byte_end (bytes t)) in
  if e <=? s then 0 else units (upto (e - s) (from s t)).

(** LineIndex::position: the binary search finds the last line that starts at or before the offset.
    src/driver/lsp/diagnostics.rs:206-218. *)
Definition to_position (t : text) (offset : nat) : position :=
  let starts := line_starts t in
  let line := length (filter (fun s => s <=? offset) starts) - 1 in
  (line, byte_col_to_utf16 t (nth line starts 0) offset).

(** LineIndex::utf16_position_to_byte_offset.  src/driver/lsp/diagnostics.rs:245-263. *)
Fixpoint walk (t : text) (character col offset : nat) : nat :=
  match t with
  | [] => offset
  | c :: r => if (c =? newline)%N || (character <=? col) then offset
              else walk r character (col + len_utf16 c) (offset + len_utf8 c)
  end.
Definition to_offset (t : text) (p : position) : nat :=
  let starts := line_starts t in
  let start := if fst p <? length starts then nth (fst p) starts 0 else bytes t in
  walk (from start t) (snd p) 0 start.

(** byte_range_to_lsp_range.  src/driver/lsp/alias_index.rs:358-385. *)
Fixpoint pos_for (t : text) (byte i line col : nat) : position :=
  match t with
  | [] => (line, col)
  | c :: r => if byte <=? i then (line, col)
              else if (c =? newline)%N then pos_for r byte (i + len_utf8 c) (line + 1) 0
              else pos_for r byte (i + len_utf8 c) line (col + len_utf16 c)
  end.
Definition alias_position (t : text) (byte : nat) : position := pos_for t byte 0 0 0.

(** ** Tokens *)

Inductive kind := Unquoted | Operator | Quoted | Other.
Record token := Token { tkind : kind; ttext : text; in_head : bool }.
Definition source (toks : list token) : text := concat (map ttext toks).

(** is_identifier_kind.  src/driver/lsp/navigation.rs:194-201. *)
Definition is_identifier (t : token) : bool := match tkind t with Other => false | _ => true end.

Definition quote : N := 39%N.
Fixpoint text_eqb (a b : text) : bool :=
  match a, b with
  | [], [] => true
  | x :: a, y :: b => (x =? y)%N && text_eqb a b
  | _, _ => false
  end.
(** str::strip_prefix and str::strip_suffix for one character. *)
Definition strip_prefix (c : N) (t : text) : option text :=
  match t with x :: r => if (x =? c)%N then Some r else None | [] => None end.
Fixpoint strip_suffix (c : N) (t : text) : option text :=
  match t with
  | [] => None
  | [x] => if (x =? c)%N then Some [] else None
  | x :: r => option_map (cons x) (strip_suffix c r)
  end.
(** identifier_text.  src/driver/lsp/rename.rs:90-100. *)
Definition identifier_text (t : token) : text :=
  match tkind t with
  | Quoted => match strip_prefix quote (ttext t) with
              | Some r => match strip_suffix quote r with Some u => u | None => ttext t end
              | None => ttext t
              end
  | _ => ttext t
  end.

(** token_at_offset, right biased, with the token before it and the offset where it starts. *)
Fixpoint token_at (start : nat) (prev : option token) (toks : list token) (offset : nat)
  : option (option token * nat * token) :=
  match toks with
  | [] => None
  | t :: r =>
    match token_at (start + bytes (ttext t)) (Some t) r offset with
    | Some x => Some x
    | None => if (start <=? offset) && (offset <=? start + bytes (ttext t)) then Some (prev, start, t) else None
    end
  end.
(** find_identifier_at.  src/driver/lsp/navigation.rs:176-191. *)
Definition find_identifier_at (toks : list token) (offset : nat) : option token :=
  match token_at 0 None toks offset with
  | None => None
  | Some (prev, start, t) =>
    if is_identifier t then Some t else
    match prev with
    | Some p => if is_identifier p && (start =? offset) then Some p else None
    | None => None
    end
  end.

Definition range := (position * position)%type.

(** rename.  src/driver/lsp/rename.rs:31-78. *)
Fixpoint edits_from (src : text) (start : nat) (toks : list token) (name new : text) : list (range * text) :=
  match toks with
  | [] => []
  | t :: r =>
    let stop := start + bytes (ttext t) in
    (if is_identifier t && text_eqb (identifier_text t) name then
       [((to_position src start, to_position src stop),
         match tkind t with Quoted => quote :: new ++ [quote] | _ => new end)]
     else []) ++ edits_from src stop r name new
  end.
Definition rename (toks : list token) (p : position) (new : text) : option (list (range * text)) :=
  let src := source toks in
  match find_identifier_at toks (to_offset src p) with
  | None => None
  | Some t => match edits_from src 0 toks (identifier_text t) new with [] => None | es => Some es end
  end.

(** find_references.  src/driver/lsp/references.rs:18-62. *)
Fixpoint locations_from (src : text) (start : nat) (toks : list token) (name : text) (declarations : bool) : list range :=
  match toks with
  | [] => []
  | t :: r =>
    let stop := start + bytes (ttext t) in
    (if is_identifier t && text_eqb (identifier_text t) name && (declarations || negb (in_head t)) then
       [(to_position src start, to_position src stop)]
     else []) ++ locations_from src stop r name declarations
  end.
Definition find_references (toks : list token) (p : position) (declarations : bool) : option (list range) :=
  let src := source toks in
  match find_identifier_at toks (to_offset src p) with
  | None => None
  | Some t => match locations_from src 0 toks (identifier_text t) declarations with [] => None | ls => Some ls end
  end.
