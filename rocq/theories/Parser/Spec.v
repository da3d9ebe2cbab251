(** What the parser should do, written without it. *)
From Coq Require Import List NArith Bool Arith.
Import ListNotations.
From Verif.Text Require Import Model.
From Verif.Lexer Require Import Model.
From Verif.Parser Require Import Model.
Open Scope nat_scope.

(** ** Trees *)

(** The tokens of a tree, from left to right. *)
Fixpoint leaves (t : tree) : list word :=
  match t with
  | Leaf k s => [(k, s)]
  | Node _ ts => flat_map leaves ts
  end.

(** The kind of a node. *)
Definition is_node (n : node) (t : tree) : Prop := exists ts, t = Node n ts.

(** ** Errors *)

Definition range_of (e : error) : range :=
  match e with
  | UnexpectedToken _ _ r | InvalidDoubleColon r | UnclosedBracketExpr r | UnclosedStringInterpolation r | MalformedDeclarationHead r => r
  end.

(** An error's range is a part of a source of [n] characters. *)
Definition located (n : nat) (e : error) : Prop := fst (range_of e) <= snd (range_of e) <= n.

(** ** Streams of tokens that the parser does not panic on *)

Definition trivia_only (ws : list word) : Prop := Forall (fun w => is_trivial (fst w) = true) ws.

(** The token [(] (and [[] and [{]) directly after what it is applied to. *)
Definition applies (k : kind) : Prop := In k [OPEN_PAREN_APPLY; OPEN_SQUARE_APPLY; OPEN_BRACE_APPLY].

(** Tokens that the parser may take for the head of a declaration, when they come directly after
    a colon: trivia; or a name and trivia; or those and a bracket that is applied, and anything;
    or an opening parenthesis or bracket, and anything. *)
Definition head_like (ws : list word) : Prop :=
  (exists w l, ws = w :: l /\ (In (fst w) [OPEN_PAREN; BRACKET_OPEN; RESERVED_OPEN] \/ applies (fst w))) \/
  (exists w tr l, ws = w :: tr ++ l /\ (is_trivial (fst w) = true \/ name_terminal (fst w) = true) /\ trivia_only tr /\
     (l = [] \/ exists v l', l = v :: l' /\ applies (fst v))).

(** What must not come after a colon: directly, a backtick; or what is like a head and then
    another colon. *)
Definition crowded (after : list word) : Prop :=
  (exists w b, after = w :: b /\ fst w = BACKTICK) \/
  (exists h w b, after = h ++ w :: b /\ fst w = COLON /\ head_like h).

(** The tokens between the quotes of a string with holes: outside a hole, literal text and
    doubled braces; in a hole, anything but literal text, a closing bracket and the closing quote. *)
Fixpoint quoted (in_hole : bool) (ws : list word) : Prop :=
  match ws with
  | [] => True
  | (k, _) :: ws =>
      if in_hole then
        match k with
        | CLOSE_BRACE => quoted false ws
        | STRING_LITERAL_CONTENT | PATTERN_END _ | BRACKET_CLOSE => False
        | _ => quoted true ws
        end
      else
        match k with
        | OPEN_BRACE => quoted true ws
        | STRING_LITERAL_CONTENT | STRING_ESCAPED_OPEN | STRING_ESCAPED_CLOSE => quoted false ws
        | _ => False
        end
  end.
Definition pattern_closed (p : prefix) (after : list word) : Prop :=
  exists body w b, after = body ++ w :: b /\ fst w = PATTERN_END p /\ quoted false body.

(** The number of tokens of a kind. *)
Definition count (k : kind) (ws : list word) : nat := length (filter (fun w => is (fst w) k) ws).
(** After a bracket other than [(], [[] and [{], there is the bracket that closes it. *)
Definition bracket_closed (after : list word) : Prop :=
  exists a w b, after = a ++ w :: b /\ fst w = BRACKET_CLOSE /\ count BRACKET_OPEN a = count BRACKET_CLOSE a.

(** [clear ws]: no colon is crowded, the strings with holes are whole, and brackets other than
    [()], [[]] and [{}] are closed. *)
Definition clear (ws : list word) : Prop :=
  forall a w b, ws = a ++ w :: b ->
    match fst w with
    | COLON => ~ crowded b
    | PATTERN_START p => pattern_closed p b
    | BRACKET_OPEN => bracket_closed b
    | _ => True
    end.

(** [spaced ws]: the same but for the strings, which are always whole in the tokens of a source. *)
Definition spaced (ws : list word) : Prop :=
  forall a w b, ws = a ++ w :: b ->
    match fst w with
    | COLON => ~ crowded b
    | BRACKET_OPEN => bracket_closed b
    | _ => True
    end.

(** The characters of a source in a range. *)
Definition at_range (r : range) (s : text) : text := firstn (snd r - fst r) (skipn (fst r) s).
