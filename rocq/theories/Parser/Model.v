(** The parser of src/syntax/rowan/parse.rs: from the lexer's tokens to a tree. *)
From Coq Require Import List NArith ZArith Bool Arith.
Import ListNotations.
From Verif.Text Require Import Model.
From Verif.Lexer Require Import Model.
Open Scope nat_scope.

(** ** Kinds, tokens, events and errors *)

(** A token as the parser holds it (parse.rs:27): a kind and a text. *)
Definition word : Type := kind * text.

(** The kinds of node, kind.rs:36-125.  (In the code one type holds the kinds of nodes and of
    tokens, and some of the names below are those of a token too.) *)
Inductive node :=
| UNIT | NAME | LITERAL | LIST | BLOCK | BLOCK_META | DECLARATION | DECL_META | DECL_HEAD | DECL_BODY
| SOUP | PAREN_EXPR | ARG_TUPLE | PATTERN (p : prefix)
| LITERAL_CONTENT | INTERPOLATION | TARGET | FORMAT_SPEC | ESCAPED_OPEN | ESCAPED_CLOSE
| BRACKET_EXPR | BRACKET_BLOCK | ERROR_STOWAWAYS | ERROR.

Definition kind_eq_dec (a b : kind) : {a = b} + {a <> b}.
Proof. decide equality; decide equality. Defined.
Definition is (k k' : kind) : bool := if kind_eq_dec k k' then true else false.
Definition among (ks : list kind) (k : kind) : bool := existsb (is k) ks.

(** [is_literal_terminal], [is_name_terminal], kind.rs:141-155. *)
Definition literal_terminal : kind -> bool := among [NUMBER; STRING; SYMBOL; C_STRING; RAW_STRING; T_STRING; S_STRING].
Definition name_terminal : kind -> bool := among [UNQUOTED_IDENTIFIER; OPERATOR_IDENTIFIER; SINGLE_QUOTE_IDENTIFIER].

(** [ParseEvent], lines 17-22. *)
Inductive event := Start (n : node) | Finish | Token (k : kind).

(** A range of the source, from its start to its end.  Places are counted in characters, where
    the code counts bytes. *)
Definition range : Type := nat * nat.

(** The errors that the parser reports, error.rs. *)
Inductive error :=
| UnexpectedToken (expected actual : kind) (r : range)
| InvalidDoubleColon (r : range)
| UnclosedBracketExpr (r : range)
| UnclosedStringInterpolation (r : range)
| MalformedDeclarationHead (r : range).

(** The number of characters of some tokens: [TextSize::of], summed. *)
Definition width (ws : list word) : nat := list_sum (map (fun w => length (snd w)) ws).

(** ** Calls of a sink *)

(** The calls of an [EventSink] (lines 1096-1119) but [complete]: the functions of the parser
    call nothing else on the sink that is on top of the stack, and leave the stack as they found
    it. *)
Inductive op := OStart (n : node) | OFinish | OToken (k : kind) (len : nat) | OAccept (es : list event) (len : nat).

(** [SimpleEventSink], lines 1121-1147. *)
Definition events_of (o : op) : list event :=
  match o with OStart n => [Start n] | OFinish => [Finish] | OToken k _ => [Token k] | OAccept es _ => es end.

(** ** The sink of a block *)

(** [PendingDeclaration], lines 1178-1187. *)
Record pending := mkPending { p_meta : option (list event); p_head : list event; p_colon : list event; p_body : list event }.

(** [BlockEventSink], lines 1150-1176. *)
Record sink := mkSink {
  committed : list event; block_meta : list event; buffer : list event; declaration : option pending;
  depth : nat; s_errors : list error; current_offset : nat; decl_start : option nat }.

(** [with_start], lines 1195-1200. *)
Definition with_start (start : nat) : sink := mkSink [] [] [] None 0 [] start None.

Definition trivial_event (e : event) : bool := match e with Token k => is_trivial k | _ => false end.
Definition is_nil {A} (l : list A) : bool := match l with [] => true | _ => false end.

(** [commit_meta], lines 1376-1401. *)
Definition commit_meta (s : sink) : sink :=
  let c :=
    if is_nil (committed s) then [Start BLOCK_META; Start SOUP] ++ block_meta s ++ [Finish; Finish]
    else if forallb trivial_event (block_meta s) then committed s ++ block_meta s
    else committed s ++ [Start ERROR_STOWAWAYS] ++ block_meta s ++ [Finish] in
  mkSink c [] (buffer s) (declaration s) (depth s) (s_errors s) (current_offset s) (decl_start s).

(** The comma and the trivia at the end of a body, lines 1458-1474: the body and the trailer. *)
Fixpoint leading_trailer (rev_body : list event) : nat :=
  match rev_body with
  | Token COMMA :: es | Token WHITESPACE :: es | Token COMMENT :: es => S (leading_trailer es)
  | _ => 0
  end.
Definition split_trailer (body : list event) : list event * list event :=
  let idx := length body - leading_trailer (rev body) in (firstn idx body, skipn idx body).

(** [commit_declaration], lines 1409-1490.  [None] is the panic of [TextRange::new] on a range
    that ends before its start. *)
Definition commit_declaration (s : sink) : option sink :=
  match declaration s with
  | None => Some s
  | Some d =>
      let has_head := existsb (fun e => negb (trivial_event e)) (p_head d) in
      if negb has_head && negb (is_nil (p_colon d)) then
        let start := match decl_start s with Some o => o | None => current_offset s end in
        if current_offset s <? start then None
        else
          let c := committed s ++ [Start ERROR] ++ (match p_meta d with Some m => m | None => [] end)
                   ++ p_head d ++ p_colon d ++ p_body d ++ [Finish] in
          Some (mkSink c (block_meta s) (buffer s) None (depth s)
                  (s_errors s ++ [MalformedDeclarationHead (start, current_offset s)]) (current_offset s) (decl_start s))
      else
        let '(body, trailer) := split_trailer (p_body d) in
        let c := committed s ++ [Start DECLARATION]
                 ++ (match p_meta d with Some m => [Start DECL_META; Start SOUP] ++ m ++ [Finish; Finish] | None => [] end)
                 ++ [Start DECL_HEAD] ++ p_head d ++ [Finish] ++ p_colon d
                 ++ [Start DECL_BODY; Start SOUP] ++ body ++ [Finish; Finish; Finish] ++ trailer in
        Some (mkSink c (block_meta s) (buffer s) None (depth s) (s_errors s) (current_offset s) (decl_start s))
  end.

(** [split_off_head], lines 1497-1535: where the head begins, scanning back from the end of the
    buffer, or [None] if the split is refused. *)
Fixpoint head_scan (rev_buffer : list event) (idx : nat) (depth : Z) : option nat :=
  match rev_buffer with
  | [] => Some idx
  | e :: es =>
      let idx := pred idx in
      match e with
      | Finish => head_scan es idx (depth + 1)
      | Start n =>
          if (1 <? depth)%Z then head_scan es idx (depth - 1)
          else match n with
               | PAREN_EXPR | NAME | BRACKET_EXPR => Some idx
               | ARG_TUPLE => head_scan es idx (depth - 1)
               | _ => None
               end
      | Token k =>
          if is_trivial k then head_scan es idx depth
          else if (depth =? 0)%Z then None
          else head_scan es idx depth
      end
  end.
Definition split_off_head (buffer : list event) : list event * list event :=
  match head_scan (rev buffer) (length buffer) 0 with
  | None => (buffer, [])
  | Some idx => (firstn idx buffer, skipn idx buffer)
  end.

(** [extract_last_expression_from_metadata], lines 1540-1601: the place and whether an expression
    was found; then what is left of the metadata and the head. *)
Fixpoint meta_scan (rev_meta : list event) (idx : nat) (depth : Z) (found : bool) : nat * bool :=
  match rev_meta with
  | [] => (idx, found)
  | e :: es =>
      let idx' := pred idx in
      match e with
      | Finish => meta_scan es idx' (depth + 1) found
      | Start n =>
          if (1 <? depth)%Z then meta_scan es idx' (depth - 1) found
          else match n with
               | PAREN_EXPR | NAME | ARG_TUPLE =>
                   if (depth =? 0)%Z then (idx', true) else meta_scan es idx' (depth - 1) true
               | _ => if (depth =? 0)%Z then (S idx', found) else meta_scan es idx' (depth - 1) found
               end
      | Token k =>
          if is_trivial k then
            if (depth =? 0)%Z && found then (S idx', found) else meta_scan es idx' depth found
          else if (depth =? 0)%Z then (S idx', found)
          else meta_scan es idx' depth found
      end
  end.
Definition extract_last (meta : list event) : option (list event * list event) :=
  match meta with
  | [] => None
  | _ =>
      let '(idx, found) := meta_scan (rev meta) (length meta) 0 false in
      if found && (idx <? length meta) then
        Some (firstn idx meta,
              match skipn idx meta with Start ARG_TUPLE :: es => Start PAREN_EXPR :: es | es => es end)
      else None
  end.

(** [BACKTICK] at the top of a block, lines 1222-1246. *)
Definition token_backtick (s : sink) (len : nat) : option sink :=
  let flushed :=
    if is_nil (buffer s) then Some s
    else match declaration s with
         | Some d =>
             option_map (fun s => mkSink (committed s) (block_meta s) (buffer s) (declaration s) (depth s) (s_errors s) (current_offset s) None)
               (commit_declaration
                  (mkSink (committed s) (block_meta s) (p_body d) (Some (mkPending (p_meta d) (p_head d) (p_colon d) (buffer s)))
                     (depth s) (s_errors s) (current_offset s) (decl_start s)))
         | None =>
             Some (commit_meta (mkSink (committed s) (buffer s) (block_meta s) None (depth s) (s_errors s) (current_offset s) (decl_start s)))
         end in
  option_map (fun s =>
    mkSink (committed s) (block_meta s) (buffer s ++ [Token BACKTICK]) (Some (mkPending (Some []) [] [] []))
      (depth s) (s_errors s) (current_offset s + len) (Some (current_offset s))) flushed.

(** [COLON] at the top of a block, lines 1247-1311. *)
Definition token_colon (s0 : sink) (len : nat) : option sink :=
  let '(others, head) := split_off_head (buffer s0) in
  let s := mkSink (committed s0) (block_meta s0) others (declaration s0) (depth s0) (s_errors s0) (current_offset s0) (decl_start s0) in
  let flushed :=
    if is_nil others then Some s
    else match declaration s with
         | Some d =>
             match p_meta d with
             | Some [] =>
                 Some (mkSink (committed s) (block_meta s) [] (Some (mkPending (Some others) (p_head d) (p_colon d) (p_body d)))
                         (depth s) (s_errors s) (current_offset s) (decl_start s))
             | _ =>
                 option_map (fun s => mkSink (committed s) (block_meta s) (buffer s) (declaration s) (depth s) (s_errors s) (current_offset s) None)
                   (commit_declaration
                      (mkSink (committed s) (block_meta s) (p_body d) (Some (mkPending (p_meta d) (p_head d) (p_colon d) others))
                         (depth s) (s_errors s) (current_offset s) (decl_start s)))
             end
         | None =>
             Some (commit_meta (mkSink (committed s) others (block_meta s) None (depth s) (s_errors s) (current_offset s) (decl_start s)))
         end in
  option_map (fun s =>
    let '(decl, head) :=
      match head, declaration s with
      | [], Some d =>
          match p_meta d with
          | Some m =>
              match extract_last m with
              | Some (m', h) => (Some (mkPending (Some m') (p_head d) (p_colon d) (p_body d)), h)
              | None => (declaration s, [])
              end
          | None => (declaration s, [])
          end
      | _, _ => (declaration s, head)
      end in
    let decl' :=
      match decl with
      | Some d => mkPending (p_meta d) head (p_colon d ++ [Token COLON]) (p_body d)
      | None => mkPending None head [Token COLON] []
      end in
    mkSink (committed s) (block_meta s) (buffer s) (Some decl') (depth s) (s_errors s) (current_offset s + len) (Some (current_offset s)))
  flushed.

(** [COMMA] at the top of a block, lines 1312-1335. *)
Definition token_comma (s : sink) (len : nat) : option sink :=
  let s := mkSink (committed s) (block_meta s) (buffer s ++ [Token COMMA]) (declaration s) (depth s) (s_errors s) (current_offset s + len) (decl_start s) in
  match declaration s with
  | Some d =>
      match p_meta d with
      | Some _ => Some s
      | None =>
          option_map (fun s => mkSink (committed s) (block_meta s) (buffer s) (declaration s) (depth s) (s_errors s) (current_offset s) None)
            (commit_declaration
               (mkSink (committed s) (block_meta s) (p_body d) (Some (mkPending (p_meta d) (p_head d) (p_colon d) (buffer s)))
                  (depth s) (s_errors s) (current_offset s) (decl_start s)))
      end
  | None => Some s
  end.

(** [start_node], [finish_node], [accept] and [token], lines 1203-1347.  [None] is a panic: an
    underflow of the depth, or one in [commit_declaration]. *)
Definition sink_op (s : sink) (o : op) : option sink :=
  let push es len d := Some (mkSink (committed s) (block_meta s) (buffer s ++ es) (declaration s) d (s_errors s) (current_offset s + len) (decl_start s)) in
  match o with
  | OStart n => push [Start n] 0 (S (depth s))
  | OFinish => match depth s with O => None | S d => push [Finish] 0 d end
  | OAccept es len => push es len (depth s)
  | OToken k len =>
      match depth s, k with
      | O, BACKTICK => token_backtick s len
      | O, COLON => token_colon s len
      | O, COMMA => token_comma s len
      | _, _ => push [Token k] len (depth s)
      end
  end.
Fixpoint sink_ops (s : sink) (os : list op) : option sink :=
  match os with
  | [] => Some s
  | o :: os => match sink_op s o with Some s => sink_ops s os | None => None end
  end.

(** [complete], lines 1349-1374. *)
Definition complete (s : sink) : option (list event * list error) :=
  let s' :=
    if is_nil (buffer s) then
      match declaration s with Some _ => commit_declaration s | None => Some s end
    else match declaration s with
         | Some d =>
             commit_declaration
               (mkSink (committed s) (block_meta s) (p_body d) (Some (mkPending (p_meta d) (p_head d) (p_colon d) (buffer s)))
                  (depth s) (s_errors s) (current_offset s) (decl_start s))
         | None => Some (commit_meta (mkSink (committed s) (buffer s) (block_meta s) None (depth s) (s_errors s) (current_offset s) (decl_start s)))
         end in
  option_map (fun s => (committed s, s_errors s)) s'.

(** ** Parsing *)

(** What a function of the parser does: the value it returns, the calls it makes of the sink
    that was on top, the errors it pushes, and the tokens before (the last first) and after the
    next.  Or it panics, or [fuel] runs out. *)
Inductive res (A : Type) := Ret (a : A) (os : list op) (es : list error) (used rest : list word) | Panic | Stuck.
Arguments Ret {A} _ _ _ _ _.
Arguments Panic {A}.
Arguments Stuck {A}.
Definition parser (A : Type) : Type := list word -> list word -> res A.

Definition ret {A} (a : A) : parser A := fun used rest => Ret a [] [] used rest.
Definition bind {A B} (m : parser A) (f : A -> parser B) : parser B := fun used rest =>
  match m used rest with
  | Ret a os es used rest =>
      match f a used rest with
      | Ret b os' es' used rest => Ret b (os ++ os') (es ++ es') used rest
      | Panic => Panic
      | Stuck => Stuck
      end
  | Panic => Panic
  | Stuck => Stuck
  end.
Notation "x <- m ;; f" := (bind m (fun x => f)) (at level 61, m at next level, right associativity).
Notation "m ;; f" := (bind m (fun _ => f)) (at level 61, right associativity).
Definition stuck {A} : parser A := fun _ _ => Stuck.

(** [self.sink().start_node], [self.sink().finish_node]. *)
Definition start (n : node) : parser unit := fun used rest => Ret tt [OStart n] [] used rest.
Definition finish : parser unit := fun used rest => Ret tt [OFinish] [] used rest.
Definition report (e : error) : parser unit := fun used rest => Ret tt [] [e] used rest.

(** [peek], lines 884-886. *)
Definition peek : parser (option word) := fun used rest => Ret (hd_error rest) [] [] used rest.

(** [next], lines 889-895, with the token passed to the sink or not.  The code's [push_back]
    (lines 876-882) always undoes the [next] just before it: here there is a [peek] instead. *)
Definition take : parser unit := fun used rest =>
  match rest with [] => Ret tt [] [] used rest | w :: rest => Ret tt [OToken (fst w) (length (snd w))] [] (w :: used) rest end.
Definition skip : parser unit := fun used rest =>
  match rest with [] => Ret tt [] [] used rest | w :: rest => Ret tt [] [] (w :: used) rest end.

(** [next_range], lines 80-87: it panics after the last token. *)
Definition next_range : parser range := fun used rest =>
  match rest with [] => Panic | w :: _ => Ret (width used, width used + length (snd w)) [] [] used rest end.

(** [try_accept], lines 860-873, and [expect], lines 774-795. *)
Definition accept (k : kind) : parser bool :=
  w <- peek;;
  match w with Some (k', _) => if is k' k then take;; ret true else ret false | None => ret false end.
Definition expect (k : kind) : parser bool :=
  w <- peek;;
  match w with
  | Some (k', _) => if is k' k then take;; ret true else r <- next_range;; report (UnexpectedToken k k' r);; ret false
  | None => ret false
  end.

(** Functions that stop at some token of those to come: the calls they make and the tokens. *)
Definition scan : Type := list op * list word * list word.
Definition scanned {A} (a : A) (s : scan) : res A := let '(os, used, rest) := s in Ret a os [] used rest.
Definition also (os : list op) (s : scan) : scan := let '(os', used, rest) := s in (os ++ os', used, rest).
Definition tok (w : word) : op := OToken (fst w) (length (snd w)).

(** [add_trivia], lines 897-907. *)
Fixpoint trivia_scan (used rest : list word) : scan :=
  match rest with
  | w :: rest' => if is_trivial (fst w) then also [tok w] (trivia_scan (w :: used) rest') else ([], used, rest)
  | [] => ([], used, rest)
  end.
Definition trivia : parser unit := fun used rest => scanned tt (trivia_scan used rest).

(** [recover_to], lines 803-858.  The opening bracket that is passed to it is always among those
    it knows. *)
Definition opener : kind -> bool :=
  among [OPEN_BRACE; OPEN_BRACE_APPLY; OPEN_SQUARE; OPEN_SQUARE_APPLY; OPEN_PAREN; OPEN_PAREN_APPLY; BRACKET_OPEN; RESERVED_OPEN].
Definition closer : kind -> bool := among [CLOSE_BRACE; CLOSE_SQUARE; CLOSE_PAREN; BRACKET_CLOSE; RESERVED_CLOSE].
Fixpoint recover_scan (close : kind) (stop_at : list kind) (depth : nat) (stowing : bool) (used rest : list word) : scan :=
  let stop := if stowing then [OFinish] else [] in
  match rest with
  | [] => (stop, used, rest)
  | w :: rest' =>
      if is (fst w) close && (depth =? 0) then (stop ++ [tok w], w :: used, rest')
      else if among stop_at (fst w) then (stop, used, rest)
      else
        let depth := if opener (fst w) then S depth else if closer (fst w) && (0 <? depth) then pred depth else depth in
        also ((if stowing then [] else [OStart ERROR_STOWAWAYS]) ++ [tok w]) (recover_scan close stop_at depth true (w :: used) rest')
  end.
Definition recover (close : kind) (stop_at : list kind) : parser unit := fun used rest =>
  scanned tt (recover_scan close stop_at 0 false used rest).

(** A closing bracket, or the recovery from its lack. *)
Definition close_or_recover (close : kind) (stop_at : list kind) : parser unit :=
  b <- expect close;; if b then ret tt else recover close stop_at.

(** The recovery in [parse_apply_tuple], lines 607-633. *)
Fixpoint args_scan (used rest : list word) : scan :=
  match rest with
  | [] => ([], used, rest)
  | w :: rest' =>
      if is (fst w) CLOSE_PAREN then ([tok w], w :: used, rest')
      else if among [CLOSE_BRACE; CLOSE_SQUARE; RESERVED_CLOSE; BRACKET_CLOSE] (fst w) then ([], used, rest)
      else also [OStart ERROR_STOWAWAYS; tok w; OFinish] (args_scan (w :: used) rest')
  end.
Definition recover_args : parser unit := fun used rest => scanned tt (args_scan used rest).

(** A node that holds the next token. *)
Definition leaf (n : node) : parser unit := start n;; take;; finish.

(** ** String patterns *)

Definition DOT_TEXT : text := [46%N].
Definition is_dot (t : text) : bool := if list_eq_dec N.eq_dec t DOT_TEXT then true else false.

(** The lookahead of [parse_string_interpolation_content], lines 1029-1035. *)
Fixpoint has_dots (rest : list word) : bool :=
  match rest with
  | [] => false
  | (k, _) :: rest => if is k CLOSE_BRACE || is k COLON then false else is k OPERATOR_IDENTIFIER || has_dots rest
  end.

(** The dots and the targets after them, lines 1051-1079. *)
Definition in_name (w : word) : list op := [OStart NAME; tok w; OFinish].
Fixpoint dots_scan (used rest : list word) : scan :=
  match rest with
  | w :: rest' =>
      if is (fst w) OPERATOR_IDENTIFIER && is_dot (snd w) then
        match rest' with
        | v :: rest'' =>
            if is (fst v) STRING_INTERPOLATION_TARGET then also (in_name w ++ in_name v) (dots_scan (v :: w :: used) rest'')
            else (in_name w, w :: used, rest')
        | [] => (in_name w, w :: used, rest')
        end
      else ([], used, rest)
  | [] => ([], used, rest)
  end.
Definition dots : parser unit := fun used rest => scanned tt (dots_scan used rest).

(** [parse_string_interpolation_content], lines 1027-1093. *)
Definition hole_content : parser unit :=
  b <- (fun used rest => Ret (has_dots rest) [] [] used rest);;
  w <- peek;;
  let target := match w with Some (STRING_INTERPOLATION_TARGET, _) => true | _ => false end in
  (if b : bool then start SOUP;; (if target then leaf NAME else ret tt);; dots;; finish
   else if target then leaf TARGET else ret tt);;
  w <- peek;;
  match w with
  | Some (COLON, _) =>
      take;;
      w <- peek;;
      match w with Some (STRING_FORMAT_SPEC, _) => leaf FORMAT_SPEC | _ => ret tt end
  | _ => ret tt
  end.

(** The stray tokens of a hole, lines 969-1003, and whether the closing brace was found. *)
Fixpoint stray_scan (used rest : list word) : bool * scan :=
  match rest with
  | [] => (false, ([], used, rest))
  | w :: rest' =>
      if is (fst w) CLOSE_BRACE then (true, ([tok w], w :: used, rest'))
      else if among [STRING_LITERAL_CONTENT; PATTERN_END Plain; PATTERN_END CString; PATTERN_END Raw] (fst w) then (false, ([], used, rest))
      else let '(b, s) := stray_scan (w :: used) rest' in (b, also [tok w] s)
  end.
Definition stray : parser bool := fun used rest => let '(b, s) := stray_scan used rest in scanned b s.

(** A hole, lines 949-1014. *)
Definition hole : parser unit :=
  r <- next_range;;
  start INTERPOLATION;; take;;
  hole_content;;
  w <- peek;;
  match w with
  | Some (CLOSE_BRACE, _) => take
  | _ => b <- stray;; if b : bool then ret tt else report (UnclosedStringInterpolation r)
  end;;
  finish.

(** [parse_string_pattern], lines 916-1024, after the opening quote. *)
Fixpoint pattern_loop (fuel : nat) (p : prefix) : parser unit :=
  match fuel with
  | O => stuck
  | S fuel =>
      w <- peek;;
      match w with
      | None => ret tt
      | Some (k, _) =>
          if is k (PATTERN_END p) then take
          else
            match k with
            | STRING_LITERAL_CONTENT => leaf LITERAL_CONTENT
            | STRING_ESCAPED_OPEN => leaf ESCAPED_OPEN
            | STRING_ESCAPED_CLOSE => leaf ESCAPED_CLOSE
            | OPEN_BRACE => hole
            | _ => skip
            end;;
            pattern_loop fuel p
      end
  end.
Definition string_pattern (p : prefix) : parser unit :=
  start (PATTERN p);; take;; (fun used rest => pattern_loop (S (length rest)) p used rest);; finish.

(** ** Expressions and blocks *)

(** [try_parse_atom], [try_parse_literal], [try_parse_name], lines 203-277. *)
Definition atom : parser bool :=
  w <- peek;;
  match w with
  | None => ret false
  | Some (k, _) =>
      match k with
      | PATTERN_START p => string_pattern p;; ret true
      | _ =>
          if literal_terminal k then leaf LITERAL;; ret true
          else if name_terminal k then leaf NAME;; ret true
          else ret false
      end
  end.

(** [bracket_content_has_top_level_colon], lines 444-487, after the opening bracket. *)
Fixpoint colon_ahead (depth : nat) (rest : list word) : bool :=
  match rest with
  | [] => false
  | (k, _) :: rest =>
      if opener k then colon_ahead (S depth) rest
      else if closer k then match depth with O => false | S d => colon_ahead d rest end
      else if is k COLON && (depth =? 0) then true
      else colon_ahead depth rest
  end.

(** [parse_block_content], lines 703-712, and [parse_block_content_until_bracket_close], lines
    540-547, with [finish_sink], 131-160: the calls that the loop makes go to a new sink. *)
Definition is_token (e : event) : bool := match e with Token _ => true | _ => false end.
Definition content (loop : parser unit) : parser unit := fun used rest =>
  match loop used rest with
  | Ret _ os es used' rest' =>
      match sink_ops (with_start (width used)) os with
      | None => Panic
      | Some s =>
          match complete s with
          | None => Panic
          | Some (events, errors) =>
              let n := length (filter is_token events) in
              Ret tt [OAccept events (width (firstn n used'))] (es ++ errors) used' rest'
          end
      end
  | Panic => Panic
  | Stuck => Stuck
  end.

(** [try_parse_soup], lines 367-383, given its loop. *)
Definition try_soup (elements : parser unit) : parser bool :=
  w <- peek;;
  if match w with
     | Some (k, _) => among [CLOSE_BRACE; CLOSE_PAREN; CLOSE_SQUARE; RESERVED_CLOSE; BRACKET_CLOSE; COMMA] k
     | None => false
     end
  then ret false
  else start SOUP;; elements;; trivia;; finish;; ret true.

(** [parse_soup], lines 385-408, given its loop. *)
Definition soup (loop : parser unit) : parser unit := start SOUP;; loop;; trivia;; finish.

(** The colon in a block, lines 714-736 and 551-568. *)
Definition block_colon : parser unit :=
  fun used rest =>
    match rest with
    | w :: (COLON, t) :: _ =>
        (report (InvalidDoubleColon (width used, width used + length (snd w) + length t));;
         start ERROR_STOWAWAYS;; take;; take;; finish;; trivia) used rest
    | _ => (take;; trivia) used rest
    end.

(** [try_parse_element], lines 280-317, with the functions it calls: [parse_paren_expression]
    (411-427), [parse_apply_tuple] (594-636), [try_parse_list_expression] (324-362),
    [parse_block_expression] (685-700), [parse_block_apply_tuple] (641-654),
    [parse_list_apply_tuple] (659-682), [parse_bracket_expression] (502-537) and
    [parse_reserved_paren_expression] (434-442); and the loops:

    - [elements]: the loop of [try_parse_soup], lines 377-379;
    - [soup_loop]: the loop of [parse_soup], lines 387-405;
    - [items]: the loops over the items of a list (with a colon before the tail) and of an apply tuple;
    - [block_loop]: the loops over [parse_protoblock_element], lines 714-757, and
      [parse_protoblock_element_until_bracket_close], lines 550-591. *)
Fixpoint element (fuel : nat) : parser bool :=
  match fuel with
  | O => stuck
  | S fuel =>
      w <- peek;;
      match w with
      | None => ret false
      | Some (k, _) =>
          match k with
          | OPEN_PAREN =>
              start PAREN_EXPR;; expect OPEN_PAREN;; trivia;;
              soup (soup_loop fuel);;
              close_or_recover CLOSE_PAREN [CLOSE_BRACE; CLOSE_SQUARE; RESERVED_CLOSE; BRACKET_CLOSE];;
              finish;; ret true
          | OPEN_PAREN_APPLY =>
              start ARG_TUPLE;; expect OPEN_PAREN_APPLY;; trivia;;
              items fuel false;; trivia;;
              b <- expect CLOSE_PAREN;; (if b then ret tt else recover_args);;
              finish;; ret true
          | OPEN_SQUARE =>
              start LIST;; take;; trivia;;
              items fuel true;; trivia;;
              close_or_recover CLOSE_SQUARE [CLOSE_BRACE; CLOSE_PAREN; RESERVED_CLOSE; BRACKET_CLOSE];;
              finish;; ret true
          | OPEN_BRACE =>
              start BLOCK;; expect OPEN_BRACE;; trivia;;
              content (block_loop fuel CLOSE_BRACE);; trivia;;
              close_or_recover CLOSE_BRACE [CLOSE_PAREN; CLOSE_SQUARE; RESERVED_CLOSE; BRACKET_CLOSE];;
              finish;; ret true
          | OPEN_BRACE_APPLY =>
              start ARG_TUPLE;; start SOUP;; start BLOCK;; expect OPEN_BRACE_APPLY;; trivia;;
              content (block_loop fuel CLOSE_BRACE);; trivia;;
              expect CLOSE_BRACE;;
              finish;; finish;; finish;; ret true
          | OPEN_SQUARE_APPLY =>
              start ARG_TUPLE;; start SOUP;; start LIST;; expect OPEN_SQUARE_APPLY;; trivia;;
              items fuel true;; trivia;;
              expect CLOSE_SQUARE;;
              finish;; finish;; finish;; ret true
          | BRACKET_OPEN =>
              b <- (fun used rest => Ret (colon_ahead 0 (tl rest)) [] [] used rest);;
              (if b : bool then
                start BRACKET_BLOCK;; expect BRACKET_OPEN;; trivia;;
                content (block_loop fuel BRACKET_CLOSE);; trivia
              else
                start BRACKET_EXPR;; expect BRACKET_OPEN;; trivia;;
                soup (soup_loop fuel));;
              c <- accept BRACKET_CLOSE;;
              (if c : bool then ret tt else r <- next_range;; report (UnclosedBracketExpr r));;
              finish;; ret true
          | RESERVED_OPEN =>
              start PAREN_EXPR;; expect RESERVED_OPEN;; trivia;;
              soup (soup_loop fuel);;
              expect RESERVED_CLOSE;;
              finish;; ret true
          | _ => atom
          end
      end
  end
with elements (fuel : nat) : parser unit :=
  match fuel with
  | O => stuck
  | S fuel => b <- element fuel;; if b then trivia;; elements fuel else ret tt
  end
with soup_loop (fuel : nat) : parser unit :=
  match fuel with
  | O => stuck
  | S fuel =>
      w <- peek;;
      match w with
      | None => ret tt
      | Some (k, _) =>
          if is_trivial k then take;; soup_loop fuel
          else b <- element fuel;; if b then soup_loop fuel else ret tt
      end
  end
with items (fuel : nat) (tail : bool) : parser unit :=
  match fuel with
  | O => stuck
  | S fuel =>
      b <- try_soup (elements fuel);;
      if b then
        c <- accept COMMA;;
        if c : bool then trivia;; items fuel tail
        else if tail then
          d <- accept COLON;;
          if d : bool then trivia;; try_soup (elements fuel);; ret tt else ret tt
        else ret tt
      else ret tt
  end
with block_loop (fuel : nat) (close : kind) : parser unit :=
  match fuel with
  | O => stuck
  | S fuel =>
      w <- peek;;
      match w with
      | None => ret tt
      | Some (k, _) =>
          if is k COLON then block_colon;; block_loop fuel close
          else if among [BACKTICK; COMMA; WHITESPACE; COMMENT] k then take;; trivia;; block_loop fuel close
          else if is k close then ret tt
          else b <- element fuel;; if b then block_loop fuel close else ret tt
      end
  end.

(** ** The tree *)

Inductive tree := Node (n : node) (ts : list tree) | Leaf (k : kind) (t : text).

(** rowan's [GreenNodeBuilder]: the nodes that are open, each with the children before it (the
    last first), and the children of the innermost.  [None] is a panic: no node to finish, or no
    token left ([self.tokens[idx]]). *)
Fixpoint builder (open : list (node * list tree)) (children : list tree) (es : list event) (ws : list word) : option (list tree) :=
  match es with
  | [] => Some (children ++ concat (map snd open))
  | Start n :: es => builder ((n, children) :: open) [] es ws
  | Finish :: es => match open with [] => None | (n, before) :: open => builder open (Node n (rev children) :: before) es ws end
  | Token k :: es => match ws with [] => None | w :: ws => builder open (Leaf k (snd w) :: children) es ws end
  end.

(** [read_surplus], lines 760-771. *)
Definition surplus (rest : list word) : list event :=
  match rest with [] => [] | _ => [Start ERROR_STOWAWAYS] ++ map (fun w => Token (fst w)) rest ++ [Finish] end.

Definition token_kinds (es : list event) : list kind :=
  concat (map (fun e => match e with Token k => [k] | _ => [] end) es).

(** [build], lines 163-200: the pop of the last event, the assertion that the tokens are those of
    the lexer, and the builder, whose [finish] asserts that there is one node. *)
Definition build (words : list word) (events : list event) (rest : list word) : option tree :=
  let events :=
    match surplus rest, rev events with
    | [], _ => Some events
    | s, last :: before => Some (rev before ++ s ++ [last])
    | _, [] => None
    end in
  match events with
  | None => None
  | Some events =>
      if list_eq_dec kind_eq_dec (token_kinds events) (map fst words) then
        match builder [] [] events words with
        | Some [Node n ts] => Some (Node n ts)
        | _ => None
        end
      else None
  end.

Inductive outcome := Parsed (t : tree) (es : list error) | Panicked | OutOfFuel.
Definition finished (words : list word) (r : res unit) : outcome :=
  match r with
  | Ret _ os es _ rest => match build words (concat (map events_of os)) rest with Some t => Parsed t es | None => Panicked end
  | Panic => Panicked
  | Stuck => OutOfFuel
  end.

Definition enough (words : list word) : nat := 5 * length words + 5.

(** [parse_unit], lines 55-68, and [parse_expression], lines 71-78. *)
Definition parse_unit (words : list word) : outcome :=
  finished words ((start UNIT;; trivia;; content (block_loop (enough words) CLOSE_BRACE);; trivia;; finish) [] words).
Definition parse_expression (words : list word) : outcome :=
  finished words (soup (soup_loop (enough words)) [] words).

(** [Parser::new], lines 41-52, on the tokens of a source. *)
Definition words_of (ts : list Lexer.Model.token) : list word := map (fun t => (kind_of t, text_of t)) ts.
