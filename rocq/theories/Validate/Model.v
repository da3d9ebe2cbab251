(** The checks of a parsed tree: src/syntax/rowan/validate.rs, and the accessors of
    src/syntax/rowan/ast.rs that they use. *)
From Coq Require Import List NArith Bool Arith.
Import ListNotations.
From Verif.Text Require Import Model.
From Verif.Lexer Require Import Model.
From Verif.Parser Require Import Model.
Open Scope nat_scope.

(** ** ast.rs *)

Definition node_eq_dec (a b : node) : {a = b} + {a <> b}.
Proof. decide equality; decide equality. Defined.
Definition is_kind (n : node) (t : tree) : bool :=
  match t with Node n' _ => if node_eq_dec n' n then true else false | Leaf _ _ => false end.

(** The children of a node that are nodes: rowan's [children()]. *)
Definition is_branch (t : tree) : bool := match t with Node _ _ => true | Leaf _ _ => false end.
Definition branches (ts : list tree) : list tree := filter is_branch ts.

(** [support::child], lines 123-125; [support::children], 127-129. *)
Definition child (n : node) (ts : list tree) : option (list tree) :=
  match find (is_kind n) ts with Some (Node _ us) => Some us | _ => None end.

(** [support::syntax_token], lines 131-136: the text of the first token of a kind.
    [support::token], 138-146: the first token that is of one of some kinds. *)
Fixpoint token_in (ks : list kind) (ts : list tree) : option (kind * text) :=
  match ts with
  | [] => None
  | Leaf k s :: ts => if among ks k then Some (k, s) else token_in ks ts
  | Node _ _ :: ts => token_in ks ts
  end.
Definition has_token (k : kind) (ts : list tree) : bool := match token_in [k] ts with Some _ => true | None => false end.

(** [Literal::value], lines 330-334; [Name::identifier], 512-516. *)
Definition literal_value (ts : list tree) : option (kind * text) :=
  token_in [NUMBER; STRING; C_STRING; RAW_STRING; T_STRING; S_STRING; SYMBOL] ts.
Definition identifier (ts : list tree) : option (kind * text) :=
  token_in [UNQUOTED_IDENTIFIER; SINGLE_QUOTE_IDENTIFIER; OPERATOR_IDENTIFIER] ts.

(** [Element::can_cast], lines 1351-1369, and [Soup::elements], 535-537. *)
Definition is_element (t : tree) : bool :=
  match t with
  | Node (LITERAL | BLOCK | LIST | PAREN_EXPR | BRACKET_EXPR | BRACKET_BLOCK | NAME | PATTERN _ | ARG_TUPLE) _ => true
  | _ => false
  end.
Definition elements_of (ts : list tree) : list tree := filter is_element ts.

(** [as_normal_identifier], lines 1410-1418, and [as_operator_identifier], 1423-1431: the text of
    the name. *)
Definition normal_identifier (t : tree) : option text :=
  match t with
  | Node NAME ts =>
      match identifier ts with Some (UNQUOTED_IDENTIFIER, s) | Some (SINGLE_QUOTE_IDENTIFIER, s) => Some s | _ => None end
  | _ => None
  end.
Definition operator_identifier (t : tree) : option text :=
  match t with
  | Node NAME ts => match identifier ts with Some (OPERATOR_IDENTIFIER, s) => Some s | _ => None end
  | _ => None
  end.

(** [is_valid_param_pattern], lines 1439-1453. *)
Definition valid_param_pattern (t : tree) : bool :=
  match t with
  | Node NAME _ => match normal_identifier t with Some _ => true | None => false end
  | Node BLOCK _ | Node LIST _ => true
  | _ => false
  end.

(** [Soup::singleton], lines 540-550. *)
Definition singleton (ts : list tree) : option tree := match elements_of ts with [t] => Some t | _ => None end.

(** [DeclarationKind], lines 678-716, with names for the identifiers, and the children of the
    nodes; the parentheses around an operator or a bracket pair are left out. *)
Inductive declaration_kind :=
| Property (name : text)
| Function (name : text) (args : list tree)
| Nullary (op : text)
| Prefix (op param : text)
| Postfix (param op : text)
| Binary (left op right : text)
| BracketPair (bracket soup : list tree)
| BracketBlockDef (bracket : list tree).

(** [ParseError], those that the checks push, without their ranges. *)
Inductive complaint :=
| ReservedCharacter | SurplusContent | EmptyExpression | UnclosedQuote | InvalidZdtLiteral
| InvalidParenExpr | EmptyDeclarationBody | MissingDeclarationColon | MalformedHead
| UnterminatedBlock | UnknownBracketPair | MismatchedBrackets
| InvalidPropertyName | InvalidOperatorName | InvalidFormalParameter.

(** The elements of the soup of a bracket or parentheses, lines 729-732 and 764-767. *)
Definition inner (ts : list tree) : list tree := match child SOUP ts with Some us => elements_of us | None => [] end.

(** [classify_bracket_direct], lines 728-760, and the same for a bracket in parentheses, 778-808. *)
Definition classify_bracket (ts : list tree) : declaration_kind + list complaint :=
  match inner ts with
  | [t] =>
      if is_kind BLOCK t then inl (BracketBlockDef ts)
      else match child SOUP ts with Some us => inl (BracketPair ts us) | None => inr [MalformedHead] end
  | _ => inr [MalformedHead]
  end.

(** [classify_operator], lines 763-865. *)
Definition classify_operator (ts : list tree) : declaration_kind + list complaint :=
  match inner ts with
  | [t] =>
      match operator_identifier t with
      | Some op => inl (Nullary op)
      | None => match t with Node BRACKET_EXPR us => classify_bracket us | _ => inr [InvalidOperatorName] end
      end
  | [t; u] =>
      match operator_identifier t with
      | Some op => match normal_identifier u with Some x => inl (Prefix op x) | None => inr [InvalidFormalParameter] end
      | None =>
          match normal_identifier t with
          | Some x => match operator_identifier u with Some op => inl (Postfix x op) | None => inr [InvalidOperatorName] end
          | None => inr [MalformedHead]
          end
      end
  | [t; u; v] =>
      match normal_identifier t with
      | Some x =>
          match operator_identifier u with
          | Some op => match normal_identifier v with Some y => inl (Binary x op y) | None => inr [InvalidFormalParameter] end
          | None => inr [InvalidOperatorName]
          end
      | None => inr [InvalidFormalParameter]
      end
  | _ => inr [MalformedHead]
  end.

(** The complaints about the parameters of a function, lines 919-931. *)
Definition bad_param (t : tree) : list complaint :=
  match t with
  | Node SOUP ts =>
      match singleton ts with
      | Some e => if valid_param_pattern e then [] else [InvalidFormalParameter]
      | None => [InvalidFormalParameter]
      end
  | _ => []
  end.

(** [classify_declaration], lines 869-950. *)
Definition classify (ts : list tree) : declaration_kind + list complaint :=
  match branches ts with
  | [Node NAME us] =>
      match normal_identifier (Node NAME us) with Some x => inl (Property x) | None => inr [InvalidPropertyName] end
  | [Node PAREN_EXPR us] => classify_operator us
  | [Node BRACKET_EXPR us] => classify_bracket us
  | [t; u] =>
      match normal_identifier t with
      | Some f =>
          match u with
          | Node ARG_TUPLE args =>
              match flat_map bad_param args with [] => inl (Function f args) | es => inr es end
          | _ => inr [MalformedHead]
          end
      | None => inr [MalformedHead]
      end
  | _ => inr [MalformedHead]
  end.

(** [first_token] of a node, rowan's: the first token anywhere below it. *)
Fixpoint first_token (t : tree) : option kind :=
  match t with
  | Leaf k _ => Some k
  | Node _ ts =>
      (fix first (ts : list tree) : option kind :=
         match ts with [] => None | t :: ts => match first_token t with Some k => Some k | None => first ts end end) ts
  end.

(** [is_block_apply], [is_list_apply], lines 1093-1104. *)
Definition juxtaposed (ts : list tree) : bool :=
  match first_token (Node ARG_TUPLE ts) with Some (OPEN_BRACE_APPLY | OPEN_SQUARE_APPLY) => true | _ => false end.

(** ** validate.rs *)

Section Validate.
(** The Unicode tables; the mirrored character (crate unicode_bidi_mirroring), used by
    brackets.rs; and [parse_zdt_literal] of lex.rs: whether the text between the quotes is a date. *)
Context (U : tables) (mirrored : N -> option N) (zdt : text -> bool).

(** [no_error_children], lines 45-63. *)
Definition error_child (t : tree) : list complaint :=
  match t with
  | Leaf (RESERVED_OPEN | RESERVED_CLOSE | ERROR_RESERVED_CHAR) _ => [ReservedCharacter]
  | Node ERROR_STOWAWAYS _ => [SurplusContent]
  | _ => []
  end.
Definition error_children (ts : list tree) : list complaint := flat_map error_child ts.

(** [non_empty], lines 65-74.  (No node is of a trivial kind.) *)
Definition non_empty (ts : list tree) : list complaint := if is_nil (branches ts) then [EmptyExpression] else [].

Definition require (b : bool) (c : complaint) : list complaint := if b then [] else [c].

(** [strip_prefix] of [t] and a quote, and [strip_suffix] of a quote: ast.rs:201-209. *)
Definition between_quotes (s : text) : option text :=
  match s with
  | c :: q :: s' =>
      if (N.eqb c 116 && N.eqb q 34)%bool then
        match rev s' with q' :: m => if N.eqb q' 34 then Some (rev m) else None | [] => None end
      else None
  | _ => None
  end.

(** [validate] of a literal and a name, lines 77-223. *)
Definition literal_complaints (ts : list tree) : list complaint :=
  match literal_value ts with
  | None => [EmptyExpression]
  | Some (k, s) =>
      if unclosed_quote (mkTok k 0 s) then [UnclosedQuote]
      else match k with
           | T_STRING => match between_quotes s with Some m => require (zdt m) InvalidZdtLiteral | None => [] end
           | _ => []
           end
  end.
Definition name_complaints (ts : list tree) : list complaint :=
  match identifier ts with
  | None => [EmptyExpression]
  | Some (k, s) => if unclosed_quote (mkTok k 0 s) then [UnclosedQuote] else []
  end.

(** [open_char], [close_char], ast.rs:586-593. *)
Definition bracket_char (k : kind) (ts : list tree) : option N :=
  match token_in [k] ts with Some (_, c :: _) => Some c | _ => None end.
(** [close_for_open], brackets.rs:54-59. *)
Definition close_for_open (c : N) : option N := if is_bracket_open U c then mirrored c else None.
(** The checks of a pair of brackets, lines 392-420 and 431-459: whether to go on, and the
    complaints. *)
Definition bracket_complaints (ts : list tree) : bool * list complaint :=
  match bracket_char BRACKET_OPEN ts with
  | None => (true, [])
  | Some o =>
      if is_bracket_open U o then
        (true,
         match bracket_char BRACKET_CLOSE ts with
         | None => []
         | Some c =>
             match close_for_open o with
             | Some c' => if N.eqb c' c then [] else [MismatchedBrackets]
             | None => [MismatchedBrackets]
             end
         end)
      else (false, [UnknownBracketPair])
  end.

(** [validate] of each node, lines 225-505.  What is not an element or one of the nodes that the
    functions below call [validate] on is never validated. *)
Fixpoint validate (t : tree) : list complaint :=
  match t with
  | Leaf _ _ => []
  | Node n ts =>
      let first (k : node) :=
        (fix first (ts : list tree) : list complaint :=
           match ts with [] => [] | t :: ts => if is_kind k t then validate t else first ts end) ts in
      let every (p : tree -> bool) :=
        (fix every (ts : list tree) : list complaint :=
           match ts with [] => [] | t :: ts => (if p t then validate t else []) ++ every ts end) ts in
      match n with
      | LITERAL => literal_complaints ts
      | NAME => name_complaints ts
      | SOUP => every is_element ++ error_children ts ++ non_empty ts
      | PAREN_EXPR => require (has_token CLOSE_PAREN ts) InvalidParenExpr ++ first SOUP ++ error_children ts
      | DECL_META => first SOUP ++ error_children ts
      | DECL_HEAD => match classify ts with inl _ => [] | inr es => es end ++ error_children ts
      | DECL_BODY => match child SOUP ts with Some _ => first SOUP | None => [EmptyDeclarationBody] end ++ error_children ts
      | DECLARATION =>
          first DECL_META
          ++ match child DECL_HEAD ts with
             | Some _ => first DECL_HEAD ++ require (has_token COLON ts) MissingDeclarationColon
             | None => [MalformedHead]
             end
          ++ match child DECL_BODY ts with Some _ => first DECL_BODY | None => [EmptyDeclarationBody] end
          ++ error_children ts
      | BLOCK_META => first SOUP ++ error_children ts
      | BLOCK =>
          first BLOCK_META ++ every (is_kind DECLARATION) ++ require (has_token CLOSE_BRACE ts) UnterminatedBlock ++ error_children ts
      | UNIT => first BLOCK_META ++ every (is_kind DECLARATION) ++ error_children ts
      | ARG_TUPLE =>
          every (is_kind SOUP) ++ require (juxtaposed ts || has_token CLOSE_PAREN ts) InvalidParenExpr ++ error_children ts
      | LIST => every (is_kind SOUP) ++ error_children ts
      | BRACKET_EXPR => let '(on, es) := bracket_complaints ts in es ++ if on then first SOUP else []
      | BRACKET_BLOCK => let '(on, es) := bracket_complaints ts in es ++ if on then every (is_kind DECLARATION) else []
      | PATTERN _ => error_children ts
      | _ => []
      end
  end.

(** [parse_unit], [parse_expr], src/syntax/rowan/mod.rs:109-121: the errors of the parser, and the
    complaints about the tree. *)
Definition check (o : outcome) : option (tree * list error * list complaint) :=
  match o with Parsed t es => Some (t, es, validate t) | _ => None end.
(** [ok], mod.rs:74-80: the tree, if there are no errors. *)
Definition accepted (o : outcome) : option tree :=
  match check o with Some (t, [], []) => Some t | _ => None end.

End Validate.
