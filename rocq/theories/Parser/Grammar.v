(** The grammar of well-formed sources: what their trees are, written without the parser. *)
From Coq Require Import List NArith Bool Arith.
Import ListNotations.
From Verif.Text Require Import Model.
From Verif.Lexer Require Import Model.
From Verif.Parser Require Import Model Spec.
Open Scope nat_scope.

(** Whitespace and comments. *)
Definition Blank (t : tree) : Prop := exists k s, t = Leaf k s /\ In k [WHITESPACE; COMMENT].
Definition Gap (ts : list tree) : Prop := Forall Blank ts.

(** ** Strings with holes *)

(** A name in a hole, and the names that follow it after dots. *)
Definition target (n : node) (s : text) : tree := Node n [Leaf STRING_INTERPOLATION_TARGET s].
Definition dotted (d s : text) : list tree := [Node NAME [Leaf OPERATOR_IDENTIFIER d]; target NAME s].
(** What a hole is for: nothing, a name, or names with dots between them. *)
Inductive Target : list tree -> Prop :=
| target_none : Target []
| target_name : forall s, Target [target TARGET s]
| target_dotted : forall s ss, ss <> [] -> Target [Node SOUP (target NAME s :: flat_map (dotted [46%N]) ss)].
Inductive Format : list tree -> Prop :=
| format_none : Format []
| format_some : forall x f, Format [Leaf COLON x; Node FORMAT_SPEC [Leaf STRING_FORMAT_SPEC f]].
Inductive Chunk : tree -> Prop :=
| chunk_text : forall s, Chunk (Node LITERAL_CONTENT [Leaf STRING_LITERAL_CONTENT s])
| chunk_open : forall s, Chunk (Node ESCAPED_OPEN [Leaf STRING_ESCAPED_OPEN s])
| chunk_close : forall s, Chunk (Node ESCAPED_CLOSE [Leaf STRING_ESCAPED_CLOSE s])
| chunk_hole : forall x ts fs y, Target ts -> Format fs -> Chunk (Node INTERPOLATION (Leaf OPEN_BRACE x :: ts ++ fs ++ [Leaf CLOSE_BRACE y])).

(** ** Separators *)

(** Between two declarations: at most one comma. *)
Inductive Separator : list tree -> Prop :=
| sep_gap : forall g, Gap g -> Separator g
| sep_comma : forall g x g', Gap g -> Gap g' -> Separator (g ++ Leaf COMMA x :: g').

(** ** Expressions and blocks *)

(** What can be the function, the operator or the bracket pair that a declaration is about. *)
Definition heads (n : node) : Prop := In n [NAME; PAREN_EXPR; BRACKET_EXPR].

(** - [Element]: names, literals, strings with holes, parentheses, calls, lists, blocks, brackets.
    - [Mixed]: elements with blanks anywhere.  [Soup]: the same, and it begins with an element.
    - [Items]: the items of a list or of a call, with commas between them, perhaps one at the end;
      in a list, perhaps a tail after a colon.
    - [Content]: of a block or a unit: metadata, then declarations. *)
Inductive Element : tree -> Prop :=
| el_name : forall k s, In k [UNQUOTED_IDENTIFIER; OPERATOR_IDENTIFIER; SINGLE_QUOTE_IDENTIFIER] -> Element (Node NAME [Leaf k s])
| el_literal : forall k s, In k [NUMBER; STRING; SYMBOL; C_STRING; RAW_STRING; T_STRING; S_STRING] -> Element (Node LITERAL [Leaf k s])
| el_pattern : forall p x cs y, Forall Chunk cs -> Element (Node (PATTERN p) (Leaf (PATTERN_START p) x :: cs ++ [Leaf (PATTERN_END p) y]))
| el_paren : forall x g ts y, Gap g -> Soup ts -> Element (Node PAREN_EXPR (Leaf OPEN_PAREN x :: g ++ [Node SOUP ts; Leaf CLOSE_PAREN y]))
| el_call : forall x g ts y, Gap g -> Items false ts -> Element (Node ARG_TUPLE (Leaf OPEN_PAREN_APPLY x :: g ++ ts ++ [Leaf CLOSE_PAREN y]))
| el_list : forall x g ts y, Gap g -> Items true ts -> Element (Node LIST (Leaf OPEN_SQUARE x :: g ++ ts ++ [Leaf CLOSE_SQUARE y]))
| el_call_list : forall x g ts y, Gap g -> Items true ts ->
    Element (Node ARG_TUPLE [Node SOUP [Node LIST (Leaf OPEN_SQUARE_APPLY x :: g ++ ts ++ [Leaf CLOSE_SQUARE y])]])
| el_block : forall x g ts y, Gap g -> Content ts -> Element (Node BLOCK (Leaf OPEN_BRACE x :: g ++ ts ++ [Leaf CLOSE_BRACE y]))
| el_call_block : forall x g ts y, Gap g -> Content ts ->
    Element (Node ARG_TUPLE [Node SOUP [Node BLOCK (Leaf OPEN_BRACE_APPLY x :: g ++ ts ++ [Leaf CLOSE_BRACE y])]])
| el_bracket : forall x g ts y, Gap g -> Soup ts -> Element (Node BRACKET_EXPR (Leaf BRACKET_OPEN x :: g ++ [Node SOUP ts; Leaf BRACKET_CLOSE y]))
| el_bracket_block : forall x g ms ds y, Gap g -> BlockMeta ms -> Declarations ds ->
    Element (Node BRACKET_BLOCK (Leaf BRACKET_OPEN x :: g ++ (ms ++ ds) ++ [Leaf BRACKET_CLOSE y]))
with Mixed : list tree -> Prop :=
| mixed_nil : Mixed []
| mixed_blank : forall t ts, Blank t -> Mixed ts -> Mixed (t :: ts)
| mixed_element : forall t ts, Element t -> Mixed ts -> Mixed (t :: ts)
with Soup : list tree -> Prop :=
| soup_of : forall t ts, Element t -> Mixed ts -> Soup (t :: ts)
with Items : bool -> list tree -> Prop :=
| items_none : forall b, Items b []
| items_last : forall b ts, Soup ts -> Items b [Node SOUP ts]
| items_more : forall b ts x g is, Soup ts -> Gap g -> Items b is -> Items b (Node SOUP ts :: Leaf COMMA x :: g ++ is)
| items_tail : forall ts x g ts', Soup ts -> Gap g -> Soup ts' -> Items true (Node SOUP ts :: Leaf COLON x :: g ++ [Node SOUP ts'])
with Content : list tree -> Prop :=
| content_meta : forall ms, BlockMeta ms -> Content ms
| content_declarations : forall ms ds, BlockMeta ms -> Declarations ds -> Content (ms ++ ds)
with BlockMeta : list tree -> Prop :=
| block_meta_none : BlockMeta []
| block_meta_some : forall ts, Soup ts -> BlockMeta [Node BLOCK_META [Node SOUP ts]]
with Declarations : list tree -> Prop :=
| declarations_last : forall d sep, Declaration d -> Separator sep -> Declarations (d :: sep)
| declarations_more : forall d sep ds, Declaration d -> Separator sep -> Declarations ds -> Declarations (d :: sep ++ ds)
with Declaration : tree -> Prop :=
| declaration_of : forall ms hs x bs, Meta ms -> Head hs -> Body bs ->
    Declaration (Node DECLARATION (ms ++ [Node DECL_HEAD hs; Leaf COLON x; Node DECL_BODY [Node SOUP bs]]))
with Meta : list tree -> Prop :=
| meta_none : Meta []
| meta_some : forall x g ts, Gap g -> Soup ts -> Meta [Node DECL_META [Node SOUP (Leaf BACKTICK x :: g ++ ts)]]
with Head : list tree -> Prop :=
| head_of : forall n ts as_, heads n -> Element (Node n ts) -> Applied as_ -> Head (Node n ts :: as_)
with Applied : list tree -> Prop :=
| applied_nil : Applied []
| applied_blank : forall t ts, Blank t -> Applied ts -> Applied (t :: ts)
| applied_to : forall as_ ts, Element (Node ARG_TUPLE as_) -> Applied ts -> Applied (Node ARG_TUPLE as_ :: ts)
(* The body ends with an element: what comes after is of the separator. *)
with Body : list tree -> Prop :=
| body_of : forall ts t, Mixed ts -> Element t -> Body (ts ++ [t]).

(** A whole source, and an expression that begins at the start of its source or after blanks. *)
Inductive Unit : tree -> Prop :=
| unit_of_content : forall g ts, Gap g -> Content ts -> Unit (Node UNIT (g ++ ts)).
Inductive Expression : tree -> Prop :=
| expression_of_mixed : forall ts, Mixed ts -> Expression (Node SOUP ts).
