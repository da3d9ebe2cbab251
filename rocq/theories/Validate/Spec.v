(** Which parsed sources are in order, written without the checks. *)
From Coq Require Import List NArith Bool Arith.
Import ListNotations.
From Verif.Text Require Import Model.
From Verif.Lexer Require Import Model.
From Verif.Parser Require Import Model Spec Grammar.
From Verif.Validate Require Import Model.
Open Scope nat_scope.

(** ** What is looked at *)

Definition of_kind (n : node) (t : tree) : Prop := exists ts, t = Node n ts.
(** [t] is the first of the children that is of the kind [n]. *)
Definition First (n : node) (ts : list tree) (t : tree) : Prop :=
  of_kind n t /\ exists a b, ts = a ++ t :: b /\ Forall (fun u => ~ of_kind n u) a.
Definition Every (n : node) (ts : list tree) (t : tree) : Prop := of_kind n t /\ In t ts.
Definition Elemental (t : tree) : Prop :=
  exists n ts, t = Node n ts /\ (In n [LITERAL; BLOCK; LIST; PAREN_EXPR; BRACKET_EXPR; BRACKET_BLOCK; NAME; ARG_TUPLE] \/ exists p, n = PATTERN p).

(** The children of a node that are parts of a source for the user.  The inside of a head is not
    among them, nor is that of a string with holes, nor the metadata of a block in brackets other
    than braces. *)
Definition Part (n : node) (ts : list tree) (t : tree) : Prop :=
  match n with
  | SOUP => In t ts /\ Elemental t
  | PAREN_EXPR | DECL_META | DECL_BODY | BLOCK_META | BRACKET_EXPR => First SOUP ts t
  | DECLARATION => First DECL_META ts t \/ First DECL_HEAD ts t \/ First DECL_BODY ts t
  | BLOCK | UNIT => First BLOCK_META ts t \/ Every DECLARATION ts t
  | BRACKET_BLOCK => Every DECLARATION ts t
  | ARG_TUPLE | LIST => Every SOUP ts t
  | _ => False
  end.
Inductive Reached : tree -> tree -> Prop :=
| reached_here : forall t, Reached t t
| reached_below : forall n ts t u, Part n ts t -> Reached t u -> Reached (Node n ts) u.

(** ** Heads of declarations *)

(** A node that is a name, or that is an operator: the first of its tokens that is one. *)
Definition first_identifier (ts : list tree) (k : kind) (s : text) : Prop :=
  let ident t := exists k s, t = Leaf k s /\ In k [UNQUOTED_IDENTIFIER; SINGLE_QUOTE_IDENTIFIER; OPERATOR_IDENTIFIER] in
  exists a b, ts = a ++ Leaf k s :: b /\ ident (Leaf k s) /\ Forall (fun t => ~ ident t) a.
Definition Named (t : tree) (s : text) : Prop :=
  exists ts k, t = Node NAME ts /\ first_identifier ts k s /\ In k [UNQUOTED_IDENTIFIER; SINGLE_QUOTE_IDENTIFIER].
Definition Operator (t : tree) (s : text) : Prop := exists ts, t = Node NAME ts /\ first_identifier ts OPERATOR_IDENTIFIER s.

(** [Choose P ts us]: [us] are those of [ts] that [P] holds of, in order. *)
Inductive Choose (P : tree -> Prop) : list tree -> list tree -> Prop :=
| choose_nil : Choose P [] []
| choose_in : forall t ts us, P t -> Choose P ts us -> Choose P (t :: ts) (t :: us)
| choose_out : forall t ts us, ~ P t -> Choose P ts us -> Choose P (t :: ts) us.
Definition Branches : list tree -> list tree -> Prop := Choose (fun t => exists n us, t = Node n us).
Definition Elements : list tree -> list tree -> Prop := Choose Elemental.
(** The elements of the soup in parentheses or a bracket. *)
Definition Inside (ts us : list tree) : Prop := exists ss, First SOUP ts (Node SOUP ss) /\ Elements ss us.

(** A parameter: a name, a block or a list. *)
Definition Param (t : tree) : Prop := (exists s, Named t s) \/ of_kind BLOCK t \/ of_kind LIST t.
(** What brackets are defined to do with their content: with a block, or with a value. *)
Inductive BracketHead (ts : list tree) : declaration_kind -> Prop :=
| bracket_block : forall t, Inside ts [t] -> of_kind BLOCK t -> BracketHead ts (BracketBlockDef ts)
| bracket_pair : forall t ss, First SOUP ts (Node SOUP ss) -> Elements ss [t] -> ~ of_kind BLOCK t -> BracketHead ts (BracketPair ts ss).

(** The forms of a head: [x], [f(x, y)], [(o)], [(o x)], [(x o)], [(x o y)], and brackets around a
    parameter, perhaps in parentheses. *)
Inductive Heads (hs : list tree) : declaration_kind -> Prop :=
| heads_property : forall t x, Branches hs [t] -> Named t x -> Heads hs (Property x)
| heads_function : forall t f args, Branches hs [t; Node ARG_TUPLE args] -> Named t f ->
    (forall ss, In (Node SOUP ss) args -> exists e, Elements ss [e] /\ Param e) -> Heads hs (Function f args)
| heads_nullary : forall ps t o, Branches hs [Node PAREN_EXPR ps] -> Inside ps [t] -> Operator t o -> Heads hs (Nullary o)
| heads_prefix : forall ps t u o x, Branches hs [Node PAREN_EXPR ps] -> Inside ps [t; u] -> Operator t o -> Named u x -> Heads hs (Prefix o x)
| heads_postfix : forall ps t u x o, Branches hs [Node PAREN_EXPR ps] -> Inside ps [t; u] -> Named t x -> Operator u o -> Heads hs (Postfix x o)
| heads_binary : forall ps t u v x o y, Branches hs [Node PAREN_EXPR ps] -> Inside ps [t; u; v] -> Named t x -> Operator u o -> Named v y -> Heads hs (Binary x o y)
| heads_bracket : forall bs k, Branches hs [Node BRACKET_EXPR bs] -> BracketHead bs k -> Heads hs k
| heads_paren_bracket : forall ps bs k, Branches hs [Node PAREN_EXPR ps] -> Inside ps [Node BRACKET_EXPR bs] -> BracketHead bs k -> Heads hs k.

(** ** What is in order *)

(** A token directly below a node, and the first of a kind. *)
Definition Has (k : kind) (ts : list tree) : Prop := exists s, In (Leaf k s) ts.
Definition FirstLeaf (ks : list kind) (ts : list tree) (k : kind) (s : text) : Prop :=
  In k ks /\ exists a b, ts = a ++ Leaf k s :: b /\ forall k' s', In (Leaf k' s') a -> ~ In k' ks.
(** No part of the node was set aside, and none is a character without a meaning. *)
Definition Clean (ts : list tree) : Prop :=
  Forall (fun t => ~ of_kind ERROR_STOWAWAYS t /\ forall k s, t = Leaf k s -> ~ In k [RESERVED_OPEN; RESERVED_CLOSE; ERROR_RESERVED_CHAR]) ts.
(** The first token in the node is [{] or [[] directly after what it is applied to. *)
Definition Juxtaposed (ts : list tree) : Prop :=
  exists k s ws, flat_map leaves ts = (k, s) :: ws /\ In k [OPEN_BRACE_APPLY; OPEN_SQUARE_APPLY].

Section Spec.
Context (U : tables) (mirrored : N -> option N) (zdt : text -> bool).

(** The brackets are a pair. *)
Definition Paired (ts : list tree) : Prop :=
  forall o s, FirstLeaf [BRACKET_OPEN] ts BRACKET_OPEN (o :: s) ->
    is_bracket_open U o = true /\ forall c s', FirstLeaf [BRACKET_CLOSE] ts BRACKET_CLOSE (c :: s') -> mirrored o = Some c.
(** A literal: its quote, if it has one, is not found to be unclosed, and a date is a date. *)
Definition Literally (ts : list tree) : Prop :=
  exists k s, FirstLeaf [NUMBER; STRING; C_STRING; RAW_STRING; T_STRING; S_STRING; SYMBOL] ts k s /\ unclosed_quote (mkTok k 0 s) = false /\
    forall m, k = T_STRING -> s = [116; 34]%N ++ m ++ [34]%N -> zdt m = true.
Definition Naming (ts : list tree) : Prop :=
  exists k s, FirstLeaf [UNQUOTED_IDENTIFIER; SINGLE_QUOTE_IDENTIFIER; OPERATOR_IDENTIFIER] ts k s /\ unclosed_quote (mkTok k 0 s) = false.

(** What does not depend on the grammar: see [Proper] for what is left of it on its trees. *)
Definition InOrder (n : node) (ts : list tree) : Prop :=
  match n with
  | LITERAL => Literally ts
  | NAME => Naming ts
  | BRACKET_EXPR | BRACKET_BLOCK => Paired ts
  | SOUP => Clean ts /\ exists t, In t ts /\ exists m us, t = Node m us
  | PAREN_EXPR => Clean ts /\ Has CLOSE_PAREN ts
  | ARG_TUPLE => Clean ts /\ (Juxtaposed ts \/ Has CLOSE_PAREN ts)
  | BLOCK => Clean ts /\ Has CLOSE_BRACE ts
  | DECL_HEAD => Clean ts /\ exists k, Heads ts k
  | DECL_BODY => Clean ts /\ exists t, First SOUP ts t
  | DECLARATION => Clean ts /\ Has COLON ts /\ (exists t, First DECL_HEAD ts t) /\ (exists t, First DECL_BODY ts t)
  | UNIT | LIST | BLOCK_META | DECL_META | PATTERN _ => Clean ts
  | _ => True
  end.
(** What a tree of the grammar must still meet. *)
Definition Proper (n : node) (ts : list tree) : Prop :=
  match n with
  | LITERAL => Literally ts
  | NAME => Naming ts
  | BRACKET_EXPR | BRACKET_BLOCK => Paired ts
  | DECL_HEAD => exists k, Heads ts k
  | _ => True
  end.

End Spec.
