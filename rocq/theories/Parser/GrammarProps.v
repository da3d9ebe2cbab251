(** C76: a source that is well formed gets the tree of the grammar, and no errors. *)
From Coq Require Import String Ascii.
From Coq Require Import List NArith Bool Arith Lia.
Import ListNotations.
From Verif.Text Require Import Model.
From Verif.Lexer Require Import Model.
From Verif.Parser Require Import Model Spec Grammar Trees Props.
Open Scope nat_scope.

(** ** C76: well-formed sources *)

(** Of the tokens of a tree of the grammar, the parser makes this tree, without an error. *)
Theorem C76_parses : forall t, (Unit t -> parse_unit (leaves t) = Parsed t []) /\ (Expression t -> parse_expression (leaves t) = Parsed t []).
Proof. intros t. split; [apply unit_exact|apply expression_exact]. Qed.

(** The same of sources: if the tokens of the source are those of a tree of the grammar, then it is
    the tree of the source. *)
Theorem C76_sources : forall U s ts t, tokens U s = Some ts -> leaves t = words_of ts ->
  (Unit t -> option_map (fun us => parse_unit (words_of us)) (tokens U s) = Some (Parsed t [])) /\
  (Expression t -> option_map (fun us => parse_expression (words_of us)) (tokens U s) = Some (Parsed t [])).
Proof. intros U s ts t E L. rewrite E. cbn. rewrite <- L. split; intros H; f_equal; apply C76_parses, H. Qed.

(** A source has one structure: no two trees of the grammar have the same tokens. *)
Theorem C76_unambiguous : forall t t', leaves t = leaves t' -> (Unit t /\ Unit t') \/ (Expression t /\ Expression t') -> t = t'.
Proof.
  intros t t' E [[H H'] | [H H']].
  - pose proof (proj1 (C76_parses t) H) as P. rewrite E, (proj1 (C76_parses t') H') in P. congruence.
  - pose proof (proj2 (C76_parses t) H) as P. rewrite E, (proj2 (C76_parses t') H') in P. congruence.
Qed.

(** ** Examples *)

(** Metadata of the unit, then two declarations: the first has metadata and an argument, its body is
    a call with a block; the second is a list with a tail. *)
Definition name (s : string) : tree := Node NAME [Leaf UNQUOTED_IDENTIFIER (chars s)].
Definition space : tree := Leaf WHITESPACE (chars " ").
Definition example_tree : tree :=
  Node UNIT
    [Node BLOCK_META [Node SOUP [Node BLOCK [Leaf OPEN_BRACE (chars "{"); Leaf CLOSE_BRACE (chars "}")]; space]];
     Node DECLARATION
       [Node DECL_META [Node SOUP [Leaf BACKTICK (chars "`"); name "m"; space]];
        Node DECL_HEAD [name "f"; Node ARG_TUPLE [Leaf OPEN_PAREN_APPLY (chars "("); Node SOUP [name "x"]; Leaf CLOSE_PAREN (chars ")")]];
        Leaf COLON (chars ":");
        Node DECL_BODY [Node SOUP [space; name "g"; Node ARG_TUPLE [Node SOUP [Node BLOCK
           [Leaf OPEN_BRACE_APPLY (chars "{");
            Node DECLARATION [Node DECL_HEAD [name "a"]; Leaf COLON (chars ":"); Node DECL_BODY [Node SOUP [space; name "x"]]];
            Leaf CLOSE_BRACE (chars "}")]]]]]];
     Leaf COMMA (chars ","); space;
     Node DECLARATION
       [Node DECL_HEAD [name "b"]; Leaf COLON (chars ":");
        Node DECL_BODY [Node SOUP [space; Node LIST [Leaf OPEN_SQUARE (chars "["); Node SOUP [Node LITERAL [Leaf NUMBER (chars "1")]]; Leaf COLON (chars ":"); space; Node SOUP [name "y"]; Leaf CLOSE_SQUARE (chars "]")]]]]].

Lemma name_element : forall s, Element (name s).
Proof. intros s. apply el_name. cbn. tauto. Qed.
Lemma space_blank : Blank space.
Proof. exists WHITESPACE, (chars " "). split; [reflexivity|cbn; tauto]. Qed.
Lemma name_soup : forall s, Soup [name s].
Proof. intros s. apply soup_of; [apply name_element|apply mixed_nil]. Qed.
Lemma name_head : forall s as_, Applied as_ -> Head (name s :: as_).
Proof. intros s as_ A. apply head_of; [cbn; tauto|apply name_element|exact A]. Qed.

Example C76_example : Unit example_tree.
Proof.
  apply (unit_of_content []); [constructor|].
  apply (content_declarations [_]).
  - apply block_meta_some, soup_of; [|apply mixed_blank; [apply space_blank|apply mixed_nil]].
    apply (el_block _ [] []); [constructor|apply content_meta, block_meta_none].
  - apply (declarations_more _ [_; _] [_]).
    + apply (declaration_of [_] [_; _]).
      * apply (meta_some _ []); [constructor|]. apply soup_of; [apply name_element|apply mixed_blank; [apply space_blank|apply mixed_nil]].
      * apply name_head, applied_to; [|apply applied_nil]. apply (el_call _ [] [_]); [constructor|apply items_last, name_soup].
      * apply (body_of [_; _]).
        { apply mixed_blank; [apply space_blank|]. apply mixed_element; [apply name_element|apply mixed_nil]. }
        apply (el_call_block _ [] [_]); [constructor|]. apply (content_declarations [] [_]); [apply block_meta_none|].
        apply (declarations_last _ []); [|apply sep_gap; constructor]. apply (declaration_of [] [_]); [apply meta_none|apply name_head, applied_nil|].
        apply (body_of [_]); [apply mixed_blank; [apply space_blank|apply mixed_nil]|apply name_element].
    + apply (sep_comma [] _ [_]); [constructor|]. constructor; [apply space_blank|constructor].
    + apply (declarations_last _ []); [|apply sep_gap; constructor]. apply (declaration_of [] [_]); [apply meta_none|apply name_head, applied_nil|].
      apply (body_of [_]); [apply mixed_blank; [apply space_blank|apply mixed_nil]|]. apply (el_list _ [] [_; _; _; _]); [constructor|].
      apply (items_tail _ _ [_]); [|constructor; [apply space_blank|constructor]|apply name_soup].
      apply soup_of; [apply el_literal; cbn; tauto|apply mixed_nil].
Qed.
Example C76_example_source : option_map words_of (tokens guillemets (chars "{} `m f(x): g{a: x}, b: [1: y]")) = Some (leaves example_tree).
Proof. lazy. reflexivity. Qed.

Print Assumptions C76_parses.
Print Assumptions C76_sources.
Print Assumptions C76_unambiguous.
