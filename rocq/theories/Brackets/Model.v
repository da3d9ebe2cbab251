(** Highlights of bracket pairs in the language server: src/driver/lsp/highlight.rs.

    Texts and positions are those of [Verif.Lsp.Model].  Simplification: the syntax tree is
    the list of its tokens in order, none of them empty, each with the identity of its parent
    node if that is a bracket expression or a bracket block. *)
From Coq Require Import List Bool Arith NArith.
From Verif.Lsp Require Import Model.
Import ListNotations.

(** [BRACKET_OPEN], [BRACKET_CLOSE] and the other kinds. *)
Inductive kind := Open | Close | Plain.
Record leaf := mkLeaf { l_text : text; l_kind : kind; l_parent : option nat }.
Definition source (ts : list leaf) : text := flat_map l_text ts.

(** [SyntaxNode::token_at_offset] of rowan, then [right_biased] or else [left_biased],
    src/driver/lsp/highlight.rs:27-35: the token that the offset is in or at the start of; at
    the end of the source the last token. *)
Fixpoint token_at (offset start : nat) (before : option leaf) (ts : list leaf) : option leaf :=
  match ts with
  | [] => if Nat.eqb offset start then before else None
  | t :: ts =>
      let stop := start + bytes (l_text t) in
      if (start <=? offset) && (offset <? stop) then Some t
      else token_at offset stop (Some t) ts
  end.

(** The loop over the children of the parent, src/driver/lsp/highlight.rs:58-72: the range of
    the last token of a kind. *)
Definition is_kind (k : kind) (t : leaf) : bool :=
  match k, l_kind t with Open, Open | Close, Close => true | _, _ => false end.
Definition child_of (n : nat) (t : leaf) : bool :=
  match l_parent t with Some m => Nat.eqb m n | None => false end.
Fixpoint last_of (n : nat) (k : kind) (start : nat) (found : option (nat * nat)) (ts : list leaf) : option (nat * nat) :=
  match ts with
  | [] => found
  | t :: ts =>
      let stop := start + bytes (l_text t) in
      last_of n k stop (if child_of n t && is_kind k t then Some (start, stop) else found) ts
  end.

(** [text_range_to_lsp_range], src/driver/lsp/diagnostics.rs:172-175. *)
Definition ranges (src : text) (r : option (nat * nat)) : list range :=
  match r with Some (a, b) => [(to_position src a, to_position src b)] | None => [] end.

(** [document_highlights], src/driver/lsp/highlight.rs:18-88. *)
Definition highlights (ts : list leaf) (p : position) : list range :=
  let src := source ts in
  match token_at (to_offset src p) 0 None ts with
  | None => []
  | Some t =>
      match l_kind t, l_parent t with
      | Plain, _ | _, None => []
      | _, Some n => ranges src (last_of n Open 0 None ts) ++ ranges src (last_of n Close 0 None ts)
      end
  end.
