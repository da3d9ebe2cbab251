(** Semantic tokens, selections and foldings of the language server:
    src/driver/lsp/semantic.rs, src/driver/lsp/selection.rs, src/driver/lsp/folding.rs.

    Texts and positions are those of [Verif.Lsp.Model].  Simplifications: offsets are
    unbounded (the code has 32 bits); how a token is classified, from its kind, its
    ancestors and the table of symbols, is given with the token; the kind of a folding
    is left out. *)
From Coq Require Import List Bool Arith NArith.
From Verif.Lsp Require Import Model.
Import ListNotations.

(** ** Semantic tokens *)

(** A token of the tree, with its type and modifiers if it is to be shown. *)
Record leaf := mkLeaf { l_text : text; l_class : option (nat * nat) }.
(** [SemanticToken]. *)
Record semantic := mkSemantic { delta_line : nat; delta_start : nat; len : nat; ttype : nat; tmods : nat }.

(** [semantic_tokens_full], src/driver/lsp/semantic.rs:65-117: the loop, at an offset
    and after a token at [prev]. *)
Fixpoint tokens_from (src : text) (offset : nat) (prev : position) (ts : list leaf) : list semantic :=
  match ts with
  | [] => []
  | t :: ts =>
      let stop := offset + bytes (l_text t) in
      match l_class t with
      | None => tokens_from src stop prev ts
      | Some (ty, mods) =>
          let '(line, col) := to_position src offset in
          let dl := line - fst prev in
          let ds := if Nat.eqb dl 0 then col - snd prev else col in
          mkSemantic dl ds (byte_col_to_utf16 src offset stop) ty mods :: tokens_from src stop (line, col) ts
      end
  end.
Definition semantic_tokens (ts : list leaf) : list semantic :=
  tokens_from (concat (map l_text ts)) 0 (0, 0) ts.

(** ** Trees *)

(** The syntax tree: tokens and nodes, with whether a node can be folded
    ([is_foldable], src/driver/lsp/folding.rs:49-60). *)
Inductive tree :=
| Tok (t : text)
| Node (foldable : bool) (children : list tree).
Fixpoint tree_text (t : tree) : text :=
  match t with
  | Tok s => s
  | Node _ cs => flat_map tree_text cs
  end.
Definition size (t : tree) : nat := bytes (tree_text t).

(** [text_range_to_lsp_range], src/driver/lsp/diagnostics.rs:172-175, 221-227. *)
Definition lsp_range (src : text) (start stop : nat) : range := (to_position src start, to_position src stop).

(** [selection_range_at] and [build_selection_chain], src/driver/lsp/selection.rs:30-58:
    the ranges from the deepest node to the root.  [down] is for the node, [among] looks
    for the first child node whose range contains the offset, ends included. *)
Fixpoint down (src : text) (offset start : nat) (t : tree) : list range :=
  match t with
  | Tok _ => []
  | Node _ cs =>
      (fix among (start : nat) (cs : list tree) : list range :=
         match cs with
         | [] => []
         | Tok s :: cs => among (start + bytes s) cs
         | c :: cs =>
             if (start <=? offset) && (offset <=? start + size c) then down src offset start c
             else among (start + size c) cs
         end) start cs
      ++ [lsp_range src start (start + size t)]
  end.
Definition selection (root : tree) (p : position) : list range :=
  let src := tree_text root in down src (to_offset src p) 0 root.

(** [collect_folding_ranges], src/driver/lsp/folding.rs:20-46. *)
Fixpoint folds (src : text) (start : nat) (t : tree) : list range :=
  match t with
  | Tok _ => []
  | Node foldable cs =>
      let r := lsp_range src start (start + size t) in
      (if foldable && (fst (fst r) <? fst (snd r)) then [r] else []) ++
      (fix go (start : nat) (cs : list tree) : list range :=
         match cs with
         | [] => []
         | c :: cs => folds src start c ++ go (start + size c) cs
         end) start cs
  end.
Definition folding (root : tree) : list range := folds (tree_text root) 0 root.
