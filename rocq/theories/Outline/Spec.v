(** What an editor makes of semantic tokens, and where the nodes of a tree are. *)
From Coq Require Import List Bool Arith NArith.
From Verif.Lsp Require Import Model Spec.
From Verif.Outline Require Import Model.
Import ListNotations.

(** A token as the editor shows it: where it starts, how many UTF-16 units it has, its
    type and modifiers. *)
Definition shown := (position * nat * nat * nat)%type.
(** The protocol: lines are relative to the token before, and so are characters on the
    same line. *)
Fixpoint decoded (at_ : position) (ss : list semantic) : list shown :=
  match ss with
  | [] => []
  | s :: ss =>
      let here := match delta_line s with
                  | O => (fst at_, snd at_ + delta_start s)
                  | S n => (fst at_ + S n, delta_start s)
                  end in
      (here, len s, ttype s, tmods s) :: decoded here ss
  end.
(** What should be shown: the classified tokens, in order, where they are. *)
Fixpoint highlighted (before : text) (ts : list leaf) : list shown :=
  match ts with
  | [] => []
  | t :: ts =>
      (match l_class t with
       | Some (ty, mods) => [(place before, units (l_text t), ty, mods)]
       | None => []
       end) ++ highlighted (before ++ l_text t) ts
  end.

(** [node_at t before n]: the tree [t] has the node or token [n] after the text
    [before]. *)
Inductive node_at : tree -> text -> tree -> Prop :=
| At_root t : node_at t [] t
| At_child f cs1 c cs2 before n :
    node_at c before n -> node_at (Node f (cs1 ++ c :: cs2)) (flat_map tree_text cs1 ++ before) n.

(** The range of a part of a text. *)
Definition covers (before part : text) : range := (place before, place (before ++ part)).
(** Selections, from the smallest: each is a part of the text with the cursor in it or
    at an end of it, within the next one; the last is everything. *)
Inductive widening (cursor : nat) (src : text) : text -> text -> text -> list range -> Prop :=
| Widest : cursor <= bytes src -> widening cursor src [] src [] [covers [] src]
| Wider before part after x y rs :
    src = before ++ x ++ part ++ y ++ after ->
    bytes (before ++ x) <= cursor <= bytes (before ++ x ++ part) ->
    widening cursor src before (x ++ part ++ y) after rs ->
    widening cursor src (before ++ x) part (y ++ after) (covers (before ++ x) part :: rs).
