(** Bracket pairs and cursors. *)
From Coq Require Import List Bool Arith NArith.
From Verif.Lsp Require Import Model Spec.
From Verif.Brackets Require Import Model.
Import ListNotations.

(** The character after the cursor is in the token [t]. *)
Definition before_part_of (ts : list leaf) (cursor : nat) (t : leaf) : Prop :=
  exists b a, ts = b ++ t :: a /\ bytes (source b) <= cursor < bytes (source b ++ l_text t).
(** The character before the cursor is in the token [t]. *)
Definition after_part_of (ts : list leaf) (cursor : nat) (t : leaf) : Prop :=
  exists b a, ts = b ++ t :: a /\ bytes (source b) < cursor <= bytes (source b ++ l_text t).
(** The node [n] has the brackets [o] and [c] and no others; [x], [y], [z] are the tokens
    before, between and after them. *)
Definition pair (n : nat) (ts x : list leaf) (o : leaf) (y : list leaf) (c : leaf) (z : list leaf) : Prop :=
  ts = x ++ o :: y ++ c :: z /\ l_kind o = Open /\ l_kind c = Close /\
  l_parent o = Some n /\ l_parent c = Some n /\
  (forall t, In t (x ++ y ++ z) -> l_parent t = Some n -> l_kind t = Plain).
Definition covers (before part : text) : range := (place before, place (before ++ part)).
