(** What updating and searching nested blocks should mean. *)
From Coq Require Import ZArith List Bool.
From Verif Require Import Numbers.Model Blocks.Model Blocks.Spec.
Import ListNotations.

(** Two paths that part: neither leads through the end of the other. *)
Inductive part : list key -> list key -> Prop :=
| part_here a b p q : a <> b -> part (a :: p) (b :: q)
| part_later k p q : part p q -> part (k :: p) (k :: q).

(** The keys of a block, in order; those not listed. *)
Definition block_keys (b : value) (ks : list key) : Prop := exists es, is_block b es /\ keys es = ks.

(** The path [p] leads from [v] to [w], through the entries of blocks and
    through the elements of lists, which add nothing to the path. *)
Inductive leads : value -> list key -> value -> Prop :=
| leads_here v : leads v [] v
| leads_block v es k x f p w : is_block v es -> In (k, x, f) es -> leads x p w -> leads v (k :: p) w
| leads_list v xs x p w : strip v = Lst xs -> In x xs -> leads x p w -> leads v p w.

(** No lists in the value, down through blocks. *)
Inductive listless : value -> Prop :=
| listless_atom a : listless (Atom a)
| listless_blk es : (forall k x f, In (k, x, f) es -> listless x) -> listless (Blk es)
| listless_met m v : listless v -> listless (Met m v).

(** The first of [ks] that [b] has, and its value. *)
Inductive first_of (b : value) : list key -> option value -> Prop :=
| first_none : first_of b [] None
| first_hit k ks v : lookup k b = Some v -> first_of b (k :: ks) (Some v)
| first_miss k ks o : lookup k b = None -> first_of b ks o -> first_of b (k :: ks) o.
(** The value in the first (last) block that has [k]. *)
Inductive first_block (k : key) : list value -> option value -> Prop :=
| no_block : first_block k [] None
| block_hit b bs v : lookup k b = Some v -> first_block k (b :: bs) (Some v)
| block_miss b bs o : lookup k b = None -> first_block k bs o -> first_block k (b :: bs) o.
