(** What merging, comparing and reading metadata should mean, independently of
    how they are computed. *)
From Coq Require Import ZArith List Bool.
From Verif Require Import Numbers.Model Numbers.Spec Blocks.Model.
Import ListNotations.

Definition keys (es : list entry) : list key := map e_key es.

(** [v] is a block with the entries [es], under any metadata. *)
Definition is_block (v : value) (es : list entry) : Prop := strip v = Blk es.

(** The keys, each at the place where it first appears. *)
Fixpoint first_appearances (seen ks : list key) : list key :=
  match ks with
  | [] => []
  | k :: ks => if in_dec N.eq_dec k seen then first_appearances seen ks
               else k :: first_appearances (k :: seen) ks
  end.

(** The value given for [k] by the last entry that has it. *)
Definition last_given (es : list entry) (k : key) (v : value) : Prop :=
  exists before after f, es = before ++ (k, v, f) :: after /\ ~ In k (keys after).
Definition first_given (es : list entry) (k : key) (v : value) : Prop :=
  exists before after f, es = before ++ (k, v, f) :: after /\ ~ In k (keys before).

(** The metadata a value carries on the outside. *)
Definition outer_meta (v : value) : option value := match v with Met m _ => Some m | _ => None end.

(** What is found by following a path of keys. *)
Fixpoint at_path (p : list key) (v : value) : option value :=
  match p with
  | [] => Some v
  | k :: p => match lookup k v with Some w => at_path p w | None => None end
  end.

Definition a_block (v : value) : Prop := exists es, is_block v es.

(** Every block in the value, down through blocks, has each key once. *)
Inductive tidy : value -> Prop :=
| tidy_atom a : tidy (Atom a)
| tidy_lst xs : tidy (Lst xs)
| tidy_blk es : NoDup (keys es) -> (forall e, In e es -> tidy (e_val e)) -> tidy (Blk es)
| tidy_met m v : tidy v -> tidy (Met m v).

(** The path leads, in [v], to a block that has no such key: [v] says nothing
    about it. *)
Inductive silent : value -> list key -> Prop :=
| silent_here v es k p : is_block v es -> ~ In k (keys es) -> silent v (k :: p)
| silent_below v es k w p : is_block v es -> first_given es k w -> silent w p -> silent v (k :: p).

(** The path leads, in [v], through something that is not a block. *)
Inductive blocked : value -> list key -> Prop :=
| blocked_here v k p : ~ a_block v -> blocked v (k :: p)
| blocked_below v es k w p : is_block v es -> first_given es k w -> blocked w p -> blocked v (k :: p).

(** The same data: equal up to metadata and the form of entries (a pair or a
    key-value list). *)
Inductive alike : value -> value -> Prop :=
| alike_atom a : alike (Atom a) (Atom a)
| alike_lst xs : alike (Lst xs) (Lst xs)
| alike_blk es es' : entries_alike es es' -> alike (Blk es) (Blk es')
| alike_left m v w : alike v w -> alike (Met m v) w
| alike_right m v w : alike v w -> alike v (Met m w)
with entries_alike : list entry -> list entry -> Prop :=
| no_entries : entries_alike [] []
| more_entries k v w f f' es es' : alike v w -> entries_alike es es' -> entries_alike ((k, v, f) :: es) ((k, w, f') :: es').

(** Where both [a] and [c] have a block, [b] has a block if it has anything. *)
Definition compatible (a b c : value) : Prop :=
  forall p x y z, at_path p a = Some x -> at_path p b = Some y -> at_path p c = Some z -> a_block x -> a_block z -> a_block y.

(** All numbers in the value (not in its metadata) satisfy [P]. *)
Definition atom_number (P : number -> Prop) (a : atom) : Prop := match a with Num x => P x | _ => True end.
Inductive numbers (P : number -> Prop) : value -> Prop :=
| numbers_atom a : atom_number P a -> numbers P (Atom a)
| numbers_lst xs : (forall x, In x xs -> numbers P x) -> numbers P (Lst xs)
| numbers_blk es : (forall k v f, In (k, v, f) es -> numbers P v) ->
    (forall k v more x, In (k, v, Some more) es -> In x more -> numbers P x) -> numbers P (Blk es)
| numbers_met m v : numbers P v -> numbers P (Met m v).
Definition all_proper : value -> Prop := numbers proper.
(** Integers; numbers that doubles represent exactly. *)
Definition whole (x : number) : Prop := exists a, integer x a.
Definition faithful (x : number) : Prop := exactly x = roughly x.

(** No entry of a block in the value has more than a key and a value. *)
Inductive short_entries : value -> Prop :=
| short_atom a : short_entries (Atom a)
| short_lst xs : (forall x, In x xs -> short_entries x) -> short_entries (Lst xs)
| short_blk es : (forall k v f, In (k, v, f) es -> short_entries v /\ (f = None \/ f = Some [])) -> short_entries (Blk es)
| short_met m v : short_entries v -> short_entries (Met m v).

(** The layers of metadata a value carries, the outermost first. *)
Fixpoint layers (v : value) : list value := match v with Met m b => m :: layers b | _ => [] end.

(** The layers above the first one that is not a block. *)
Inductive above_opaque : list value -> list value -> Prop :=
| all_blocks : above_opaque [] []
| opaque_stops m ms : ~ a_block m -> above_opaque (m :: ms) []
| block_layer m ms ns : a_block m -> above_opaque ms ns -> above_opaque (m :: ms) (m :: ns).

(** The outermost of the layers that has the key gives its value. *)
Inductive layer_gives : list value -> key -> value -> Prop :=
| gives_here m ms es k v : is_block m es -> first_given es k v -> layer_gives (m :: ms) k v
| gives_below m ms es k v : is_block m es -> ~ In k (keys es) -> layer_gives ms k v -> layer_gives (m :: ms) k v.

(** A layer has each key once. *)
Definition distinct_layer (m : value) : Prop := forall es, is_block m es -> NoDup (keys es).
