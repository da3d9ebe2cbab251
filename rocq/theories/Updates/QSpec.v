(** What queries, rewriting and structural matching should mean. *)
From Coq Require Import ZArith List Bool.
From Verif Require Import Numbers.Model Blocks.Model Blocks.Spec Updates.Model Updates.Spec Updates.Query.
Import ListNotations.

(** A path fits a pattern: [*] stands for one key, [**] for any number. *)
Inductive fits : list segment -> list key -> Prop :=
| fits_end : fits [] []
| fits_named k s p : fits s p -> fits (Named k :: s) (k :: p)
| fits_any k s p : fits s p -> fits (Any :: s) (k :: p)
| fits_deep s p q : fits s q -> fits (Deep :: s) (p ++ q).
(** The pattern ends with [**]. *)
Definition ends_deep (s : list segment) : Prop := exists s', s = s' ++ [Deep].

(** A position in a value: keys of blocks and places in lists. *)
Inductive step := Key (k : key) | Place (n : nat).
Definition take_step (s : step) (v : value) : option value :=
  match s, strip v with
  | Key k, Blk es => find_first k es
  | Place n, Lst xs => nth_error xs n
  | _, _ => None
  end.
Fixpoint follow (p : list step) (v : value) : option value :=
  match p with
  | [] => Some v
  | s :: p => match take_step s v with Some w => follow p w | None => None end
  end.
(** The rule leaves alone everything above the position. *)
Definition untouched_above (rule : value -> option value) (p : list step) (v : value) : Prop :=
  forall q r u, p = q ++ r -> r <> [] -> follow q v = Some u -> rule u = None.

(** [t] conforms to [p]: the keys the pattern has, each with a value that
    conforms; as many elements, each conforming; the same atom; the test. *)
Inductive conforms : pattern -> value -> Prop :=
| conforms_atom a t b : strip t = Atom b -> atom_eq a b = true -> conforms (Exactly a) t
| conforms_each ps t xs : strip t = Lst xs -> each_conforms ps xs -> conforms (Each ps) t
| conforms_having fs t es : is_block t es -> fields_conform fs t -> conforms (Having fs) t
| conforms_test f t : f t = true -> conforms (Test f) t
with each_conforms : list pattern -> list value -> Prop :=
| no_elements : each_conforms [] []
| next_element p ps x xs : conforms p x -> each_conforms ps xs -> each_conforms (p :: ps) (x :: xs)
with fields_conform : list (key * pattern) -> value -> Prop :=
| no_fields t : fields_conform [] t
| next_field k p fs t x : lookup k t = Some x -> conforms p x -> fields_conform fs t -> fields_conform ((k, p) :: fs) t.

(** A value as the pattern of just that value. *)
Fixpoint exact (v : value) : pattern :=
  match v with
  | Atom a => Exactly a
  | Lst xs => Each ((fix go (xs : list value) := match xs with [] => [] | x :: xs => exact x :: go xs end) xs)
  | Blk es => Having ((fix go (es : list entry) := match es with [] => [] | (k, x, _) :: es => (k, exact x) :: go es end) es)
  | Met _ v => exact v
  end.
(** Every block in the value, through blocks and lists, has each key once. *)
Inductive tidy_all : value -> Prop :=
| tidy_all_atom a : tidy_all (Atom a)
| tidy_all_lst xs : (forall x, In x xs -> tidy_all x) -> tidy_all (Lst xs)
| tidy_all_blk es : NoDup (keys es) -> (forall e, In e es -> tidy_all (e_val e)) -> tidy_all (Blk es)
| tidy_all_met m v : tidy_all v -> tidy_all (Met m v).
