(** Merging, comparing and reading metadata of values that have been evaluated
    throughout: MERGE, MERGEWITH and DEEPMERGE (/repo/src/eval/stg/block.rs
    958-1356), EQ (/repo/src/eval/stg/eq.rs) and META, RAWMETA, WITHMETA
    (/repo/src/eval/stg/meta.rs).

    Simplifications. A value is a finite tree: laziness (the combined value of
    MERGEWITH is a thunk [f(ov, nv)], the fields of a block need not be
    evaluated) and failure to evaluate are left out; the machine's own
    semantics are in [Machine] and [Stg].  Symbols are the indices of the
    symbol pool, which is injective (C22), so comparing their names is
    comparing indices.  An entry of a block is well formed: its key is a
    symbol and it has a value ([deconstruct] panics otherwise).  Boxed and
    unboxed natives are not distinguished.  Dates, sets, arrays, vectors and
    functions are left out. *)
From Coq Require Import ZArith List Bool.
From Verif Require Import Numbers.Model.
Import ListNotations.

Definition key := N.

(** Natives and nullary constructors. *)
Inductive atom :=
| Unit | Boolean (b : bool) | Num (x : number) | Str (s : list N) | Sym (k : key).

(** A value.  [Blk] holds the entries in order: key, value and form.  A
    BlockPair has form [None]; a BlockKvList, the wrapped list
    [[k, v, more ...]], has form [Some more] (block.rs 88-122).  [Met m v] is
    [v] carrying the metadata [m] (stg/syntax.rs, Meta). *)
Inductive value :=
| Atom (a : atom)
| Lst (xs : list value)
| Blk (es : list (key * value * option (list value)))
| Met (m v : value).

Definition entry : Type := key * value * option (list value).
Definition e_key (e : entry) : key := fst (fst e).
Definition e_val (e : entry) : value := snd (fst e).

(** A case expression looks through every layer of metadata (machine.rs,
    return to a Branch continuation). *)
Fixpoint strip (v : value) : value := match v with Met _ b => strip b | _ => v end.

(** [IndexMap::insert]: an existing key keeps its position and takes the new
    value, a new key goes to the end. *)
Fixpoint insert (e : entry) (es : list entry) : list entry :=
  match es with
  | [] => [e]
  | x :: es => if N.eqb (e_key x) (e_key e) then e :: es else x :: insert e es
  end.

(** Inserting the items one after another (block.rs 1133-1137, 1240-1243). *)
Definition insert_all (es : list entry) : list entry := fold_left (fun acc e => insert e acc) es [].

(** block.rs 1020-1148: [merge_core] and the intrinsic; [None] is the error of
    a switch on something that is not a block. *)
Definition merge_core (l r : value) : option value :=
  match strip l, strip r with
  | Blk ls, Blk rs => Some (Blk (insert_all (ls ++ rs)))
  | _, _ => None
  end.

(** block.rs 1080-1117: metadata of the right operand wins. *)
Definition with_meta (m : option value) (v : option value) : option value :=
  match m with Some m => option_map (Met m) v | None => v end.
Definition merge (l r : value) : option value :=
  match l, r with
  | Met _ lb, Met rm rb => with_meta (Some rm) (merge_core lb rb)
  | Met lm lb, _ => with_meta (Some lm) (merge_core lb r)
  | _, Met rm rb => with_meta (Some rm) (merge_core l rb)
  | _, _ => merge_core l r
  end.

(** block.rs 1245-1253: one item of the right operand; [f] combines an
    existing value with the new one.  The result holds BlockPairs
    ([machine_return_block_pair_closure_list]). *)
Fixpoint combine (f : value -> value) (k : key) (v : value) (es : list entry) : list entry :=
  match es with
  | [] => [(k, v, None)]
  | x :: es => if N.eqb (e_key x) k then (k, f (e_val x), None) :: es else x :: combine f k v es
  end.
Definition as_pair (e : entry) : entry := (e_key e, e_val e, None).

(** block.rs 1164-1262. *)
Definition merge_with (f : value -> value -> value) (l r : value) : option value :=
  match strip l, strip r with
  | Blk ls, Blk rs =>
      Some (Blk (fold_left (fun acc e => combine (fun ov => f ov (e_val e)) (e_key e) (e_val e) acc) rs
                  (insert_all (map as_pair ls))))
  | _, _ => None
  end.

(** block.rs 1284-1310: [merge_deep_core].  MERGEWITH and DEEPMERGE are
    unfolded into one recursion on the right operand; [deep_merge_unfold] in
    Proofs.v says that it is DEEPMERGE calling MERGEWITH with DEEPMERGE. *)
Fixpoint deep_core (l r : value) {struct r} : value :=
  match strip l with
  | Blk ls =>
      match r with
      | Met _ rb => deep_core l rb
      | Blk rs =>
          Blk ((fix go (rs : list entry) (acc : list entry) : list entry :=
                  match rs with
                  | [] => acc
                  | (k, nv, _) :: rs =>
                      go rs (combine (fun ov =>
                               match ov, nv with
                               | Met _ lb, Met rm rb => Met rm (deep_core lb rb)
                               | Met lm lb, _ => Met lm (deep_core lb nv)
                               | _, Met rm rb => Met rm (deep_core ov rb)
                               | _, _ => deep_core ov nv
                               end) k nv acc)
                  end) rs (insert_all (map as_pair ls)))
      | _ => r
      end
  | _ => r
  end.

(** block.rs 1312-1350: the metadata of the right operand wins; that of the
    left is kept otherwise. *)
Definition deep_merge (l r : value) : value :=
  match l, r with
  | Met _ lb, Met rm rb => Met rm (deep_core lb rb)
  | Met lm lb, _ => Met lm (deep_core lb r)
  | _, Met rm rb => Met rm (deep_core l rb)
  | _, _ => deep_core l r
  end.

(** eq.rs 78-97, 228-254: natives.  Symbols by index, strings by content. *)
Fixpoint str_eq (x y : list N) : bool :=
  match x, y with
  | [], [] => true
  | a :: x, b :: y => N.eqb a b && str_eq x y
  | _, _ => false
  end.
Definition atom_eq (x y : atom) : bool :=
  match x, y with
  | Unit, Unit => true
  | Boolean a, Boolean b => Bool.eqb a b
  | Num a, Num b => num_eq a b
  | Str a, Str b => str_eq a b
  | Sym a, Sym b => N.eqb a b
  | _, _ => false
  end.

(** eq.rs 105-226: the wrapper.  Lists element by element, blocks by their
    lists of entries; a pair equals a key-value list when key and value agree,
    two key-value lists are compared as lists. *)
Fixpoint val_eq (x y : value) {struct x} : bool :=
  match x with
  | Met _ b => val_eq b y
  | Atom a => match strip y with Atom b => atom_eq a b | _ => false end
  | Lst xs =>
      match strip y with
      | Lst ys =>
          (fix go (xs ys : list value) : bool :=
             match xs, ys with
             | [], [] => true
             | x :: xs, y :: ys => val_eq x y && go xs ys
             | _, _ => false
             end) xs ys
      | _ => false
      end
  | Blk xs =>
      match strip y with
      | Blk ys =>
          (fix go (xs ys : list entry) : bool :=
             match xs, ys with
             | [], [] => true
             | (k, v, f) :: xs, (k', v', f') :: ys =>
                 (N.eqb k k' && val_eq v v' &&
                  match f, f' with
                  | Some more, Some more' =>
                      (fix rest (xs ys : list value) : bool :=
                         match xs, ys with
                         | [], [] => true
                         | x :: xs, y :: ys => val_eq x y && rest xs ys
                         | _, _ => false
                         end) more more'
                  | _, _ => true
                  end) && go xs ys
             | _, _ => false
             end) xs ys
      | _ => false
      end
  end.

(** LOOKUP finds the first entry with the key (block.rs, [LookupOr]; C52). *)
Fixpoint find_first (k : key) (es : list entry) : option value :=
  match es with
  | [] => None
  | e :: es => if N.eqb (e_key e) k then Some (e_val e) else find_first k es
  end.
Definition lookup (k : key) (v : value) : option value :=
  match strip v with Blk es => find_first k es | _ => None end.

(** meta.rs 47-88.  [None] is the error of the merge. *)
Fixpoint meta (v : value) : option value :=
  match v with
  | Met m b =>
      match strip m with
      | Blk _ =>
          match meta b with
          | Some inner => match strip inner with Blk _ => merge inner m | _ => Some m end
          | None => None
          end
      | opaque => Some opaque
      end
  | _ => Some (Blk [])
  end.
(** meta.rs 100-118. *)
Definition raw_meta (v : value) : value := match v with Met m _ => m | _ => Blk [] end.
(** lib/prelude.eu 1284-1286: [merge-meta(m, e): e // (meta(e) m)]. *)
Definition merge_meta (m e : value) : option value :=
  match meta e with
  | Some old => match merge old m with Some new => Some (Met new e) | None => None end
  | None => None
  end.
