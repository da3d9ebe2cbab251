(** The block library of /repo/lib/prelude.eu: looking up, updating, selecting
    and merging along paths, on values evaluated throughout (Blocks/Model.v).

    Simplifications.  A value that fails when it is evaluated makes the whole
    result fail ([None]); in the program it fails when it is looked at.
    Functions passed as arguments return or fail.  Keys are symbols; the order
    of their names, used by [sort-keys], is a parameter. *)
From Coq Require Import ZArith List Bool.
From Verif Require Import Numbers.Model Blocks.Model.
From Verif Require Prelude.Model.
Import ListNotations.

(** An element of a block as the list [[k, v, more ...]]. *)
Definition element : Type := key * value * list value.
Definition el_key (e : element) : key := fst (fst e).
Definition el_val (e : element) : value := snd (fst e).

(** stg/block.rs 174-224, with DEKV: a BlockPair becomes [[k, v]], a
    BlockKvList the list inside; anything but a block is an error. *)
Definition elements (b : value) : option (list element) :=
  match strip b with
  | Blk es => Some (Prelude.Model.map (fun e => (e_key e, e_val e, match snd e with Some more => more | None => [] end)) es)
  | _ => None
  end.
(** stg/block.rs 42-80, with KV. *)
Definition block (es : list element) : value := Blk (Prelude.Model.map (fun e => (el_key e, el_val e, Some (snd e))) es).

(** lib/prelude.eu 1769, 1773. *)
Definition keys_of (b : value) : option (list key) := option_map (Prelude.Model.map el_key) (elements b).
Definition values_of (b : value) : option (list value) := option_map (Prelude.Model.map el_val) (elements b).
(** lib/prelude.eu 1786, 1790, 1821, 1825, with [bimap] (1782): the pair
    returned has two elements. *)
Definition map_values (f : value -> option value) (b : value) : option value :=
  match elements b with
  | Some es => option_map block (Prelude.Model.each (fun e => option_map (fun v => (el_key e, v, [])) (f (el_val e))) es)
  | None => None
  end.
Definition map_keys (f : key -> key) (b : value) : option value :=
  option_map (fun es => block (Prelude.Model.map (fun e => (f (el_key e), el_val e, [])) es)) (elements b).
(** lib/prelude.eu 1829, 1833, 1857-1863. *)
Definition filter_items (p : element -> bool) (b : value) : option (list element) := option_map (Prelude.Model.filter p) (elements b).
Definition member (k : key) (ks : list key) : bool := existsb (N.eqb k) ks.
Definition select (ks : list key) (b : value) : option value :=
  option_map block (filter_items (fun e => member (el_key e) ks) b).
Definition dissoc (ks : list key) (b : value) : option value :=
  option_map block (filter_items (fun e => negb (member (el_key e) ks)) b).

(** lib/prelude.eu 1865-1881: [alter-value] and [update-value]. *)
Definition alter_value (k : key) (v : value) (b : value) : option value :=
  option_map (fun es => block (Prelude.Model.map (fun e => (el_key e, if N.eqb (el_key e) k then v else el_val e, [])) es)) (elements b).
Definition update_value (k : key) (f : value -> option value) (b : value) : option value :=
  match elements b with
  | Some es =>
      option_map block
        (Prelude.Model.each (fun e => option_map (fun v => (el_key e, v, [])) (if N.eqb (el_key e) k then f (el_val e) else Some (el_val e))) es)
  | None => None
  end.
(** lib/prelude.eu 1885, 1889: [b foldr(update-value, const(v), ks)]. *)
Definition alter (ks : list key) (v : value) : value -> option value := Prelude.Model.foldr update_value (fun _ => Some v) ks.
Definition update (ks : list key) (f : value -> option value) : value -> option value := Prelude.Model.foldr update_value f ks.

(** lib/prelude.eu 1893-1905. *)
Definition update_value_or (k : key) (f : value -> option value) (d : value) (b : value) : option value :=
  let acc (st : option (list element * list element)) (el : element) :=
    match st with
    | None => None
    | Some (done, pending) =>
        if N.eqb k (el_key el) then option_map (fun v => ((k, v, []) :: done, [])) (f (el_val el))
        else Some (el :: done, pending)
    end in
  match elements b with
  | Some es =>
      match Prelude.Model.foldl acc (Some ([], [(k, d, [])])) es with
      | Some (done, pending) => Some (block (Prelude.Model.reverse (Prelude.Model.append pending done)))
      | None => None
      end
  | None => None
  end.
Definition set_value (k : key) (v : value) : value -> option value := update_value_or k (fun _ => Some v) v.
(** lib/prelude.eu 1908. *)
Definition tongue (ks : list key) (v : value) : value := Prelude.Model.foldr (fun k e => block [(k, e, [])]) v ks.
(** lib/prelude.eu 1913-1925. *)
Fixpoint merge_at (ks : list key) (v : value) (b : value) : option value :=
  match ks with
  | [] => merge b v
  | k :: ks => update_value_or k (merge_at ks v) (tongue ks v) b
  end.
Fixpoint deep_merge_at (ks : list key) (v : value) (b : value) : option value :=
  match ks with
  | [] => Some (deep_merge b v)
  | k :: ks => update_value_or k (deep_merge_at ks v) (tongue ks v) b
  end.
(** lib/prelude.eu 1757: [merge-all(bs): foldl(merge, {}, bs)]. *)
Definition merge_all (bs : list value) : option value :=
  Prelude.Model.foldl (fun acc b => match acc with Some a => merge a b | None => None end) (Some (Blk [])) bs.

(** lib/prelude.eu 426-461.  LOOKUP and LOOKUPOR of something that is not a
    block are errors, and so is LOOKUP of a key that is not there. *)
Definition lookup_or (s : key) (d : value) (b : value) : option value :=
  match strip b with
  | Blk es => Some match find_first s es with Some v => v | None => d end
  | _ => None
  end.
Definition has (s : key) (b : value) : option bool :=
  match map_values (fun _ => Some (Atom (Boolean true))) b with
  | Some b => match lookup_or s (Atom (Boolean false)) b with Some (Atom (Boolean r)) => Some r | _ => None end
  | None => None
  end.
Definition lookup_path (ks : list key) (b : value) : option value :=
  Prelude.Model.foldl (fun acc k => match acc with Some b => lookup k b | None => None end) (Some b) ks.
Definition lookup_alts (syms : list key) (d : value) (b : value) : option value :=
  Prelude.Model.foldr (fun s acc => match acc with Some d => lookup_or s d b | None => None end) (Some d) syms.
Definition lookup_across (s : key) (d : value) (bs : list value) : option value :=
  Prelude.Model.foldr (fun b acc => match acc with Some d => lookup_or s d b | None => None end) (Some d) bs.

(** lib/prelude.eu 1777-1778. *)
Definition sort_keys (lt : key -> key -> bool) (b : value) : option value :=
  match elements b with
  | Some es => option_map block (Prelude.Model.qsort (fun p1 p2 => lt (el_key p1) (el_key p2)) es)
  | None => None
  end.
(** lib/prelude.eu 1809-1817. *)
Definition zip_kv (ks : list key) (vs : list value) : value := block (Prelude.Model.map2 (fun k v => (k, v, [])) ks vs).

(** lib/prelude.eu 472-499: [deep-fold] specialised by [deep-find] and
    [deep-find-paths] to what is emitted at a block: the value of [k], or the
    path to it.  The walk goes down through blocks and lists; through a list
    the path stays as it is. *)
Fixpoint deep_find_paths (k : key) (path : list key) (v : value) : list (list key * value) :=
  match v with
  | Met _ v => deep_find_paths k path v
  | Blk es =>
      (match find_first k es with Some x => [(path ++ [k], x)] | None => [] end)
      ++ (fix go (es : list entry) : list (list key * value) :=
            match es with
            | [] => []
            | (ck, cv, _) :: es => deep_find_paths k (path ++ [ck]) cv ++ go es
            end) es
  | Lst xs =>
      (fix go (xs : list value) : list (list key * value) :=
         match xs with [] => [] | x :: xs => deep_find_paths k path x ++ go xs end) xs
  | Atom _ => []
  end.
Definition deep_find (k : key) (v : value) : list value := Prelude.Model.map snd (deep_find_paths k [] v).
