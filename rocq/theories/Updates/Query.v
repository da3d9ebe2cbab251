(** The pattern queries, rewriting and structural matching of
    /repo/lib/prelude.eu 495-575, on values evaluated throughout.

    Simplifications.  A pattern is the list of its segments, already split at
    the dots ([str.split-on]); a segment other than [*] and [**] is its symbol.
    An entry of a block is used as its key and value.  In the patterns of
    [match?], functions appear as [Test]. *)
From Coq Require Import ZArith List Bool.
From Verif Require Import Numbers.Model Blocks.Model Updates.Model.
From Verif Require Prelude.Model.
Import ListNotations.

Inductive segment := Deep | Any | Named (k : key).
Definition found : Type := list key * value.

(** lib/prelude.eu 503-508: [desc-pairs], with [desc-child] unfolded. *)
Fixpoint desc_pairs (path : list key) (v : value) : list found :=
  (fix under (u : value) : list found :=
     match u with
     | Met _ u => under u
     | Blk es =>
         (path, v) ::
         (fix go (es : list entry) : list found :=
            match es with
            | [] => []
            | (ck, cv, _) :: es => desc_pairs (path ++ [ck]) cv ++ go es
            end) es
     | _ => []
     end) v.
(** lib/prelude.eu 510-511. *)
Definition expand_star (pv : found) : list found :=
  match strip (snd pv) with
  | Blk es => Prelude.Model.map (fun e => (fst pv ++ [e_key e], e_val e)) es
  | _ => []
  end.
(** lib/prelude.eu 513-516. *)
Definition match_sym (s : key) (pv : found) : list found :=
  match strip (snd pv) with
  | Blk es => match find_first s es with Some x => [(fst pv ++ [s], x)] | None => [] end
  | _ => []
  end.
(** lib/prelude.eu 518-521. *)
Definition apply_segment (pairs : list found) (s : segment) : list found :=
  match s with
  | Deep => Prelude.Model.mapcat (fun pv => desc_pairs (fst pv) (snd pv)) pairs
  | Any => Prelude.Model.mapcat expand_star pairs
  | Named k => Prelude.Model.mapcat (match_sym k) pairs
  end.
(** lib/prelude.eu 501: a pattern that does not begin with [**] gets one.
    Splitting never gives an empty list. *)
Definition norm (segs : list segment) : list segment :=
  match segs with Deep :: _ => segs | _ => Deep :: segs end.
(** lib/prelude.eu 523-534. *)
Definition query_fold (segs : list segment) (b : value) : list found :=
  Prelude.Model.foldl apply_segment [([], b)] (norm segs).
Definition query (segs : list segment) (b : value) : list value := Prelude.Model.map snd (query_fold segs b).
Definition query_paths (segs : list segment) (b : value) : list (list key) := Prelude.Model.map fst (query_fold segs b).
Definition query_first (segs : list segment) (d b : value) : value :=
  match query segs b with x :: _ => x | [] => d end.

(** lib/prelude.eu 542-548.  The rule returns a replacement or null.  The
    walk drops the metadata of a node it rebuilds; an atom is returned with its
    metadata. *)
Fixpoint transform (rule : value -> option value) (v : value) : value :=
  match rule v with
  | Some w => w
  | None =>
      (fix under (u : value) : value :=
         match u with
         | Met _ u => under u
         | Blk es =>
             Blk ((fix go (es : list entry) : list entry :=
                     match es with
                     | [] => []
                     | (k, x, _) :: es => (k, transform rule x, Some []) :: go es
                     end) es)
         | Lst xs =>
             Lst ((fix go (xs : list value) : list value :=
                     match xs with [] => [] | x :: xs => transform rule x :: go xs end) xs)
         | Atom _ => v
         end) v
  end.

(** lib/prelude.eu 555-573.  [Test p] is a function of one argument. *)
Inductive pattern :=
| Exactly (a : atom)
| Each (ps : list pattern)
| Having (fs : list (key * pattern))
| Test (p : value -> bool).
Fixpoint matches (p : pattern) (t : value) : bool :=
  match p with
  | Having fs =>
      match strip t with
      | Blk es =>
          (fix go (fs : list (key * pattern)) : bool :=
             match fs with
             | [] => true
             | (k, q) :: fs => (match find_first k es with Some x => matches q x | None => false end) && go fs
             end) fs
      | _ => false
      end
  | Each ps =>
      match strip t with
      | Lst xs =>
          Nat.eqb (length xs) (length ps) &&
          (fix go (ps : list pattern) (xs : list value) : bool :=
             match ps, xs with
             | p :: ps, x :: xs => matches p x && go ps xs
             | _, _ => true
             end) ps xs
      | _ => false
      end
  | Exactly a => val_eq (Atom a) t
  | Test f => f t
  end.
