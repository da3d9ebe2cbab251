(** The list library of /repo/lib/prelude.eu, function by function.

    Simplifications.  Lists are finite and their elements evaluated, except for
    the functions that make infinite lists, which are colists.  Functions
    passed as arguments always return.  Counts and indices are integers without
    a bound (the program's are 64-bit integers or doubles; [n dec] can only
    overflow after 2^63 steps, and a fractional count, which never meets zero,
    behaves like a negative one).  [None] is the error that ends the program:
    the head or tail of an empty list, or a call of [panic].  [if], [then] and
    the logical connectives are booleans; [∨], [∧] do not evaluate their right
    operand when the left decides. *)
From Coq Require Import ZArith List Bool.
Import ListNotations.
Open Scope Z_scope.

Section Lists.
Context {A B C : Type}.

(** lib/prelude.eu 303-306, 337-341: [head: __HEAD], [tail: __TAIL]; an empty
    list is an error (stg/list.rs, Head and Tail). *)
Definition head (l : list A) : option A := match l with [] => None | x :: _ => Some x end.
Definition tail (l : list A) : option (list A) := match l with [] => None | _ :: t => Some t end.

(** lib/prelude.eu 1471. *)
Fixpoint foldl (op : B -> A -> B) (i : B) (l : list A) : B :=
  match l with [] => i | x :: t => foldl op (op i x) t end.
(** lib/prelude.eu 1480. *)
Fixpoint foldr (op : A -> B -> B) (i : B) (l : list A) : B :=
  match l with [] => i | x :: t => op x (foldr op i t) end.
(** lib/prelude.eu 1484. *)
Fixpoint scanl (op : B -> A -> B) (i : B) (l : list A) : list B :=
  match l with [] => [i] | x :: t => i :: scanl op (op i x) t end.
(** lib/prelude.eu 1488. *)
Fixpoint scanr (op : A -> B -> B) (i : B) (l : list A) : option (list B) :=
  match l with
  | [] => Some [i]
  | x :: t =>
      match scanr op i t with
      | Some (y :: scan) => Some (op x y :: y :: scan)
      | _ => None
      end
  end.
(** lib/prelude.eu 1533. *)
Fixpoint map (f : A -> B) (l : list A) : list B :=
  match l with [] => [] | x :: t => f x :: map f t end.
(** lib/prelude.eu 1544. *)
Fixpoint map2 (f : A -> B -> C) (l1 : list A) (l2 : list B) : list C :=
  match l1, l2 with
  | x :: t1, y :: t2 => f x y :: map2 f t1 t2
  | _, _ => []
  end.
End Lists.

Section Lists2.
Context {A B C : Type}.

(** lib/prelude.eu 1475: [reduce(op, l): foldl(op, l head, l tail)]. *)
Definition reduce (op : A -> A -> A) (l : list A) : option A :=
  match l with [] => None | x :: t => Some (foldl op x t) end.
(** lib/prelude.eu 1516: [count(l): foldl({ n: • el: •}.(n inc), 0, l)]. *)
Definition count (l : list A) : Z := foldl (fun n _ => n + 1) 0 l.
(** lib/prelude.eu 1605: [reverse(l): foldl(cons flip, [], l)]. *)
Definition reverse (l : list A) : list A := foldl (fun acc x => x :: acc) [] l.
(** lib/prelude.eu 1577: [append(l1, l2): foldr(cons, l2, l1)]. *)
Definition append (l1 l2 : list A) : list A := foldr cons l2 l1.
(** lib/prelude.eu 1569. *)
Definition filter (p : A -> bool) (l : list A) : list A := foldr (fun x xs => if p x then x :: xs else xs) [] l.
(** lib/prelude.eu 1228, 1573: [remove(p?, l): l filter(p? complement)]. *)
Definition complement (p : A -> bool) (x : A) : bool := negb (p x).
Definition remove (p : A -> bool) (l : list A) : list A := filter (complement p) l.
(** lib/prelude.eu 1520, 1524: [last: head ∘ reverse],
    [butlast(l): l reverse tail reverse]. *)
Definition last (l : list A) : option A := head (reverse l).
Definition butlast (l : list A) : option (list A) := option_map reverse (tail (reverse l)).
(** lib/prelude.eu 1609, 1617: [all-true?(l): foldl(and, true, l)],
    [any-true?(l): foldr(or, false, l)]; 1613, 1621: over [map(p?)]. *)
Definition all_true (l : list bool) : bool := foldl andb true l.
Definition any_true (l : list bool) : bool := foldr orb false l.
Definition all (p : A -> bool) (l : list A) : bool := all_true (map p l).
Definition any (p : A -> bool) (l : list A) : bool := any_true (map p l).
(** lib/prelude.eu 1560.  The program calls itself with the lists exchanged;
    two calls are one step here ([interleave_eq] in Proofs.v is the program's
    equation). *)
Fixpoint interleave (a b : list A) : list A :=
  match a with
  | [] => b
  | x :: a' => x :: match b with [] => a' | y :: b' => y :: interleave a' b' end
  end.
End Lists2.

Section Lists3.
Context {A B C : Type}.
(** lib/prelude.eu 1592, 1597. *)
Definition concat (ls : list (list A)) : list A := foldr append [] ls.
Definition mapcat (f : A -> list B) (l : list A) : list B := foldr append [] (map f l).
(** lib/prelude.eu 1564: [cross(f, xs, ys): xs mapcat({x: •}.(ys map(f(x))))]. *)
Definition cross (f : A -> B -> C) (xs : list A) (ys : list B) : list C :=
  foldr append [] (map (fun x => map (f x) ys) xs).
(** lib/prelude.eu 1552, 1556, 1805: pairs as pairs. *)
Definition zip (xs : list A) (ys : list B) : list (A * B) := map2 pair xs ys.
Definition unzip (ps : list (A * B)) : list A * list B := (map fst ps, map snd ps).

(** lib/prelude.eu 1385: [take(n, l): __IF((n zero?) ∨ (l nil?), [],
    cons(l head, take(n dec, l tail)))]. *)
Fixpoint take (n : Z) (l : list A) : list A :=
  match l with
  | [] => []
  | x :: t => if Z.eqb n 0 then [] else x :: take (n - 1) t
  end.
(** lib/prelude.eu 1390: [drop(n, l): __IF((n zero?), l, drop(n dec, l tail))]. *)
Fixpoint drop (n : Z) (l : list A) : option (list A) :=
  if Z.eqb n 0 then Some l else match l with [] => None | _ :: t => drop (n - 1) t end.
(** lib/prelude.eu 1398-1400. *)
Fixpoint split_at_aux (n : Z) (xs prefix : list A) : list A * list A :=
  match xs with
  | [] => (reverse prefix, xs)
  | x :: t => if Z.eqb n 0 then (reverse prefix, xs) else split_at_aux (n - 1) t (x :: prefix)
  end.
Definition split_at (n : Z) (l : list A) : list A * list A := split_at_aux n l [].
(** lib/prelude.eu 1394. *)
Definition rotate (n : Z) (l : list A) : list A := let s := split_at n l in append (snd s) (fst s).
(** lib/prelude.eu 1410-1412, 1416. *)
Fixpoint take_while_aux (p : A -> bool) (xs prefix : list A) : list A :=
  match xs with
  | [] => reverse prefix
  | x :: t => if p x then take_while_aux p t (x :: prefix) else reverse prefix
  end.
Definition take_while (p : A -> bool) (l : list A) : list A := take_while_aux p l [].
Definition take_until (p : A -> bool) (l : list A) : list A := take_while (complement p) l.
(** lib/prelude.eu 1420, 1424. *)
Fixpoint drop_while (p : A -> bool) (l : list A) : list A :=
  match l with [] => [] | x :: t => if p x then drop_while p t else l end.
Definition drop_until (p : A -> bool) (l : list A) : list A := drop_while (complement p) l.
(** lib/prelude.eu 1428-1433, 1437. *)
Fixpoint split_after_aux (p : A -> bool) (xs prefix : list A) : list A * list A :=
  match xs with
  | [] => (reverse prefix, [])
  | x :: t => if p x then split_after_aux p t (x :: prefix) else (reverse prefix, xs)
  end.
Definition split_after (p : A -> bool) (l : list A) : list A * list A := split_after_aux p l [].
Definition split_when (p : A -> bool) (l : list A) : list A * list A := split_after (complement p) l.
(** lib/prelude.eu 1442-1447. *)
Fixpoint nth_aux (i : Z) (xs : list A) : option A :=
  match xs with [] => None | x :: t => if Z.eqb i 0 then Some x else nth_aux (i - 1) t end.
Definition nth (n : Z) (l : list A) : option A := nth_aux n l.
(** lib/prelude.eu 1451: the pattern [[prefix, [s: suffix]]] takes the head and
    tail of the second part. *)
Definition update_nth (n : Z) (f : A -> A) (l : list A) : option (list A) :=
  let s := split_at n l in
  match snd s with [] => None | x :: suffix => Some (append (fst s) (f x :: suffix)) end.
(** lib/prelude.eu 1455-1457. *)
Definition update_first (p : A -> bool) (f : A -> A) (l : list A) : list A :=
  let s := split_when p l in
  match snd s with [] => l | x :: suffix => append (fst s) (f x :: suffix) end.
(** lib/prelude.eu 1496: [tails(l): iterate(tail, l) take-while(non-nil?)]; the
    two loops are fused. *)
Fixpoint tails_aux (xs : list A) (prefix : list (list A)) : list (list A) :=
  match xs with [] => foldl (fun acc x => x :: acc) [] prefix | _ :: t => tails_aux t (xs :: prefix) end.
Definition tails (l : list A) : list (list A) := tails_aux l [].
End Lists3.

(** A list being produced: its cells so far, then the empty list, an error, or
    (when the count of steps ran out) nothing known. *)
Inductive produced (A : Type) :=
| Done | Next (x : A) (rest : produced A) | Failed | Unknown.
Arguments Done {A}. Arguments Next {A}. Arguments Failed {A}. Arguments Unknown {A}.

Section Windows.
Context {A B : Type}.
(** lib/prelude.eu 1625, 1629. *)
Fixpoint window (fuel : nat) (n step : Z) (l : list A) : produced (list A) :=
  match fuel with
  | O => Unknown
  | S fuel =>
      let chunk := take n l in
      if Z.leb n (count chunk) then
        Next chunk match drop step l with Some l => window fuel n step l | None => Failed end
      else Done
  end.
Definition partition (fuel : nat) (n : Z) : list A -> produced (list A) := window fuel n n.
(** lib/prelude.eu 1633, 1637. *)
Fixpoint window_all (fuel : nat) (n step : Z) (l : list A) : produced (list A) :=
  match fuel with
  | O => Unknown
  | S fuel =>
      match take n l with
      | [] => Done
      | chunk =>
          Next chunk
            match (if Z.leb (count l) step then Some [] else drop step l) with
            | Some l => window_all fuel n step l
            | None => Failed
            end
      end
  end.
Definition partition_all (fuel : nat) (n : Z) : list A -> produced (list A) := window_all fuel n n.
(** [map(f)] of a list being produced, where [f] may fail: an element that
    fails makes the list fail there. *)
Fixpoint map_produced (f : A -> option B) (l : produced A) : produced B :=
  match l with
  | Done => Done
  | Next x r => match f x with Some y => Next y (map_produced f r) | None => Failed end
  | Failed => Failed
  | Unknown => Unknown
  end.
End Windows.
(** lib/prelude.eu 1641-1643. *)
Definition apply_pair {A B} (f : A -> A -> B) (p : list A) : option B :=
  match p with x :: y :: _ => Some (f x y) | _ => None end.
Definition over_sliding_pairs {A B} (fuel : nat) (f : A -> A -> B) (l : list A) : produced B :=
  map_produced (apply_pair f) (window fuel 2 1 l).

(** lib/prelude.eu 1404-1406.  [rs head] of no rows and [map(head)] of a short
    row are errors; the recursion is on the first row. *)
Section Transpose.
Context {A : Type}.
Fixpoint each {X Y} (f : X -> option Y) (l : list X) : option (list Y) :=
  match l with
  | [] => Some []
  | x :: t => match f x, each f t with Some y, Some ys => Some (y :: ys) | _, _ => None end
  end.
Fixpoint transpose_aux (first : list A) (rest : list (list A)) : option (list (list A)) :=
  match first with
  | [] => Some []
  | x :: first' =>
      match each head rest, each tail rest with
      | Some hs, Some ts => option_map (cons (x :: hs)) (transpose_aux first' ts)
      | _, _ => None
      end
  end.
Definition transpose (rows : list (list A)) : option (list (list A)) :=
  match rows with [] => None | r :: rs => transpose_aux r rs end.
End Transpose.

Section Grouping.
Context {A K : Type}.
(** The equality [=] of the program on keys. *)
Variable same : K -> K -> bool.

(** lib/prelude.eu 1651-1653, 1782. *)
Definition discriminate (pred : A -> bool) (xs : list A) : list A * list A :=
  let acc a e := if pred e then (e :: fst a, snd a) else (fst a, e :: snd a) in
  let r := foldl acc ([], []) xs in
  (reverse (fst r), reverse (snd r)).

(** lib/prelude.eu 1662-1667. *)
Fixpoint group_consecutive_by (f : A -> K) (xs : list A) : option (list (list A)) :=
  match xs with
  | [] => Some []
  | [x] => Some [[x]]
  | x :: t =>
      match group_consecutive_by f t with
      | Some ((y :: g) :: rest) =>
          if same (f x) (f y) then Some ((x :: y :: g) :: rest) else Some ([x] :: (y :: g) :: rest)
      | _ => None
      end
  end.
(** lib/prelude.eu 1678-1684. *)
Definition nub_by (key : A -> K) (xs : list A) : list A :=
  let step (acc : list K * list A) x :=
    let k := key x in
    if any (fun s => same s k) (fst acc) then acc else (append (fst acc) [k], append (snd acc) [x]) in
  snd (foldl step ([], []) xs).
(** lib/prelude.eu 1688-1694. *)
Definition split_on (pred : A -> bool) (xs : list A) : option (list (list A)) :=
  let step (acc : option (list (list A))) x :=
    match acc with
    | None => None
    | Some acc =>
        if pred x then Some (append acc [[]])
        else match butlast acc, last acc with
             | Some groups, Some current => Some (append groups [append current [x]])
             | _, _ => None
             end
    end in
  foldl step (Some [[]]) xs.

(** Blocks as lists of keys and values, in order. *)
(** lib/prelude.eu 1893-1901. *)
Definition update_value_or {V} (k : K) (f : V -> V) (d : V) (b : list (K * V)) : list (K * V) :=
  let acc (st : list (K * V) * list (K * V)) (el : K * V) :=
    if same k (fst el) then ((k, f (snd el)) :: fst st, []) else (el :: fst st, snd st) in
  let st := foldl acc ([], [(k, d)]) b in
  reverse (append (snd st) (fst st)).
(** lib/prelude.eu 1821: values only. *)
Definition map_second {V W} (f : V -> W) (b : list (K * V)) : list (K * W) := map (fun e => (fst e, f (snd e))) b.
(** lib/prelude.eu 1657-1659. *)
Definition group_by (k : A -> K) (xs : list A) : list (K * list A) :=
  map_second reverse
    (foldl (fun a e => update_value_or (fst e) (cons (snd e)) [snd e] a) [] (map (fun x => (k x, x)) xs)).
End Grouping.
(** lib/prelude.eu 1670, 1674. *)
Definition uniq {A} (same : A -> A -> bool) (xs : list A) : option (list A) :=
  match group_consecutive_by same (fun x => x) xs with Some gs => each head gs | None => None end.

Section Sorting.
Context {A K : Type}.
(** lib/prelude.eu 1698-1707, with a count of steps; [qsort] gives as many as
    the list is long. *)
Fixpoint qsort_fuel (fuel : nat) (lt : A -> A -> bool) (xs : list A) : option (list A) :=
  match xs with
  | [] => Some []
  | h :: t =>
      match fuel with
      | O => None
      | S fuel =>
          let partitions := discriminate (fun x => lt x h) t in
          match qsort_fuel fuel lt (fst partitions), qsort_fuel fuel lt (snd partitions) with
          | Some smaller, Some bigger => Some (append smaller (append [h] bigger))
          | _, _ => None
          end
      end
  end.
Definition qsort (lt : A -> A -> bool) (xs : list A) : option (list A) := qsort_fuel (length xs) lt xs.
(** lib/prelude.eu 1735-1737. *)
Definition sort_by (key_fn : A -> K) (cmp : K -> K -> bool) (xs : list A) : option (list A) :=
  qsort (fun a b => cmp (key_fn a) (key_fn b)) xs.

(** lib/prelude.eu 911, 934, 914, 937: [max(l, r): if(l > r, l, r)] over a
    number order [lt]; [gt] is its converse. *)
Variable lt : K -> K -> bool.
Definition max (l r : K) : K := if lt r l then l else r.
Definition min (l r : K) : K := if lt l r then l else r.
Definition max_of (l : list K) : option K := match l with [] => None | x :: t => Some (foldl max x t) end.
Definition min_of (l : list K) : option K := match l with [] => None | x :: t => Some (foldl min x t) end.
(** lib/prelude.eu 917-923, 940-946. *)
Definition max_of_by (f : A -> K) (l : list A) : option A :=
  match l with
  | [] => None
  | h :: t => Some (fst (foldl (fun acc x => let v := f x in if lt (snd acc) v then (x, v) else acc) (h, f h) t))
  end.
Definition min_of_by (f : A -> K) (l : list A) : option A :=
  match l with
  | [] => None
  | h :: t => Some (fst (foldl (fun acc x => let v := f x in if lt v (snd acc) then (x, v) else acc) (h, f h) t))
  end.
End Sorting.

(** Lists that are made on demand and may have no end. *)
CoInductive colist (A : Type) := conil | cocons (x : A) (rest : colist A).
Arguments conil {A}. Arguments cocons {A}.
Section Infinite.
Context {A : Type}.
(** lib/prelude.eu 1466, 1492, 1500-1508. *)
CoFixpoint repeat (i : A) : colist A := cocons i (repeat i).
CoFixpoint iterate (f : A -> A) (i : A) : colist A := cocons i (iterate f (f i)).
CoFixpoint iota (n : Z) : colist Z := cocons n (iota (n + 1)).
(** lib/prelude.eu 1385, on a list made on demand. *)
CoFixpoint cotake (n : Z) (l : colist A) : colist A :=
  match l with
  | conil => conil
  | cocons x t => if Z.eqb n 0 then conil else cocons x (cotake (n - 1) t)
  end.
(** lib/prelude.eu 1528: [cycle(l): if(l nil?, [], l ++ cycle(l))]; the append
    is unfolded ([cycle_from] has the rest of the present round). *)
CoFixpoint cycle_from (l rest : list A) : colist A :=
  match rest with
  | x :: rest => cocons x (cycle_from l rest)
  | [] => match l with [] => conil | x :: rest => cocons x (cycle_from l rest) end
  end.
Definition cycle (l : list A) : colist A := cycle_from l l.
End Infinite.
(** lib/prelude.eu 1512: [range(b, e): ints-from(b) take(e - b)]. *)
Definition range (b e : Z) : colist Z := cotake (e - b) (iota b).
