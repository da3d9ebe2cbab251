(** N-dimensional arrays: src/eval/memory/ndarray.rs and the argument handling of
    src/eval/stg/array.rs.

    The [ndarray] crate is modelled by its documented meaning: a shape and the
    elements in logical (row-major) order; memory layout and strides of the crate
    are not modelled. *)
From Coq Require Import List Arith ZArith Bool.
Import ListNotations.

Definition prod (shape : list nat) : nat := fold_right Nat.mul 1 shape.

Section Nd.
  Context {A : Type}.
  (** [HeapNdArray], lines 16-18. *)
  Record nd := mkNd { shape : list nat; flat : list A }.

  (** Row-major position of a coordinate list ([IxDyn] indexing); [None] when the
      rank differs or a coordinate is out of range. *)
  Fixpoint offset (sh coords : list nat) : option nat :=
    match sh, coords with
    | [], [] => Some 0
    | d :: sh', c :: cs =>
        if c <? d then option_map (fun o => c * prod sh' + o) (offset sh' cs) else None
    | _, _ => None
    end.

  (** [zeros] 29-33, [filled] 36-40. *)
  Definition filled (sh : list nat) (x : A) : nd := mkNd sh (repeat x (prod sh)).
  (** [from_flat], lines 43-47. *)
  Definition from_flat (sh : list nat) (xs : list A) : option nd :=
    if length xs =? prod sh then Some (mkNd sh xs) else None.
  (** [rank] 60-62, [len] 65-67. *)
  Definition rank (a : nd) : nat := length (shape a).
  Definition len (a : nd) : nat := length (flat a).
  (** [get], lines 75-77. *)
  Definition get (a : nd) (coords : list nat) : option A :=
    match offset (shape a) coords with Some o => nth_error (flat a) o | None => None end.
  Fixpoint list_set (l : list A) (i : nat) (x : A) : list A :=
    match l, i with
    | [], _ => []
    | _ :: l', 0 => x :: l'
    | y :: l', S i' => y :: list_set l' i' x
    end.
  (** [with_set], lines 80-85. *)
  Definition with_set (a : nd) (coords : list nat) (x : A) : option nd :=
    match offset (shape a) coords with
    | Some o => Some (mkNd (shape a) (list_set (flat a) o x))
    | None => None
    end.
  (** [reshape], lines 88-91. *)
  Definition reshape (a : nd) (sh : list nat) : option nd := from_flat sh (flat a).

  (** [indices], lines 120-142. *)
  Fixpoint strides (sh : list nat) : list nat :=
    match sh with
    | [] => []
    | _ :: sh' => match sh' with
                  | [] => [1]
                  | d' :: _ => (hd 1 (strides sh') * d') :: strides sh'
                  end
    end.
  Definition indices (a : nd) : list (list nat) :=
    match shape a with
    | [] => [[]]
    | _ => map (fun f => map (fun ds => (f / snd ds) mod (fst ds)) (combine (shape a) (strides (shape a))))
               (seq 0 (len a))
    end.

  (** All coordinates of a shape in row-major order (the crate's iteration
      order, used for [transpose] and [slice_along]). *)
  Fixpoint all_coords (sh : list nat) : list (list nat) :=
    match sh with
    | [] => [[]]
    | d :: sh' => flat_map (fun c => map (cons c) (all_coords sh')) (seq 0 d)
    end.
  Definition build (sh : list nat) (f : list nat -> option A) : nd :=
    mkNd sh (flat_map (fun c => match f c with Some x => [x] | None => [] end) (all_coords sh)).
  (** [transpose], lines 94-100: [reversed_axes]. *)
  Definition transpose (a : nd) : nd := build (rev (shape a)) (fun c => get a (rev c)).
  (** [slice_along], lines 104-112: [index_axis]. *)
  Definition insert_at (l : list nat) (i x : nat) : list nat := firstn i l ++ x :: skipn i l.
  Definition remove_at (l : list nat) (i : nat) : list nat := firstn i l ++ skipn (S i) l.
  Definition slice_along (a : nd) (axis index : nat) : option nd :=
    if (rank a <=? axis) || (nth axis (shape a) 0 <=? index) then None
    else Some (build (remove_at (shape a) axis) (fun c => get a (insert_at c axis index))).

  (** [neighbours_values], lines 149-175.  [zip] stops at the shortest list; [i64]
      overflow of [c as i64 + o] is not modelled (coordinates and offsets are
      unbounded integers here). *)
  Fixpoint neighbour (coords : list nat) (off : list Z) (sh : list nat) : option (list nat) :=
    match coords, off, sh with
    | c :: cs, o :: os, d :: ds =>
        let nc := (Z.of_nat c + o)%Z in
        if (nc <? 0)%Z || (Z.of_nat d <=? nc)%Z then None
        else option_map (cons (Z.to_nat nc)) (neighbour cs os ds)
    | _, _, _ => Some []
    end.
  Definition neighbours_values (a : nd) (coords : list nat) (offsets : list (list Z)) : list A :=
    flat_map (fun off =>
      if length off =? length coords then
        match neighbour coords off (shape a) with
        | Some n => match get a n with Some x => [x] | None => [] end
        | None => []
        end
      else []) offsets.

  (** [slice::chunks]. *)
  Fixpoint chunks_fuel (fuel n : nat) (l : list Z) : list (list Z) :=
    match fuel, l with
    | S fuel', _ :: _ => firstn n l :: chunks_fuel fuel' n (skipn n l)
    | _, _ => []
    end.
  Definition chunks (n : nat) (l : list Z) : list (list Z) := chunks_fuel (length l) n l.
  (** [arr.neighbours(a, coords, offsets)]: the prelude flattens the offsets and
      passes the rank; [ARRAY_NEIGHBOURS], src/eval/stg/array.rs:687-714, cuts the
      flat list again. *)
  Definition intr_neighbours (coords : list nat) (offsets : list (list Z)) (a : nd) : list A :=
    let fl := concat offsets in
    let offs := if (rank a =? 0) || (match fl with [] => true | _ => false end)
                then [] else chunks (rank a) fl in
    neighbours_values a coords offs.

  (** [map] 178-182, [zip_with] 185-193, [scalar_op] 196-200. *)
  Definition nd_map (f : A -> A) (a : nd) : nd := mkNd (shape a) (map f (flat a)).
  Definition zip_with (f : A -> A -> A) (a b : nd) : option nd :=
    if list_eq_dec Nat.eq_dec (shape a) (shape b)
    then Some (mkNd (shape a) (map (fun p => f (fst p) (snd p)) (combine (flat a) (flat b))))
    else None.
  Definition scalar_op (f : A -> A -> A) (a : nd) (s : A) : nd := nd_map (fun x => f x s) a.

  (** [array_binop], src/eval/stg/array.rs:783-829; [None] is the shape error. *)
  Inductive operand := OArr (a : nd) | ONum (x : A).
  Definition array_binop (f : A -> A -> A) (x y : operand) : option nd :=
    match x, y with
    | OArr a, OArr b => zip_with f a b
    | OArr a, ONum n => Some (scalar_op f a n)
    | ONum n, OArr b => Some (scalar_op (fun x s => f s x) b n)
    | ONum _, ONum _ => None
    end.
End Nd.
Arguments nd : clear implicits.
Arguments operand : clear implicits.
