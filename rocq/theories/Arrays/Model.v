(** Heap arrays: src/eval/memory/array.rs.

    Memory is a list of allocated blocks of element cells; a fresh block's cells
    are uninitialised ([None]).  Reading an uninitialised or missing cell, writing
    a missing cell, and the [unwrap_unchecked] of a null backing pointer are
    undefined behaviour in the code and [None] here.  Allocation succeeds; the
    [checked_mul]/[checked_add] overflow panics at 2^64 elements and the
    [debug_assert]s are not modelled. *)
From Coq Require Import List Arith Bool.
Import ListNotations.

Notation "'let*' p ':=' e 'in' k" := (match e with Some p => k | None => None end)
  (at level 200, p pattern, e at level 200, k at level 200).

Section Arrays.
  Context {T : Type}.
  Definition block := list (option T).
  Definition mem := list block.

  Fixpoint upd {A} (l : list A) (i : nat) (x : A) : list A :=
    match l, i with
    | [], _ => []
    | _ :: l', 0 => x :: l'
    | y :: l', S i' => y :: upd l' i' x
    end.

  (** [RawArray] 21-24 and [Array] 149-154, in one record. *)
  Record array := mkArr { length_ : nat; capacity : nat; ptr : option nat }.

  (** [RawArray::alloc], lines 107-121. *)
  Definition alloc (m : mem) (cap : nat) : mem * option nat :=
    if cap =? 0 then (m, None) else (m ++ [repeat None cap], Some (length m)).

  Definition load (m : mem) (p i : nat) : option T :=
    let* b := nth_error m p in
    let* c := nth_error b i in c.
  Definition store (m : mem) (p i : nat) (x : T) : option mem :=
    let* b := nth_error m p in
    if i <? length b then Some (upd m p (upd b i (Some x))) else None.

  (** [copy_nonoverlapping] of [n] cells, initialised or not. *)
  Definition copy (m : mem) (src dst n : nat) : option mem :=
    let* s := nth_error m src in
    let* d := nth_error m dst in
    if (n <=? length s) && (n <=? length d)
    then Some (upd m dst (firstn n s ++ skipn n d)) else None.

  (** [Array::default] 156-164. *)
  Definition default : array := mkArr 0 0 None.
  (** [Array::with_capacity], lines 168-173. *)
  Definition with_capacity (m : mem) (cap : nat) : mem * array :=
    let '(m', p) := alloc m cap in (m', mkArr 0 cap p).
  (** [Array::from_slice] 176-181 with [RawArray::with_data] 57-75. *)
  Definition from_slice (m : mem) (xs : list T) : option (mem * array) :=
    let '(m', p) := alloc m (length xs) in
    match p with
    | Some q => let* _ := nth_error m' q in
                Some (upd m' q (map Some xs), mkArr (length xs) (length xs) p)
    | None => Some (m', mkArr (length xs) (length xs) p)
    end.

  (** [default_array_growth], lines 366-382. *)
  Definition growth (cap : nat) : nat := if cap =? 0 then 8 else cap + Nat.max (cap / 2) 1.
  (** [RawArray::resize], lines 78-100. *)
  Definition resize (m : mem) (a : array) (cap : nat) : option (mem * array) :=
    let '(m', p) := alloc m cap in
    let* m'' := match ptr a, p with
                | Some old, Some new => copy m' old new (Nat.min (capacity a) cap)
                | _, _ => Some m'
                end in
    Some (m'', mkArr (length_ a) cap p).
  (** [push], lines 198-224. *)
  Definition push (m : mem) (a : array) (x : T) : option (mem * array) :=
    let* (m1, a1) := if length_ a =? capacity a then resize m a (growth (capacity a)) else Some (m, a) in
    let* p := ptr a1 in
    let* m2 := store m1 p (length_ a1) x in
    Some (m2, mkArr (length_ a1 + 1) (capacity a1) (ptr a1)).

  (** [get_offset] 342-359 with [read] 398-408 and [write] 384-396. *)
  Definition read (m : mem) (a : array) (i : nat) : option T :=
    if i <? length_ a then let* p := ptr a in load m p i else None.
  Definition write (m : mem) (a : array) (i : nat) (x : T) : option mem :=
    if i <? length_ a then let* p := ptr a in store m p i x else None.

  (** [pop], lines 227-236: outer [None] is undefined behaviour, the inner option
      is the method's result. *)
  Definition pop (m : mem) (a : array) : option (array * option T) :=
    if 0 <? length_ a then
      let* x := read m a (length_ a - 1) in
      Some (mkArr (length_ a - 1) (capacity a) (ptr a), Some x)
    else Some (a, None).
  (** [top], lines 247-253. *)
  Definition top (m : mem) (a : array) : option (option T) :=
    if 0 <? length_ a then let* x := read m a (length_ a - 1) in Some (Some x) else Some None.
  (** [get], lines 256-262. *)
  Definition get (m : mem) (a : array) (i : nat) : option (option T) :=
    if i <? length_ a then let* x := read m a i in Some (Some x) else Some None.
  (** [set], lines 265-274: [false] is the bounds error. *)
  Definition set (m : mem) (a : array) (i : nat) (x : T) : option (mem * bool) :=
    if length_ a <=? i then Some (m, false)
    else let* m' := write m a i x in Some (m', true).
  (** [clone_with_length], lines 298-303. *)
  Definition clone_with_length (a : array) (n : nat) : array :=
    mkArr (Nat.min n (length_ a)) (capacity a) (ptr a).
  (** [as_slice], lines 306-317. *)
  Fixpoint sequence (l : list (option T)) : option (list T) :=
    match l with
    | [] => Some []
    | c :: l' => let* x := c in let* xs := sequence l' in Some (x :: xs)
    end.
  Definition as_slice (m : mem) (a : array) : option (list T) :=
    match ptr a with
    | Some p => let* b := nth_error m p in
                if length_ a <=? length b then sequence (firstn (length_ a) b) else None
    | None => Some []
    end.

  (** ** A program using several arrays *)
  Inductive op :=
  | ODefault | OWithCapacity (n : nat) | OFromSlice (xs : list T)
  | OPush (a : nat) (x : T) | OPop (a : nat) | OTop (a : nat) | OGet (a i : nat)
  | OSet (a i : nat) (x : T) | OSlice (a : nat) | OLen (a : nat).
  (** What an operation shows its caller. *)
  Inductive obs := VUnit | VOpt (x : option T) | VOk (b : bool) | VList (xs : list T) | VNat (n : nat) | VNoArray.

  Definition state := (mem * list array)%type.
  Definition step (s : state) (o : op) : option (state * obs) :=
    let '(m, arrs) := s in
    let on (i : nat) (k : array -> option (state * obs)) :=
      match nth_error arrs i with Some a => k a | None => Some (s, VNoArray) end in
    match o with
    | ODefault => Some ((m, arrs ++ [default]), VUnit)
    | OWithCapacity n => let '(m', a) := with_capacity m n in Some ((m', arrs ++ [a]), VUnit)
    | OFromSlice xs => let* (m', a) := from_slice m xs in Some ((m', arrs ++ [a]), VUnit)
    | OPush i x => on i (fun a => let* (m', a') := push m a x in Some ((m', upd arrs i a'), VUnit))
    | OPop i => on i (fun a => let* (a', r) := pop m a in Some ((m, upd arrs i a'), VOpt r))
    | OTop i => on i (fun a => let* r := top m a in Some (s, VOpt r))
    | OGet i k => on i (fun a => let* r := get m a k in Some (s, VOpt r))
    | OSet i k x => on i (fun a => let* (m', b) := set m a k x in Some ((m', arrs), VOk b))
    | OSlice i => on i (fun a => let* r := as_slice m a in Some (s, VList r))
    | OLen i => on i (fun a => Some (s, VNat (length_ a)))
    end.
  Fixpoint run (s : state) (os : list op) : option (state * list obs) :=
    match os with
    | [] => Some (s, [])
    | o :: os' => let* (s1, v) := step s o in
                  let* (s2, vs) := run s1 os' in Some (s2, v :: vs)
    end.
End Arrays.
Arguments mem : clear implicits.
Arguments op : clear implicits.
Arguments obs : clear implicits.
Arguments state : clear implicits.
