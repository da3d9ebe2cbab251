(** * Model of the parallel map: the value codec, the shared arena, the driver

    Source: /repo/src/eval/stg/parallel/serialise.rs (the bytes a value becomes),
    /repo/src/eval/stg/parallel/arena.rs (the shared memory the bytes go through),
    /repo/src/eval/stg/parallel/driver.rs (who computes which element, and how the results
    are put together again) and /repo/src/eval/stg/parallel/fork.rs (running the workers).

    A value here is what the machine is handed: data whose parts may still be computations.
    A computation is written as what it will do when it is forced: raise an error, or give
    a value, possibly after forcing other values on the way.  The collector, the root set
    and the heap are not here (they are in Heap); nor are values that never end, so lists
    are finite. *)

From Coq Require Import String List NArith ZArith Bool Arith Lia.
Import ListNotations.
Open Scope nat_scope.

Definition byte := N.

(** serde_json's number, which is what /repo/src/eval/memory/syntax.rs keeps in
    Native::Num: a u64, a negative i64 or a finite f64, the last as its 64 bits. *)
Inductive number :=
| PosInt (u : N)
| NegInt (i : Z)
| Float (bits : N).

(** /repo/src/eval/memory/syntax.rs Native.  A string or a symbol is its UTF-8 bytes (a
    symbol is its name: symbols are interned); a date is named by a number; everything
    serialise.rs 353-358 refuses is [Opaque]. *)
Inductive native :=
| Num (n : number)
| Str (s : list byte)
| Sym (s : list byte)
| Zdt (d : N)
| Opaque.

(** The errors of this area: one raised by a computation that was forced (any number),
    ExecutionError::NotSerialisable with the kind of value it names (serialise.rs 82-84),
    a corrupt record (serialise.rs 89-91), the refusal of driver.rs fork_fault under
    EU_PP_STRICT=1 (driver.rs 113-129); [OutOfFuel] is not an error of the code, it says
    that the model's own counter was too small, and is proved not to happen. *)
Inductive error :=
| Raised (k : nat)
| NotSerialisable (kind : string)
| Corrupt (what : string)
| ParallelFault
| OutOfFuel.

Inductive result (A : Type) :=
| Ok (x : A)
| Err (e : error).
Arguments Ok {A}.
Arguments Err {A}.

Definition bind {A B} (r : result A) (f : A -> result B) : result B :=
  match r with Ok x => f x | Err e => Err e end.
Notation "x <- r ;; e" := (bind r (fun x => e)) (at level 100, r at next level, right associativity).

(** The four boxes of serialise.rs 253-258. *)
Inductive box := BoxNumber | BoxString | BoxSymbol | BoxZdt.

(** A value of the machine: the data constructors of /repo/src/eval/stg/tags.rs 10-40 with
    their fields; a bare native; a function; and four forms that only forcing removes. *)
Inductive value :=
| Raises (k : nat)                      (* a computation that raises an error *)
| Annotated (meta body : value)         (* a Meta node: metadata and the value that has it *)
| Ran (v : value)                       (* gives v, having forced another value on the way *)
| RanOver (meta v : value)              (* the same, the last one forced having had metadata *)
| Native (n : native)
| Function
| Unit | BoolTrue | BoolFalse
| Boxed (b : box) (payload : value)
| TypeData (payload : value)
| ListNil
| ListCons (head tail : value)
| Block (kvs : value)                   (* the second field, the index, is left out *)
| BlockPair (key v : value)
| BlockKvList (l : value)
| IoConstructor                         (* IoReturn, IoBind, IoAction, IoFail *)
| Clause
| UnknownData.

(** IntrinsicMachine::force and what take_stripped_meta then returns
    (/repo/src/eval/bytecode/machine.rs 603-616 enter_whnf_subrun, 1709-1737 return_meta
    when no continuation is left, 4714-4727 force, 4750-4752).  The machine has one register
    for metadata that was thrown away: entering a sub-run clears it, and a Meta node that
    nothing consumes writes it and goes on with the body.  A sub-run inside the one being
    forced (an intrinsic that forces, such as /repo/src/eval/stg/list.rs 477) uses the same
    register and does not restore it (exit_whnf_subrun, machine.rs 631-660). *)
Fixpoint run (register : option value) (v : value) : result (option value * value) :=
  match v with
  | Raises k => Err (Raised k)
  | Annotated m b => run (Some m) b
  | Ran v' => run None v'
  | RanOver m v' => run (Some m) v'
  | _ => Ok (register, v)
  end.

Definition force (v : value) : result (option value * value) := run None v.

(** data_field (machine.rs 4790-4801): field [i] of data that has been forced.  The fields
    of IO constructors and clauses are never read here. *)
Definition data_field (v : value) (i : nat) : option value :=
  match v, i with
  | Boxed _ p, 0 => Some p
  | TypeData p, 0 => Some p
  | ListCons h _, 0 => Some h
  | ListCons _ t, 1 => Some t
  | Block kvs, 0 => Some kvs
  | BlockPair k _, 0 => Some k
  | BlockPair _ x, 1 => Some x
  | BlockKvList l, 0 => Some l
  | _, _ => None
  end.

(** field_native (machine.rs 4803-4811): the field must already be a native. *)
Definition field_native (v : value) (i : nat) : option native :=
  match data_field v i with Some (Native n) => Some n | _ => None end.

(** value_native (machine.rs 4813-4823): a native, or data whose first field is one. *)
Definition value_native (v : value) : option native :=
  match v with Native n => Some n | _ => field_native v 0 end.

(** ** The codec *)

(** serialise.rs 66-80 *)
Definition tag_null : byte := 0%N.
Definition tag_true : byte := 1%N.
Definition tag_false : byte := 2%N.
Definition tag_num : byte := 3%N.
Definition tag_sym : byte := 4%N.
Definition tag_str : byte := 5%N.
Definition tag_zdt : byte := 6%N.
Definition tag_list : byte := 7%N.
Definition tag_block : byte := 8%N.
Definition tag_meta : byte := 9%N.
Definition tag_typedata : byte := 10%N.
Definition num_u64 : byte := 0%N.
Definition num_i64 : byte := 1%N.
Definition num_f64 : byte := 2%N.

(** to_le_bytes of an unsigned integer of [k] bytes; a number too large for [k] bytes loses
    its upper part, as the cast [as u32] of serialise.rs 100 does. *)
Fixpoint le_bytes (k : nat) (n : N) : list byte :=
  match k with
  | 0 => []
  | S k' => (n mod 256)%N :: le_bytes k' (n / 256)%N
  end.

(** from_le_bytes *)
Fixpoint from_le (bs : list byte) : N :=
  match bs with
  | [] => 0%N
  | b :: bs' => (b + 256 * from_le bs')%N
  end.

Definition two64 : Z := (2 ^ 64)%Z.

(** The 64 bits of an i64, and the i64 of 64 bits ([as i64], serialise.rs 158). *)
Definition i64_bits (i : Z) : N := Z.to_N (i mod two64).
Definition bits_i64 (u : N) : Z :=
  if (Z.of_N u <? 2 ^ 63)%Z then Z.of_N u else (Z.of_N u - two64)%Z.

(** Number::from for an i64: a negative one is kept as such. *)
Definition number_of_i64 (i : Z) : number := if (i <? 0)%Z then NegInt i else PosInt (Z.to_N i).

(** Number::from_f64: none for an infinity or a NaN, those being the bit patterns whose
    eleven exponent bits are all ones. *)
Definition finite (bits : N) : bool := negb (N.land (N.shiftr bits 52) 2047 =? 2047)%N.

(** serialise.rs 99-102 *)
Definition write_len_bytes (s : list byte) : list byte :=
  le_bytes 4 (N.of_nat (length s)) ++ s.

(** serialise.rs 104-118.  as_u64 and as_i64 answer for the integers of their kind. *)
Definition encode_number (n : number) : list byte :=
  tag_num ::
  match n with
  | PosInt u => num_u64 :: le_bytes 8 u
  | NegInt i => num_i64 :: le_bytes 8 (i64_bits i)
  | Float bits => num_f64 :: le_bytes 8 bits
  end.

(** serialise.rs 120-127 *)
Definition take (cur : list byte) (n : N) : result (list byte * list byte) :=
  if (N.of_nat (length cur) <? n)%N then Err (Corrupt "short read")
  else Ok (firstn (N.to_nat n) cur, skipn (N.to_nat n) cur).

(** serialise.rs 129-131 *)
Definition read_u8 (cur : list byte) : result (byte * list byte) :=
  match cur with
  | [] => Err (Corrupt "short read")
  | b :: cur' => Ok (b, cur')
  end.

(** serialise.rs 133-136 *)
Definition read_u32 (cur : list byte) : result (N * list byte) :=
  p <- take cur 4 ;; Ok (from_le (fst p), snd p).

(** serialise.rs 138-141 *)
Definition read_u64 (cur : list byte) : result (N * list byte) :=
  p <- take cur 8 ;; Ok (from_le (fst p), snd p).

(** serialise.rs 143-146 *)
Definition read_len_bytes (cur : list byte) : result (list byte * list byte) :=
  p <- read_u32 cur ;; take (snd p) (fst p).

(** serialise.rs 155-165 *)
Definition decode_number (cur : list byte) : result (number * list byte) :=
  k <- read_u8 cur ;;
  let kind := fst k in
  if (kind =? num_u64)%N then p <- read_u64 (snd k) ;; Ok (PosInt (fst p), snd p)
  else if (kind =? num_i64)%N then p <- read_u64 (snd k) ;; Ok (number_of_i64 (bits_i64 (fst p)), snd p)
  else if (kind =? num_f64)%N then
    p <- read_u64 (snd k) ;;
    if finite (fst p) then Ok (Float (fst p), snd p) else Err (Corrupt "non-finite float")
  else Err (Corrupt "bad number kind").

Section Codec.

(** std::str::from_utf8 succeeds. *)
Variable utf8 : list byte -> bool.
(** chrono's DateTime::to_rfc3339 and parse_from_rfc3339. *)
Variable to_rfc3339 : N -> list byte.
Variable from_rfc3339 : list byte -> option N.

(** serialise.rs 148-153 *)
Definition read_str (cur : list byte) : result (list byte * list byte) :=
  p <- read_len_bytes cur ;;
  if utf8 (fst p) then Ok p else Err (Corrupt "invalid utf-8").

(** serialise.rs 323-360 *)
Definition encode_scalar (n : native) : result (list byte) :=
  match n with
  | Num x => Ok (encode_number x)
  | Str s => Ok (tag_str :: write_len_bytes s)
  | Sym s => Ok (tag_sym :: write_len_bytes s)
  | Zdt d => Ok (tag_zdt :: write_len_bytes (to_rfc3339 d))
  | Opaque => Err (NotSerialisable "opaque value")
  end.

(** [force_and_serialise]: serialise.rs 176-220 (force_and_serialise and
    force_slot_and_serialise: metadata first, then the value).
    [serialise_forced]: serialise.rs 223-321.
    [list_items]: the loop of serialise_list, serialise.rs 380-407, from a forced cell.
    [block_items]: the loop of serialise_block, serialise.rs 435-479, from a forced cell.
    The code writes a count of zero and writes over it when the loop ends (376, 409, 424,
    479); here the loops return the count with the bytes.  [fuel] bounds the recursion. *)
Fixpoint force_and_serialise (fuel : nat) (v : value) {struct fuel} : result (list byte) :=
  match fuel with
  | 0 => Err OutOfFuel
  | S fuel' =>
      f <- force v ;;
      match fst f with
      | Some m =>
          bm <- force_and_serialise fuel' m ;;
          bv <- serialise_forced fuel' (snd f) ;;
          Ok (tag_meta :: bm ++ bv)
      | None => serialise_forced fuel' (snd f)
      end
  end
with serialise_forced (fuel : nat) (w : value) {struct fuel} : result (list byte) :=
  match fuel with
  | 0 => Err OutOfFuel
  | S fuel' =>
      match w with
      | Unit => Ok [tag_null]
      | BoolTrue => Ok [tag_true]
      | BoolFalse => Ok [tag_false]
      | Boxed _ payload =>
          f <- force payload ;;
          match value_native (snd f) with
          | Some n => encode_scalar n
          | None => Err (NotSerialisable "opaque boxed value")
          end
      | ListNil => Ok (tag_list :: le_bytes 4 0)
      | ListCons _ _ =>
          p <- list_items fuel' w ;; Ok (tag_list :: le_bytes 4 (fst p) ++ snd p)
      | Block kvs =>
          f <- force kvs ;;
          p <- block_items fuel' (snd f) ;; Ok (tag_block :: le_bytes 4 (fst p) ++ snd p)
      | TypeData payload =>
          f <- force payload ;;
          match value_native (snd f) with
          | Some (Str s) => Ok (tag_typedata :: write_len_bytes s)
          | Some _ => Err (NotSerialisable "type-data value")
          | None => Err (NotSerialisable "opaque boxed value")
          end
      | IoConstructor => Err (NotSerialisable "IO action")
      | Clause => Err (NotSerialisable "conditional clause")
      | BlockPair _ _ | BlockKvList _ => Err (NotSerialisable "bare block-internal value")
      | UnknownData => Err (NotSerialisable "unknown value")
      | _ =>
          match value_native w with
          | Some n => encode_scalar n
          | None => Err (NotSerialisable "function")
          end
      end
  end
with list_items (fuel : nat) (cell : value) {struct fuel} : result (N * list byte) :=
  match fuel with
  | 0 => Err OutOfFuel
  | S fuel' =>
      match cell with
      | ListNil => Ok (0%N, [])
      | ListCons h t =>
          b <- force_and_serialise fuel' h ;;
          f <- force t ;;
          p <- list_items fuel' (snd f) ;;
          Ok ((fst p + 1)%N, b ++ snd p)
      | _ => Err (NotSerialisable "improper list")
      end
  end
with block_items (fuel : nat) (cell : value) {struct fuel} : result (N * list byte) :=
  match fuel with
  | 0 => Err OutOfFuel
  | S fuel' =>
      match cell with
      | ListNil => Ok (0%N, [])
      | ListCons kv t =>
          fp <- force kv ;;
          match field_native (snd fp) 0 with
          | None => Err (NotSerialisable "non-scalar block key")
          | Some key =>
              bk <- encode_scalar key ;;
              match data_field (snd fp) 1 with
              | None => Err (Corrupt "block value")
              | Some x =>
                  bx <- force_and_serialise fuel' x ;;
                  f <- force t ;;
                  p <- block_items fuel' (snd f) ;;
                  Ok ((fst p + 1)%N, bk ++ bx ++ snd p)
              end
          end
      | _ => Err (NotSerialisable "malformed block")
      end
  end.

(** serialise.rs 586-596 *)
Definition build_list (items : list value) : value := fold_right ListCons ListNil items.

(** serialise.rs 564-583 *)
Definition deserialise_key (cur : list byte) : result (value * list byte) :=
  t <- read_u8 cur ;;
  if (fst t =? tag_sym)%N then p <- read_str (snd t) ;; Ok (Native (Sym (fst p)), snd p)
  else if (fst t =? tag_str)%N then p <- read_str (snd t) ;; Ok (Native (Str (fst p)), snd p)
  else Err (Corrupt "bad block key tag").

(** serialise.rs 487-560.  [items] and [pairs] are the two loops [for _ in 0..count]. *)
Fixpoint deserialise (fuel : nat) (cur : list byte) {struct fuel} : result (value * list byte) :=
  match fuel with
  | 0 => Err OutOfFuel
  | S fuel' =>
      t <- read_u8 cur ;;
      let tag := fst t in
      let cur := snd t in
      if (tag =? tag_null)%N then Ok (Unit, cur)
      else if (tag =? tag_true)%N then Ok (BoolTrue, cur)
      else if (tag =? tag_false)%N then Ok (BoolFalse, cur)
      else if (tag =? tag_num)%N then
        p <- decode_number cur ;; Ok (Boxed BoxNumber (Native (Num (fst p))), snd p)
      else if (tag =? tag_str)%N then
        p <- read_str cur ;; Ok (Boxed BoxString (Native (Str (fst p))), snd p)
      else if (tag =? tag_sym)%N then
        p <- read_str cur ;; Ok (Boxed BoxSymbol (Native (Sym (fst p))), snd p)
      else if (tag =? tag_zdt)%N then
        p <- read_str cur ;;
        match from_rfc3339 (fst p) with
        | Some d => Ok (Boxed BoxZdt (Native (Zdt d)), snd p)
        | None => Err (Corrupt "bad rfc3339")
        end
      else if (tag =? tag_typedata)%N then
        p <- read_str cur ;; Ok (TypeData (Native (Str (fst p))), snd p)
      else if (tag =? tag_list)%N then
        c <- read_u32 cur ;;
        p <- items fuel' (fst c) (snd c) ;; Ok (build_list (fst p), snd p)
      else if (tag =? tag_block)%N then
        c <- read_u32 cur ;;
        p <- pairs fuel' (fst c) (snd c) ;; Ok (Block (build_list (fst p)), snd p)
      else if (tag =? tag_meta)%N then
        m <- deserialise fuel' cur ;;
        b <- deserialise fuel' (snd m) ;; Ok (Annotated (fst m) (fst b), snd b)
      else Err (Corrupt "unknown value tag")
  end
with items (fuel : nat) (count : N) (cur : list byte) {struct fuel}
    : result (list value * list byte) :=
  match fuel with
  | 0 => Err OutOfFuel
  | S fuel' =>
      if (count =? 0)%N then Ok ([], cur)
      else
        p <- deserialise fuel' cur ;;
        q <- items fuel' (count - 1)%N (snd p) ;;
        Ok (fst p :: fst q, snd q)
  end
with pairs (fuel : nat) (count : N) (cur : list byte) {struct fuel}
    : result (list value * list byte) :=
  match fuel with
  | 0 => Err OutOfFuel
  | S fuel' =>
      if (count =? 0)%N then Ok ([], cur)
      else
        k <- deserialise_key cur ;;
        p <- deserialise fuel' (snd k) ;;
        q <- pairs fuel' (count - 1)%N (snd p) ;;
        Ok (BlockPair (fst k) (fst p) :: fst q, snd q)
  end.

(** The number of parts of a value; three times it is enough for the counter. *)
Fixpoint size (v : value) : nat :=
  match v with
  | Annotated m b | RanOver m b => S (size m + size b)
  | Ran x | Boxed _ x | TypeData x | Block x | BlockKvList x => S (size x)
  | ListCons a b | BlockPair a b => S (size a + size b)
  | _ => 1
  end.

(** The encoder and the decoder as they are called. *)
Definition serialise (v : value) : result (list byte) := force_and_serialise (3 * size v) v.

Definition deserialise_value (cur : list byte) : result (value * list byte) :=
  deserialise (2 * length cur + 1) cur.

(** driver.rs 274-290 map_element: what a computation becomes in the sequential path. *)
Definition map_element (v : value) : result value :=
  b <- serialise v ;; p <- deserialise_value b ;; Ok (fst p).

(** driver.rs 294-318 sequential_map; [vs] are the computations [f x] in order. *)
Fixpoint map_elements (vs : list value) : result (list value) :=
  match vs with
  | [] => Ok []
  | v :: vs' => x <- map_element v ;; xs <- map_elements vs' ;; Ok (x :: xs)
  end.

Definition sequential_map (vs : list value) : result value :=
  xs <- map_elements vs ;; Ok (build_list xs).

(** ** The arena *)

(** The shared mapping: a byte at each offset, all zero at first (arena.rs 65-97). *)
Definition memory := nat -> byte.
Definition fresh : memory := fun _ => 0%N.

(** write_bytes (arena.rs 156-162); write_u64 (142-148) writes eight bytes. *)
Definition write := (nat * list byte)%type.
Definition store (m : memory) (w : write) : memory :=
  fun a => if (fst w <=? a) && (a <? fst w + length (snd w)) then nth (a - fst w) (snd w) 0%N else m a.

(** read_slice (arena.rs 164-168); read_u64 (150-154) reads eight bytes. *)
Definition read_slice (m : memory) (off len : nat) : list byte := map m (seq off len).
Definition read_word (m : memory) (off : nat) : N := from_le (read_slice m off 8).

Definition header_len := 8.
Definition len_prefix := 8.

(** arena.rs 67: size.div_ceil(n_workers).max(HEADER_LEN + LEN_PREFIX) *)
Definition segment_size (size workers : nat) : nat :=
  Nat.max ((size + workers - 1) / workers) (header_len + len_prefix).

(** arena.rs 100-102 *)
Definition segment_base (seg w : nat) : nat := w * seg.

(** SegmentWriter::push (arena.rs 192-202): the two writes, or None for ArenaOverflow. *)
Definition push (cursor stop : nat) (bs : list byte) : option (list write * nat) :=
  let needed := len_prefix + length bs in
  if stop <? cursor + needed then None
  else Some ([(cursor, le_bytes 8 (N.of_nat (length bs))); (cursor + len_prefix, bs)],
             cursor + needed).

(** SegmentReader (arena.rs 125-140 and 233-258): the places of the records, the first
    offset and the length of each.  [remaining] is clamped to the number of length prefixes
    a segment has room for, so it bounds the loop. *)
Fixpoint next_records (m : memory) (stop remaining cursor : nat) : list (nat * nat) :=
  match remaining with
  | 0 => []
  | S remaining' =>
      if stop <? cursor + len_prefix then []
      else
        let len := read_word m cursor in
        let payload := cursor + len_prefix in
        if (N.of_nat (stop - payload) <? len)%N then []
        else (payload, N.to_nat len)
               :: next_records m stop remaining' (payload + N.to_nat len)
  end.

Definition record_places (m : memory) (seg w : nat) : list (nat * nat) :=
  let base := segment_base seg w in
  let stop := base + seg in
  let max_records := (stop - base - header_len) / len_prefix in
  let remaining := N.to_nat (N.min (read_word m base) (N.of_nat max_records)) in
  next_records m stop remaining (base + header_len).

Definition records (m : memory) (seg w : nat) : list (list byte) :=
  map (fun p => read_slice m (fst p) (snd p)) (record_places m seg w).

(** ** The driver *)

(** driver.rs 322-328 *)
Definition chunk_bounds (n w i : nat) : nat * nat :=
  let base := n / w in
  let rem := n mod w in
  let start := i * base + Nat.min i rem in
  let len := base + (if i <? rem then 1 else 0) in
  (start, start + len).

(** The worker's loop (driver.rs 368-383): the writes it makes before it ends, and whether
    it ends without an error.  [vs] are the computations of its chunk, in order. *)
Fixpoint worker_loop (base stop cursor count : nat) (vs : list value) : list write * bool :=
  match vs with
  | [] => ([(base, le_bytes 8 (N.of_nat count))], true)
  | v :: vs' =>
      match serialise v with
      | Err _ => ([], false)
      | Ok bs =>
          match push cursor stop bs with
          | None => ([], false)
          | Some (ws, cursor') =>
              let r := worker_loop base stop cursor' (S count) vs' in
              (ws ++ fst r, snd r)
          end
      end
  end.

(** driver.rs 359-385 for worker [i] of [w]; [seen] are the computations as that worker
    would see them, for every index. *)
Definition worker (seg n w : nat) (seen : list value) (i : nat) : list write * bool :=
  let base := segment_base seg i in
  let bounds := chunk_bounds n w i in
  worker_loop base (base + seg) (base + header_len) 0
    (firstn (snd bounds - fst bounds) (skipn (fst bounds) seen)).

(** The parent's loop over one segment (driver.rs 414-423): all its records, decoded. *)
Fixpoint decode_all (rs : list (list byte)) : result (list value) :=
  match rs with
  | [] => Ok []
  | r :: rs' =>
      p <- deserialise_value r ;; xs <- decode_all rs' ;; Ok (fst p :: xs)
  end.

(** The parent's loop over the segments (driver.rs 409-434); None is a fault: a record that
    does not decode, or a number of records other than the chunk's. *)
Fixpoint collect (m : memory) (seg n w : nat) (todo : list nat) : option (list value) :=
  match todo with
  | [] => Some []
  | i :: todo' =>
      let bounds := chunk_bounds n w i in
      match decode_all (records m seg i) with
      | Err _ => None
      | Ok xs =>
          if length xs =? snd bounds - fst bounds then
            match collect m seg n w todo' with
            | Some ys => Some (xs ++ ys)
            | None => None
            end
          else None
      end
  end.

(** How the wait for a worker ended (fork.rs 190-192 and 236-245): it exited with status
    zero, it ended in another way, or waitpid failed. *)
Inductive ending := Clean | Failed | Lost.

Inductive action := Waited (i : nat) | Killed (i : nat).

(** fork.rs 276-285: kill and wait for each worker of [first], ..., [last - 1]. *)
Definition kill_and_reap (first last : nat) : list action :=
  flat_map (fun i => [Killed i; Waited i]) (seq first (last - first)).

(** fork.rs 248-273 join_all: what is done, and the worker of the first failure if there is
    one.  [endings] are those of workers [i], [i + 1], ...; [n] is the number of workers. *)
Fixpoint join_loop (n i : nat) (first : option nat) (endings : list ending)
    : list action * option nat :=
  match endings with
  | [] => ([], first)
  | e :: endings' =>
      let step :=
        match first, e with
        | None, Lost => (kill_and_reap i n, Some i)
        | None, Failed => (kill_and_reap (S i) n, Some i)
        | _, _ => ([], first)
        end in
      let r := join_loop n (S i) (snd step) endings' in
      (Waited i :: fst step ++ fst r, snd r)
  end.

Definition join_all (endings : list ending) : list action * option nat :=
  join_loop (length endings) 0 None endings.

(** driver.rs 140-149; [requested] is EU_PP_WORKERS or the number of cores less one. *)
Definition decide_workers (threshold requested n : nat) : nat :=
  if (n <? threshold) || (n <? 2) then 1 else Nat.max (Nat.min requested n) 1.

(** driver.rs 350-353; [per_elem] is PER_ELEM_CAP (line 69, 4096) and [arena_max] is
    ARENA_MAX (line 73, 256 MiB), which are too large to write as unary numbers. *)
Definition arena_size (per_elem arena_max n w : nat) : nat :=
  Nat.min (Nat.max (n * per_elem) (Nat.min (w * (16 + 64)) arena_max)) arena_max.

(** What par_map is told: EU_PP_STRICT; whether the process may fork; EU_PP_THRESHOLD;
    EU_PP_WORKERS; the two constants of the arena. *)
Record settings := {
  strict : bool;
  fork_safe : bool;
  threshold : nat;
  requested : nat;
  per_elem : nat;
  arena_max : nat
}.

(** The workers of a call with [n] elements, and the size of each one's segment. *)
Definition workers (s : settings) (n : nat) : nat := decide_workers (threshold s) (requested s) n.
Definition segment (s : settings) (n : nat) : nat :=
  segment_size (arena_size (per_elem s) (arena_max s) n (workers s n)) (workers s n).

(** try_parallel (driver.rs 336-440) once the workers are done: [joined] is whether the
    arena was mapped and run_workers (fork.rs 202-227) succeeded.
    [Ok None] is [Ok(false)], the request for the sequential path. *)
Definition try_parallel (s : settings) (joined : bool) (m : memory) (n : nat)
    : result (option value) :=
  let fault := if strict s then Err ParallelFault else Ok None in
  if joined then
    match collect m (segment s n) n (workers s n) (seq 0 (workers s n)) with
    | Some xs => Ok (Some (build_list xs))
    | None => fault
    end
  else fault.

(** par_map (driver.rs 162-204) for the computations [vs], which are [f x] for the elements
    [x] of the list in order. *)
Definition par_map (s : settings) (joined : bool) (m : memory) (vs : list value) : result value :=
  if (workers s (length vs) <? 2) || negb (fork_safe s) then sequential_map vs
  else
    r <- try_parallel s joined m (length vs) ;;
    match r with
    | Some v => Ok v
    | None => sequential_map vs
    end.

End Codec.
