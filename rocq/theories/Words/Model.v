(** Fixed-width word arithmetic: PRNG, closure info words, blob freshness key,
    large-object sizing. *)
From Coq Require Import List NArith ZArith Bool.
Import ListNotations.
Open Scope N_scope.

Definition W64 : N := 18446744073709551616.

(** ** src/eval/stg/prng.rs *)

(** [GOLDEN], src/eval/stg/prng.rs:6. *)
Definition GOLDEN : N := 0x9e3779b97f4a7c15.

Definition wrapping_add (a b : N) : N := (a + b) mod W64.
Definition wrapping_mul (a b : N) : N := (a * b) mod W64.

(** The mixing of [splitmix64], src/eval/stg/prng.rs:13-16. *)
Definition mix (state : N) : N :=
  let z := state in
  let z := wrapping_mul (N.lxor z (N.shiftr z 30)) 0xbf58476d1ce4e5b9 in
  let z := wrapping_mul (N.lxor z (N.shiftr z 27)) 0x94d049bb133111eb in
  N.lxor z (N.shiftr z 31).

(** [splitmix64], src/eval/stg/prng.rs:11-18: next state and output. *)
Definition splitmix64 (seed : N) : N * N :=
  let state := wrapping_add seed GOLDEN in (state, mix state).

(** ** src/eval/stg/stream_prng.rs *)

(** [STREAM_INT], lines 238-256: [n] is the numeric argument as an integer in
    the range of [serde_json::Number] ([None] for a float); [as_u64] gives
    [None] on negatives; the result goes through [as i64]. *)
Definition as_u64 (n : option Z) : option N :=
  match n with
  | Some z => if (z <? 0)%Z then None else Some (Z.to_N z)
  | None => None
  end.
Definition as_i64 (x : N) : Z :=
  if x <? 9223372036854775808 then Z.of_N x else (Z.of_N x - Z.of_N W64)%Z.
Definition stream_int (n : option Z) (state : N) : Z * N :=
  let m := N.max (match as_u64 n with Some v => v | None => 1 end) 1 in
  let '(next, z) := splitmix64 state in
  (as_i64 (z mod m), next).

(** [STREAM_SPLIT], lines 266-285. *)
Definition stream_split (state : N) : N * N :=
  let '(next, z) := splitmix64 state in (next, z).

(** [STREAM_ADVANCE], lines 176-196. *)
Definition stream_advance (state : N) : N := fst (splitmix64 state).

(** The 53-bit numerator of [STREAM_VALUE]/[STREAM_FLOAT]'s float
    (lines 159 and 222): the float itself is numerator / 2^53, exactly. *)
Definition stream_numerator (state : N) : N := N.shiftr (snd (splitmix64 state)) 11.

(** ** src/eval/memory/infotable.rs *)

(** [InfoFlags::new], src/eval/memory/infotable.rs:16-23. *)
Definition info_new (update : bool) (arity annotation : N) : N :=
  let value := N.lor (N.shiftl annotation 32) (N.shiftl arity 24) in
  if update then value + 1 else value.
(** [update], [arity], [annotation], src/eval/memory/infotable.rs:26-37. *)
Definition info_update (w : N) : bool := N.land w 1 =? 1.
Definition info_arity (w : N) : N := N.shiftr (N.land w 0xff000000) 24 mod 256.
Definition info_annotation (w : N) : N := N.shiftr w 32 mod 4294967296.

(** ** src/eval/stg/wire_format.rs *)

(** [to_le_bytes] of an [n]-byte word. *)
Fixpoint le_bytes (n : nat) (x : N) : list N :=
  match n with
  | O => []
  | S n => x mod 256 :: le_bytes n (x / 256)
  end.

(** [absorb], src/eval/stg/wire_format.rs:135-140: the bytes fed to the hasher. *)
Definition absorb (tag bytes : list N) : list N :=
  le_bytes 8 (N.of_nat (length tag)) ++ tag ++ le_bytes 8 (N.of_nat (length bytes)) ++ bytes.

(** The ASCII labels of [blob_source_hash]. *)
Definition tag_version : list N :=
  [119;105;114;101;45;102;111;114;109;97;116;45;118;101;114;115;105;111;110].
Definition tag_prelude : list N :=
  [112;114;101;108;117;100;101;45;115;111;117;114;99;101].
Definition tag_table : list N :=
  [105;110;116;114;105;110;115;105;99;45;116;97;98;108;101].

(** [blob_source_hash], src/eval/stg/wire_format.rs:152-162, up to the final
    SHA-256: the byte stream hashed.  The version is a u32 constant in the
    code; here it is a parameter, to compare across versions. *)
Definition blob_stream (version : N) (prelude table : list N) : list N :=
  absorb tag_version (le_bytes 4 version) ++ absorb tag_prelude prelude ++ absorb tag_table table.

(** [BlobFreshness] and [classify_blob], src/eval/stg/wire_format.rs:164-223. *)
Inductive freshness := Fresh | Missing | Unparseable | Stale.
Definition read_blob_source_hash (blob : list N) : option (list N) :=
  if (length blob <? 32)%nat then None else Some (firstn 32 blob).
Fixpoint bytes_eqb (a b : list N) : bool :=
  match a, b with
  | [], [] => true
  | x :: a, y :: b => (x =? y) && bytes_eqb a b
  | _, _ => false
  end.
Definition classify_blob (blob : option (list N)) (expected : list N) : freshness :=
  match blob with
  | None => Missing
  | Some bytes =>
      match read_blob_source_hash bytes with
      | None => Unparseable
      | Some found => if bytes_eqb found expected then Fresh else Stale
      end
  end.

(** ** src/eval/memory/lob.rs *)
Definition KB : N := 1024.
Definition MB : N := 1024 * KB.
(** [usize::div_ceil]. *)
Definition div_ceil (a b : N) : N := if a mod b =? 0 then a / b else a / b + 1.
(** [efficient_size_for], src/eval/memory/lob.rs:65-79 (no wrap-around: the
    theorems bound the request). *)
Definition efficient_size_for (req : N) : N :=
  if req <=? 128 * KB then div_ceil req (16 * KB) * (16 * KB)
  else if req <=? MB then div_ceil req (64 * KB) * (64 * KB)
  else div_ceil req (256 * KB) * (256 * KB).

(** [can_fit], src/eval/memory/lob.rs:92-94, for a block made by [new]. *)
Definition lob_can_fit (made_for req : N) : bool := req <=? efficient_size_for made_for.
