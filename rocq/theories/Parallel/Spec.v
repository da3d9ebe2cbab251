(** * What it means for values to cross between processes unchanged

    Nothing here mentions bytes, tags or the encoder: a value has a meaning, and a value
    that crosses unchanged has the same meaning on both sides. *)

From Coq Require Import String List NArith ZArith Bool Arith.
From Verif Require Import Parallel.Model.
Import ListNotations.
Open Scope nat_scope.

(** ** The data a value stands for *)

Inductive data :=
| DNull
| DBool (b : bool)
| DScalar (n : native)                     (* a number, a string, a symbol, a date *)
| DType (s : list byte)
| DList (ds : list data)
| DBlock (kvs : list (native * data))      (* keys and values, in order *)
| DWith (meta body : data).                (* data that has metadata *)

(** [gives v w]: forcing [v] ends with [w]; metadata is looked through. *)
Inductive gives : value -> value -> Prop :=
| gives_unit : gives Unit Unit
| gives_true : gives BoolTrue BoolTrue
| gives_false : gives BoolFalse BoolFalse
| gives_native : forall n, gives (Native n) (Native n)
| gives_function : gives Function Function
| gives_boxed : forall b p, gives (Boxed b p) (Boxed b p)
| gives_type : forall p, gives (TypeData p) (TypeData p)
| gives_nil : gives ListNil ListNil
| gives_cons : forall h t, gives (ListCons h t) (ListCons h t)
| gives_block : forall kvs, gives (Block kvs) (Block kvs)
| gives_pair : forall k v, gives (BlockPair k v) (BlockPair k v)
| gives_kvlist : forall l, gives (BlockKvList l) (BlockKvList l)
| gives_io : gives IoConstructor IoConstructor
| gives_clause : gives Clause Clause
| gives_unknown : gives UnknownData UnknownData
| gives_meta : forall m b w, gives b w -> gives (Annotated m b) w
| gives_ran : forall v w, gives v w -> gives (Ran v) w
| gives_ran_over : forall m v w, gives v w -> gives (RanOver m v) w.

(** A key of a block: a symbol or a string. *)
Definition key (n : native) : Prop :=
  match n with Sym _ | Str _ => True | _ => False end.

(** [means v d]: the value [v] stands for the data [d].  Metadata belongs to the data, whatever
    the value did before it came out; metadata on the rest of a list, on an entry of a
    block or on what a box holds does not.  An entry of a block is a pair or, when the
    block was made from a list, a list of the key and the value
    (/repo/src/eval/stg/block.rs 94-124, 280-312, 324-359). *)
Inductive means : value -> data -> Prop :=
| means_null : means Unit DNull
| means_true : means BoolTrue (DBool true)
| means_false : means BoolFalse (DBool false)
| means_native : forall n, n <> Opaque -> means (Native n) (DScalar n)
| means_boxed : forall b p n, gives p (Native n) -> n <> Opaque -> means (Boxed b p) (DScalar n)
| means_type : forall p s, gives p (Native (Str s)) -> means (TypeData p) (DType s)
| means_nil : means ListNil (DList [])
| means_cons : forall h t d ds, means h d -> elements t ds -> means (ListCons h t) (DList (d :: ds))
| means_block : forall kvs es, entries kvs es -> means (Block kvs) (DBlock es)
| means_meta : forall m b dm db, means m dm -> means b db -> means (Annotated m b) (DWith dm db)
| means_ran : forall v d, means v d -> means (Ran v) d
| means_ran_over : forall m v d, means v d -> means (RanOver m v) d
with elements : value -> list data -> Prop :=
| elements_nil : forall v, gives v ListNil -> elements v []
| elements_cons : forall v h t d ds,
    gives v (ListCons h t) -> means h d -> elements t ds -> elements v (d :: ds)
with entries : value -> list (native * data) -> Prop :=
| entries_nil : forall v, gives v ListNil -> entries v []
| entries_pair : forall v kv t k x d es,
    gives v (ListCons kv t) -> gives kv (BlockPair (Native k) x) -> key k -> means x d ->
    entries t es -> entries v ((k, d) :: es)
| entries_list : forall v kv t l hk k r x rest d es,
    gives v (ListCons kv t) -> gives kv (BlockKvList l) ->
    gives l (ListCons hk r) -> (gives hk (Native (Sym k)) \/ exists p, gives hk (Boxed BoxSymbol p) /\ gives p (Native (Sym k))) ->
    gives r (ListCons x rest) -> means x d ->
    entries t es -> entries v ((Sym k, d) :: es).

(** The data without any metadata. *)
Fixpoint bare (d : data) : data :=
  match d with
  | DList ds => DList (map bare ds)
  | DBlock es => DBlock (map (fun e => (fst e, bare (snd e))) es)
  | DWith _ b => bare b
  | _ => d
  end.

(** ** Values for which nothing is lost *)

(** A value that is already there: forcing it does nothing. *)
Definition ready (v : value) : Prop := gives v v.

(** [sends v d]: [v] stands for [d], and in such a way that all of it crosses.  As [means],
    except that metadata is in one layer, on a value that is ready; that a value that is
    not ready forced no other value with metadata last; and that every entry of a block is
    a pair. *)
Inductive sends : value -> data -> Prop :=
| sends_null : sends Unit DNull
| sends_true : sends BoolTrue (DBool true)
| sends_false : sends BoolFalse (DBool false)
| sends_native : forall n, n <> Opaque -> sends (Native n) (DScalar n)
| sends_boxed : forall b p n, gives p (Native n) -> n <> Opaque -> sends (Boxed b p) (DScalar n)
| sends_type : forall p s, gives p (Native (Str s)) -> sends (TypeData p) (DType s)
| sends_nil : sends ListNil (DList [])
| sends_cons : forall h t d ds,
    sends h d -> sends_elements t ds -> sends (ListCons h t) (DList (d :: ds))
| sends_block : forall kvs es, sends_entries kvs es -> sends (Block kvs) (DBlock es)
| sends_meta : forall m b dm db,
    sends m dm -> ready b -> sends b db -> sends (Annotated m b) (DWith dm db)
| sends_ran : forall v d, sends v d -> sends (Ran v) d
with sends_elements : value -> list data -> Prop :=
| sends_elements_nil : forall v, gives v ListNil -> sends_elements v []
| sends_elements_cons : forall v h t d ds,
    gives v (ListCons h t) -> sends h d -> sends_elements t ds -> sends_elements v (d :: ds)
with sends_entries : value -> list (native * data) -> Prop :=
| sends_entries_nil : forall v, gives v ListNil -> sends_entries v []
| sends_entries_pair : forall v kv t k x d es,
    gives v (ListCons kv t) -> gives kv (BlockPair (Native k) x) -> key k -> sends x d ->
    sends_entries t es -> sends_entries v ((k, d) :: es).

(** ** Sizes *)

Section Sizes.

Variable utf8 : list byte -> bool.
Variable to_rfc3339 : N -> list byte.
Variable from_rfc3339 : list byte -> option N.

(** The 64 bits of a float that is neither infinite nor NaN: its exponent is not all ones. *)
Definition is_number (bits : N) : Prop := ((bits / 2 ^ 52) mod 2 ^ 11 <> 2 ^ 11 - 1)%N.

Definition short (s : list byte) : Prop := (N.of_nat (length s) < 2 ^ 32)%N.

(** A native that Rust can hold (a u64, a negative i64, a finite f64, valid UTF-8), whose text
    is less than 4 GiB, and, for a date, one that its RFC 3339 text gives back. *)
Definition storable (n : native) : Prop :=
  match n with
  | Num (PosInt u) => (u < 2 ^ 64)%N
  | Num (NegInt i) => (- 2 ^ 63 <= i < 0)%Z
  | Num (Float bits) => (bits < 2 ^ 64)%N /\ is_number bits
  | Str s | Sym s => short s /\ utf8 s = true
  | Zdt d => short (to_rfc3339 d) /\ utf8 (to_rfc3339 d) = true /\
             from_rfc3339 (to_rfc3339 d) = Some d
  | Opaque => True
  end.

(** Every native anywhere in a value, and the number of its parts. *)
Fixpoint natives (v : value) : list native :=
  match v with
  | Native n => [n]
  | Annotated a b | RanOver a b | ListCons a b | BlockPair a b => natives a ++ natives b
  | Ran a | Boxed _ a | TypeData a | Block a | BlockKvList a => natives a
  | _ => []
  end.

Definition fits (v : value) : Prop :=
  Forall storable (natives v) /\ (N.of_nat (size v) < 2 ^ 32)%N.

End Sizes.

(** ** What may not cross *)

(** [inside v w]: [w] is what [v] gives, or an element or the value of an entry somewhere in it. *)
Inductive inside : value -> value -> Prop :=
| inside_here : forall v w, gives v w -> inside v w
| inside_list : forall v l w, gives v l -> member l w -> inside v w
| inside_block : forall v kvs l w, gives v (Block kvs) -> gives kvs l -> entry l w -> inside v w
with member : value -> value -> Prop :=
| member_head : forall h t w, inside h w -> member (ListCons h t) w
| member_tail : forall h t l w, gives t l -> member l w -> member (ListCons h t) w
with entry : value -> value -> Prop :=
| entry_head : forall kv t k x w, gives kv (BlockPair k x) -> inside x w -> entry (ListCons kv t) w
| entry_tail : forall kv t l w, gives t l -> entry l w -> entry (ListCons kv t) w.

(** Functions, IO actions, conditional clauses, sets, vectors and the like. *)
Definition unsendable (v : value) : Prop :=
  match v with
  | Function | IoConstructor | Clause | UnknownData | Native Opaque => True
  | Boxed _ (Native Opaque) => True
  | _ => False
  end.

(** ** Runs of the workers *)

(** [shuffle ts ws]: [ws] are the writes of the sequences [ts], each in its own order, in
    some order between them. *)
Inductive shuffle : list (list write) -> list write -> Prop :=
| shuffle_done : forall ts, Forall (fun t => t = []) ts -> shuffle ts []
| shuffle_step : forall before x t after ws,
    shuffle (before ++ t :: after) ws -> shuffle (before ++ (x :: t) :: after) (x :: ws).

Definition after_writes (ws : list write) (m : memory) : memory := fold_left store ws m.

(** [ran ws m joined]: what the parent may find when it has waited for workers that make the
    writes [map fst ws] and end without an error if [map snd ws] says so.  Either every one
    ended without an error, and the memory is what their writes made of it in some order; or
    one did not (it failed, was killed or could not be started, at any time), and the
    memory holds anything. *)
Inductive ran : list (list write * bool) -> memory -> bool -> Prop :=
| ran_clean : forall ws all,
    Forall (fun w => snd w = true) ws -> shuffle (map fst ws) all ->
    ran ws (after_writes all fresh) true
| ran_fault : forall ws m, ran ws m false.

(** [as_seen vs seen]: a worker sees each computation as the parent would, or else an error
    (a stream that only the parent may read, memory that ran out, ...). *)
Definition as_seen (vs seen : list value) : Prop :=
  Forall2 (fun v s => s = v \/ exists k, s = Raises k) vs seen.
