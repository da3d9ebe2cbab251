(** What the intrinsics' code is to compute, in terms of the by-name meaning of programs. *)
From Coq Require Import List Bool Arith NArith.
From Verif.Bytecode Require Import Model.
From Verif.Machine Require Import Model Spec.
From Verif.Stg Require Import Model.
Import ListNotations.

Section Meaning.
Context {native : Type}.
Notation value := (value (native := native)).
Variable prim : N -> list native -> prim_result (native := native).
Variable merge : N.
Variable globals : list (form native).
Notation evals := (evals prim merge globals).
Notation strips := (strips prim merge globals).
Notation variables := (variables globals).

(** Two expressions mean the same: either has a value exactly when the other has, and then it is the
    same value. In particular neither has one if the other fails or does not end. *)
Definition same (p q : value) : Prop := forall v, evals p v <-> evals q v.

(** The call of a global, in whatever surroundings, on the given arguments, has the meaning of [q]. *)
Definition call_is (i : N) (args : list value) (q : value) : Prop :=
  forall e refs, variables e refs = Some args -> same (VClo (call i refs) 0 e) q.
(** The call has no value. *)
Definition call_fails (i : N) (args : list value) : Prop :=
  forall e refs v, variables e refs = Some args -> ~ evals (VClo (call i refs) 0 e) v.

(** An expression evaluates to data with these fields, which are not evaluated for it. Metadata on
    the way is ignored. *)
Definition builds (p : value) (tag : N) (fields : list value) : Prop :=
  exists args e, strips p (VClo (SCons tag args) 0 e) /\ variables e args = Some fields.
(** It evaluates to data of this kind. *)
Definition of_kind (p : value) (tag : N) : Prop := exists args e, strips p (VClo (SCons tag args) 0 e).
(** It evaluates to this native. *)
Definition is_native (p : value) (n : native) : Prop := strips p (VNat n).
(** It evaluates to this native in a box. *)
Definition boxes (tag : N) (p : value) (n : native) : Prop := exists q, builds p tag [q] /\ is_native q n.
Definition is_bool (p : value) (b : bool) : Prop := builds p (if b then true_tag else false_tag) [].

(** Constants. *)
Definition constant (tag : N) : value := VClo (SCons tag []) 0 [].
Definition truth (b : bool) : value := constant (if b then true_tag else false_tag).
Definition null : value := constant unit_tag.

(** A list that begins with [ps] and goes on with [rest]. Nothing is said of what [ps] evaluate to,
    nor of [rest], which may fail or never end. *)
Inductive begins : value -> list value -> value -> Prop :=
| be_here p : begins p [] p
| be_cons p h t ps rest : builds p cons_tag [h; t] -> begins t ps rest -> begins p (h :: ps) rest.
Definition is_list (p : value) (ps : list value) : Prop := exists e, begins p ps e /\ builds e nil_tag [].

(** The end of a list: the empty list, or (which compiled programs do not make) a list cell that is
    not a pair of a head and a tail. *)
Definition ends (p : value) : Prop :=
  of_kind p nil_tag \/ exists fs, builds p cons_tag fs /\ length fs <> 2%nat.

(** Entries of blocks: a pair of a symbol and a value; or a list whose first element is a boxed
    symbol and whose second is the value, marked as an entry. *)
Definition key_value_list (l : value) (k : native) (v : value) : Prop :=
  exists key t rest, builds l cons_tag [key; t] /\ boxes symbol_tag key k /\ builds t cons_tag [v; rest].
Definition entry (p : value) (k : native) (v : value) : Prop :=
  (exists key, builds p pair_tag [key; v] /\ is_native key k) \/
  (exists l, builds p kv_list_tag [l] /\ key_value_list l k v).
(** What a block may be made of: entries, and lists that become entries. *)
Definition item (p : value) (k : native) (v : value) : Prop := entry p k v \/ key_value_list p k v.
Definition items (ps : list value) (kvs : list (native * value)) : Prop :=
  Forall2 (fun p kv => item p (fst kv) (snd kv)) ps kvs.
Definition entries (ps : list value) (kvs : list (native * value)) : Prop :=
  Forall2 (fun p kv => entry p (fst kv) (snd kv)) ps kvs.
Definition is_block (p : value) (entries : value) : Prop := exists index, builds p block_tag [entries; index].
End Meaning.
