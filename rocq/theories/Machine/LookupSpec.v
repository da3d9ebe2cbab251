(** What the fast path of a lookup is to find: the entry lists of blocks as the heap holds them. *)
From Coq Require Import List Bool Arith NArith.
From Verif.Bytecode Require Import Model.
From Verif.Machine Require Import Model.
Import ListNotations.
Open Scope nat_scope.

Section LookupSpec.
Context {native : Type}.
Notation mval := (mval (native := native)).
Notation heap := (heap (native := native)).
Variable is_symbol : native -> bool.
Variable symbols_equal : native -> native -> bool.

(** The symbol a value is, through variables and boxes. *)
Inductive symbol_of (h : heap) : mval -> native -> Prop :=
| so_native n : is_symbol n = true -> symbol_of h (MNat n) n
| so_variable r a u e v n : resolve_ref h e r = Some v -> symbol_of h v n -> symbol_of h (MClo (SAtom r) a u e) n
| so_boxed r rs a u e v n : resolve_ref h e r = Some v -> symbol_of h v n -> symbol_of h (MClo (SCons tag_boxed_symbol (r :: rs)) a u e) n.
(** An evaluated entry: a pair with a symbol for key. *)
Definition entry_key (h : heap) (entry : mval) (k : native) : Prop :=
  exists r rs a u e v, entry = MClo (SCons tag_block_pair (r :: rs)) a u e /\ resolve_ref h e r = Some v /\ symbol_of h v k.
Definition has_key (h : heap) (key : native) (entry : mval) : Prop :=
  exists k, entry_key h entry k /\ symbols_equal key k = true.
Definition entry_value (h : heap) (entry x : mval) : Prop :=
  exists tag r0 r rs a u e, entry = MClo (SCons tag (r0 :: r :: rs)) a u e /\ resolve_ref h e r = Some x.

(** [list_finds h key v x]: along the list cells that start at [v], the first entry known to have the key
    holds [x]. *)
Inductive list_finds (h : heap) (key : native) : mval -> mval -> Prop :=
| finds_here hd args a u e entry x : resolve_ref h e hd = Some entry -> has_key h key entry -> entry_value h entry x ->
    list_finds h key (MClo (SCons tag_list_cons (hd :: args)) a u e) x
| finds_later hd tl args a u e entry v x : resolve_ref h e hd = Some entry -> ~ has_key h key entry ->
    resolve_ref h e tl = Some v -> list_finds h key v x ->
    list_finds h key (MClo (SCons tag_list_cons (hd :: tl :: args)) a u e) x.
Definition block_finds (h : heap) (key : native) (block x : mval) : Prop :=
  exists r rs a u e v, block = MClo (SCons tag_block (r :: rs)) a u e /\ resolve_ref h e r = Some v /\ list_finds h key v x.
Definition is_block_value (v : mval) : Prop := exists args a u e, v = MClo (SCons tag_block args) a u e.
End LookupSpec.
