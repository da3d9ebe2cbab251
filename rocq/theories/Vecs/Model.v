(** Vecs: src/eval/memory/vec.rs and the intrinsics of src/eval/stg/vec.rs. *)
From Coq Require Import List Arith NArith ZArith QArith Bool.
Import ListNotations.
Open Scope nat_scope.

Section Vecs.
  Context {P : Type}.   (* [Primitive], src/eval/memory/set.rs:20-24 *)

  (** [serde_json::Number]: a non-negative integer below 2^64, a negative integer
      not below -2^63, or a (finite) float, here the rational it denotes. *)
  Inductive number := PosInt (n : N) | NegInt (z : Z) | Float (q : Q).

  (** [f64 as usize]: truncation, saturating at both ends. *)
  Definition f64_as_usize (q : Q) : N :=
    N.min (Z.to_N (Qnum q / Zpos (Qden q))) (2 ^ 64 - 1).

  (** The index conversion of [VEC.NTH] and [VEC.SLICE],
      src/eval/stg/vec.rs:116-121, 180-185: [as_u64], else [as_f64 as usize].
      (A negative integer becomes a negative float.) *)
  Definition index_of (n : number) : N :=
    match n with
    | PosInt n => n
    | NegInt z => f64_as_usize (inject_Z z)
    | Float q => f64_as_usize q
    end.

  (** [HeapVec::get], src/eval/memory/vec.rs:46-48. *)
  Definition vec_get (v : list P) (i : nat) : option P := nth_error v i.

  (** [HeapVec::slice], src/eval/memory/vec.rs:53-59. *)
  Definition vec_slice (v : list P) (from to : nat) : list P :=
    let from := Nat.min from (length v) in
    let to := Nat.max (Nat.min to (length v)) from in
    firstn (to - from) (skipn from v).

  (** [VEC.NTH], src/eval/stg/vec.rs:109-157; [None] is the out-of-bounds error. *)
  Definition intr_nth (n : number) (v : list P) : option P :=
    vec_get v (N.to_nat (index_of n)).
  (** [VEC.SLICE], src/eval/stg/vec.rs:166-209. *)
  Definition intr_slice (from to : number) (v : list P) : list P :=
    vec_slice v (N.to_nat (index_of from)) (N.to_nat (index_of to)).

  (** [slice::swap]; [None] is the panic on an index out of range. *)
  Fixpoint list_set {A} (l : list A) (i : nat) (x : A) : list A :=
    match l, i with
    | [], _ => []
    | _ :: l', 0 => x :: l'
    | y :: l', S i' => y :: list_set l' i' x
    end.
  Definition list_swap {A} (l : list A) (i j : nat) : option (list A) :=
    match nth_error l i, nth_error l j with
    | Some x, Some y => Some (list_set (list_set l i y) j x)
    | _, _ => None
    end.

  (** Random floats are abstract; [pick f n] is [(f * n as f64) as usize], an
      arbitrary function of them. *)
  Context {F : Type} (pick : F -> nat -> nat).

  (** The partial Fisher-Yates loop of [VEC.SAMPLE], src/eval/stg/vec.rs:258-262. *)
  Fixpoint sample_loop (len i : nat) (fs : list F) (indices : list nat) : option (list nat) :=
    match fs with
    | [] => Some indices
    | f :: fs' =>
        let remaining := len - i in
        if remaining =? 0 then None            (* remainder by zero panics *)
        else
          let j := i + (pick f remaining) mod remaining in
          match list_swap indices i j with
          | None => None
          | Some ix => sample_loop len (S i) fs' ix
          end
    end.
  (** [VEC.SAMPLE], src/eval/stg/vec.rs:244-270; [None] is a panic. *)
  Definition intr_sample (floats : list F) (v : list P) : option (list P) :=
    let len := length v in
    let count := Nat.min (length floats) len in
    match sample_loop len 0 (firstn count floats) (seq 0 len) with
    | None => None
    | Some ix =>
        Some (flat_map (fun k => match vec_get v k with Some x => [x] | None => [] end)
                       (firstn count ix))
    end.

  (** The loop of [VEC.SHUFFLE], src/eval/stg/vec.rs:309-317; [None] is the
      overflow panic of [len - 1 - step] (with overflow checks off the index
      wraps and the swap or the remainder panics). *)
  Fixpoint shuffle_loop (len step : nat) (fs : list F) (elements : list P) : option (list P) :=
    match fs with
    | [] => Some elements
    | f :: fs' =>
        if len <? 1 + step then None
        else
          let i := len - 1 - step in
          if i =? 0 then Some elements
          else
            let j := (pick f (i + 1)) mod (i + 1) in
            match list_swap elements i j with
            | None => None
            | Some es => shuffle_loop len (S step) fs' es
            end
    end.
  (** [VEC.SHUFFLE], src/eval/stg/vec.rs:298-323. *)
  Definition intr_shuffle (floats : list F) (v : list P) : option (list P) :=
    shuffle_loop (length v) 0 floats v.
End Vecs.
