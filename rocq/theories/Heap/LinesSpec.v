(** What a hole is, and which bytes a region touches, without reference to the
    scanning code. *)
From Coq Require Import NArith List Bool.
From Verif.Heap Require Import Lines.
Import ListNotations.
Local Open Scope N_scope.

(** Lines [lo .. hi] are all unmarked and lie under line [below]; [hi] itself is held
    back for an object starting in the line above.  The run is bounded below by a
    marked line or the block's start, and nothing above it under [below] has two
    adjacent unmarked lines. *)
Definition is_hole (m : linemap) (below lo hi : N) : Prop :=
  lo < hi /\ hi < below /\
  (forall l, lo <= l <= hi -> m l = false) /\
  (lo = 0 \/ m (lo - 1) = true) /\
  (forall l, hi <= l -> l + 1 < below -> m l = true \/ m (l + 1) = true).

(** No two adjacent unmarked lines under [below]. *)
Definition no_hole (m : linemap) (below : N) : Prop :=
  forall l, l + 1 < below -> m l = true \/ m (l + 1) = true.

(** The lines a byte region touches. *)
Definition touches (lo hi line : N) : Prop := exists byte, lo <= byte < hi /\ byte / LINE = line.

Definition disjoint (r s : N * N) : Prop := snd r <= fst s \/ snd s <= fst r.

(** Number of lines below [n] satisfying [p]. *)
Fixpoint count_below (p : N -> bool) (n : nat) : N :=
  match n with O => 0 | S n' => count_below p n' + (if p (N.of_nat n') then 1 else 0) end.

(** A run of unmarked lines [lo .. hi]. *)
Definition free_run (m : linemap) (lo hi : N) : Prop := lo < hi /\ forall l, lo <= l <= hi -> m l = false.

(** Successive requests on one block: the offsets handed out, with their sizes. *)
Fixpoint bump_all (b : bblock) (sizes : list N) : list (N * N) :=
  match sizes with
  | [] => []
  | s :: ss => let '(b', r, _) := bump b s in
               match r with
               | Some o => (o, o + s) :: bump_all b' ss
               | None => bump_all b' ss
               end
  end.
