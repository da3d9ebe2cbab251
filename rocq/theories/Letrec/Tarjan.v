(** Strongly connected components: src/core/dependency.rs:175-235. *)
From Coq Require Import List Bool Arith.
From Verif.Simplify Require Import Compress.
Import ListNotations.

(** [TarjanState], lines 177-184.  The vectors are functions here; indexing them out of
    bounds is dealt with where it happens. *)
Record tstate := mkT {
  counter : nat;
  stack : list nat;
  on_stack : nat -> bool;
  index : nat -> option nat;
  lowlink : nat -> nat;
  sccs : list (list nat) }.
Definition upd {A} (f : nat -> A) (v : nat) (a : A) (x : nat) : A := if x =? v then a else f x.

(** Lines 208-212. *)
Definition visit (v : nat) (st : tstate) : tstate :=
  mkT (S (counter st)) (v :: stack st) (upd (on_stack st) v true) (upd (index st) v (Some (counter st)))
      (upd (lowlink st) v (counter st)) (sccs st).
(** [state.lowlink[v] = state.lowlink[v].min(i)], lines 217 and 219. *)
Definition lower (v i : nat) (st : tstate) : tstate :=
  mkT (counter st) (stack st) (on_stack st) (index st) (upd (lowlink st) v (Nat.min (lowlink st v) i)) (sccs st).
(** The loop of lines 224-232: popping up to [v]; [None] if the stack runs out. *)
Fixpoint pop_to (v : nat) (s : list nat) : option (list nat * list nat) :=
  match s with
  | [] => None
  | w :: s => if w =? v then Some ([w], s) else option_map (fun cr => (w :: fst cr, snd cr)) (pop_to v s)
  end.
(** Lines 223-234. *)
Definition emit (v : nat) (st : tstate) : outcome tstate :=
  match index st v with
  | None => Panic
  | Some i =>
      if lowlink st v =? i then
        match pop_to v (stack st) with
        | None => Panic
        | Some (scc, rest) =>
            Done (mkT (counter st) rest (fun x => on_stack st x && negb (existsb (Nat.eqb x) scc)) (index st) (lowlink st) (sccs st ++ [scc]))
        end
      else Done st
  end.

(** [strongconnect], lines 207-235, to the given depth of recursion ([Error] beyond it,
    which C09_total shows not to happen). *)
Fixpoint strongconnect (fuel : nat) (deps : list (list nat)) (v : nat) (st : tstate) : outcome tstate :=
  match fuel with
  | 0 => Error
  | S fuel =>
      match nth_error deps v with
      | None => Panic
      | Some ws =>
          obind ((fix go (ws : list nat) (st : tstate) : outcome tstate :=
                    match ws with
                    | [] => Done st
                    | w :: ws =>
                        if w <? List.length deps then
                          match index st w with
                          | None => obind (strongconnect fuel deps w st) (fun st => go ws (lower v (lowlink st w) st))
                          | Some i => go ws (if on_stack st w then lower v i st else st)
                          end
                        else Panic
                    end) ws (visit v st)) (emit v)
      end
  end.

(** [tarjan_scc], lines 186-205. *)
Definition start : tstate := mkT 0 [] (fun _ => false) (fun _ => None) (fun _ => 0) [].
Fixpoint connect_all (deps : list (list nat)) (vs : list nat) (st : tstate) : outcome tstate :=
  match vs with
  | [] => Done st
  | v :: vs =>
      match index st v with
      | None => obind (strongconnect (S (List.length deps)) deps v st) (connect_all deps vs)
      | Some _ => connect_all deps vs st
      end
  end.
Definition tarjan_scc (deps : list (list nat)) : outcome (list (list nat)) :=
  obind (connect_all deps (seq 0 (List.length deps)) start) (fun st => Done (sccs st)).
