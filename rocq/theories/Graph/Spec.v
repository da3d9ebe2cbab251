(** Graph notions: what the intrinsics should compute. *)
From Coq Require Import List Arith ZArith Relations.
From Verif.Graph Require Import Model.
Import ListNotations.

(** Consecutive numbers of the flat list, paired: the [k]-th edge. *)
Definition edge_at (flat : list nat) (k : nat) : option (nat * nat) :=
  match nth_error flat (2 * k), nth_error flat (2 * k + 1) with
  | Some i, Some j => Some (i, j)
  | _, _ => None
  end.

(** Edge [k] joins two nodes of the graph. *)
Definition edge_is (flat : list nat) (n k i j : nat) : Prop :=
  edge_at flat k = Some (i, j) /\ i < n /\ j < n.

(** [i -> j] by an edge whose index is in the set [K]. *)
Definition arc (flat : list nat) (n : nat) (K : nat -> Prop) (i j : nat) : Prop :=
  exists k, K k /\ edge_is flat n k i j.

Definition all_edges : nat -> Prop := fun _ => True.

(** Undirected connection using the edges of [K] only. *)
Definition connected (flat : list nat) (n : nat) (K : nat -> Prop) : nat -> nat -> Prop :=
  clos_refl_sym_trans nat (arc flat n K).

(** The number of connected components: the size of a system of
    representatives. *)
Definition components (flat : list nat) (n : nat) (K : nat -> Prop) (c : nat) : Prop :=
  exists reps, NoDup reps /\ length reps = c /\ (forall r, In r reps -> r < n) /\
    (forall r s, In r reps -> In s reps -> connected flat n K r s -> r = s) /\
    (forall x, x < n -> exists r, In r reps /\ connected flat n K x r).

(** A set of edges without cycles: no edge joins nodes the others connect. *)
Definition forest (flat : list nat) (n : nat) (T : list nat) : Prop :=
  NoDup T /\
  forall k, In k T -> exists i j, edge_is flat n k i j /\
    ~ connected flat n (fun k' => In k' T /\ k' <> k) i j.

(** Same connections as the whole graph. *)
Definition spanning (flat : list nat) (n : nat) (T : list nat) : Prop :=
  forall x y, connected flat n (fun k => In k T) x y <-> connected flat n all_edges x y.

Definition total (w : nat -> Z) (T : list nat) : Z := fold_right (fun k s => (w k + s)%Z) 0%Z T.

(** Directed reachability and cycles. *)
Definition path (flat : list nat) (n : nat) : nat -> nat -> Prop := clos_trans nat (arc flat n all_edges).
Definition acyclic (flat : list nat) (n : nat) : Prop := forall x, ~ path flat n x x.

(** [x] occurs before [y] in [l]. *)
Definition before (l : list nat) (x y : nat) : Prop := exists a b c, l = a ++ x :: b ++ y :: c.
