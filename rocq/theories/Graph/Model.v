(** Graph intrinsics: src/eval/stg/graph.rs.

    The arguments are the flat edge list and the node count after the code's
    [f64 as usize] conversions; the list collection and return plumbing are not
    modelled.  [None] is a panic (index out of bounds, subtraction underflow) or,
    for [find] and the work loop, too little fuel. *)
From Coq Require Import List Arith Bool.
Import ListNotations.

(** [edges.chunks(2)] with the [pair.len() == 2] test, lines 95-97, 159-161,
    247-248. *)
Fixpoint chunk_pairs (l : list nat) : list (nat * nat) :=
  match l with
  | i :: j :: l' => (i, j) :: chunk_pairs l'
  | _ => []
  end.

(** [v[i] = x]. *)
Fixpoint list_set {A} (l : list A) (i : nat) (x : A) : list A :=
  match l, i with
  | [], _ => []
  | _ :: l', 0 => x :: l'
  | y :: l', S i' => y :: list_set l' i' x
  end.
Definition store {A} (l : list A) (i : nat) (x : A) : option (list A) :=
  if i <? length l then Some (list_set l i x) else None.

Notation "'let*' p ':=' e 'in' k" := (match e with Some p => k | None => None end)
  (at level 200, p pattern, e at level 200, k at level 200).

(** [find] with path halving, lines 73-79 and 236-242. *)
Fixpoint find (fuel : nat) (parent : list nat) (x : nat) : option (list nat * nat) :=
  match fuel with
  | 0 => None
  | S fuel' =>
      let* p := nth_error parent x in
      if p =? x then Some (parent, x)
      else
        let* g := nth_error parent p in
        let* parent' := store parent x g in
        find fuel' parent' g
  end.

(** Linking two distinct roots by rank, lines 85-92 and 254-261. *)
Definition link (parent rank : list nat) (rx ry : nat) : option (list nat * list nat) :=
  let* kx := nth_error rank rx in
  let* ky := nth_error rank ry in
  match Nat.compare kx ky with
  | Lt => let* parent' := store parent rx ry in Some (parent', rank)
  | Gt => let* parent' := store parent ry rx in Some (parent', rank)
  | Eq => let* parent' := store parent ry rx in
          let* rank' := store rank rx (kx + 1) in
          Some (parent', rank')
  end.

(** [union], lines 81-94: also tells whether the roots differed. *)
Definition union (n : nat) (parent rank : list nat) (x y : nat) : option (list nat * list nat * bool) :=
  let* (parent, rx) := find (S n) parent x in
  let* (parent, ry) := find (S n) parent y in
  if rx =? ry then Some (parent, rank, false)
  else let* (parent, rank) := link parent rank rx ry in Some (parent, rank, true).

(** The edge loop, lines 97-106. *)
Fixpoint unions (n : nat) (parent rank : list nat) (es : list (nat * nat)) : option (list nat * list nat) :=
  match es with
  | [] => Some (parent, rank)
  | (i, j) :: es' =>
      if (i <? n) && (j <? n) then
        let* (parent, rank, _) := union n parent rank i j in unions n parent rank es'
      else unions n parent rank es'
  end.

(** The labels, line 109. *)
Fixpoint labels (n : nat) (parent : list nat) (xs : list nat) : option (list nat) :=
  match xs with
  | [] => Some []
  | x :: xs' =>
      let* (parent, l) := find (S n) parent x in
      let* ls := labels n parent xs' in Some (l :: ls)
  end.

(** [GRAPH_UNION_FIND], lines 58-111. *)
Definition graph_union_find (flat : list nat) (n : nat) : option (list nat) :=
  let* (parent, _) := unions n (seq 0 n) (repeat 0 n) (chunk_pairs flat) in
  labels n parent (seq 0 n).

(** The loop of [GRAPH_KRUSKAL_EDGES], lines 247-267: (edge index, remaining
    components) pairs, which the code pushes one after the other. *)
Fixpoint kruskal (n idx components : nat) (parent rank : list nat) (es : list (nat * nat))
  : option (list (nat * nat)) :=
  match es with
  | [] => Some []
  | (i, j) :: es' =>
      if (i <? n) && (j <? n) then
        let* (parent, rank, joined) := union n parent rank i j in
        if (joined : bool) then
          match components with
          | 0 => None
          | S c => let* r := kruskal n (S idx) c parent rank es' in Some ((idx, c) :: r)
          end
        else kruskal n (S idx) components parent rank es'
      else kruskal n (S idx) components parent rank es'
  end.
Definition graph_kruskal_edges (flat : list nat) (n : nat) : option (list (nat * nat)) :=
  kruskal n 0 n (seq 0 n) (repeat 0 n) (chunk_pairs flat).

(** ** [GRAPH_TOPO_SORT], lines 140-193 *)

(** Adjacency lists and in-degrees, lines 156-169. *)
Fixpoint build (n : nat) (adj : list (list nat)) (deg : list nat) (es : list (nat * nat))
  : option (list (list nat) * list nat) :=
  match es with
  | [] => Some (adj, deg)
  | (from, to) :: es' =>
      if (from <? n) && (to <? n) then
        let* a := nth_error adj from in
        let* adj' := store adj from (a ++ [to]) in
        let* d := nth_error deg to in
        let* deg' := store deg to (d + 1) in
        build n adj' deg' es'
      else build n adj deg es'
  end.

(** The initial queue, lines 172-177. *)
Definition initial (deg : list nat) : list nat :=
  filter (fun i => match nth_error deg i with Some 0 => true | _ => false end) (seq 0 (length deg)).

(** The inner loop, lines 182-187. *)
Fixpoint relax (deg queue nexts : list nat) : option (list nat * list nat) :=
  match nexts with
  | [] => Some (deg, queue)
  | next :: nexts' =>
      let* d := nth_error deg next in
      match d with
      | 0 => None
      | S d' =>
          let* deg' := store deg next d' in
          relax deg' (if d' =? 0 then queue ++ [next] else queue) nexts'
      end
  end.

(** The outer loop, lines 180-188. *)
Fixpoint kahn (fuel : nat) (adj : list (list nat)) (deg queue order : list nat) : option (list nat) :=
  match queue with
  | [] => Some order
  | node :: queue' =>
      match fuel with
      | 0 => None
      | S fuel' =>
          let* nexts := nth_error adj node in
          let* (deg', queue'') := relax deg queue' nexts in
          kahn fuel' adj deg' queue'' (order ++ [node])
      end
  end.

Definition graph_topo_sort (flat : list nat) (n : nat) : option (list nat) :=
  let* (adj, deg) := build n (repeat [] n) (repeat 0 n) (chunk_pairs flat) in
  kahn n adj deg (initial deg) [].
