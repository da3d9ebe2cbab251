(** Properties C18, C19, C20: the graph intrinsics. *)
From Coq Require Import List Arith Bool Lia Relations ZArith Sorted.
From Verif.Graph Require Import Model Spec Proofs Proofs2 Proofs3.
Import ListNotations.

(** C18: labels coincide exactly for connected nodes, each label is a node of the
    component, and the run never panics. *)
Theorem C18_union_find : forall flat n,
  exists ls, graph_union_find flat n = Some ls /\ length ls = n /\
    (forall x y, x < n -> y < n ->
      (nth_error ls x = nth_error ls y <-> connected flat n all_edges x y)) /\
    (forall x l, nth_error ls x = Some l -> l < n /\ connected flat n all_edges x l).
Proof. exact union_find_correct. Qed.
Print Assumptions C18_union_find.

(** C19: no duplicates, every edge into a listed node comes from an earlier one,
    exactly the nodes that no cycle reaches are listed, and all are listed iff the
    graph is acyclic. *)
Theorem C19_topo_sort : forall flat n,
  exists r, graph_topo_sort flat n = Some r /\ NoDup r /\ (forall x, In x r -> x < n) /\
    (forall u v, arc flat n all_edges u v -> In v r -> before r u v) /\
    (forall v, v < n -> (In v r <->
       ~ exists z, path flat n z z /\ clos_refl_trans nat (arc flat n all_edges) z v)) /\
    (length r = n <-> acyclic flat n).
Proof. exact topo_correct. Qed.
Print Assumptions C19_topo_sort.

(** C20: the selected edges (in order of position) are exactly those that join
    nodes the earlier edges leave apart; they are a spanning forest, the counts
    are the numbers of components left, and when the list is in order of weight no
    spanning forest is lighter. *)
Theorem C20_kruskal : forall flat n,
  exists r, graph_kruskal_edges flat n = Some r /\
    let sel := map fst r in
    StronglySorted lt sel /\ forest flat n sel /\ spanning flat n sel /\
    (forall k c, In (k, c) r -> components flat n (fun k' => k' <= k) c) /\
    (forall k i j, edge_is flat n k i j -> (In k sel <-> ~ connected flat n (fun k' => k' < k) i j)) /\
    forall w T, (forall a b, a <= b -> (w a <= w b)%Z) -> forest flat n T -> spanning flat n T ->
      (total w sel <= total w T)%Z.
Proof. exact kruskal_correct. Qed.
Print Assumptions C20_kruskal.

(** The component count of a graph is unique. *)
Theorem C20_components_unique : forall flat n K c c',
  components flat n K c -> components flat n K c' -> c = c'.
Proof.
  intros flat n K c c' H H'. apply comps_arc in H, H'. eapply comps_unique; eauto.
Qed.
Print Assumptions C20_components_unique.

(** Two triangles sharing nothing, an isolated node, an out-of-range edge and a
    trailing number. *)
Definition g1 : list nat := [0; 1; 1; 2; 2; 0; 3; 4; 9; 1; 4; 5; 5; 3; 7].
Example g1_labels : graph_union_find g1 7 = Some [0; 0; 0; 3; 3; 3; 6].
Proof. reflexivity. Qed.
Example g1_kruskal : graph_kruskal_edges g1 7 = Some [(0, 6); (1, 5); (3, 4); (5, 3)].
Proof. reflexivity. Qed.
(** A diamond, and a cycle 4 -> 5 -> 4 feeding 6. *)
Definition g2 : list nat := [0; 1; 0; 2; 1; 3; 2; 3; 4; 5; 5; 4; 5; 6].
Example g2_topo : graph_topo_sort g2 7 = Some [0; 1; 2; 3].
Proof. reflexivity. Qed.
