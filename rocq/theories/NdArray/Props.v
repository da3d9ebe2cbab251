(** Property C25: n-dimensional arrays. *)
From Coq Require Import List Arith ZArith Bool Lia Permutation Sorted.
From Verif.NdArray Require Import Model Spec Proofs.
Import ListNotations.

(** [wf] holds of every array that can be built: by the constructors here, and by
    the operations in the theorems below. *)
Theorem C25_constructed : forall (A : Type) sh (x : A) (xs : list A),
  wf (filled sh x) /\
  (forall a, from_flat sh xs = Some a -> wf a /\ shape a = sh /\ flat a = xs) /\
  (from_flat sh xs = None <-> length xs <> prod sh).
Proof.
  intros A sh x xs. split; [apply repeat_length|]. unfold from_flat.
  destruct (length xs =? prod sh) eqn:E.
  - apply Nat.eqb_eq in E. split; [intros a [=<-]; repeat split; auto|]. split; [discriminate|congruence].
  - apply Nat.eqb_neq in E. split; [discriminate|]. tauto.
Qed.
Print Assumptions C25_constructed.

(** Reading succeeds exactly at in-range coordinates of the right rank. *)
Theorem C25_get : forall (A : Type) (a : nd A) c,
  wf a -> ((exists x, get a c = Some x) <-> valid (shape a) c).
Proof. exact @get_some. Qed.
Print Assumptions C25_get.

(** The coordinate listing is exactly the in-range coordinates, each once, in
    row-major order; reading along it gives the flat list. *)
Theorem C25_indices : forall (A : Type) (a : nd A), wf a ->
  (forall c, In c (indices a) <-> valid (shape a) c) /\
  StronglySorted coords_lt (indices a) /\
  map (get a) (indices a) = map Some (flat a).
Proof.
  intros A a W. rewrite (indices_all a W). split; [apply all_coords_in|].
  split; [apply all_coords_sorted|now apply get_flat].
Qed.
Print Assumptions C25_indices.

(** Functional update changes one element and nothing else, and fails exactly out
    of range. *)
Theorem C25_set : forall (A : Type) (a : nd A) c x, wf a ->
  match with_set a c x with
  | None => ~ valid (shape a) c
  | Some b => valid (shape a) c /\ wf b /\ shape b = shape a /\ get b c = Some x /\
              forall c', c' <> c -> get b c' = get a c'
  end.
Proof. exact @with_set_spec. Qed.
Print Assumptions C25_set.

(** Reshaping succeeds iff the sizes agree, keeps the flat order, and can be
    undone. *)
Theorem C25_reshape : forall (A : Type) (a : nd A) sh, wf a ->
  match reshape a sh with
  | None => prod sh <> prod (shape a)
  | Some b => prod sh = prod (shape a) /\ wf b /\ shape b = sh /\ flat b = flat a /\
              reshape b (shape a) = Some a
  end.
Proof. exact @reshape_spec. Qed.
Print Assumptions C25_reshape.

(** Transposition reverses coordinates and is an involution. *)
Theorem C25_transpose : forall (A : Type) (a : nd A), wf a ->
  wf (transpose a) /\ shape (transpose a) = rev (shape a) /\
  (forall c, get (transpose a) c = get a (rev c)) /\ transpose (transpose a) = a.
Proof.
  intros A a W. destruct (transpose_spec a W) as (H1 & H2 & H3).
  repeat split; auto. now apply transpose_involutive.
Qed.
Print Assumptions C25_transpose.

(** Slicing fixes one coordinate. *)
Theorem C25_slice : forall (A : Type) (a : nd A) axis index, wf a ->
  match slice_along a axis index with
  | None => ~ (axis < rank a /\ index < nth axis (shape a) 0)
  | Some b => axis < rank a /\ index < nth axis (shape a) 0 /\ wf b /\
              shape b = remove_at (shape a) axis /\
              forall c, length c = rank a - 1 -> get b c = get a (insert_at c axis index)
  end.
Proof. exact @slice_spec. Qed.
Print Assumptions C25_slice.

(** Element-wise arithmetic, with the operands in order whichever side is the
    scalar. *)
Theorem C25_binop : forall (A : Type) (f : A -> A -> A) (a b : nd A) s, wf a -> wf b ->
  (match array_binop f (OArr a) (OArr b) with
   | None => shape a <> shape b
   | Some r => shape a = shape b /\ wf r /\ shape r = shape a /\
       forall c, get r c = match get a c, get b c with Some x, Some y => Some (f x y) | _, _ => None end
   end) /\
  (exists r, array_binop f (OArr a) (ONum s) = Some r /\ wf r /\ shape r = shape a /\
     forall c, get r c = option_map (fun x => f x s) (get a c)) /\
  (exists r, array_binop f (ONum s) (OArr a) = Some r /\ wf r /\ shape r = shape a /\
     forall c, get r c = option_map (fun x => f s x) (get a c)).
Proof.
  intros A f a b s Wa Wb. split; [exact (zip_spec f a b Wa Wb)|].
  split; eexists; (split; [reflexivity|apply map_spec; auto]).
Qed.
Print Assumptions C25_binop.

(** Neighbours: for offsets of the array's rank, each offset in turn contributes
    the element at the displaced coordinates if these are in range, and nothing
    otherwise. *)
Theorem C25_neighbours : forall (A : Type) (a : nd A) coords offs,
  wf a -> 0 < rank a -> length coords = rank a -> Forall (fun o => length o = rank a) offs ->
  exists groups, intr_neighbours coords offs a = concat groups /\
  Forall2 (fun off g =>
      match g with
      | [x] => exists n, displaced coords off n /\ get a n = Some x
      | [] => ~ exists n x, displaced coords off n /\ get a n = Some x
      | _ => False
      end) offs groups.
Proof.
  intros A a coords offs W R L F. rewrite intr_neighbours_spec by auto.
  destruct (neighbours_flat a coords offs W L) as (g & E & H). exists g. split; auto.
  clear E. revert F. induction H as [|o l g gs H0 H IH]; intros F; [constructor|]. inversion F; subst. constructor; [apply H0; assumption|apply IH; assumption].
Qed.
Print Assumptions C25_neighbours.

(** Offsets of another length are not skipped: the prelude flattens the offset
    lists, so two one-element offsets act as one two-element offset. *)
Theorem C25_neighbours_rank_refuted : exists (a : nd nat) coords offs x,
  wf a /\ length coords = rank a /\ Forall (fun o => length o <> rank a) offs /\
  intr_neighbours coords offs a = [x].
Proof.
  exists (mkNd [2; 2] [1; 2; 3; 4]), [0; 0], [[1%Z]; [1%Z]], 4.
  split; [reflexivity|]. split; [reflexivity|]. split; [|reflexivity].
  constructor; [cbn; lia|constructor; [cbn; lia|constructor]].
Qed.
Print Assumptions C25_neighbours_rank_refuted.

Example nd_ex : let a := mkNd [2; 3] [1; 2; 3; 4; 5; 6] in
  wf a /\ flat (transpose a) = [1; 4; 2; 5; 3; 6] /\
  option_map flat (slice_along a 1 2) = Some [3; 6] /\
  intr_neighbours [0; 0] [[0; 1]; [-1; 0]; [1; 0]]%Z a = [2; 4].
Proof. repeat split. Qed.
