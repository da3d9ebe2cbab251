(** What the list functions should mean, in terms of Coq's standard lists. *)
From Coq Require Import ZArith List Bool Permutation Sorting.Sorted.
From Verif Require Import Prelude.Model.
Import ListNotations.
Open Scope Z_scope.

(** A strict weak order: what a "less-than" function has to be. *)
Record strict_weak {A} (lt : A -> A -> bool) : Prop := {
  irreflexive : forall x, lt x x = false;
  transitive : forall x y z, lt x y = true -> lt y z = true -> lt x z = true;
  not_transitive : forall x y z, lt x y = false -> lt y z = false -> lt x z = false }.
(** Neither comes before the other. *)
Definition tied {A} (lt : A -> A -> bool) (x y : A) : bool := negb (lt x y) && negb (lt y x).
(** Nothing comes before something less than it. *)
Definition in_order {A} (lt : A -> A -> bool) (l : list A) : Prop := StronglySorted (fun x y => lt y x = false) l.
(** Elements that tie keep their order. *)
Definition keeps_ties {A} (lt : A -> A -> bool) (xs ys : list A) : Prop :=
  forall x, List.filter (tied lt x) ys = List.filter (tied lt x) xs.

(** An equality test that is an equivalence. *)
Record equivalence {K} (same : K -> K -> bool) : Prop := {
  same_refl : forall x, same x x = true;
  same_sym : forall x y, same x y = true -> same y x = true;
  same_trans : forall x y z, same x y = true -> same y z = true -> same x z = true }.

(** A list being produced turns out to be the list [l]; fails after [l]. *)
Inductive gives {A} : produced A -> list A -> Prop :=
| gives_nil : gives Done []
| gives_cons x r l : gives r l -> gives (Next x r) (x :: l).
Inductive fails_after {A} : produced A -> list A -> Prop :=
| fails_now : fails_after Failed []
| fails_later x r l : fails_after r l -> fails_after (Next x r) (x :: l).
(** The first cells of what is produced. *)
Inductive begins {A} : produced A -> list A -> Prop :=
| begins_nil p : begins p []
| begins_cons x r l : begins r l -> begins (Next x r) (x :: l).

(** A list made on demand is the finite list [l]; its [i]th element. *)
Inductive is_list {A} : colist A -> list A -> Prop :=
| is_nil : is_list conil []
| is_cons x r l : is_list r l -> is_list (cocons x r) (x :: l).
Fixpoint element {A} (i : nat) (l : colist A) : option A :=
  match l with
  | conil => None
  | cocons x r => match i with O => Some x | S i => element i r end
  end.

(** The window of [n] elements that starts at [i * step]. *)
Definition window_at {A} (n step : nat) (l : list A) (i : nat) : list A := firstn n (skipn (i * step) l).
(** [ws] are the windows of [l], at every start [i * step] of which [ok] says
    that the window is there. *)
Definition windows_of {A} (n step : nat) (ok : nat -> Prop) (l : list A) (ws : list (list A)) : Prop :=
  forall i, (ok (i * step)%nat /\ nth_error ws i = Some (window_at n step l i))
            \/ (~ ok (i * step)%nat /\ nth_error ws i = None).

(** [rows] is a matrix of [n] columns. *)
Definition matrix {A} (n : nat) (rows : list (list A)) : Prop := forall r, In r rows -> length r = n.

(** Putting [gs] back together with one separator between each two. *)
Fixpoint joined {A} (p : A -> bool) (gs : list (list A)) (l : list A) : Prop :=
  match gs with
  | [] => False
  | [g] => l = g
  | g :: gs => exists x rest, l = g ++ x :: rest /\ p x = true /\ joined p gs rest
  end.

(** The entry in row [i] and column [j]. *)
Definition cell {A} (rows : list (list A)) (i j : nat) : option A :=
  match nth_error rows i with Some r => nth_error r j | None => None end.

(** [x] and [y] stand next to each other in [l]. *)
Definition neighbours {A} (l : list A) (x y : A) : Prop := exists a b, l = a ++ x :: y :: b.
(** The elements that differ from the one before. *)
Fixpoint changes {A} (same : A -> A -> bool) (prev : A) (l : list A) : list A :=
  match l with [] => [] | x :: t => if same prev x then changes same x t else x :: changes same x t end.
(** The elements of [xs] whose key has not been met before them. *)
Fixpoint unmet {A K} (same : K -> K -> bool) (key : A -> K) (before xs : list A) : list A :=
  match xs with
  | [] => []
  | x :: t =>
      if existsb (fun y => same (key y) (key x)) before then unmet same key (before ++ [x]) t
      else x :: unmet same key (before ++ [x]) t
  end.
