(** What folding literal structures should preserve and achieve. *)
From Coq Require Import String List Bool Arith.
From Verif.Scope Require Import Model Spec.
Import ListNotations.
Local Open Scope string_scope.
Local Open Scope list_scope.

(** Interpretations in which blocks and lists are what they should be: looking up a key of
    a literal block gives the value at that key, looking up another key gives the fallback,
    and HEAD and TAIL take a non-empty literal list apart. *)
Record lawful (I : interp) : Prop := {
  lookup_present : forall before key after vs v ws fallback, ~ In key before -> List.length vs = List.length before ->
    i_node I (KLookup key) (i_node I (KBlock (before ++ key :: after)) (vs ++ v :: ws) :: fallback) = v;
  lookup_absent : forall keys key vs d, ~ In key keys ->
    i_node I (KLookup key) [i_node I (KBlock keys) vs; d] = d;
  head_of_list : forall v vs, i_node I KApp [i_node I (KIntrinsic "HEAD") []; i_node I KList (v :: vs)] = v;
  tail_of_list : forall v vs, i_node I KApp [i_node I (KIntrinsic "TAIL") []; i_node I KList (v :: vs)] = i_node I KList vs }.

(** Expressions that can be folded at the root. *)
Inductive foldable : expr -> Prop :=
| Foldable_present key keys xs fallback : In key keys -> foldable (ENode (KLookup key) (ENode (KBlock keys) xs :: fallback))
| Foldable_absent key keys xs d : ~ In key keys -> foldable (ENode (KLookup key) [ENode (KBlock keys) xs; d])
| Foldable_head x xs : foldable (ENode KApp [ENode (KIntrinsic "HEAD") []; ENode KList (x :: xs)])
| Foldable_tail x xs : foldable (ENode KApp [ENode (KIntrinsic "TAIL") []; ENode KList (x :: xs)]).

(** [P] holds of every part of an expression. *)
Fixpoint everywhere (P : expr -> Prop) (e : expr) : Prop :=
  P e /\
  match e with
  | EVar _ => True
  | ELet bs body _ => fold_right (fun b acc => everywhere P (b_expr b) /\ acc) True bs /\ everywhere P body
  | ELam _ _ body => everywhere P body
  | ENode _ xs => fold_right (fun x acc => everywhere P x /\ acc) True xs
  end.
Definition nothing_to_fold (e : expr) : Prop := everywhere (fun x => ~ foldable x) e.

(** Nodes have the children their kind says: one per key, an expression and at most one
    fallback, none for intrinsics. *)
Definition shaped (e : expr) : Prop := everywhere (fun x =>
  match x with
  | ENode (KBlock keys) xs => List.length xs = List.length keys /\ NoDup keys
  | ENode (KLookup _) xs => List.length xs = 1 \/ List.length xs = 2
  | ENode (KIntrinsic _) xs => xs = []
  | _ => True
  end) e.
