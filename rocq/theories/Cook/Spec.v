(** What the documentation says about implicit parameters (docs/guide/anaphora.md). *)
From Coq Require Import String List Bool Arith NArith ZArith Permutation Sorted.
From Verif.Scope Require Import Model.
From Verif.Cook Require Import Model.
Import ListNotations.
Local Open Scope string_scope.
Local Open Scope list_scope.
Local Open Scope nat_scope.

(** ** The order of parameters *)

(** [a] is further to the left in the source than [b].  The gap on the left of an
    operator comes before the one on its right. *)
Definition earlier (a b : anaphor) : Prop :=
  match a, b with
  | Anonymous s, Anonymous t => (s < t)%N
  | Implicit s x, Implicit t y => (s < t)%N \/ s = t /\ x = SideLeft /\ y = SideRight
  | _, _ => False
  end.

Definition all_anonymous (l : list anaphor) : Prop := forall a, In a l -> exists s, a = Anonymous s.
Definition all_implicit (l : list anaphor) : Prop := forall a, In a l -> exists s x, a = Implicit s x.
Definition all_numbered (l : list anaphor) : Prop := forall a, In a l -> exists n, a = Numbered n /\ (0 <= n)%Z.

(** The implicit parameters [m], each with the name of its variable, are the parameters
    [ps] in the documented order. *)
Inductive documented (m : list (anaphor * string)) (ps : list string) : Prop :=
| doc_in_order : forall order,
    m <> [] -> all_anonymous (map fst m) \/ all_implicit (map fst m) ->
    Permutation order m -> StronglySorted (fun p q => earlier (fst p) (fst q)) order ->
    ps = map snd order -> documented m ps
| doc_numbered : forall max,
    all_numbered (map fst m) ->
    (** as many parameters as the largest number asks for *)
    In (Numbered (Z.of_nat max)) (map fst m) -> List.length ps = S max ->
    (** number [i] is parameter [i] *)
    (forall i name, In (Numbered (Z.of_nat i), name) m -> nth_error ps i = Some name) ->
    (** a number that does not occur is a parameter that is not used *)
    (forall i, i <= max -> ~ In (Numbered (Z.of_nat i)) (map fst m) -> nth_error ps i = Some (gap_name i)) ->
    documented m ps.

(** Two kinds of anaphora occur. *)
Definition kind_of (a : anaphor) : nat := match a with Anonymous _ => 0 | Numbered _ => 1 | Implicit _ _ => 2 end.
Definition mixed (l : list anaphor) : Prop := exists a b, In a l /\ In b l /\ kind_of a <> kind_of b.

(** ** The same expression with explicit parameters *)

Definition takes_left (f : fixity) : bool :=
  match f with InfixLeft | InfixRight | UnaryPostfix => true | _ => false end.
Definition takes_right (f : fixity) : bool :=
  match f with InfixLeft | InfixRight | UnaryPrefix => true | _ => false end.
(** Does the item want an operand on that side? *)
Definition wants_left (x : raw) : bool := match x with ROp _ f _ _ => takes_left f | _ => false end.
Definition wants_right (x : raw) : bool := match x with ROp _ f _ _ => takes_right f | _ => false end.
(** An operand is missing between two items; nothing stands for the start or the end. *)
Definition missing (l r : option raw) : bool :=
  match l with Some x => wants_right x | None => true end &&
  match r with Some x => wants_left x | None => true end.
(** Two operands stand side by side. *)
Definition juxtaposed (l r : option raw) : bool :=
  match l, r with Some x, Some y => negb (wants_right x) && negb (wants_left y) | _, _ => false end.
Definition location (r : option raw) : N := match r with Some (ROp s _ _ _) => s | _ => 0%N end.
(** The implicit parameter of a gap: it is identified by the operator next to it. *)
Definition section_anaphor (l r : option raw) : anaphor :=
  if negb (location r =? 0)%N then Implicit (location r) SideLeft else Implicit (location l) SideRight.

Section Explicit.
  (** The variables for implicit parameters. *)
  Variable name_of : anaphor -> string.

  Definition between (l r : option raw) : list raw :=
    if missing l r then [RVar (Free (name_of (section_anaphor l r)))]
    else if juxtaposed l r then [ROp 0 InfixLeft 20 (RNode KErrPseudoCat [])]
    else [].
  Fixpoint spread (l : option raw) (xs : list raw) : list raw :=
    match xs with
    | [] => between l None
    | x :: xs => between l (Some x) ++ x :: spread (Some x) xs
    end.

  (** Every expression anaphor, written or in a gap, replaced by its variable. *)
  Fixpoint explicit (r : raw) : raw :=
    match r with
    | RVar v => RVar v
    | RLet bs body t => RLet (map (map_b explicit) bs) (explicit body) t
    | RLam inlined ps body => RLam inlined ps (explicit body)
    | RNode k xs => RNode k (map explicit xs)
    | ROp s f p body => ROp s f p (explicit body)
    | RSoup bracket xs =>
        RSoup bracket (match map explicit xs with [] => [] | ys => spread None ys end)
    | RExprAna a => RVar (Free (name_of a))
    | RBlockAna a => RBlockAna a
    end.

  (** Every block anaphor replaced by its variable. *)
  Fixpoint explicit_block (r : raw) : raw :=
    match r with
    | RVar v => RVar v
    | RLet bs body t => RLet (map (map_b explicit_block) bs) (explicit_block body) t
    | RLam inlined ps body => RLam inlined ps (explicit_block body)
    | RNode k xs => RNode k (map explicit_block xs)
    | ROp s f p body => ROp s f p (explicit_block body)
    | RSoup bracket xs => RSoup bracket (map explicit_block xs)
    | RExprAna a => RExprAna a
    | RBlockAna a => RVar (Free (name_of a))
    end.
End Explicit.

(** The anaphora of the gaps of a soup. *)
Fixpoint sections (l : option raw) (xs : list raw) : list anaphor :=
  match xs with
  | [] => if missing l None then [section_anaphor l None] else []
  | x :: xs => (if missing l (Some x) then [section_anaphor l (Some x)] else []) ++ sections (Some x) xs
  end.
Definition soup_sections (xs : list raw) : list anaphor := match xs with [] => [] | _ => sections None xs end.

(** The expression anaphora of an expression, and its block anaphora. *)
Fixpoint anaphora_in (r : raw) : list anaphor :=
  match r with
  | RVar _ | RBlockAna _ => []
  | RLet bs body _ => flat_map (fun b => anaphora_in (b_expr b)) bs ++ anaphora_in body
  | RLam _ _ body | ROp _ _ _ body => anaphora_in body
  | RNode _ xs => flat_map anaphora_in xs
  | RSoup _ xs => soup_sections xs ++ flat_map anaphora_in xs
  | RExprAna a => [a]
  end.
Fixpoint block_anaphora_in (r : raw) : list anaphor :=
  match r with
  | RVar _ | RExprAna _ => []
  | RLet bs body _ => flat_map (fun b => block_anaphora_in (b_expr b)) bs ++ block_anaphora_in body
  | RLam _ _ body | ROp _ _ _ body => block_anaphora_in body
  | RNode _ xs | RSoup _ xs => flat_map block_anaphora_in xs
  | RBlockAna a => [a]
  end.

(** Every gap is next to an operator with a location. *)
Definition located_gaps (xs : list raw) : Prop :=
  Forall (fun a => match a with Implicit s _ => s <> 0%N | _ => True end) (soup_sections xs).
Fixpoint located (r : raw) : Prop :=
  match r with
  | RVar _ | RExprAna _ | RBlockAna _ => True
  | RLet bs body _ => fold_right (fun b acc => located (b_expr b) /\ acc) True bs /\ located body
  | RLam _ _ body | ROp _ _ _ body => located body
  | RNode _ xs => fold_right (fun x acc => located x /\ acc) True xs
  | RSoup _ xs => located_gaps xs /\ fold_right (fun x acc => located x /\ acc) True xs
  end.

(** A soup with an anaphor of its own: written as one of its items, or missing. *)
Definition own_anaphora (xs : list raw) : Prop :=
  (exists a, In (RExprAna a) xs) \/ soup_sections xs <> [].

(** Every expression anaphor is written as an item of a soup. *)
Fixpoint in_soups (r : raw) : Prop :=
  match r with
  | RVar _ | RBlockAna _ => True
  | RExprAna _ => False
  | RLet bs body _ => fold_right (fun b acc => in_soups (b_expr b) /\ acc) True bs /\ in_soups body
  | RLam _ _ body | ROp _ _ _ body => in_soups body
  | RNode _ xs => fold_right (fun x acc => in_soups x /\ acc) True xs
  | RSoup _ xs => fold_right (fun x acc => match x with RExprAna _ => True | _ => in_soups x end /\ acc) True xs
  end.
(** Every block anaphor is inside a block. *)
Fixpoint in_blocks (r : raw) : Prop :=
  match r with
  | RVar _ | RExprAna _ | RLet _ _ _ => True
  | RBlockAna _ => False
  | RLam _ _ body | ROp _ _ _ body => in_blocks body
  | RNode _ xs | RSoup _ xs => fold_right (fun x acc => in_blocks x /\ acc) True xs
  end.
(** No block anaphor is inside a block that is inside the expression. *)
Fixpoint no_inner_block (r : raw) : Prop :=
  match r with
  | RVar _ | RExprAna _ | RBlockAna _ => True
  | RLet _ _ _ => block_anaphora_in r = []
  | RLam _ _ body | ROp _ _ _ body => no_inner_block body
  | RNode _ xs | RSoup _ xs => fold_right (fun x acc => no_inner_block x /\ acc) True xs
  end.

(** The anaphora [l] with their variables, each once. *)
Definition parameters (name_of : anaphor -> string) (l : list anaphor) (m : list (anaphor * string)) : Prop :=
  NoDup (map fst m) /\ (forall a name, In (a, name) m <-> In a l /\ name = name_of a).
Definition expr_name (a : anaphor) : string := ("_e" ++ show_anaphor a)%string.
Definition block_name (a : anaphor) : string := ("_b" ++ show_anaphor a)%string.
