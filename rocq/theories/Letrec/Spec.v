(** What splitting and merging lets should preserve and achieve. *)
From Coq Require Import List Bool Arith String Permutation.
From Verif.Scope Require Import Model Spec.
From Verif.Letrec Require Import TarjanSpec.
Import ListNotations.

(** ** Meaning

    The interpretations considered are those in which lets are what lazy recursive
    definitions should be, as far as grouping and order go. *)

(** A let directly inside a let, whose outer definitions cannot mention the inner ones,
    amounts to one let with all the definitions. *)
Definition merges_lets (I : interp) : Prop := forall rho env bs1 bs2 body,
  den I rho env (ELet bs1 (ELet bs2 body OtherLet) OtherLet) =
  i_let I OtherLet (map b_name bs1 ++ map b_name bs2)
    (fun vs => let v1 := firstn (List.length bs1) vs in let v2 := skipn (List.length bs1) vs in
       map (fun b => den I rho (v1 :: env) (b_expr b)) bs1 ++ map (fun b => den I rho (v2 :: v1 :: env) (b_expr b)) bs2)
    (fun vs => let v1 := firstn (List.length bs1) vs in let v2 := skipn (List.length bs1) vs in
       den I rho (v2 :: v1 :: env) body).

(** The order of the definitions does not matter.  Order [p] puts the definition number
    [nth j p] at place [j]. *)
Definition reordered {A} (d : A) (p : list nat) (l : list A) : list A := map (fun i => nth i l d) p.
Fixpoint place (p : list nat) (i : nat) : nat := match p with [] => 0 | j :: p => if j =? i then 0 else S (place p i) end.
Definition restored {A} (d : A) (p : list nat) (l : list A) : list A := map (fun i => nth (place p i) l d) (seq 0 (List.length p)).
Definition reorders_lets (I : interp) : Prop := forall rho env bs body p, Permutation p (seq 0 (List.length bs)) ->
  den I rho env (ELet bs body OtherLet) =
  i_let I OtherLet (reordered EmptyString p (map b_name bs))
    (fun vs => reordered (i_dangling I) p (map (fun b => den I rho (restored (i_dangling I) p vs :: env) (b_expr b)) bs))
    (fun vs => den I rho (restored (i_dangling I) p vs :: env) body).

(** ** Conditions on names *)

(** The names bound by lets of type [OtherLet] anywhere. *)
Fixpoint let_names (e : expr) : list string :=
  match e with
  | EVar _ => []
  | ELet bs body t => match t with OtherLet => map b_name bs | _ => [] end ++
                      flat_map (fun b => let_names (b_expr b)) bs ++ let_names body
  | ELam _ _ body => let_names body
  | ENode _ xs => flat_map let_names xs
  end.
(** No such name also occurs as an unresolved name. *)
Definition no_clash (e : expr) : Prop := forall n, In n (let_names e) -> not_free n e.
(** [P] holds of every let of type [OtherLet] in [e]. *)
Fixpoint every_let (P : list (binding expr) -> expr -> Prop) (e : expr) : Prop :=
  match e with
  | EVar _ => True
  | ELet bs body t => (t = OtherLet -> P bs body) /\ fold_right (fun b acc => every_let P (b_expr b) /\ acc) True bs /\ every_let P body
  | ELam _ _ body => every_let P body
  | ENode _ xs => fold_right (fun x acc => every_let P x /\ acc) True xs
  end.
Definition distinct_names (e : expr) : Prop := every_let (fun bs _ => NoDup (map b_name bs)) e.
(** The bindings of the lets of type [OtherLet] nested directly at the top. *)
Fixpoint chain (e : expr) : list (string * demand) :=
  match e with
  | ELet bs body OtherLet => map (fun b => (b_name b, b_demand b)) bs ++ chain body
  | _ => []
  end.
Definition no_shadowing_chains (e : expr) : Prop :=
  every_let (fun bs body => NoDup (map fst (chain (ELet bs body OtherLet)))) e.

(** ** What is achieved *)

(** Which binders of the scope [d] levels up an expression refers to. *)
Fixpoint refs (d : nat) (e : expr) : list nat :=
  match e with
  | EVar (Bound s b _) => if s =? d then [b] else []
  | EVar (Free _) => []
  | ELet bs body _ => flat_map (fun b => refs (S d) (b_expr b)) bs ++ refs (S d) body
  | ELam _ _ body => refs (S d) body
  | ENode _ xs => flat_map (refs d) xs
  end.
(** Any two bindings of the same let depend on each other. *)
Definition minimal_lets (e : expr) : Prop := every_let (fun bs _ =>
  forall i j, i < List.length bs -> j < List.length bs -> mutual (map (fun b => refs 0 (b_expr b)) bs) i j) e.
(** No let with bindings is directly inside another. *)
Definition flat_lets (e : expr) : Prop := every_let (fun _ body => chain body = []) e.
