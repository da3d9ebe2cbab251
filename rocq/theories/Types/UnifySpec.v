(** What unification promises, for C30. *)
From Coq Require Import Ascii String List Bool Arith.
From Verif.Types Require Import Model.
Import ListNotations.
Open Scope string_scope.
Open Scope list_scope.

(** ** Which types *)
(** First-order types: no recursive or quantified types, type-level functions, row variables or
    variables applied to arguments. Either dictionaries ([dicts]) or records may be used. *)
Fixpoint first_order (dicts : bool) (t : type) : bool :=
  match t with
  | TBase _ | TAny | TTop | TNever | TSymLit _ | TStrLit _ | TVar _ _ => true
  | TCon n => dicts || negb (String.eqb n "Dict")
  | TApp f x => first_order dicts f && first_order dicts x && match f with TCon _ | TApp _ _ => true | _ => false end
  | TTuple l => forallb (first_order dicts) l
  | TPrefix l a => nonempty l && forallb (first_order dicts) l && first_order dicts a
  | TRecord f _ rows => negb dicts && forallb (fun kp => first_order dicts (pty (snd kp))) f && negb (nonempty rows)
  | TFun a b => first_order dicts a && first_order dicts b
  | TUnion l => forallb (first_order dicts) l
  | TMu _ _ | TForall _ _ | TLam _ _ => false
  end.

(** ** Equal but for the documented widenings *)
(** [any] matches everything, a literal matches its base type, a list that is known not to be empty
    matches any list, and an open record matches a record with more fields. Whether a field is
    optional is not compared. *)
Inductive agree : type -> type -> Prop :=
| agree_same t : agree t t
| agree_any_left t : agree TAny t
| agree_any_right t : agree t TAny
| agree_symbol s : agree (TSymLit s) (TBase Symbol)
| agree_symbol' s : agree (TBase Symbol) (TSymLit s)
| agree_string s : agree (TStrLit s) (TBase String)
| agree_string' s : agree (TBase String) (TStrLit s)
| agree_app f g a b : agree f g -> agree a b -> agree (TApp f a) (TApp g b)
| agree_nonempty a b : agree a b -> agree (non_empty_of a) (list_of b)
| agree_nonempty' a b : agree a b -> agree (list_of a) (non_empty_of b)
| agree_tuple l l' : Forall2 agree l l' -> agree (TTuple l) (TTuple l')
| agree_prefix l l' a b : Forall2 agree l l' -> agree a b -> agree (TPrefix l a) (TPrefix l' b)
| agree_fun a b c d : agree a c -> agree b d -> agree (TFun a b) (TFun c d)
| agree_record f o g o' :
    (forall k p, In (k, p) f -> exists q, get k g = Some q /\ agree (pty p) (pty q)) ->
    (o = false -> forall k q, In (k, q) g -> contains_key k f = true) ->
    agree (TRecord f o []) (TRecord g o' []).

(** ** Substitutions *)
(** [y] is in what [x] stands for. *)
Definition mentions (s : subst) (y x : string) : Prop := exists t, get x s = Some t /\ occurs y t = true.
(** No variable stands for something with itself in it, however indirectly. *)
Definition acyclic (s : subst) : Prop := forall x, Acc (mentions s) x.
Definition subst_first_order (dicts : bool) (s : subst) : Prop := forall x t, get x s = Some t -> first_order dicts t = true.
Definition extends (s s' : subst) : Prop := forall x t, get x s = Some t -> get x s' = Some t.
(** Applying the substitution gives the type. *)
Definition applies (s : subst) (t u : type) : Prop := exists fuel, apply_subst fuel t s = Some u.

(** ** Solutions *)
(** All variables replaced at once. *)
Fixpoint instance (v : string -> type) (t : type) : type :=
  match t with
  | TVar x _ => v x
  | TApp f x => TApp (instance v f) (instance v x)
  | TTuple l => TTuple (map (instance v) l)
  | TPrefix l a => TPrefix (map (instance v) l) (instance v a)
  | TRecord f o r => TRecord (map (fun kp => (fst kp, map_presence (instance v) (snd kp))) f) o r
  | TFun a b => TFun (instance v a) (instance v b)
  | TUnion l => TUnion (map (instance v) l)
  | t => t
  end.
Definition solves (v : string -> type) (s : subst) : Prop := forall x t, get x s = Some t -> v x = instance v t.
(** Types in which [any], literals and unions, which are not compared as they stand, do not occur, and
    whose variables stand for types rather than constructors. Records name a field once. *)
Fixpoint unique (l : list string) : bool := match l with [] => true | k :: l => negb (mem k l) && unique l end.
Fixpoint exact (t : type) : bool :=
  match t with
  | TAny | TSymLit _ | TStrLit _ | TUnion _ => false
  | TVar _ k => kind_eqb k Star
  | TApp f x => exact f && exact x
  | TTuple l => forallb exact l
  | TPrefix l a => forallb exact l && exact a
  | TRecord f _ _ => forallb (fun kp => exact (pty (snd kp))) f && unique (map fst f)
  | TFun a b => exact a && exact b
  | _ => true
  end.
(** Types without what [agree] lets differ. *)
Fixpoint plain (t : type) : bool :=
  match t with
  | TAny | TSymLit _ | TStrLit _ | TRecord _ _ _ => false
  | TCon n => negb (String.eqb n "NonEmpty")
  | TApp f x => plain f && plain x
  | TTuple l => forallb plain l
  | TPrefix l a => forallb plain l && plain a
  | TFun a b => plain a && plain b
  | TUnion l => forallb plain l
  | _ => true
  end.
Definition subst_plain (s : subst) : Prop := forall x t, get x s = Some t -> plain t = true.

(** ** Runs *)
(** Unification of the two types ends, leaving the substitution and, if it failed, the error. *)
Definition unifies (t1 t2 : type) (s : subst) (s' : subst) (e : option unify_error) : Prop :=
  exists enough, forall fuel, enough <= fuel -> unify fuel t1 t2 s = Some (s', e).
(** However long it runs, it does not end. *)
Definition unify_diverges (t1 t2 : type) (s : subst) : Prop := forall fuel, unify fuel t1 t2 s = None.
Definition apply_diverges (t : type) (s : subst) : Prop := forall fuel, apply_subst fuel t s = None.
