(** What types mean, and the rules of subtyping, for C29. *)
From Coq Require Import Ascii String List Bool Arith.
From Verif.Types Require Import Model.
Import ListNotations.
Open Scope string_scope.
Open Scope list_scope.

(** ** Which types *)
(** No gradual part: every variable is bound by an enclosing recursive type, and there is no [any],
    quantifier, type-level function or row variable. [bound] is the variables in scope. A list of known first
    elements has at least one (types.rs 389-397). *)
Fixpoint ground (bound : list string) (t : type) : bool :=
  match t with
  | TBase _ | TTop | TNever | TCon _ | TSymLit _ | TStrLit _ => true
  | TAny | TForall _ _ | TLam _ _ => false
  | TVar x _ => mem x bound
  | TApp f x => ground bound f && ground bound x && match f with TCon _ | TApp _ _ => true | _ => false end
  | TTuple l => forallb (ground bound) l
  | TPrefix l a => nonempty l && forallb (ground bound) l && ground bound a
  | TRecord f _ rows => forallb (fun kp => ground bound (pty (snd kp))) f && negb (nonempty rows)
  | TFun a b => ground bound a && ground bound b
  | TUnion l => forallb (ground bound) l
  | TMu x b => ground (x :: bound) b
  end.

(** A recursive type says something before it recurs: the variable is not reached through unions and
    other recursive types alone. *)
Fixpoint guarded (x : string) (t : type) : bool :=
  match t with
  | TVar y _ => negb (String.eqb y x)
  | TUnion l => forallb (guarded x) l
  | TMu y b => String.eqb y x || guarded x b
  | _ => true
  end.
Fixpoint contractive (t : type) : bool :=
  match t with
  | TApp f x => contractive f && contractive x
  | TTuple l => forallb contractive l
  | TPrefix l a => forallb contractive l && contractive a
  | TRecord f _ _ => forallb (fun kp => contractive (pty (snd kp))) f
  | TFun a b => contractive a && contractive b
  | TUnion l => forallb contractive l
  | TMu x b => guarded x b && contractive b
  | TForall _ b | TLam _ b => contractive b
  | _ => true
  end.

(** The constructors whose values are finite trees of values. *)
Definition data_con (n : string) : bool := mem n ["List"; "NonEmpty"; "Dict"].
(** The variable is not used under a function, an action, an optic or an unknown constructor. *)
Fixpoint in_data (x : string) (t : type) : bool :=
  match t with
  | TApp f a => match f with TCon n => if data_con n then in_data x a else negb (occurs x a) | _ => negb (occurs x t) end
  | TTuple l => forallb (in_data x) l
  | TPrefix l a => forallb (in_data x) l && in_data x a
  | TRecord f _ _ => forallb (fun kp => in_data x (pty (snd kp))) f
  | TFun a b => negb (occurs x a) && negb (occurs x b)
  | TUnion l => forallb (in_data x) l
  | TMu y b => String.eqb y x || in_data x b
  | _ => true
  end.
Fixpoint data_recursive (t : type) : bool :=
  match t with
  | TApp f x => data_recursive f && data_recursive x
  | TTuple l => forallb data_recursive l
  | TPrefix l a => forallb data_recursive l && data_recursive a
  | TRecord f _ _ => forallb (fun kp => data_recursive (pty (snd kp))) f
  | TFun a b => data_recursive a && data_recursive b
  | TUnion l => forallb data_recursive l
  | TMu x b => in_data x b && data_recursive b
  | TForall _ b | TLam _ b => data_recursive b
  | _ => true
  end.

(** Records have required fields only. If dictionaries are used at all ([dicts]), every record is
    open. *)
Fixpoint records (dicts : bool) (t : type) : bool :=
  match t with
  | TCon n => dicts || negb (String.eqb n "Dict")
  | TApp f x => records dicts f && records dicts x
  | TTuple l => forallb (records dicts) l
  | TPrefix l a => forallb (records dicts) l && records dicts a
  | TRecord f o _ => forallb (fun kp => is_required (snd kp) && records dicts (pty (snd kp))) f && (negb dicts || o)
  | TFun a b => records dicts a && records dicts b
  | TUnion l => forallb (records dicts) l
  | TMu _ b | TForall _ b | TLam _ b => records dicts b
  | _ => true
  end.

(** ** Values *)
(** Evaluated values. Numbers, booleans and so on are told apart by type only; functions, actions,
    optics and values of other constructors are named. *)
Inductive value :=
| VPrim (b : base) (n : nat) | VStr (s : string) | VSym (s : string)
| VList (l : list value) | VBlock (kvs : list (string * value))
| VFun (f : nat) | VAct (i : nat) | VOptic (i : nat) | VOther (i : nat).

(** Membership, given that of the types of functions, actions, optics and other constructors. *)
Inductive has (leaf : value -> type -> Prop) : value -> type -> Prop :=
| has_prim b n : b <> String -> b <> Symbol -> has leaf (VPrim b n) (TBase b)
| has_str s : has leaf (VStr s) (TBase String)
| has_sym s : has leaf (VSym s) (TBase Symbol)
| has_strlit s : has leaf (VStr s) (TStrLit s)
| has_symlit s : has leaf (VSym s) (TSymLit s)
| has_top v : has leaf v TTop
| has_list l t : Forall (fun v => has leaf v t) l -> has leaf (VList l) (list_of t)
| has_nonempty l t : l <> [] -> Forall (fun v => has leaf v t) l -> has leaf (VList l) (non_empty_of t)
| has_dict kvs t : Forall (fun kv => has leaf (snd kv) t) kvs -> has leaf (VBlock kvs) (dict_of t)
| has_tuple l ts : Forall2 (has leaf) l ts -> has leaf (VList l) (TTuple ts)
| has_prefix l1 l2 ts t : Forall2 (has leaf) l1 ts -> Forall (fun v => has leaf v t) l2 -> has leaf (VList (l1 ++ l2)) (TPrefix ts t)
| has_record kvs fields open rows :
    (forall k t, In (k, Required t) fields -> exists v, get k kvs = Some v /\ has leaf v t) ->
    (forall k t v, In (k, Optional t) fields -> get k kvs = Some v -> has leaf v t) ->
    has leaf (VBlock kvs) (TRecord fields open rows)
| has_union v t ts : In t ts -> has leaf v t -> has leaf v (TUnion ts)
| has_mu v x b : has leaf v (unfold_mu x b (TMu x b)) -> has leaf v (TMu x b)
| has_leaf v t : leaf v t -> has leaf v t.

(** How deep functions, actions, optics and other constructors nest. *)
Fixpoint rank (t : type) : nat :=
  match t with
  | TCon _ => 1
  | TApp f x => match f with TCon n => if data_con n then rank x else S (rank x) | _ => S (max (rank f) (rank x)) end
  | TTuple l => list_max (map rank l)
  | TPrefix l a => max (list_max (map rank l)) (rank a)
  | TRecord f _ _ => list_max (map (fun kp => rank (pty (snd kp))) f)
  | TFun a b => S (max (rank a) (rank b))
  | TUnion l => list_max (map rank l)
  | TMu _ b | TForall _ b | TLam _ b => rank b
  | _ => 0
  end.

Section Meaning.
(** What calling a function or performing an action may yield. *)
Variable call : nat -> value -> value -> Prop.
Variable perform : nat -> value -> Prop.
(** What lenses and traversals do with the parts of a value is left open. So is what the values of a
    constructor that is not built in are. *)
Variable is_lens is_traversal : (value -> Prop) -> (value -> Prop) -> nat -> Prop.
Variable other : type -> nat -> Prop.

Definition leaf (den : value -> type -> Prop) (v : value) (t : type) : Prop :=
  let opaque := exists i, v = VOther i /\ other t i in
  match t with
  | TFun a b => exists f, v = VFun f /\ forall x r, den x a -> call f x r -> den r b
  | TCon _ => opaque
  | TApp (TCon n) a =>
      if data_con n then False
      else if String.eqb n "IO" then exists i, v = VAct i /\ forall r, perform i r -> den r a
      else opaque
  | TApp (TApp (TCon n) a) b =>
      if String.eqb n "Lens" then exists i, v = VOptic i /\ is_lens (fun w => den w a) (fun w => den w b) i
      else if String.eqb n "Traversal" then exists i, v = VOptic i /\ is_traversal (fun w => den w a) (fun w => den w b) i
      else opaque
  | TApp _ _ => opaque
  | _ => False
  end.

(** Membership for types that nest no deeper than [k], and membership. *)
Fixpoint den (k : nat) : value -> type -> Prop :=
  has (match k with O => fun _ _ => False | S k => leaf (den k) end).
Definition inhabits (v : value) (t : type) : Prop := den (rank t) v t.

(** The reading of optics goes with the subtyping of optics: they may be used at a larger type, and a
    lens may be used as a traversal. *)
Definition optics_grow : Prop :=
  (forall (A B A' B' : value -> Prop) i, (forall v, A v -> A' v) -> (forall v, B v -> B' v) ->
     (is_lens A B i -> is_lens A' B' i) /\ (is_traversal A B i -> is_traversal A' B' i))
  /\ forall A B i, is_lens A B i -> is_traversal A B i.
End Meaning.

(** ** The rules of subtyping *)
Definition is_mu (t : type) : bool := match t with TMu _ _ => true | _ => false end.
Definition is_union (t : type) : bool := match t with TUnion _ => true | _ => false end.
Definition opened {A} (open : bool) (rows : list A) : Prop := open = true \/ rows <> [].

(** One rule, [R] relating the parts. *)
Inductive step (R : type -> type -> Prop) : type -> type -> Prop :=
| by_unfolding_left x b t : R (unfold_mu x b (TMu x b)) t -> step R (TMu x b) t
| by_unfolding_right s x b : is_mu s = false -> R s (unfold_mu x b (TMu x b)) -> step R s (TMu x b)
| by_never t : is_mu t = false -> step R TNever t
| by_top s : is_mu s = false -> step R s TTop
| by_symbol s : step R (TSymLit s) (TBase Symbol)
| by_string s : step R (TStrLit s) (TBase String)
| by_constructor n a b : covariant n = true -> R a b -> step R (TApp (TCon n) a) (TApp (TCon n) b)
| by_emptying a b : R a b -> step R (non_empty_of a) (list_of b)
| by_lens a b c d : R a c -> R b d -> step R (lens_of a b) (lens_of c d)
| by_traversal a b c d : R a c -> R b d -> step R (traversal_of a b) (traversal_of c d)
| by_lens_traversal a b c d : R a c -> R b d -> step R (lens_of a b) (traversal_of c d)
| by_tuple ss ts : Forall2 R ss ts -> step R (TTuple ss) (TTuple ts)
| by_tuple_list ss t : Forall (fun s => R s t) ss -> step R (TTuple ss) (list_of t)
| by_tuple_nonempty ss t : ss <> [] -> Forall (fun s => R s t) ss -> step R (TTuple ss) (non_empty_of t)
| by_tuple_prefix ss1 ss2 ts t : Forall2 R ss1 ts -> Forall (fun s => R s t) ss2 -> step R (TTuple (ss1 ++ ss2)) (TPrefix ts t)
| by_prefix ss1 ss2 s ts t : Forall2 R ss1 ts -> Forall (fun s => R s t) ss2 -> R s t -> step R (TPrefix (ss1 ++ ss2) s) (TPrefix ts t)
| by_prefix_list ss s t : Forall (fun s => R s t) ss -> R s t -> step R (TPrefix ss s) (list_of t)
| by_nonempty_prefix s t t' : R s t -> R s t' -> step R (non_empty_of s) (TPrefix [t] t')
| by_record sf so sr tf t_open tr :
    (forall k t, In (k, Required t) tf -> exists s, get k sf = Some (Required s) /\ R s t) ->
    (forall k t p, In (k, Optional t) tf -> get k sf = Some p -> R (pty p) t) ->
    (opened so sr -> opened t_open tr) ->
    step R (TRecord sf so sr) (TRecord tf t_open tr)
| by_record_dict sf t : (forall k p, In (k, p) sf -> R (pty p) t) -> step R (TRecord sf false []) (dict_of t)
| by_dict_record s rows : step R (dict_of s) (TRecord [] true rows)
| by_function a b c d : R c a -> R b d -> step R (TFun a b) (TFun c d)
| by_union_left ss t : is_mu t = false -> t <> TNever -> Forall (fun s => R s t) ss -> step R (TUnion ss) t
| by_union_right s ts : is_mu s = false -> is_union s = false -> s <> TTop -> Exists (R s) ts -> step R s (TUnion ts).

(** The greatest relation closed under the rules backwards. *)
Definition simulation (R : type -> type -> Prop) : Prop := forall s t, R s t -> s = t \/ step R s t.
Definition related (s t : type) : Prop := exists R, simulation R /\ R s t.

(** The checker accepts the pair. *)
Definition accepted (s t : type) : Prop := exists fuel, is_subtype fuel s t = Some true.
