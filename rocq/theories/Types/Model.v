(** Types, subtyping, consistency and unification (src/core/typecheck).

    Recursion that is not structural takes [fuel], the depth of the call stack; [None] means that it
    was not deep enough. Names are strings. A [BTreeMap] is the list of its entries in key order, so
    that equal maps are equal lists. *)
From Coq Require Import Ascii String List Bool Arith.
Import ListNotations.
Open Scope string_scope.
Open Scope list_scope.

(** types.rs 79-85. *)
Inductive kind := Star | Arrow (a b : kind).
(** types.rs 30-36. *)
Inductive presence (A : Type) := Required (t : A) | Optional (t : A).
Arguments Required {A}. Arguments Optional {A}.
(** types.rs 38-44, 59-64. *)
Definition pty {A} (p : presence A) : A := match p with Required t | Optional t => t end.
Definition map_presence {A B} (f : A -> B) (p : presence A) : presence B :=
  match p with Required t => Required (f t) | Optional t => Optional (f t) end.
Definition is_required {A} (p : presence A) : bool := match p with Required _ => true | Optional _ => false end.

(** types.rs 242-352. The nullary types with no rules of their own are one constructor. *)
Inductive base := Number | String | Symbol | Bool | Null | DateTime | ExecutionError | Set_ | Vec | Array.
Inductive type :=
| TBase (b : base) | TAny | TTop | TNever
| TCon (n : string) | TApp (f x : type)
| TTuple (elems : list type) | TPrefix (prefix : list type) (tail : type)
| TRecord (fields : list (string * presence type)) (open : bool) (rows : list string)
| TFun (a b : type) | TUnion (variants : list type)
| TSymLit (s : string) | TStrLit (s : string)
| TVar (x : string) (k : kind)
| TMu (x : string) (body : type) | TForall (binders : list (string * kind)) (body : type) | TLam (x : string) (body : type).

(** The derived equality. *)
Fixpoint kind_eqb (a b : kind) : bool :=
  match a, b with Star, Star => true | Arrow a1 a2, Arrow b1 b2 => kind_eqb a1 b1 && kind_eqb a2 b2 | _, _ => false end.
Definition base_eqb (a b : base) : bool :=
  match a, b with
  | Number, Number | String, String | Symbol, Symbol | Bool, Bool | Null, Null | DateTime, DateTime
  | ExecutionError, ExecutionError | Set_, Set_ | Vec, Vec | Array, Array => true
  | _, _ => false
  end.
Definition list_eqb {A} (eqb : A -> A -> bool) : list A -> list A -> bool :=
  fix go l l' := match l, l' with [], [] => true | a :: l, b :: l' => eqb a b && go l l' | _, _ => false end.
Definition presence_eqb {A} (eqb : A -> A -> bool) (p q : presence A) : bool :=
  match p, q with Required a, Required b | Optional a, Optional b => eqb a b | _, _ => false end.
Fixpoint type_eqb (s t : type) : bool :=
  match s, t with
  | TBase a, TBase b => base_eqb a b
  | TAny, TAny | TTop, TTop | TNever, TNever => true
  | TCon a, TCon b => String.eqb a b
  | TApp f x, TApp g y => type_eqb f g && type_eqb x y
  | TTuple l, TTuple l' => list_eqb type_eqb l l'
  | TPrefix l a, TPrefix l' b => list_eqb type_eqb l l' && type_eqb a b
  | TRecord f o r, TRecord f' o' r' =>
      list_eqb (fun p q => String.eqb (fst p) (fst q) && presence_eqb type_eqb (snd p) (snd q)) f f'
      && Bool.eqb o o' && list_eqb String.eqb r r'
  | TFun a b, TFun c d => type_eqb a c && type_eqb b d
  | TUnion l, TUnion l' => list_eqb type_eqb l l'
  | TSymLit a, TSymLit b => String.eqb a b
  | TStrLit a, TStrLit b => String.eqb a b
  | TVar x k, TVar y k' => String.eqb x y && kind_eqb k k'
  | TMu x b, TMu y c => String.eqb x y && type_eqb b c
  | TForall bs b, TForall cs c =>
      list_eqb (fun p q => String.eqb (fst p) (fst q) && kind_eqb (snd p) (snd q)) bs cs && type_eqb b c
  | TLam x b, TLam y c => String.eqb x y && type_eqb b c
  | _, _ => false
  end.

(** [BTreeMap::get]. *)
Fixpoint get {A} (k : string) (m : list (string * A)) : option A :=
  match m with [] => None | (k', v) :: m => if String.eqb k k' then Some v else get k m end.
Definition contains_key {A} (k : string) (m : list (string * A)) : bool := match get k m with Some _ => true | None => false end.

(** types.rs 356-428. *)
Definition list_of (t : type) : type := TApp (TCon "List") t.
Definition io_of (t : type) : type := TApp (TCon "IO") t.
Definition dict_of (t : type) : type := TApp (TCon "Dict") t.
Definition non_empty_of (t : type) : type := TApp (TCon "NonEmpty") t.
Definition lens_of (a b : type) : type := TApp (TApp (TCon "Lens") a) b.
Definition traversal_of (a b : type) : type := TApp (TApp (TCon "Traversal") a) b.
Definition prefix_list (prefix : list type) (tail : type) : type :=
  match prefix with [] => list_of tail | _ => TPrefix prefix tail end.
(** types.rs 432-485. *)
Definition as_single (t : type) : option (string * type) := match t with TApp (TCon n) a => Some (n, a) | _ => None end.
Definition as_two (t : type) : option (string * type * type) :=
  match t with TApp (TApp (TCon n) a) b => Some (n, a, b) | _ => None end.
(** subtype.rs 302-304, types.rs 455-480: the argument, if the type is an application of the
    constructor. *)
Definition arg_of (con : string) (t : type) : option type :=
  match as_single t with Some (n, a) => if String.eqb n con then Some a else None | None => None end.

(** types.rs 547-585. *)
Definition is_any (t : type) : bool := match t with TAny => true | _ => false end.
Definition is_never (t : type) : bool := match t with TNever => true | _ => false end.
Definition dedup (l : list type) : list type :=
  fold_left (fun seen t => if existsb (type_eqb t) seen then seen else seen ++ [t]) l [].
Definition union (types : list type) : type :=
  let flat := flat_map (fun t => match t with TUnion vs => vs | t => [t] end) types in
  if existsb is_any flat then TAny else
  let flat := filter (fun t => negb (is_never t)) flat in
  let seen := dedup flat in
  let has_symbol := existsb (type_eqb (TBase Symbol)) seen in
  let has_string := existsb (type_eqb (TBase String)) seen in
  let seen := filter (fun t => match t with TSymLit _ => negb has_symbol | TStrLit _ => negb has_string | _ => true end) seen in
  match seen with [] => TNever | [t] => t | _ => TUnion seen end.

(** types.rs 503-532. *)
Fixpoint widen_literals (t : type) : type :=
  match t with
  | TSymLit _ => TBase Symbol
  | TStrLit _ => TBase String
  | TTuple l => TTuple (map widen_literals l)
  | TPrefix p t => prefix_list (map widen_literals p) (widen_literals t)
  | TUnion l => TUnion (map widen_literals l)
  | TFun a b => TFun (widen_literals a) (widen_literals b)
  | TRecord f o r => TRecord (map (fun kp => (fst kp, map_presence widen_literals (snd kp))) f) o r
  | TApp f x => TApp (widen_literals f) (widen_literals x)
  | TForall bs b => TForall bs (widen_literals b)
  | TMu x b => TMu x (widen_literals b)
  | TLam x b => TLam x (widen_literals b)
  | t => t
  end.

(** types.rs 887-943. *)
Fixpoint unfold_mu (x : string) (t r : type) : type :=
  match t with
  | TVar y _ => if String.eqb y x then r else t
  | TMu y b => if String.eqb y x then t else TMu y (unfold_mu x b r)
  | TApp f a => TApp (unfold_mu x f r) (unfold_mu x a r)
  | TTuple l => TTuple (map (fun e => unfold_mu x e r) l)
  | TPrefix p a => prefix_list (map (fun e => unfold_mu x e r) p) (unfold_mu x a r)
  | TFun a b => TFun (unfold_mu x a r) (unfold_mu x b r)
  | TRecord f o rs => TRecord (map (fun kp => (fst kp, map_presence (fun e => unfold_mu x e r) (snd kp))) f) o rs
  | TUnion l => TUnion (map (fun e => unfold_mu x e r) l)
  | TForall bs b => TForall bs (unfold_mu x b r)
  | TLam y b => if String.eqb y x then t else TLam y (unfold_mu x b r)
  | t => t
  end.

(** Results that may be missing for lack of depth. *)
Definition bind {A B} (x : option A) (f : A -> option B) : option B := match x with Some a => f a | None => None end.
Notation "'do' x <- e ; f" := (bind e (fun x => f)) (at level 200, x pattern, e at level 100, f at level 200, right associativity).
Fixpoint mapm {A B} (f : A -> option B) (l : list A) : option (list B) :=
  match l with [] => Some [] | a :: l => do b <- f a; do bs <- mapm f l; Some (b :: bs) end.
Definition presencem {A B} (f : A -> option B) (p : presence A) : option (presence B) :=
  match p with Required t => do u <- f t; Some (Required u) | Optional t => do u <- f t; Some (Optional u) end.
Definition fieldsm {A B} (f : A -> option B) (l : list (string * presence A)) : option (list (string * presence B)) :=
  mapm (fun kp => do p <- presencem f (snd kp); Some (fst kp, p)) l.
(** The short-circuiting [&&], [all] and [any]. *)
Definition andm (x y : option bool) : option bool := do b <- x; if b then y else Some false.
Definition orm (x y : option bool) : option bool := do b <- x; if b then Some true else y.
Fixpoint allm {A} (f : A -> option bool) (l : list A) : option bool :=
  match l with [] => Some true | a :: l => andm (f a) (allm f l) end.
Fixpoint anym {A} (f : A -> option bool) (l : list A) : option bool :=
  match l with [] => Some false | a :: l => orm (f a) (anym f l) end.

(** unify.rs 34-121. *)
Definition mem (x : string) (l : list string) : bool := existsb (String.eqb x) l.
Fixpoint structural_subst (fuel : nat) (p : type) (x : string) (c : type) : option type :=
  match fuel with
  | O => None
  | S fuel =>
      let go t := structural_subst fuel t x c in
      match p with
      | TVar y _ => Some (if String.eqb y x then c else p)
      | TApp f a =>
          do f' <- go f; do a' <- go a;
          match f' with TLam y b => structural_subst fuel b y a' | _ => Some (TApp f' a') end
      | TFun a b => do a <- go a; do b <- go b; Some (TFun a b)
      | TRecord f o r => do f <- fieldsm go f; Some (TRecord f o r)
      | TUnion l => do l <- mapm go l; Some (TUnion l)
      | TTuple l => do l <- mapm go l; Some (TTuple l)
      | TPrefix l a => do l <- mapm go l; do a <- go a; Some (prefix_list l a)
      | TForall bs b => if mem x (map fst bs) then Some p else do b <- go b; Some (TForall bs b)
      | TMu y b => if String.eqb y x then Some p else do b <- go b; Some (TMu y b)
      | TLam y b => if String.eqb y x then Some p else do b <- go b; Some (TLam y b)
      | p => Some p
      end
  end.
Definition beta_reduce (fuel : nat) (t : type) : option type :=
  match t with TApp (TLam x b) a => structural_subst fuel b x a | t => Some t end.

(** subtype.rs 41-331, with the list of pairs assumed so far, latest first. *)
Definition assumes (assumed : list (type * type)) (s t : type) : bool :=
  existsb (fun p => type_eqb (fst p) s && type_eqb (snd p) t) assumed.
Definition nonempty {A} (l : list A) : bool := match l with [] => false | _ => true end.

(** subtype.rs 352-388, [sub] being the comparison of the parts. *)
Definition covariant (n : string) : bool := mem n ["List"; "IO"; "Dict"; "NonEmpty"].
Definition app_subtype (sub : type -> type -> option bool) (s t : type) : option bool :=
  let single :=
    match as_single s, as_single t with
    | Some (sn, si), Some (tn, ti) =>
        if String.eqb sn tn then if covariant sn then sub si ti else Some (type_eqb si ti)
        else if String.eqb sn "NonEmpty" && String.eqb tn "List" then sub si ti
        else Some (type_eqb s t)
    | _, _ => Some (type_eqb s t)
    end in
  match as_two s, as_two t with
  | Some (sn, sa, sb), Some (tn, ta, tb) =>
      if String.eqb sn "Lens" && String.eqb tn "Lens" || String.eqb sn "Traversal" && String.eqb tn "Traversal"
         || String.eqb sn "Lens" && String.eqb tn "Traversal"
      then andm (sub sa ta) (sub sb tb) else single
  | _, _ => single
  end.
(** subtype.rs 312-329, 147-152: the elements against the prefix, and the rest against the tail. *)
Definition matches_prefix (sub : type -> type -> option bool) (elems prefix : list type) (tail : type) : option bool :=
  if Nat.leb (length prefix) (length elems) then
    andm (allm (fun p => sub (fst p) (snd p)) (combine elems prefix)) (allm (fun e => sub e tail) (skipn (length prefix) elems))
  else Some false.
(** subtype.rs 188-232. *)
Definition record_subtype (sub : type -> type -> option bool) (sf : list (string * presence type)) (so : bool) (sr : list string)
    (tf : list (string * presence type)) (t_open : bool) (tr : list string) : option bool :=
  do ok <- allm (fun kp =>
    match snd kp, get (fst kp) sf with
    | Required t, Some (Required s) => sub s t
    | Required _, _ => Some false
    | Optional t, Some p => sub (pty p) t
    | Optional _, None => Some true
    end) tf;
  Some (ok && negb (negb (t_open || nonempty tr) && (so || nonempty sr))).

(** subtype.rs 91-298: the rules for types other than recursive ones, first match first. *)
Definition rules (sub : type -> type -> option bool) (s t : type) : option bool :=
  match s, t with
  | TNever, _ => Some true
  | _, TTop => Some true
  | TTop, _ => Some false
  | _, TNever => Some false
  | TAny, _ => Some true
  | _, TAny => Some true
  | TVar _ _, _ => Some true
  | _, TVar _ _ => Some true
  | TSymLit _, TBase Symbol => Some true
  | TStrLit _, TBase String => Some true
  | TApp _ _, TApp _ _ => app_subtype sub s t
  | TTuple es, TApp _ _ =>
      match arg_of "List" t, arg_of "NonEmpty" t with
      | Some u, _ => allm (fun e => sub e u) es
      | None, Some u => if nonempty es then allm (fun e => sub e u) es else Some false
      | None, None => Some false
      end
  | TTuple es, TTuple fs =>
      if Nat.eqb (length es) (length fs) then allm (fun p => sub (fst p) (snd p)) (combine es fs) else Some false
  | TPrefix [] a, _ => sub (list_of a) t
  | _, TPrefix [] a => sub s (list_of a)
  | TTuple es, TPrefix p a => matches_prefix sub es p a
  | TPrefix p a, TPrefix q b => andm (matches_prefix sub p q b) (sub a b)
  | TPrefix p a, TApp _ _ =>
      match arg_of "List" t with Some u => andm (allm (fun e => sub e u) p) (sub a u) | None => Some false end
  | TApp _ _, TPrefix p a =>
      match arg_of "NonEmpty" s with
      | Some u => match p with [e] => andm (sub u e) (sub u a) | _ => Some false end
      | None => Some false
      end
  | TRecord sf so sr, TRecord tf t_open tr => record_subtype sub sf so sr tf t_open tr
  | TRecord sf so sr, TApp _ _ =>
      match arg_of "Dict" t with
      | Some b => if so || nonempty sr then Some false else allm (fun kp => sub (pty (snd kp)) b) sf
      | None => Some false
      end
  | TApp _ _, TRecord tf t_open _ =>
      match arg_of "Dict" s with Some _ => Some (t_open && negb (nonempty tf)) | None => Some false end
  | TFun a b, TFun c d => andm (sub c a) (sub b d)
  | TUnion vs, _ => allm (fun v => sub v t) vs
  | _, TUnion vs => anym (fun v => sub s v) vs
  | TForall _ b, _ => sub b t
  | _, TForall _ b => sub s b
  | TCon _, _ => Some false
  | _, TCon _ => Some false
  | TLam x a, TLam y b => if String.eqb x y then sub a b else Some true
  | TLam _ _, _ => Some true
  | _, TLam _ _ => Some true
  | _, _ => Some false
  end.

(** subtype.rs 46-90. *)
Fixpoint subtype (fuel : nat) (s t : type) (assumed : list (type * type)) : option bool :=
  match fuel with
  | O => None
  | S fuel =>
      do s <- beta_reduce fuel s; do t <- beta_reduce fuel t;
      if type_eqb s t then Some true
      else if assumes assumed s t then Some true
      else
        match s, t with
        | TMu x b, _ => subtype fuel (unfold_mu x b s) t ((s, t) :: assumed)
        | _, TMu x b => subtype fuel s (unfold_mu x b t) ((s, t) :: assumed)
        | _, _ => rules (fun s t => subtype fuel s t assumed) s t
        end
  end.
(** subtype.rs 41-43. *)
Definition is_subtype (fuel : nat) (s t : type) : option bool := subtype fuel s t [].

(** check.rs 3051-3070. *)
Definition subtract_type (fuel : nat) (t remove : type) : option type :=
  match t with
  | TUnion vs =>
      do keep <- mapm (fun v => do b <- is_subtype fuel v remove; Some (v, negb b)) vs;
      Some match map fst (filter snd keep) with [] => TNever | [v] => v | vs => TUnion vs end
  | t => do b <- is_subtype fuel t remove; Some (if b then TNever else t)
  end.
(** check.rs 3076-3078. *)
Definition make_union_type (a b : type) : type := union [a; b].

(** ** Consistency (subtype.rs 390-618) *)
(** subtype.rs 585-618. *)
Definition app_consistent (con : type -> type -> option bool) (either : option bool) (s t : type) : option bool :=
  let single :=
    match as_single s, as_single t with
    | Some (sn, si), Some (tn, ti) =>
        if String.eqb sn tn || String.eqb sn "NonEmpty" && String.eqb tn "List" || String.eqb sn "List" && String.eqb tn "NonEmpty"
        then con si ti else either
    | _, _ => either
    end in
  match as_two s, as_two t with
  | Some (sn, sa, sb), Some (tn, ta, tb) =>
      if String.eqb sn tn || String.eqb sn "Lens" && String.eqb tn "Traversal" || String.eqb sn "Traversal" && String.eqb tn "Lens"
      then andm (con sa ta) (con sb tb) else single
  | _, _ => single
  end.
(** subtype.rs 515-551. *)
Definition record_consistent (con : type -> type -> option bool) (sf : list (string * presence type)) (so : bool) (sr : list string)
    (tf : list (string * presence type)) (t_open : bool) : option bool :=
  let s_is_open := so || nonempty sr in
  do ok <- allm (fun kp =>
    match snd kp, get (fst kp) sf with
    | Required t, Some p => con (pty p) t
    | Required _, None => Some s_is_open
    | Optional t, Some p => con (pty p) t
    | Optional _, None => Some true
    end) tf;
  let extra := existsb (fun kp => negb (contains_key (fst kp) tf) && is_required (snd kp)) sf in
  Some (ok && negb (negb t_open && extra && negb s_is_open)).
Definition is_var (t : type) : bool := match t with TVar _ _ => true | _ => false end.
Definition abstract_app (t : type) : bool := match t with TApp f _ => is_var f | _ => false end.
Definition literal_pair (s t : type) : bool :=
  match s, t with
  | TSymLit _, TBase Symbol | TBase Symbol, TSymLit _ | TStrLit _, TBase String | TBase String, TStrLit _ => true
  | _, _ => false
  end.

Fixpoint consistent (fuel : nat) (s t : type) (assumed : list (type * type)) : option bool :=
  match fuel with
  | O => None
  | S fuel =>
      do s <- beta_reduce fuel s; do t <- beta_reduce fuel t;
      if is_any s || is_any t then Some true
      else if assumes assumed s t then Some true
      else if literal_pair s t then Some true
      else
        let con s t := consistent fuel s t assumed in
        let either := orm (is_subtype fuel s t) (is_subtype fuel t s) in
        match s, t with
        | TMu x b, _ => consistent fuel (unfold_mu x b s) t ((s, t) :: assumed)
        | _, TMu x b => consistent fuel s (unfold_mu x b t) ((s, t) :: assumed)
        | _, _ =>
          if abstract_app s || abstract_app t then Some true else
          match s, t with
          | TApp _ _, TApp _ _ => app_consistent con either s t
          | TTuple es, TTuple fs =>
              if Nat.eqb (length es) (length fs) then allm (fun p => con (fst p) (snd p)) (combine es fs) else either
          | TTuple es, TApp _ _ =>
              match arg_of "NonEmpty" t with
              | Some u => if nonempty es then allm (fun e => con e u) es else Some false
              | None => either
              end
          | TApp _ _, TTuple es =>
              match arg_of "NonEmpty" s with
              | Some u => if nonempty es then allm (fun e => con u e) es else Some false
              | None => either
              end
          | TPrefix p a, TPrefix q b =>
              let n := Nat.min (length p) (length q) in
              andm (allm (fun e => con (fst e) (snd e)) (combine (firstn n p) (firstn n q)))
              (andm (allm (fun e => con e b) (skipn n p))
              (andm (allm (fun e => con a e) (skipn n q))
                    (con a b)))
          | TTuple es, TPrefix p a => matches_prefix con es p a
          | TPrefix p a, TTuple es => matches_prefix con es p a
          | TPrefix p a, TApp _ _ =>
              match arg_of "List" t with Some u => andm (allm (fun e => con e u) p) (con a u) | None => either end
          | TApp _ _, TPrefix p a =>
              match arg_of "List" s with Some u => andm (allm (fun e => con u e) p) (con u a) | None => either end
          | TFun a b, TFun c d => andm (con c a) (con b d)
          | TRecord sf so sr, TRecord tf t_open _ => record_consistent con sf so sr tf t_open
          | TRecord f _ _, TApp _ _ =>
              match arg_of "Dict" t with Some b => allm (fun kp => con (pty (snd kp)) b) f | None => either end
          | TApp _ _, TRecord f _ _ =>
              match arg_of "Dict" s with Some a => allm (fun kp => con a (pty (snd kp))) f | None => either end
          | TUnion vs, _ => anym (fun v => con v t) vs
          | _, TUnion vs => anym (fun v => con s v) vs
          | TForall _ b, _ => con b t
          | _, TForall _ b => con s b
          | TLam _ _, _ => Some true
          | _, TLam _ _ => Some true
          | _, _ => either
          end
        end
  end.
Definition is_consistent (fuel : nat) (s t : type) : option bool := consistent fuel s t [].

(** ** Kinds (types.rs 116-170) *)
Definition constructor_kind (n : string) : kind :=
  if covariant n then Arrow Star Star else if mem n ["Lens"; "Traversal"] then Arrow Star (Arrow Star Star) else Star.
Fixpoint kind_of (t : type) : kind :=
  match t with
  | TCon n => constructor_kind n
  | TApp f _ => match kind_of f with Arrow _ r => r | Star => Star end
  | TVar _ k => k
  | TLam _ b => Arrow Star (kind_of b)
  | _ => Star
  end.

(** ** Unification (unify.rs) *)
(** unify.rs 124. A map; the first entry for a name counts. *)
Definition subst := list (string * type).
Definition remove (x : string) (s : subst) : subst := filter (fun p => negb (String.eqb (fst p) x)) s.
Definition insert (x : string) (t : type) (s : subst) : subst := (x, t) :: s.

(** unify.rs 575-601: absorbing what a row variable is bound to. *)
Record row_acc := mkAcc { a_fields : list (string * presence type); a_rows : list string; a_open : bool; a_extra : list string }.
(** [entry(k).or_insert(p)] in a map kept in key order. *)
Fixpoint or_insert {A} (k : string) (p : A) (l : list (string * A)) : list (string * A) :=
  match l with
  | [] => [(k, p)]
  | (k', q) :: l' =>
      match String.compare k k' with Eq => l | Lt => (k, p) :: l | Gt => (k', q) :: or_insert k p l' end
  end.
Definition absorb (bound : type) (a : row_acc) : row_acc :=
  match bound with
  | TRecord f o r =>
      mkAcc (fold_left (fun m kp => or_insert (fst kp) (snd kp) m) f (a_fields a)) (a_rows a) (a_open a || o) (a_extra a ++ r)
  | TVar x _ => mkAcc (a_fields a) (a_rows a ++ [x]) (a_open a) (a_extra a)
  | _ => mkAcc (a_fields a) (a_rows a) true (a_extra a)
  end.
(** unify.rs 545-651. A row variable that is not bound stands for itself (602-606). *)
Fixpoint apply_subst (fuel : nat) (t : type) (s : subst) : option type :=
  match fuel with
  | O => None
  | S fuel =>
      match s with
      | [] => Some t
      | _ =>
        let go t := apply_subst fuel t s in
        match t with
        | TVar x _ => match get x s with Some r => go r | None => Some t end
        | TApp f a => do f <- go f; do a <- go a; beta_reduce fuel (TApp f a)
        | TTuple l => do l <- mapm go l; Some (TTuple l)
        | TPrefix l a => do l <- mapm go l; do a <- go a; Some (prefix_list l a)
        | TFun a b => do a <- go a; do b <- go b; Some (TFun a b)
        | TRecord f o rows =>
            do f <- fieldsm go f;
            do a <- (fix loop rows a :=
              match rows with
              | [] => Some a
              | r :: rows =>
                  match get r s with
                  | Some bound => do b <- go bound; loop rows (absorb b a)
                  | None => loop rows (mkAcc (a_fields a) (a_rows a ++ [r]) (a_open a) (a_extra a))
                  end
              end) rows (mkAcc f [] o []);
            Some (TRecord (a_fields a) (a_open a) (a_rows a ++ a_extra a))
        | TUnion l => do l <- mapm go l; Some (TUnion l)
        | TMu x b => do b <- apply_subst fuel b (remove x s); Some (TMu x b)
        | TForall bs b => do b <- apply_subst fuel b (fold_left (fun s x => remove (fst x) s) bs s); Some (TForall bs b)
        | TLam x b => do b <- apply_subst fuel b (remove x s); Some (TLam x b)
        | t => Some t
        end
      end
  end.

(** unify.rs 889-926. *)
Fixpoint occurs (x : string) (t : type) : bool :=
  match t with
  | TVar y _ => String.eqb y x
  | TApp f a => occurs x f || occurs x a
  | TFun a b => occurs x a || occurs x b
  | TTuple l => existsb (occurs x) l
  | TPrefix l a => existsb (occurs x) l || occurs x a
  | TRecord f _ rows => existsb (fun kp => occurs x (pty (snd kp))) f || mem x rows
  | TUnion l => existsb (occurs x) l
  | TMu y b => negb (String.eqb y x) && occurs x b
  | TForall bs b => if mem x (map fst bs) then false else occurs x b
  | TLam y b => negb (String.eqb y x) && occurs x b
  | _ => false
  end.

(** unify.rs 127-135. *)
Inductive unify_error := Mismatch (a b : type) | OccursCheck (x : string) (t : type) | KindMismatch (a b : kind).
(** The substitution is updated in place, so a failure leaves what was bound before it. *)
Definition answer : Type := subst * option unify_error.
Definition ok (s : subst) : option answer := Some (s, None).
Definition fail (s : subst) (e : unify_error) : option answer := Some (s, Some e).
Definition andthen (x : option answer) (f : subst -> option answer) : option answer :=
  do r <- x; match snd r with None => f (fst r) | Some _ => Some r end.

(** unify.rs 515-542. *)
Definition bind_var (x : string) (k : kind) (rhs : type) (s : subst) : option answer :=
  if occurs x rhs then fail s (OccursCheck x rhs)
  else
    let rhs := match rhs with TStrLit _ => TBase String | TSymLit _ => TBase Symbol | t => t end in
    if kind_eqb (kind_of rhs) k then ok (insert x rhs s) else fail s (KindMismatch k (kind_of rhs)).

(** unify.rs 727-735: the names are numbered from 0 at both uses in [unify]. The tenth name on is
    written with more digits. *)
Definition digit (n : nat) : string := Strings.String.String (ascii_of_nat (48 + n)) EmptyString.
Fixpoint decimal (fuel n : nat) : string :=
  match fuel with
  | O => digit (n mod 10)
  | S fuel => if Nat.ltb n 10 then digit n else (decimal fuel (n / 10) ++ digit (n mod 10))%string
  end.
Definition fresh_name (n : nat) : string := ("_t" ++ decimal n n)%string.
Definition freshen_forall (fuel : nat) (bs : list (string * kind)) (b : type) : option type :=
  apply_subst fuel b
    (fold_left (fun s p => insert (fst (snd p)) (TVar (fresh_name (fst p)) (snd (snd p))) s) (combine (seq 0 (length bs)) bs) []).

(** unify.rs 183-190, 207-214: the guard of higher-order pattern unification. *)
Definition pattern_of (t : type) (s : subst) : option (string * string) :=
  match t with
  | TApp (TVar m (Arrow _ _)) (TVar x Star) => if contains_key m s then None else Some (m, x)
  | _ => None
  end.
Definition structural (t : type) : bool := match t with TApp _ _ | TVar _ _ => false | _ => true end.

(** unify.rs 395-432: one side's row variables take up the other side's extra fields. *)
Definition bind_rows (fuel : nat) (rows1 : list string) (f1 : list (string * presence type))
    (f2 : list (string * presence type)) (open2 : bool) (rows2 : list string) (skip : string -> subst -> bool) (s : subst) : option subst :=
  fold_left (fun acc r =>
    do s <- acc;
    if skip r s then Some s else
    do resolved <- apply_subst fuel (TVar r Star) s;
    if is_var resolved then
      do extra <- fieldsm (fun v => apply_subst fuel v s) (filter (fun kp => negb (contains_key (fst kp) f1)) f2);
      let extra_ty :=
        match extra, rows2 with
        | [], [r2] => TVar r2 Star
        | _, _ => TRecord extra (nonempty extra && open2 || nonempty rows2) rows2
        end in
      Some (if occurs r extra_ty then s else insert r extra_ty s)
    else Some s) rows1 (Some s).

(** unify.rs 217-512, [uni] being the unification of parts. *)
Definition unify_shapes (uni : type -> type -> subst -> option answer) (fuel : nat) (t1 t2 : type) (s : subst) : option answer :=
  let both l1 l2 s := fold_left (fun acc p => andthen acc (uni (fst p) (snd p))) (combine l1 l2) (ok s) in
  match t1, t2 with
  | TVar x k, _ => bind_var x k t2 s
  | _, TVar x k => bind_var x k t1 s
  | TSymLit _, TBase Symbol | TBase Symbol, TSymLit _ | TStrLit _, TBase String | TBase String, TStrLit _ => ok s
  | TCon _, TCon _ => fail s (Mismatch t1 t2)
  | TApp f1 x1, TApp f2 x2 =>
      match arg_of "NonEmpty" t1, arg_of "List" t2, arg_of "List" t1, arg_of "NonEmpty" t2 with
      | Some e1, Some e2, _, _ | _, _, Some e1, Some e2 => uni e1 e2 s
      | _, _, _, _ =>
          andthen (uni f1 f2 s) (fun s =>
          do x1 <- apply_subst fuel x1 s; do x2 <- apply_subst fuel x2 s; uni x1 x2 s)
      end
  | TForall bs b, _ => do b <- freshen_forall fuel bs b; uni b t2 s
  | _, TForall bs b => do b <- freshen_forall fuel bs b; uni t1 b s
  | TFun a1 b1, TFun a2 b2 =>
      andthen (uni a1 a2 s) (fun s =>
      do b1 <- apply_subst fuel b1 s; do b2 <- apply_subst fuel b2 s; uni b1 b2 s)
  | TTuple l1, TTuple l2 =>
      if Nat.eqb (length l1) (length l2) then both l1 l2 s else fail s (Mismatch t1 t2)
  | TPrefix l1 a1, TPrefix l2 a2 =>
      if Nat.eqb (length l1) (length l2) then andthen (both l1 l2 s) (uni a1 a2) else fail s (Mismatch t1 t2)
  | TRecord f1 open1 rows1, TRecord f2 open2 rows2 =>
      andthen
        (fold_left (fun acc kp =>
           match get (fst kp) f2 with
           | None => acc
           | Some p2 => andthen acc (fun s =>
               do v1 <- apply_subst fuel (pty (snd kp)) s; do v2 <- apply_subst fuel (pty p2) s; uni v1 v2 s)
           end) f1 (ok s))
        (fun s =>
         if existsb (fun kp => negb (contains_key (fst kp) f2)) f1 && negb (nonempty rows2) then fail s (Mismatch t1 t2)
         else if existsb (fun kp => negb (contains_key (fst kp) f1)) f2 && negb open1 && negb (nonempty rows1) then fail s (Mismatch t1 t2)
         else
           do s <- bind_rows fuel rows1 f1 f2 open2 rows2 (fun _ _ => false) s;
           do s <- bind_rows fuel rows2 f2 f1 open1 rows1
             (fun r2 s => existsb (fun r1 => match get r1 s with Some t => type_eqb t (TVar r2 Star) | None => false end) rows1) s;
           ok s)
  | TApp (TCon n) t, TRecord f o rows =>
      if String.eqb n "Dict" then
        if o || nonempty rows then uni t TAny s else uni t (union (map (fun kp => pty (snd kp)) f)) s
      else fail s (Mismatch t1 t2)
  | TRecord f o rows, TApp (TCon n) t =>
      if String.eqb n "Dict" then
        if o || nonempty rows then uni TAny t s else uni (union (map (fun kp => pty (snd kp)) f)) t s
      else fail s (Mismatch t1 t2)
  | TMu x b, _ => uni (unfold_mu x b t1) t2 s
  | _, TMu x b => uni (unfold_mu x b t2) t1 s
  | _, _ => fail s (Mismatch t1 t2)
  end.
(** unify.rs 157-215: the types with the substitution applied. *)
Definition unify_heads (uni : type -> type -> subst -> option answer) (fuel : nat) (t1 t2 : type) (s : subst) : option answer :=
  if is_any t1 || is_any t2 then ok s
  else if type_eqb t1 t2 then ok s
  else match (if structural t2 then pattern_of t1 s else None) with
  | Some (m, x) => if occurs m t2 then fail s (OccursCheck m t2) else ok (insert m (TLam x t2) s)
  | None =>
  match (if structural t1 then pattern_of t2 s else None) with
  | Some (m, x) => if occurs m t1 then fail s (OccursCheck m t1) else ok (insert m (TLam x t1) s)
  | None =>
  unify_shapes uni fuel t1 t2 s
  end end.
(** unify.rs 153-156. *)
Fixpoint unify (fuel : nat) (t1 t2 : type) (s : subst) : option answer :=
  match fuel with
  | O => None
  | S fuel => do t1 <- apply_subst fuel t1 s; do t2 <- apply_subst fuel t2 s; unify_heads (unify fuel) fuel t1 t2 s
  end.
