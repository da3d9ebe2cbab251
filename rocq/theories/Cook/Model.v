(** Anaphora, src/core/anaphora.rs, and cooking, src/core/cook/mod.rs: turning operator
    soup with implicit parameters into functions.

    Simplifications: source locations are kept only where they matter here, on operators
    and in the identities of anaphora; a location id ([Smid], src/common/sourcemap.rs:26)
    is a number, 0 being the invalid one, which is also the order Rust gives it.  The
    shunting yard itself is a parameter (it is the subject of C01-C03).  The fixities
    have been distributed to the operators already (src/core/cook/fixity.rs). *)
From Coq Require Import String Ascii List Bool Arith NArith ZArith DecimalString.
From Verif.Scope Require Import Model.
From Verif.Simplify Require Import Compress.
Import ListNotations.
Local Open Scope string_scope.
Local Open Scope list_scope.
Local Open Scope nat_scope.

(** ** Anaphora *)

(** [ImplicitAnaphorSide], src/core/expr.rs:177-184. *)
Inductive side := SideLeft | SideRight.
(** [Anaphor<Smid, i32>], src/core/expr.rs:209-224. *)
Inductive anaphor := Anonymous (s : N) | Numbered (n : Z) | Implicit (s : N) (sd : side).

Definition side_eqb (a b : side) : bool :=
  match a, b with SideLeft, SideLeft | SideRight, SideRight => true | _, _ => false end.
(** The derived equality of anaphora. *)
Definition anaphor_eqb (a b : anaphor) : bool :=
  match a, b with
  | Anonymous s, Anonymous t => (s =? t)%N
  | Numbered m, Numbered n => (m =? n)%Z
  | Implicit s x, Implicit t y => (s =? t)%N && side_eqb x y
  | _, _ => false
  end.

(** [Ord for ImplicitAnaphorSide], src/core/expr.rs:192-206, as it stands. *)
Definition side_cmp (a b : side) : comparison :=
  match a, b with
  | SideLeft, SideRight => Lt
  | SideLeft, SideLeft => Eq
  | SideRight, SideLeft => Eq
  | SideRight, SideRight => Gt
  end.
(** [Ord for Anaphor], src/core/expr.rs:240-266. *)
Definition anaphor_cmp (a b : anaphor) : comparison :=
  match a, b with
  | Numbered n, Numbered p => (n ?= p)%Z
  | Anonymous s, Anonymous t => (s ?= t)%N
  | Implicit s x, Implicit t y => match (s ?= t)%N with Eq => side_cmp x y | ret => ret end
  | Numbered _, _ => Lt
  | Implicit _ _, _ => Gt
  | _, Numbered _ => Gt
  | _, Implicit _ _ => Lt
  end.
(** [PartialOrd::lt], the comparison that [slice::sort] uses. *)
Definition anaphor_lt (a b : anaphor) : bool := match anaphor_cmp a b with Lt => true | _ => false end.

(** [slice::sort], a stable sort. *)
Fixpoint insert (x : anaphor) (l : list anaphor) : list anaphor :=
  match l with
  | [] => [x]
  | y :: ys => if anaphor_lt y x then y :: insert x ys else x :: l
  end.
Definition sort (l : list anaphor) : list anaphor := fold_right insert [] l.

(** [Display for Smid], src/common/sourcemap.rs:63-70, and [Display for Anaphor],
    src/core/expr.rs:280-293. *)
Definition show_smid (s : N) : string :=
  (if (s =? 0)%N then "[?]" else "[" ++ NilZero.string_of_uint (N.to_uint s) ++ "]")%string.
Definition show_int (n : Z) : string := NilZero.string_of_int (Z.to_int n).
Definition show_anaphor (a : anaphor) : string :=
  match a with
  | Anonymous s => "_a" ++ show_smid s
  | Numbered n => "_n" ++ show_int n
  | Implicit s SideLeft => "_il" ++ show_smid s
  | Implicit s SideRight => "_ir" ++ show_smid s
  end%string.

(** A [HashMap<Anaphor, String>]: its entries in the order they happen to be iterated. *)
Definition pending := list (anaphor * string).
Fixpoint get (m : pending) (a : anaphor) : option string :=
  match m with
  | [] => None
  | (b, name) :: m => if anaphor_eqb a b then Some name else get m a
  end.

Definition is_anonymous (a : anaphor) : bool := match a with Anonymous _ => true | _ => false end.
Definition is_numbered (a : anaphor) : bool := match a with Numbered _ => true | _ => false end.
Definition is_implicit (a : anaphor) : bool := match a with Implicit _ _ => true | _ => false end.
Definition number (a : anaphor) : option Z := match a with Numbered n => Some n | _ => None end.
Definition filter_map {A B} (f : A -> option B) (l : list A) : list B :=
  flat_map (fun a => match f a with Some b => [b] | None => [] end) l.
Definition nonempty {A} (l : list A) : bool := match l with [] => false | _ => true end.

(** [v[i] = x], a panic when out of range. *)
Fixpoint set_nth {A} (v : list A) (i : nat) (x : A) : outcome (list A) :=
  match v, i with
  | [], _ => Panic
  | _ :: v, 0 => Done (x :: v)
  | y :: v, S i => obind (set_nth v i x) (fun v => Done (y :: v))
  end.
(** The loop of anaphora.rs:51-53; a negative number is out of range as a [usize]. *)
Fixpoint place (m : pending) (numbers : list Z) (v : list (option string)) : outcome (list (option string)) :=
  match numbers with
  | [] => Done v
  | n :: ns =>
      if (n <? 0)%Z then Panic
      else obind (of_opt (get m (Numbered n))) (fun name =>
           obind (set_nth v (Z.to_nat n) (Some name)) (place m ns))
  end.
Definition gap_name (i : nat) : string := ("_d" ++ show_int (Z.of_nat i))%string.
Fixpoint name_gaps (i : nat) (v : list (option string)) : list string :=
  match v with
  | [] => []
  | x :: v => (match x with Some n => n | None => gap_name i end) :: name_gaps (S i) v
  end.
Definition maximum (l : list Z) : option Z :=
  match l with [] => None | x :: xs => Some (fold_left Z.max xs x) end.

(** [to_binding_pattern] with [sort_anaphora], anaphora.rs:18-92.  A negative maximum
    makes line 50 overflow, or ask for an impossible capacity, or leaves an empty vector
    that line 52 indexes. *)
Definition to_binding_pattern (m : pending) : outcome (list string) :=
  let keys := map fst m in
  let numberless := sort (filter is_anonymous keys) in
  let numbered := sort (filter is_numbered keys) in
  let section := sort (filter is_implicit keys) in
  let types := Nat.b2n (nonempty numberless) + Nat.b2n (nonempty numbered) + Nat.b2n (nonempty section) in
  if 1 <? types then Error
  else if nonempty numberless then collect (map (fun a => of_opt (get m a)) numberless)
  else if nonempty section then collect (map (fun a => of_opt (get m a)) section)
  else if nonempty numbered then
    let numbers := filter_map number numbered in
    match maximum numbers with
    | None => Panic
    | Some max =>
        if (max <? 0)%Z then Panic
        else obind (place m numbers (repeat None (Z.to_nat max + 1))) (fun v => Done (name_gaps 0 v))
    end
  else Panic.

(** ** Recognising anaphora in the source *)

(** [str::parse::<i32>] on text without a sign: code points 48-57 are the digits. *)
Fixpoint parse_digits (acc : Z) (s : list N) : option Z :=
  match s with
  | [] => Some acc
  | c :: s =>
      if (48 <=? c)%N && (c <=? 57)%N then
        let acc := (acc * 10 + Z.of_N (c - 48))%Z in
        if (acc <=? 2147483647)%Z then parse_digits acc s else None
      else None
  end.
(** [PrefixAnaphorIncantation::number_str], anaphora.rs:111-117, given what follows the
    prefix; [is_anaphor] (lines 106-108) lets only numeric characters through. *)
Definition number_str (s : list N) : option Z := match s with [] => None | _ => parse_digits 0 s end.
(** [to_explicit_anaphor], lines 120-125. *)
Definition to_explicit_anaphor (smid : N) (s : list N) : anaphor :=
  match number_str s with Some n => Numbered n | None => Anonymous smid end.

(** ** Cooking *)

(** Expressions before cooking: as in [Scope.Model.expr], with anaphora, soup and
    operators made explicit. *)
Inductive raw :=
| RVar (v : var)
| RLet (bs : list (binding raw)) (body : raw) (t : lettype)
| RLam (inlined : bool) (params : list string) (body : raw)
| RNode (k : kind) (xs : list raw)
| ROp (s : N) (f : fixity) (prec : nat) (body : raw)
| RSoup (bracket : bool) (xs : list raw)
| RExprAna (a : anaphor)
| RBlockAna (a : anaphor).

(** [BindSide] and [bind_sides], src/core/cook/fill.rs:49-70. *)
Inductive bind_side := OpLike | ValueLike.
Definition bind_sides (r : option raw) : bind_side * bind_side :=
  match r with
  | Some (ROp _ Nullary _ _) => (ValueLike, ValueLike)
  | Some (ROp _ UnaryPrefix _ _) => (ValueLike, OpLike)
  | Some (ROp _ UnaryPostfix _ _) => (OpLike, ValueLike)
  | Some (ROp _ _ _ _) => (OpLike, OpLike)
  | Some _ => (ValueLike, ValueLike)
  | None => (OpLike, OpLike)
  end.
(** Only the locations of operators are asked for. *)
Definition raw_smid (r : option raw) : N := match r with Some (ROp s _ _ _) => s | _ => 0%N end.

(** [filler], fill.rs:74-99; [None] is the error [NoSmidForImplicitAnaphor]. *)
Inductive fill := NoFill | FillCat | FillAna (a : anaphor).
Definition filler (l r : option raw) : option fill :=
  match snd (bind_sides l), fst (bind_sides r) with
  | ValueLike, ValueLike => Some FillCat
  | OpLike, OpLike =>
      if negb (raw_smid r =? 0)%N then Some (FillAna (Implicit (raw_smid r) SideLeft))
      else if negb (raw_smid l =? 0)%N then Some (FillAna (Implicit (raw_smid l) SideRight))
      else None
  | _, _ => Some NoFill
  end.

(** [fill_gaps], fill.rs:12-46: what goes before each item and what goes last. *)
Fixpoint gaps_from (l : option raw) (xs : list raw) : option (list fill) :=
  match xs with
  | [] => option_map (fun g => [g]) (filler l None)
  | x :: xs =>
      match filler l (Some x), gaps_from (Some x) xs with
      | Some g, Some gs => Some (g :: gs)
      | _, _ => None
      end
  end.
Definition gaps (xs : list raw) : option (list fill) :=
  match xs with [] => Some [NoFill] | _ => gaps_from None xs end.

(** Whether there are naked anaphora, fill.rs:20-43, anaphora.rs:10-15. *)
Definition naked (gs : list fill) (xs : list raw) : bool :=
  existsb (fun x => match x with RExprAna _ => true | _ => false end) xs ||
  existsb (fun g => match g with FillAna _ => true | _ => false end) gs.

(** The fields of [Cooker], mod.rs:70-87. *)
Record state := mkSt { in_scope : bool; pe : pending; pb : pending }.

(** [cook_expr_anaphor] and [cook_block_anaphor], mod.rs:176-192: [entry(..).or_insert_with(..)]. *)
Definition record (prefix : string) (a : anaphor) (m : pending) : string * pending :=
  match get m a with
  | Some name => (name, m)
  | None => let name := (prefix ++ show_anaphor a)%string in (name, m ++ [(a, name)])
  end.
Definition cook_expr_anaphor (a : anaphor) (st : state) : expr * state :=
  let '(name, m) := record "_e" a (pe st) in (EVar (Free name), mkSt (in_scope st) m (pb st)).
Definition cook_block_anaphor (a : anaphor) (st : state) : expr * state :=
  let '(name, m) := record "_b" a (pb st) in (EVar (Free name), mkSt (in_scope st) (pe st) m).

(** [ops::cat()], src/core/expr.rs:1860-1867, and [is_cat_operator], mod.rs:115-121. *)
Definition cat : expr := ENode (KOperator InfixLeft 20) [ENode KErrPseudoCat []].
Definition is_cat_operator (e : expr) : bool :=
  match e with ENode (KOperator _ _) [ENode KErrPseudoCat []] => true | _ => false end.
(** [split_at_cat_operators], mod.rs:95-112. *)
Fixpoint split_at_cat (current : list expr) (atoms : list expr) : list (list expr) :=
  match atoms with
  | [] => match current with [] => [] | _ => [rev current] end
  | a :: atoms =>
      if is_cat_operator a then
        match current with [] => split_at_cat [] atoms | _ => rev current :: split_at_cat [] atoms end
      else split_at_cat (a :: current) atoms
  end.

(** Cooking the elements of a vector in turn. *)
Definition map_st {A B} (f : A -> state -> outcome (B * state)) :=
  fix go (xs : list A) (st : state) : outcome (list B * state) :=
    match xs with
    | [] => Done ([], st)
    | x :: xs =>
        obind (f x st) (fun '(y, st) =>
        obind (go xs st) (fun '(ys, st) => Done (y :: ys, st)))
    end.
(** Cooking what [fill_gaps] put into a gap. *)
Definition cook_fill (g : fill) (st : state) : list expr * state :=
  match g with
  | NoFill => ([], st)
  | FillCat => ([cat], st)
  | FillAna a => let '(e, st) := cook_expr_anaphor a st in ([e], st)
  end.
Definition cook_items (f : raw -> state -> outcome (expr * state)) :=
  fix go (gs : list fill) (xs : list raw) (st : state) {struct xs} : outcome (list expr * state) :=
    match xs, gs with
    | [], g :: _ => Done (cook_fill g st)
    | x :: xs, g :: gs =>
        let '(es, st) := cook_fill g st in
        obind (f x st) (fun '(y, st) =>
        obind (go gs xs st) (fun '(ys, st) => Done (es ++ y :: ys, st)))
    | _, [] => Done ([], st)
    end.

(** [core::lam], src/core/expr.rs:1913-1915. *)
Definition lam (ps : list string) (body : expr) : expr := ELam false ps (close_expr_vars ps 0 body).

(** [process_block_anaphora], mod.rs:305-364, on a cooked let. *)
Definition process_block (m : pending) (bs : list (binding expr)) (body : expr) (t : lettype) : outcome expr :=
  obind (to_binding_pattern m) (fun binders =>
    let all_alias := forallb (fun b => match b_expr b with
      | EVar (Free name) => existsb (String.eqb name) (map snd m)
      | _ => false end) bs in
    if all_alias && (List.length bs =? 1) && (List.length binders =? 1)
    then Done (ELam false (map b_name bs) body)
    else Done (lam binders (ELet bs body t))).

Section Cook.
  (** [shunt::shunt], src/core/cook/shunt.rs. *)
  Variable shunt : list expr -> outcome expr.

  (** The part of [cook_soup], mod.rs:221-234, after the atoms are cooked. *)
  Definition assemble (bracket : bool) (atoms : list expr) : outcome expr :=
    if bracket then obind (collect (map shunt (split_at_cat [] atoms))) (fun items => Done (ENode KList items))
    else shunt atoms.

  (** [cook_], [cook_soup] and [cook_let], mod.rs:164-266. *)
  Fixpoint cook (r : raw) (st : state) {struct r} : outcome (expr * state) :=
    match r with
    | RVar v => Done (EVar v, st)
    | RLam inlined ps body => obind (cook body st) (fun '(e, st) => Done (ELam inlined ps e, st))
    | RNode k xs => obind (map_st cook xs st) (fun '(es, st) => Done (ENode k es, st))
    | ROp _ f p body => obind (cook body st) (fun '(e, st) => Done (ENode (KOperator f p) [e], st))
    | RExprAna a => Done (cook_expr_anaphor a st)
    | RBlockAna a => Done (cook_block_anaphor a st)
    | RLet bs body t =>
        let inside := nonempty (pb st) in
        obind (map_st (fun b st => obind (cook (b_expr b) st) (fun '(e, st) =>
                 Done (mkBinding (b_name b) e (b_demand b), st))) bs st) (fun '(bs, st) =>
        obind (cook body st) (fun '(body, st) =>
          if nonempty (pb st) && negb inside
          then obind (process_block (pb st) bs body t) (fun e => Done (e, mkSt (in_scope st) (pe st) []))
          else Done (ELet bs body t, st)))
    | RSoup bracket xs =>
        match gaps xs with
        | None => Error
        | Some gs =>
            let wrap := negb (in_scope st) && naked gs xs in
            let old := in_scope st || wrap in
            obind (cook_items cook gs xs (mkSt old (pe st) (pb st))) (fun '(atoms, st) =>
            obind (assemble bracket atoms) (fun cooked =>
              if wrap
              then obind (to_binding_pattern (pe st)) (fun binders => Done (lam binders cooked, mkSt false [] (pb st)))
              else Done (cooked, mkSt old (pe st) (pb st))))
        end
    end.

  (** [cook], mod.rs:23-25, 140-143. *)
  Definition cook_top (r : raw) : outcome expr :=
    obind (cook r (mkSt false [] [])) (fun '(e, _) => Done e).
End Cook.
