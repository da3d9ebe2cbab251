(** Dead code elimination: src/core/simplify/prune.rs. *)
From Coq Require Import List Bool Arith String.
From Verif.Scope Require Import Model.
From Verif.Simplify Require Import Compress.
Import ListNotations.

(** A node of the expression, as the child numbers leading to it from the root, the last
    step first.  The children of a let are the values of its bindings, in order, and
    then its body.  In the code every node is a fresh reference counted cell ([fmap],
    src/core/expr.rs:438-499), so cells and positions correspond and the mark kept in a
    cell (lines 44-60) is a mark kept for a position. *)
Definition path := list nat.
Definition path_eqb (p q : path) : bool := if list_eq_dec Nat.eq_dec p q then true else false.
Definition set {A} (f : path -> A) (p : path) (a : A) (q : path) : A := if path_eqb q p then a else f q.

(** [SeenState], lines 26-40. *)
Inductive seen := Unseen | Seen | SoftSeen | Traversed.
Definition is_seen (s : seen) : bool := match s with Seen => true | _ => false end.
Definition is_unseen (s : seen) : bool := match s with Unseen => true | _ => false end.

(** The marks and use counts (lines 44-78; the count's u32 overflow is not modelled),
    [BlockAccessTracker] (141-190) and the fields [reachable] and [marked_count] of
    [ScopeTracker] (192-198). *)
Record state := mkState {
  seen_at : path -> seen;
  uses : path -> nat;
  candidates : path -> bool;
  disqualified : path -> bool;
  accessed : path -> option (list string);
  reachable : bool;
  marked_count : nat }.
Definition initial : state :=
  mkState (fun _ => Unseen) (fun _ => 0) (fun _ => false) (fun _ => false) (fun _ => None) false 0.

(** [BlockAccessTracker::register], [record_access], [disqualify] and [accessed_members],
    lines 155-189. *)
Definition register (p : path) (st : state) : state :=
  if disqualified st p then st
  else mkState (seen_at st) (uses st) (set (candidates st) p true) (disqualified st) (accessed st) (reachable st) (marked_count st).
Definition record_access (p : path) (member : string) (st : state) : state :=
  mkState (seen_at st) (uses st) (candidates st) (disqualified st)
    (set (accessed st) p (Some (member :: match accessed st p with Some ms => ms | None => [] end))) (reachable st) (marked_count st).
Definition disqualify (p : path) (st : state) : state :=
  mkState (seen_at st) (uses st) (set (candidates st) p false) (set (disqualified st) p true) (accessed st) (reachable st) (marked_count st).
Definition accessed_members (st : state) (p : path) : option (list string) :=
  if candidates st p then accessed st p else None.

(** [RcMarkExpr::mark], [mark_soft] and [set_traversed] (lines 103-133), the first two
    together with the increment of [marked_count] at each of their uses. *)
Definition set_seen (p : path) (s : seen) (st : state) : state :=
  mkState (set (seen_at st) p s) (uses st) (candidates st) (disqualified st) (accessed st) (reachable st) (marked_count st).
Definition mark_as (s : seen) (p : path) (st : state) : state :=
  match seen_at st p with
  | Unseen => mkState (set (seen_at st) p s) (uses st) (candidates st) (disqualified st) (accessed st) (reachable st) (S (marked_count st))
  | _ => st
  end.
Definition increment_use (p : path) (st : state) : state :=
  mkState (seen_at st) (set (uses st) p (S (uses st p))) (candidates st) (disqualified st) (accessed st) (reachable st) (marked_count st).
Definition set_reachable (b : bool) (st : state) : state :=
  mkState (seen_at st) (uses st) (candidates st) (disqualified st) (accessed st) b (marked_count st).
Definition reset_count (st : state) : state :=
  mkState (seen_at st) (uses st) (candidates st) (disqualified st) (accessed st) (reachable st) 0.

(** The enclosing scopes, innermost first: the position and number of bindings of a let,
    [None] for a lambda. *)
Definition scopes := list (option (path * nat)).
(** [encounter], lines 245-261, and [encounter_lookup], lines 267-283, take [act] on the
    binding's value; indexing out of bounds is [None]. *)
Definition at_binding (sc : scopes) (s b : nat) (act : path -> state -> state) (st : state) : option state :=
  if reachable st then
    match nth_error sc s with
    | None => None
    | Some None => Some st
    | Some (Some (p, n)) => if b <? n then Some (act (b :: p) st) else None
    end
  else Some st.
Definition encounter (sc : scopes) (s b : nat) (st : state) : option state :=
  at_binding sc s b (fun t st => mark_as Seen t (increment_use t (disqualify t st))) st.
Definition encounter_lookup (sc : scopes) (s b : nat) (member : string) (st : state) : option state :=
  at_binding sc s b (fun t st =>
    let st := increment_use t st in
    let st := if candidates st t then record_access t member st else st in
    mark_as Seen t st) st.

(** [depend], lines 290-294, and [soft_depend], lines 302-308. *)
Definition depend (dependant dependancy : path) (st : state) : state :=
  match seen_at st dependant with Seen => mark_as Seen dependancy st | _ => st end.
Definition soft_depend (dependant dependancy : path) (st : state) : state :=
  match seen_at st dependant with Seen | SoftSeen => mark_as SoftSeen dependancy st | _ => st end.

(** [CoreExpr::is_default_let], src/core/expr.rs:429-431. *)
Definition is_default_let (e : expr) : bool := match e with ELet _ _ DefaultBlockLet => true | _ => false end.
(** Registering the bindings of a let, lines 335-340. *)
Fixpoint register_from (i : nat) (p : path) (bs : list (binding expr)) (st : state) : state :=
  match bs with
  | [] => st
  | b :: bs => register_from (S i) p bs (if is_default_let (b_expr b) then register (i :: p) st else st)
  end.

(** [mark_body], lines 233-243. *)
Fixpoint mark_body (p : path) (e : expr) (st : state) : state :=
  match e with
  | ELet bs body _ => mark_body (List.length bs :: p) body st
  | ENode KMeta (e :: _ :: _) => mark_body (0 :: p) e (mark_as Seen (1 :: p) st)
  | _ => mark_as Seen p st
  end.

(** [traverse], lines 310-415.  Node kinds without children fall under the last case,
    with an empty list. *)
Fixpoint traverse (sc : scopes) (p : path) (e : expr) (st : state) : option state :=
  match seen_at st p with
  | Traversed => Some st
  | s =>
      let at_boundary := negb (reachable st) && is_seen s in
      let st := if at_boundary then set_reachable true st else st in
      let children := fix go (i : nat) (xs : list expr) (st : state) : option state :=
        match xs with
        | [] => Some st
        | x :: xs => match traverse sc (i :: p) x st with Some st => go (S i) xs st | None => None end
        end in
      let after := match e with
        | EVar (Free _) => Some st
        | EVar (Bound s b _) => encounter sc s b st
        | ELet bs body _ =>
            let sc' := Some (p, List.length bs) :: sc in
            match (fix go (i : nat) (l : list (binding expr)) (st : state) : option state :=
                     match l with
                     | [] => Some st
                     | b :: l => match traverse sc' (i :: p) (b_expr b) (soft_depend (i :: p) p st) with
                                 | Some st => go (S i) l st
                                 | None => None
                                 end
                     end) 0 bs (register_from 0 p bs st) with
            | Some st => traverse sc' (List.length bs :: p) body st
            | None => None
            end
        | ELam _ _ body => traverse (None :: sc) (0 :: p) body st
        | ENode (KLookup m) (EVar (Bound s b _) :: fb) =>
            match encounter_lookup sc s b m st with
            | None => None
            | Some st =>
                match fb with
                | [] => Some st
                | f :: _ =>
                    match f with
                    | EVar (Bound s' b' _) =>
                        if (s' =? s) && (b' =? b) then encounter_lookup sc s' b' m st else traverse sc (1 :: p) f st
                    | _ => traverse sc (1 :: p) f st
                    end
                end
            end
        | ENode KMeta xs => children 0 xs (depend (0 :: p) (1 :: p) st)
        | ENode _ xs => children 0 xs st
        end in
      match after with
      | None => None
      | Some st => Some (if at_boundary then set_reachable false (set_seen p Traversed st) else st)
      end
  end.

(** [pass], lines 207-211, and the loop of [mark_reachable], 202-205, for at most [n]
    passes ([Error] when they are used up, which C07_terminates shows not to happen). *)
Definition pass (e : expr) (st : state) : option state := traverse [] [] e (reset_count st).
Fixpoint passes (n : nat) (e : expr) (st : state) : outcome state :=
  match n with
  | 0 => Error
  | S n => match pass e st with
           | None => Panic
           | Some st => if marked_count st =? 0 then Done st else passes n e st
           end
  end.

(** [demand_from_use_count], lines 427-435. *)
Definition demand_from_use_count (n : nat) : demand :=
  if n =? 0 then default_demand else Basics.Model.mkD Basics.Model.CMulti Basics.Model.SUnknown false false.

(** [blank_unseen], lines 437-514, when [members] is [None] and
    [blank_default_block_let], lines 523-579, otherwise. *)
Fixpoint blank (st : state) (members : option (list string)) (p : path) (e : expr) : expr :=
  match e with
  | EVar _ => e
  | ELet bs body t =>
      let bindings := fun (m : path -> option (list string)) => (fix go (i : nat) (l : list (binding expr)) :=
        match l with
        | [] => []
        | b :: l =>
            (if is_unseen (seen_at st (i :: p)) then mkBinding (b_name b) (ENode KErrEliminated []) default_demand
             else mkBinding (b_name b) (blank st (m (i :: p)) (i :: p) (b_expr b)) (demand_from_use_count (uses st (i :: p))))
            :: go (S i) l
        end) 0 bs in
      let body_path := List.length bs :: p in
      match members, t with
      | Some ms, DefaultBlockLet =>
          ELet (bindings (fun _ => None))
            (match body with
             | ENode (KBlock ks) xs =>
                 let entries := (fix go (i : nat) (ks : list string) (l : list expr) {struct l} :=
                   match ks, l with
                   | k :: ks, x :: l =>
                       if existsb (String.eqb k) ms then (k, blank st None (i :: body_path) x) :: go (S i) ks l else go (S i) ks l
                   | _, _ => []
                   end) 0 ks xs in
                 ENode (KBlock (map fst entries)) (map snd entries)
             | _ => blank st None body_path body
             end) t
      | _, _ => ELet (bindings (accessed_members st)) (blank st None body_path body) t
      end
  | ELam inlined ps body => ELam inlined ps (blank st None (0 :: p) body)
  | ENode k xs =>
      ENode k ((fix go (i : nat) (l : list expr) :=
        match l with
        | [] => []
        | x :: l => blank st (match k, i with KMeta, 0 => members | _, _ => None end) (i :: p) x :: go (S i) l
        end) 0 xs)
  end.

(** The number of nodes, which bounds the number of passes. *)
Fixpoint size (e : expr) : nat :=
  match e with
  | EVar _ => 1
  | ELet bs body _ => S (list_sum (map (fun b => size (b_expr b)) bs) + size body)
  | ELam _ _ body => S (size body)
  | ENode _ xs => S (list_sum (map size xs))
  end.

(** [prune], lines 19-24. *)
Definition prune (e : expr) : outcome expr :=
  obind (passes (S (size e)) e (mark_body [] e initial)) (fun st => Done (blank st None [] e)).
