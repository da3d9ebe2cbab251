(** Tagging, distributing and applying inlinable functions: src/core/inline/tag.rs and
    src/core/inline/reduce.rs.

    Simplification: source locations, and so [retag_call_site], are left out. *)
From Coq Require Import String List Bool Arith Decimal DecimalString.
From Verif.Scope Require Import Model.
From Verif.Fuse Require Import Model.
Import ListNotations.
Local Open Scope string_scope.
Local Open Scope list_scope.
Local Open Scope nat_scope.

(** ** Applying inlinable functions *)

(** [substs_depth], reduce.rs:24-84: a replacement is moved inside the [depth] scopes
    entered so far. *)
Fixpoint substs_depth (mappings : list (string * expr)) (depth : nat) (e : expr) : expr :=
  match e with
  | EVar (Free n) => match assoc mappings n with Some r => Nat.iter depth succ r | None => e end
  | EVar (Bound _ _ _) => e
  | ELet bs body t => ELet (map (map_b (substs_depth mappings (S depth))) bs) (substs_depth mappings (S depth) body) t
  | ELam inlined ps body => ELam inlined ps (substs_depth mappings (S depth) body)
  | ENode k xs => ENode k (map (substs_depth mappings depth) xs)
  end.
(** [duplicable], reduce.rs:229-234. *)
Definition duplicable (e : expr) : bool :=
  match e with
  | EVar _ => true
  | ENode (KLiteral _) _ | ENode (KIntrinsic _) _ => true
  | _ => false
  end.
(** [fresh_name], reduce.rs:249-258: [None] if none of [fuel] candidates will do. *)
Definition candidate (base : string) (n : nat) : string :=
  match n with
  | 0 => "__shared_" ++ base
  | _ => "__shared" ++ NilEmpty.string_of_uint (Nat.to_uint n) ++ "_" ++ base
  end%string.
Definition mem (n : string) (l : list string) : bool := existsb (String.eqb n) l.
Fixpoint fresh_from (fuel : nat) (base : string) (n : nat) (avoid : list string) : option string :=
  match fuel with
  | 0 => None
  | S fuel => if mem (candidate base n) avoid then fresh_from fuel base (S n) avoid else Some (candidate base n)
  end.
Definition fresh_name (base : string) (avoid : list string) : option string := fresh_from (S (List.length avoid)) base 0 avoid.
(** The loop over parameters and arguments, reduce.rs:320-333: the mappings and the shared
    arguments.  [occurrences] lists the free names of the function body, with repetitions. *)
Definition uses (occurrences : list string) (n : string) : nat := count_occ string_dec occurrences n.
Fixpoint plan (occurrences avoid : list string) (l : list (string * expr)) : option (list (string * expr) * list (string * expr)) :=
  match l with
  | [] => Some ([], [])
  | (binder, arg) :: l =>
      if (1 <? uses occurrences binder) && negb (duplicable arg) then
        match fresh_name binder avoid with
        | None => None
        | Some name => match plan occurrences (name :: avoid) l with
                       | Some (mappings, shared) => Some ((binder, EVar (Free name)) :: mappings, (name, arg) :: shared)
                       | None => None
                       end
        end
      else match plan occurrences avoid l with
           | Some (mappings, shared) => Some ((binder, arg) :: mappings, shared)
           | None => None
           end
  end.
(** The application of a function to as many arguments as it has parameters,
    reduce.rs:284-352. *)
Definition apply_inline (binders : list string) (body : expr) (args : list expr) : option expr :=
  let body := open_lam_scope binders body in
  let occurrences := free_vars body in
  let avoid := occurrences ++ flat_map free_vars args in
  match plan occurrences avoid (combine binders args) with
  | None => None
  | Some (mappings, shared) =>
      let reduced := substs_depth mappings 0 body in
      match shared with
      | [] => Some reduced
      | _ => let '(bs, body) := close_let_scope shared reduced in Some (ELet bs body OtherLet)
      end
  end.
(** [beta_reduce], reduce.rs:277-363. *)
Fixpoint beta_reduce (e : expr) : option expr :=
  match e with
  | EVar _ => Some e
  | ELet bs body t =>
      match sequence (map (fun b => seq_b (map_b beta_reduce b)) bs), beta_reduce body with
      | Some bs', Some body' => Some (ELet bs' body' t)
      | _, _ => None
      end
  | ELam inlined ps body => option_map (ELam inlined ps) (beta_reduce body)
  | ENode k xs =>
      let results := map beta_reduce xs in
      let walked := option_map (ENode k) (sequence results) in
      match k, xs with
      | KApp, ELam true binders body :: args =>
          if List.length binders =? List.length args then
            match sequence (tl results) with
            | Some args' => apply_inline binders body args'
            | None => None
            end
          else walked
      | _, _ => walked
      end
  end.

(** ** Distributing inlinable functions *)

(** [inlinable], reduce.rs:93-95. *)
Definition inlinable (e : expr) : bool :=
  match e with ELam true _ _ => true | ENode (KIntrinsic _) _ => true | _ => false end.
(** [peel_meta], reduce.rs:114-119. *)
Fixpoint peel_meta (e : expr) : expr := match e with ENode KMeta (inner :: _) => peel_meta inner | _ => e end.
(** [pre_expand_inlines], reduce.rs:146-167.  The loop stops early when a round changes
    nothing, which is not visible: further rounds would change nothing either. *)
Definition expand_round (inlines : list (string * expr)) : list (string * expr) :=
  map (fun nv => (fst nv, substs (filter (fun m => negb (String.eqb (fst m) (fst nv))) inlines) (snd nv))) inlines.
Definition pre_expand_inlines (inlines : list (string * expr)) : list (string * expr) :=
  Nat.iter (List.length inlines) expand_round inlines.
(** [distribute], reduce.rs:170-218; the depth of the recursion is bounded by [fuel]. *)
Fixpoint distribute (fuel : nat) (e : expr) : option expr :=
  match fuel with
  | 0 => None
  | S fuel =>
      match e with
      | ELet bs body _ =>
          let '(open_bindings, body) := open_let_scope_full bs body in
          let inlines := flat_map (fun nv => let peeled := peel_meta (snd nv) in
                                             if inlinable peeled then [(fst nv, peeled)] else []) open_bindings in
          let inlines := pre_expand_inlines inlines in
          match inlines with
          | [] => Some e
          | _ =>
              match sequence (map (fun nv => option_map (pair (fst nv)) (distribute fuel (substs inlines (snd nv)))) open_bindings),
                    distribute fuel (substs inlines body) with
              | Some bindings, Some new_body =>
                  let '(bs, body) := close_let_scope bindings new_body in Some (ELet bs body OtherLet)
              | _, _ => None
              end
          end
      | _ => try_walk (distribute fuel) e
      end
  end.
(** [inline_pass], reduce.rs:88-90. *)
Definition inline_pass (fuel : nat) (e : expr) : option expr :=
  match distribute fuel e with Some e => beta_reduce e | None => None end.

(** ** Tagging *)

(** [closed_body], tag.rs:200-208. *)
Fixpoint closed_body (e : expr) : bool :=
  match e with
  | EVar (Bound s _ _) => s =? 0
  | ENode (KLiteral _) _ | ENode (KIntrinsic _) _ => true
  | ENode KApp xs => forallb closed_body xs
  | _ => false
  end.
(** [destructuring], tag.rs:214-227. *)
Definition destructuring (ps : list string) (body : expr) : bool :=
  (List.length ps =? 1) && match body with ELet _ _ (DestructureBlockLet | DestructureListLet) => true | _ => false end.
(** [head_is_param_at], tag.rs:159-165. *)
Fixpoint head_is_param_at (depth : nat) (f : expr) : bool :=
  match f with
  | EVar (Bound s _ _) => s =? depth
  | ENode KApp (g :: _) => head_is_param_at depth g
  | _ => false
  end.
(** [applies_own_param], tag.rs:135-155. *)
Fixpoint applies_own_param (depth : nat) (e : expr) : bool :=
  match e with
  | EVar _ => false
  | ELam _ _ body => applies_own_param (S depth) body
  | ELet bs body _ => existsb (fun b => applies_own_param (S depth) (b_expr b)) bs || applies_own_param (S depth) body
  | ENode k xs =>
      match k, xs with KApp, f :: _ => head_is_param_at depth f | _, _ => false end || existsb (applies_own_param depth) xs
  end.
(** [references_name], tag.rs:171-177. *)
Fixpoint references_name (name : string) (e : expr) : bool :=
  match e with
  | EVar (Free n) => String.eqb n name
  | EVar (Bound _ _ n) => opt_string_eqb n (Some name)
  | ELet bs body _ => existsb (fun b => references_name name (b_expr b)) bs || references_name name body
  | ELam _ _ body => references_name name body
  | ENode _ xs => existsb (references_name name) xs
  end.
(** [recursive_combinator], tag.rs:96-100, with [node_count], 180-185, and
    [MAX_COPY_BODY_NODES], 13. *)
Definition recursive_combinator (self_name : string) (body : expr) : bool :=
  applies_own_param 0 body && references_name self_name body && (size body <=? 48).
(** [tag_combinators_named], tag.rs:35-88, and [tag_combinators], 25-27. *)
Fixpoint tag_named (self_name : option string) (e : expr) : expr :=
  match e with
  | EVar _ => e
  | ELam false ps body =>
      if closed_body body || destructuring ps body then ELam true ps body
      else if match self_name with Some n => recursive_combinator n body | None => false end then ELam true ps (tag_named None body)
      else ELam false ps (tag_named None body)
  | ELam true ps body => ELam true ps (tag_named None body)
  | ELet bs body t => ELet (map (fun b => mkBinding (b_name b) (tag_named (Some (b_name b)) (b_expr b)) (b_demand b)) bs) (tag_named None body) t
  | ENode KMeta (inner :: m) => ENode KMeta (tag_named self_name inner :: map (tag_named None) m)
  | ENode k xs => ENode k (map (tag_named None) xs)
  end.
Definition tag_combinators (e : expr) : expr := tag_named None e.
