(** Splitting recursive lets into components, src/core/dependency.rs, and merging nested
    lets, src/core/reflatten.rs. *)
From Coq Require Import List Bool Arith String.
From Verif.Scope Require Import Model.
From Verif.Simplify Require Import Compress.
From Verif.Letrec Require Import Tarjan.
Import ListNotations.

(** ** Splitting *)
Section Split.
  (** The order in which a hash set of names is iterated. *)
  Variable order : list string -> list string.

  (** [name_to_idx], dependency.rs:116-120: a later binding of the same name replaces an
      earlier one. *)
  Fixpoint last_position (names : list string) (n : string) : option nat :=
    match names with
    | [] => None
    | x :: xs => match last_position xs n with
                 | Some i => Some (S i)
                 | None => if String.eqb x n then Some 0 else None
                 end
    end.
  (** Lines 124-134. *)
  Definition scope_deps (open_bindings : list (string * expr)) : list (list nat) :=
    map (fun b => flat_map (fun fv => match last_position (map fst open_bindings) fv with Some j => [j] | None => [] end)
                    (order (free_vars (snd b)))) open_bindings.
  (** The body of the loop of lines 164-170. *)
  Definition wrap_component (open_bindings : list (string * expr)) (scc : list nat) (acc : outcome expr) : outcome expr :=
    obind acc (fun result =>
      match sequence (map (nth_error open_bindings) scc) with
      | None => Panic
      | Some scc_bindings => let '(bs, body) := close_let_scope scc_bindings result in Done (ELet bs body OtherLet)
      end).
  (** [split_scope], lines 103-173. *)
  Definition split_scope (bs : list (binding expr)) (body : expr) : outcome expr :=
    let '(open_bindings, open_body) := open_let_scope_full bs body in
    obind (tarjan_scc (scope_deps open_bindings)) (fun sccs =>
      if List.length sccs <=? 1 then Done (ELet bs body OtherLet)
      else fold_right (wrap_component open_bindings) (Done open_body) sccs).

  Definition is_other (t : lettype) : bool := match t with OtherLet => true | _ => false end.
  (** [walk], lines 26-101, and [split_letrecs], 21-24. *)
  Fixpoint split_letrecs (e : expr) : outcome expr :=
    match e with
    | EVar _ => Done e
    | ELet bs body t =>
        obind (collect (map (fun b => obind (split_letrecs (b_expr b)) (fun x => Done (mkBinding (b_name b) x (b_demand b)))) bs)) (fun bs' =>
        obind (split_letrecs body) (fun body' =>
          if negb (is_other t) || (List.length bs' <=? 1) then Done (ELet bs' body' t) else split_scope bs' body'))
    | ELam inlined ps body => obind (split_letrecs body) (fun body' => Done (ELam inlined ps body'))
    | ENode k xs => obind (collect (map split_letrecs xs)) (fun xs' => Done (ENode k xs'))
    end.
End Split.

(** ** Merging *)

(** How many mergeable lets are nested at the top. *)
Fixpoint chain_length (e : expr) : nat :=
  match e with ELet _ body OtherLet => S (chain_length body) | _ => 0 end.
(** [collect_chain], reflatten.rs:151-177: the opened bindings of all scopes and the
    innermost body.  The recursion is on an opened body, so it is given the number of
    scopes. *)
Fixpoint collect_chain (n : nat) (e : expr) : list (binding expr) * expr :=
  match n, e with
  | S n, ELet bs body OtherLet =>
      let names := map b_name bs in
      let '(rest, innermost) := collect_chain n (open_expr_vars names 0 body) in
      (map (map_b (open_expr_vars names 0)) bs ++ rest, innermost)
  | _, _ => ([], e)
  end.
(** [close_let_scope_with_demand], reflatten.rs:179-204. *)
Definition close_with_demand (bs : list (binding expr)) (body : expr) : expr :=
  let names := map b_name bs in
  ELet (map (map_b (close_expr_vars names 0)) bs) (close_expr_vars names 0 body) OtherLet.
(** [flatten_chain] and [is_mergeable_let], reflatten.rs:109-149. *)
Definition is_mergeable_let (e : expr) : bool := match e with ELet _ _ OtherLet => true | _ => false end.
Definition flatten_chain (e : expr) : expr :=
  match e with
  | ELet bs body OtherLet =>
      if is_mergeable_let body then
        let '(all_bindings, innermost) := collect_chain (chain_length e) e in
        if List.length all_bindings =? List.length bs then e else close_with_demand all_bindings innermost
      else e
  | _ => e
  end.
(** [walk] and [reflatten], reflatten.rs:20-100. *)
Fixpoint reflatten (e : expr) : expr :=
  match e with
  | EVar _ => e
  | ELet bs body t =>
      let rebuilt := ELet (map (map_b reflatten) bs) (reflatten body) t in
      if is_other t then flatten_chain rebuilt else rebuilt
  | ELam inlined ps body => ELam inlined ps (reflatten body)
  | ENode k xs => ENode k (map reflatten xs)
  end.
