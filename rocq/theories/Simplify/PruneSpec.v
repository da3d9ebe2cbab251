(** What dead code elimination should achieve. *)
From Coq Require Import List Bool Arith String.
From Verif.Basics Require Import Model.
From Verif.Scope Require Import Model Spec.
From Verif.Simplify Require Import Compress CompressSpec Prune.
Import ListNotations.

(** Nodes have the number of children their kind calls for: a lookup has a target and
    perhaps a fallback, metadata annotates one expression with one other, a block has a
    value for each key. *)
Definition arity_ok (k : kind) (n : nat) : bool :=
  match k with
  | KLookup _ => (n =? 1) || (n =? 2)
  | KMeta => n =? 2
  | KBlock ks => n =? List.length ks
  | _ => true
  end.
Fixpoint well_formed (e : expr) : bool :=
  match e with
  | EVar _ => true
  | ELet bs body _ => forallb (fun b => well_formed (b_expr b)) bs && well_formed body
  | ELam _ _ body => well_formed body
  | ENode k xs => arity_ok k (List.length xs) && forallb well_formed xs
  end.

(** No lookup falls back to the block it failed to find the member in. *)
Definition is_self_fallback (k : kind) (xs : list expr) : bool :=
  match k, xs with
  | KLookup _, [EVar (Bound s b _); EVar (Bound s' b' _)] => (s =? s') && (b =? b')
  | _, _ => false
  end.
Fixpoint no_self_fallback (e : expr) : bool :=
  match e with
  | EVar _ => true
  | ELet bs body _ => forallb (fun b => no_self_fallback (b_expr b)) bs && no_self_fallback body
  | ELam _ _ body => no_self_fallback body
  | ENode k xs => negb (is_self_fallback k xs) && forallb no_self_fallback xs
  end.

(** How the value of a binding is used: not at all, in some other way, or only by
    looking up some of its members. *)
Inductive use := Unused | Whole | Members (ms : list string).
Definition agree (I : interp) (u : use) (v w : D I) : Prop :=
  match u with
  | Unused => True
  | Whole => v = w
  | Members ms => forall m fb, In m ms -> i_node I (KLookup m) (v :: fb) = i_node I (KLookup m) (w :: fb)
  end.
Fixpoint agree_all (I : interp) (us : list use) (vs ws : list (D I)) : Prop :=
  match us, vs, ws with
  | [], [], [] => True
  | u :: us, v :: vs, w :: ws => agree I u v w /\ agree_all I us vs ws
  | _, _, _ => False
  end.

(** The entries of a block with the given keys. *)
Definition entries_in {A} (ms : list string) (ks : list string) (xs : list A) : list (string * A) :=
  filter (fun kx => existsb (String.eqb (fst kx)) ms) (combine ks xs).

(** Interpretations in which only uses matter: a let is determined by its bindings'
    values up to how the values are used, looking up a member of a let's value is
    looking it up in the body, and looking up a member of a block depends on the entries
    with that key only. *)
Record only_uses_matter (I : interp) : Prop := {
  let_uses : forall t names us F F' B B', List.length us = List.length names ->
    (forall vs ws, agree_all I us vs ws -> agree_all I us (F vs) (F' ws)) ->
    (forall vs ws, agree_all I us vs ws -> B vs = B' ws) ->
    i_let I t names F B = i_let I t names F' B';
  lookup_let : forall m t names F B fb,
    i_node I (KLookup m) (i_let I t names F B :: fb) = i_let I t names F (fun vs => i_node I (KLookup m) (B vs :: fb));
  lookup_block : forall m ms ks xs fb, List.length ks = List.length xs -> In m ms ->
    i_node I (KLookup m) (i_node I (KBlock ks) xs :: fb) =
    i_node I (KLookup m) (i_node I (KBlock (map fst (entries_in ms ks xs))) (map snd (entries_in ms ks xs)) :: fb) }.

(** * Which bindings are needed *)

(** The node at a position, with its enclosing scopes (innermost first: the position and
    number of bindings of a let, [None] for a lambda). *)
Definition child (sc : scopes) (e : expr) (p : path) (i : nat) : option (scopes * expr) :=
  match e with
  | EVar _ => None
  | ELet bs body _ =>
      match nth_error bs i with
      | Some b => Some (Some (p, List.length bs) :: sc, b_expr b)
      | None => if i =? List.length bs then Some (Some (p, List.length bs) :: sc, body) else None
      end
  | ELam _ _ body => if i =? 0 then Some (None :: sc, body) else None
  | ENode _ xs => option_map (pair sc) (nth_error xs i)
  end.
Fixpoint at_ (root : expr) (p : path) : option (scopes * expr) :=
  match p with
  | [] => Some ([], root)
  | i :: p => match at_ root p with Some (sc, e) => child sc e p i | None => None end
  end.

(** [q] is [p] or a position under it. *)
Definition below (q p : path) : Prop := exists l, q = l ++ p.

(** The position of the value of the let binding that a reference is to. *)
Definition resolve (sc : scopes) (s b : nat) : option path :=
  match nth_error sc s with
  | Some (Some (p, n)) => if b <? n then Some (b :: p) else None
  | _ => None
  end.
Definition refers (root : expr) (q t : path) : Prop :=
  exists sc s b n, at_ root q = Some (sc, EVar (Bound s b n)) /\ resolve sc s b = Some t.

(** The result of the expression: the body, seen through lets and metadata. *)
Inductive chain (root : expr) : path -> Prop :=
| chain_root : chain root []
| chain_let p sc bs body t : chain root p -> at_ root p = Some (sc, ELet bs body t) -> chain root (List.length bs :: p)
| chain_meta p sc e m xs : chain root p -> at_ root p = Some (sc, ENode KMeta (e :: m :: xs)) -> chain root (0 :: p).

(** A position is needed if it is the result or metadata of the result, if something under
    a needed position refers to it, or if it is the metadata of something needed. *)
Inductive needed (root : expr) : path -> Prop :=
| needed_result p sc e : chain root p -> at_ root p = Some (sc, e) ->
    (forall bs body t, e <> ELet bs body t) -> (forall e1 m, e <> ENode KMeta [e1; m]) -> needed root p
| needed_result_meta p sc e m : chain root p -> at_ root p = Some (sc, ENode KMeta [e; m]) -> needed root (1 :: p)
| needed_reference r q t : needed root r -> below q r -> refers root q t -> needed root t
| needed_meta p sc e m : needed root (0 :: p) -> at_ root p = Some (sc, ENode KMeta [e; m]) -> needed root (1 :: p).

(** A position can be reached if it is the root, a child of one that can be reached, other
    than the value of a binding, or the value of a binding referred to from one that can. *)
Inductive reached (root : expr) : path -> Prop :=
| reached_root : reached root []
| reached_child p i : reached root p ->
    (forall sc bs body t, at_ root p = Some (sc, ELet bs body t) -> List.length bs <= i) -> at_ root (i :: p) <> None -> reached root (i :: p)
| reached_reference q t : reached root q -> refers root q t -> reached root t.

(** A demand that promises nothing that could be wrong: not that there is at most one
    use, nor that the value is evaluated. *)
Definition promises_nothing (d : demand) : Prop :=
  (d_card d = CUnknown \/ d_card d = CMulti) /\ d_strict d = SUnknown /\ d_whnf d = false /\ d_rec d = false.

(** [trimmed keep gone p e e']: the expression [e'], at position [p], is [e] with the
    values of some bindings eliminated, all at positions satisfying [gone], the others
    being at positions satisfying [keep], and with some entries of blocks left out. *)
Inductive trimmed (keep gone : path -> Prop) : path -> expr -> expr -> Prop :=
| trim_var p v : trimmed keep gone p (EVar v) (EVar v)
| trim_let p bs bs' body body' t : List.length bs' = List.length bs ->
    (forall i b b', nth_error bs i = Some b -> nth_error bs' i = Some b' ->
       b_name b' = b_name b /\ promises_nothing (b_demand b') /\
       ((gone (i :: p) /\ b_expr b' = ENode KErrEliminated []) \/ (keep (i :: p) /\ trimmed keep gone (i :: p) (b_expr b) (b_expr b')))) ->
    trimmed keep gone (List.length bs :: p) body body' -> trimmed keep gone p (ELet bs body t) (ELet bs' body' t)
| trim_lam p inlined ps body body' : trimmed keep gone (0 :: p) body body' ->
    trimmed keep gone p (ELam inlined ps body) (ELam inlined ps body')
| trim_node p k xs xs' : List.length xs' = List.length xs ->
    (forall i x x', nth_error xs i = Some x -> nth_error xs' i = Some x' -> trimmed keep gone (i :: p) x x') ->
    trimmed keep gone p (ENode k xs) (ENode k xs')
| trim_block p ks xs mask xs' : List.length mask = List.length ks ->
    List.length xs' = List.length (sel mask ks) ->
    (forall j i x x', nth_error (sel mask (seq 0 (List.length ks))) j = Some i -> nth_error xs i = Some x -> nth_error xs' j = Some x' ->
       trimmed keep gone (i :: p) x x') ->
    trimmed keep gone p (ENode (KBlock ks) xs) (ENode (KBlock (sel mask ks)) xs').
