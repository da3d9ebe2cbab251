(** Small self-contained components: demand annotations, lexical environments,
    the symbol pool, deterministic map serialisation. *)
From Coq Require Import List NArith Bool.
Import ListNotations.

(** ** src/core/demand.rs *)

(** [Cardinality], [Strictness], [Demand]: src/core/demand.rs:29-44, 93-105, 118-128. *)
Inductive card := CUnknown | CAbsent | CAtMostOnce | CMulti.
Inductive strict := SUnknown | SLazy | SStrict.
Record demand := mkD { d_card : card; d_strict : strict; d_whnf : bool; d_rec : bool }.

(** [Cardinality::join], src/core/demand.rs:109-115. *)
Definition card_join (a b : card) : card :=
  match a, b with
  | CAbsent, x | x, CAbsent => x
  | CAtMostOnce, CAtMostOnce => CAtMostOnce
  | _, _ => CMulti
  end.

(** [Strictness::join], src/core/demand.rs:132-137. *)
Definition strict_join (a b : strict) : strict :=
  match a, b with SStrict, SStrict => SStrict | _, _ => SLazy end.

(** [Demand::lub], src/core/demand.rs:142-149. *)
Definition lub (a b : demand) : demand :=
  mkD (card_join (d_card a) (d_card b)) (strict_join (d_strict a) (d_strict b))
      (d_whnf a && d_whnf b) (d_rec a || d_rec b).

(** [Demand::scale], src/core/demand.rs:208-229. *)
Definition scale (a outer : demand) : demand :=
  mkD (match d_card a, d_card outer with
       | CAbsent, _ | _, CAbsent => CAbsent
       | CAtMostOnce, CAtMostOnce => CAtMostOnce
       | _, _ => CMulti
       end)
      (match d_strict a, d_strict outer with
       | SStrict, SStrict => SStrict
       | SLazy, _ | _, SLazy => SLazy
       | _, _ => SUnknown
       end)
      false (d_rec a || d_rec outer).

(** [Demand::plus], src/core/demand.rs:236-253. *)
Definition plus (a b : demand) : demand :=
  mkD (match d_card a, d_card b with
       | CAbsent, x | x, CAbsent => x
       | CUnknown, _ | _, CUnknown => CUnknown
       | _, _ => CMulti
       end)
      (match d_strict a, d_strict b with
       | SStrict, _ | _, SStrict => SStrict
       | SLazy, _ | _, SLazy => SLazy
       | _, _ => SUnknown
       end)
      (d_whnf a && d_whnf b) (d_rec a || d_rec b).

(** [Demand::skip_update], src/core/demand.rs:62-66. *)
Definition skip_update (d : demand) : bool :=
  d_whnf d
  || match d_card d with CAtMostOnce => true | _ => false end
  || match d_card d with CAbsent => true | _ => false end.

(** [Demand::absent], src/core/demand.rs:152-157. *)
Definition demand_absent : demand := mkD CAbsent SUnknown false false.

(** ** src/common/environment.rs *)

(** A frame is a hash map; it is modelled as an association list in which the
    latest insertion of a key comes first. *)
Section Env.
  Context {K V : Type} (K_eq : forall a b : K, {a = b} + {a <> b}).

  Fixpoint frame_get (f : list (K * V)) (k : K) : option V :=
    match f with
    | [] => None
    | (k', v) :: f' => if K_eq k k' then Some v else frame_get f' k
    end.

  (** [SimpleEnvironment]: top frame first; lines 6-40. *)
  Definition env := list (list (K * V)).
  Definition env_new : env := [].
  Definition env_push (e : env) (f : list (K * V)) : env := f :: e.
  Definition env_pop (e : env) : env := tl e.
  (** [insert], lines 27-29; [None] is the panic on an empty stack. *)
  Definition env_insert (e : env) (k : K) (v : V) : option env :=
    match e with [] => None | f :: e' => Some (((k, v) :: f) :: e') end.
  (** [get], lines 32-39. *)
  Fixpoint env_get (e : env) (k : K) : option V :=
    match e with
    | [] => None
    | f :: e' => match frame_get f k with Some v => Some v | None => env_get e' k end
    end.

  (** [DefaultingEnvironment], lines 52-106. *)
  Variable defaulter : K -> V.
  Record denv := mkDenv { de_env : env; de_globals : list (K * V) }.
  Definition denv_new : denv := mkDenv [] [].
  Definition denv_push_keys (d : denv) (ks : list K) : denv :=
    mkDenv (env_push (de_env d) (rev (map (fun k => (k, defaulter k)) ks))) (de_globals d).
  Definition denv_pop (d : denv) : denv := mkDenv (env_pop (de_env d)) (de_globals d).
  Definition denv_get (d : denv) (k : K) : option V :=
    match env_get (de_env d) k with Some v => Some v | None => frame_get (de_globals d) k end.
  Definition denv_encounter (d : denv) (k : K) : denv :=
    match denv_get d k with
    | Some _ => d
    | None => mkDenv (de_env d) ((k, defaulter k) :: de_globals d)
    end.
End Env.

(** ** src/eval/memory/symbol.rs *)

Section Symbols.
  Context {S : Type} (S_eq : forall a b : S, {a = b} + {a <> b}).
  (** [SymbolPool], lines 41-47.  The id of the code is a [u32]: [len as u32]
      truncates. *)
  Record pool := mkPool { to_id : list (S * N); to_str : list S }.
  Definition pool_new : pool := mkPool [] [].
  (** [intern], lines 62-70. *)
  Definition intern (p : pool) (s : S) : pool * N :=
    match frame_get S_eq (to_id p) s with
    | Some id => (p, id)
    | None =>
        let id := N.modulo (N.of_nat (length (to_str p))) 4294967296 in
        (mkPool ((s, id) :: to_id p) (to_str p ++ [s]), id)
    end.
  (** [resolve], lines 77-79; [None] is the panic. *)
  Definition resolve (p : pool) (id : N) : option S := nth_error (to_str p) (N.to_nat id).

  (** A history of interning: the pool afterwards and the ids handed out. *)
  Fixpoint intern_all (p : pool) (ss : list S) : pool * list N :=
    match ss with
    | [] => (p, [])
    | s :: ss' => let '(p1, id) := intern p s in
                  let '(p2, ids) := intern_all p1 ss' in (p2, id :: ids)
    end.
End Symbols.

(** ** src/common/serde_sorted.rs *)
Section Sorted.
  Context {K V : Type} (cmp : K -> K -> comparison).
  (** Insertion of an entry in the [BTreeMap] collected at line 29; a repeated
      key keeps the later value. *)
  Fixpoint bt_insert (k : K) (v : V) (m : list (K * V)) : list (K * V) :=
    match m with
    | [] => [(k, v)]
    | (k', v') :: m' =>
        match cmp k k' with
        | Lt => (k, v) :: m
        | Eq => (k, v) :: m'
        | Gt => (k', v') :: bt_insert k v m'
        end
    end.
  (** [serialize], lines 21-31: the entries handed to the serializer, given the
      entries in the hash map's iteration order. *)
  Definition serialize_entries (entries : list (K * V)) : list (K * V) :=
    fold_left (fun m kv => bt_insert (fst kv) (snd kv) m) entries [].
End Sorted.
