(** What it means for pre-decoded instructions to be the program in the byte stream. *)
From Coq Require Import List Bool Arith NArith.
From Verif.Simplify Require Import Compress.
From Verif.Bytecode Require Import Model Spec.
From Verif.Predecode Require Import Model.
Import ListNotations.
Open Scope N_scope.

(** Two instructions with the same operands, up to where code positions are mapped by [R]. Source
    locations are treated separately. *)
Definition Ropt (R : N -> N -> Prop) (a b : option N) : Prop :=
  match a, b with None, None => True | Some a, Some b => R a b | _, _ => False end.
Definition Rheader (R : N -> N -> Prop) (a b : header N) : Prop :=
  h_kind a = h_kind b /\ h_arity a = h_arity b /\ h_smid a = h_smid b /\ R (h_body a) (h_body b).
Definition Rnode (R : N -> N -> Prop) (n n' : node N) : Prop :=
  match n, n' with
  | NAtom r, NAtom r' => r = r'
  | NCase a m t f, NCase a' m' t' f' => R a a' /\ m = m' /\ Forall2 (Ropt R) t t' /\ Ropt R f f'
  | NCons tag l, NCons tag' l' => tag = tag' /\ l = l'
  | NApp e c l, NApp e' c' l' => e = e' /\ c = c' /\ Forall2 R l l'
  | NDirectApp e _ c l, NDirectApp e' _ c' l' => e = e' /\ c = c' /\ Forall2 R l l'
  | NBif i l, NBif i' l' => i = i' /\ l = l'
  | NLet r hs b, NLet r' hs' b' => r = r' /\ Forall2 (Rheader R) hs hs' /\ R b b'
  | NMeta m b, NMeta m' b' => m = m' /\ b = b'
  | NDeMeta a b c, NDeMeta a' b' c' => R a a' /\ R b b' /\ R c c'
  | NSeq a b, NSeq a' b' => R a a' /\ R b b'
  | NLookupLit _ k o d, NLookupLit _ k' o' d' => k = k' /\ o = o' /\ R d d'
  | NFused id l r, NFused id' l' r' => id = id' /\ R l l' /\ R r r'
  | NBlackHole, NBlackHole => True
  | _, _ => False
  end.

(** The bytes are bytes, the code can be addressed by 32-bit offsets, and no side pool of the result
    outgrows 32-bit indices. *)
Definition is_code (code : list N) : Prop := Forall (fun b => b < 256) code /\ code_fits code = true.
Definition pools_fit (D : decoded) : Prop :=
  N.of_nat (length (o_refs D)) < 4294967296 /\ N.of_nat (length (o_offsets D)) < 4294967296 /\
  N.of_nat (length (o_headers D)) < 4294967296 /\ N.of_nat (length (o_branches D)) < 4294967296.

Definition ordinal (D : decoded) (off ord : N) : Prop := ord_lookup (o_ord_of D) off = Some ord.

(** [runs D ord t]: from [ord], the instructions are the program [t], annotations aside. *)
Section Runs.
Context {native : Type} (D : decoded) (consts : list native).
Definition runs_atom (ord : N) (r : ref native) : Prop :=
  exists d, view_at D ord = Done (NAtom d) /\ stands_for consts d r.
Inductive runs : N -> syn native -> Prop :=
| U_atom ord r : runs_atom ord r -> runs ord (SAtom r)
| U_case ord so min table fo scr bs fb :
    view_at D ord = Done (NCase so min table fo) ->
    runs so scr ->
    (forall tag, match_tag min table tag = None <-> branch_for tag bs = None) ->
    (forall tag o b, match_tag min table tag = Some o -> branch_for tag bs = Some b -> runs o b) ->
    (fo = None <-> fb = None) ->
    (forall o f, fo = Some o -> fb = Some f -> runs o f) ->
    runs ord (SCase scr bs fb)
| U_cons ord tag ds args :
    view_at D ord = Done (NCons tag ds) -> Forall2 (stands_for consts) ds args -> runs ord (SCons tag args)
| U_app ord eager d c ords args :
    view_at D ord = Done (NApp eager d ords) -> stands_for consts d c -> Forall2 runs_atom ords args ->
    runs ord (SApp c args eager)
| U_direct_app ord eager smid smid' d c ords args :
    view_at D ord = Done (NDirectApp eager smid' d ords) -> (smid <> 0 -> smid' = smid) ->
    stands_for consts d c -> Forall2 runs_atom ords args ->
    runs ord (SDirectApp smid c args eager)
| U_bif ord i ds args :
    view_at D ord = Done (NBif i ds) -> Forall2 (stands_for consts) ds args -> runs ord (SBif i args)
| U_let ord rec hs o bs body :
    view_at D ord = Done (NLet rec hs o) ->
    length hs = length bs ->
    (forall i h k b, nth_error hs i = Some h -> nth_error bs i = Some (k, b) -> header_info h = kind_info k) ->
    (forall i h k b, nth_error hs i = Some h -> nth_error bs i = Some (k, b) -> runs (h_body h) b) ->
    runs o body ->
    runs ord (SLet rec bs body)
| U_ann ord smid body : runs ord body -> runs ord (SAnn smid body)
| U_meta ord d1 d2 m b :
    view_at D ord = Done (NMeta d1 d2) -> stands_for consts d1 m -> stands_for consts d2 b -> runs ord (SMeta m b)
| U_demeta ord o1 o2 o3 a b c :
    view_at D ord = Done (NDeMeta o1 o2 o3) -> runs o1 a -> runs o2 b -> runs o3 c ->
    runs ord (SDeMeta a b c)
| U_seq ord o1 o2 a b :
    view_at D ord = Done (NSeq o1 o2) -> runs o1 a -> runs o2 b -> runs ord (SSeq a b)
| U_lookup ord smid smid' d1 d2 o k obj d :
    view_at D ord = Done (NLookupLit smid' d1 d2 o) -> (smid <> 0 -> smid' = smid) ->
    stands_for consts d1 k -> stands_for consts d2 obj ->
    runs_atom o d -> runs ord (SLookupLit smid k obj d)
| U_fused ord id o1 o2 l r inner :
    view_at D ord = Done (NFused id o1 o2) -> runs_atom o1 l -> runs_atom o2 r -> runs ord (SFused id l r inner)
| U_black_hole ord : view_at D ord = Done NBlackHole -> runs ord SBlackHole.
End Runs.

(** The location a program's outermost node runs under: its own if it has one, else that of the
    innermost valid annotation around it. *)
Section Location.
Context {native : Type}.
Fixpoint location (t : syn native) : N :=
  match t with
  | SAnn smid t => if location t =? 0 then smid else location t
  | SDirectApp smid _ _ _ => smid
  | SLookupLit smid _ _ _ => smid
  | _ => 0
  end.
(** The node inside the annotations has a location of its own, but an invalid one. *)
Fixpoint unlocated (t : syn native) : Prop :=
  match t with
  | SAnn _ t => unlocated t
  | SDirectApp smid _ _ _ => smid = 0
  | SLookupLit smid _ _ _ => smid = 0
  | _ => False
  end.
(** The location in force when a program's outermost node acts, [ann] being in force before: the
    last one set on the way to it. *)
Fixpoint in_force (t : syn native) (ann : N) : N :=
  match t with
  | SAnn smid t => in_force t smid
  | SDirectApp smid _ _ _ => smid
  | SLookupLit smid _ _ _ => smid
  | _ => ann
  end.
(** Every location set on the way is a valid one. *)
Fixpoint locations_valid (t : syn native) : Prop :=
  match t with
  | SAnn smid t => smid <> 0 /\ locations_valid t
  | SDirectApp smid _ _ _ => smid <> 0
  | SLookupLit smid _ _ _ => smid <> 0
  | _ => True
  end.
End Location.
(** [wraps code o o']: [o] leads to [o'] through annotation nodes. *)
Inductive wraps (code : list N) : N -> N -> Prop :=
| W_here o : wraps code o o
| W_in o smid b o' : read_node code o = Done (NAnn smid b) -> wraps code b o' -> wraps code o o'.

(** A whole program, in instructions. *)
Record program_runs {native} (producer_next : N) (consts : list native) (D : decoded) (globals : list (form native)) : Prop := {
  run_templates : forall tag n, constructor_fields tag = Some n -> exists o, nth_error (o_templates D) tag = Some o
    /\ runs D consts o (SCons (N.of_nat tag) (locals 0 n));
  run_blackhole : runs D consts (o_blackhole D) SBlackHole;
  run_meta : runs D consts (o_meta D) (SMeta (RL 0) (RL 1));
  run_pap : forall s n, (1 <= s <= 16)%nat -> (1 <= n <= 16)%nat -> exists o,
    nth_error (o_pap D) ((s - 1) * 16 + (n - 1)) = Some o
    /\ runs D consts o (SApp (RL (N.of_nat n)) (locals (n + 1) s ++ locals 0 n) false);
  run_apply1 : runs D consts (o_apply1 D) (SApp (RL 0) [RL 1] false);
  run_apply2 : runs D consts (o_apply2 D) (SApp (RL 0) [RL 1; RL 2] false);
  run_producer : runs D consts (o_producer D) (SBif producer_next [RL 0]);
  run_globals : Forall2 (fun (m : form native) o => runs D consts o (snd m)) globals (o_globals D) }.

(** ** Well-formed code
    [chain code k o]: from [o], [k] annotations lead to a node. *)
Inductive chain (code : list N) : nat -> N -> Prop :=
| c_end o n : read_node code o = Done n -> (forall s b, n <> NAnn s b) -> chain code 0 o
| c_ann o s b k : read_node code o = Done (NAnn s b) -> chain code k b -> chain code (S k) o.
(** The code positions in a node. *)
Definition opt_list (o : option N) : list N := match o with Some a => [a] | None => [] end.
Definition children (n : node N) : list N :=
  match n with
  | NCase a _ t f => a :: flat_map opt_list t ++ opt_list f
  | NApp _ _ l | NDirectApp _ _ _ l => l
  | NLet _ hs b => map (@h_body N) hs ++ [b]
  | NAnn _ b => [b]
  | NDeMeta a b c => [a; b; c]
  | NSeq a b => [a; b]
  | NLookupLit _ _ _ d => [d]
  | NFused _ l r => [l; r]
  | _ => []
  end.
(** The code positions a program starts from. *)
Definition roots_in {native} (P : N -> Prop) (p : program native) (root : N) (globals : list gform) : Prop :=
  P root /\ Forall P (map g_entry globals) /\ Forall P (p_templates p) /\ P (p_blackhole p) /\ P (p_meta p) /\ P (p_apply1 p) /\ P (p_apply2 p)
  /\ P (p_producer p) /\ Forall P (p_pap p).
