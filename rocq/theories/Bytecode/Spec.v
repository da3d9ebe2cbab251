(** What it means for code to be the encoding of a program. *)
From Coq Require Import List Bool Arith NArith.
From Verif.Simplify Require Import Compress.
From Verif.Bytecode Require Import Model.
Import ListNotations.
Open Scope N_scope.

Definition All {A} (P : A -> Prop) : list A -> Prop :=
  fix all l := match l with [] => True | a :: l => P a /\ all l end.

(** The branch of a case that a data tag selects: the last one given for that tag. *)
Definition branch_for {B} (tag : N) (bs : list (N * B)) : option B :=
  option_map snd (find (fun b => fst b =? tag) (rev bs)).

(** What the machine makes of a lambda form's header (machine.rs 1923-1936): arity, whether the
    result is memoised, and the source location. *)
Definition header_info {C} (h : header C) : N * bool * N :=
  if h_kind h =? form_thunk then (0, true, 0)
  else if h_kind h =? form_lambda then (h_arity h, false, h_smid h)
  else (0, false, 0).
Definition kind_info (k : fkind) : N * bool * N := (fk_arity k, fk_update k, fk_annotation k).

Section Widths.
Context {native : Type}.
(** The wire widths. Tags, arities and intrinsic numbers are bytes and source locations are 32 bits
    by their types; a reference's index must fit 32 bits, an argument list must have at most 255
    members, and a case may not have branches for both tag 0 and tag 255. *)
Definition ref_fits (r : ref native) : Prop :=
  match r with RL i => i < 4294967296 | RG i => i < 4294967296 | RV _ => True end.
Definition args_fit (l : list (ref native)) : Prop := (length l <= 255)%nat /\ All ref_fits l.
Definition kind_fits (k : fkind) : Prop :=
  match k with FLambda n a => 0 < n < 256 /\ a < 4294967296 | _ => True end.
Definition tags_fit {B} (bs : list (N * B)) : Prop :=
  (forall b, In b bs -> fst b < 256) /\
  ~ ((exists b, In b bs /\ fst b = 0) /\ (exists b, In b bs /\ fst b = 255)).
Fixpoint fits (t : syn native) : Prop :=
  match t with
  | SAtom r => ref_fits r
  | SCase scr bs fb =>
      fits scr /\ tags_fit bs /\ All (fun b => fits (snd b)) bs /\ match fb with Some f => fits f | None => True end
  | SCons tag args => tag < 256 /\ args_fit args
  | SApp c args _ => ref_fits c /\ args_fit args
  | SDirectApp smid c args _ => smid < 4294967296 /\ ref_fits c /\ args_fit args
  | SBif i args => i < 256 /\ args_fit args
  | SLet _ bs body => All (fun b => kind_fits (fst b) /\ fits (snd b)) bs /\ fits body
  | SAnn smid body => smid < 4294967296 /\ fits body
  | SMeta m b => ref_fits m /\ ref_fits b
  | SDeMeta a b c => fits a /\ fits b /\ fits c
  | SSeq a b => fits a /\ fits b
  | SLookupLit smid k o d => smid < 4294967296 /\ ref_fits k /\ ref_fits o /\ ref_fits d
  | SFused id l r _ => id < 256 /\ ref_fits l /\ ref_fits r
  | SBlackHole => True
  end.
Definition form_fits (f : form native) : Prop := kind_fits (fst f) /\ fits (snd f).
End Widths.

Section Reads.
Context {native : Type} (code : list N) (consts : list native).

(** The reference the machine decodes is the one in the program. *)
Definition stands_for (d : dref) (r : ref native) : Prop :=
  match r with
  | RL i => d = DLocal i
  | RG i => d = DGlobal i
  | RV n => exists k, d = DValue k /\ nth_error consts (N.to_nat k) = Some n
  end.
Definition atom_at (off : N) (r : ref native) : Prop :=
  exists d, read_node code off = Done (NAtom d) /\ stands_for d r.

(** [reads off t]: starting at [off], the machine's reads yield the program [t]: the node read at
    [off] has [t]'s fields, and its code positions in turn read as [t]'s parts. A case's branches are
    compared by the branch each tag selects; a fused primitive has no code for the expression it
    replaces. *)
Inductive reads : N -> syn native -> Prop :=
| R_atom off r : atom_at off r -> reads off (SAtom r)
| R_case off so min table fo scr bs fb :
    read_node code off = Done (NCase so min table fo) ->
    reads so scr ->
    (forall tag, match_tag min table tag = None <-> branch_for tag bs = None) ->
    (forall tag o b, match_tag min table tag = Some o -> branch_for tag bs = Some b -> reads o b) ->
    (fo = None <-> fb = None) ->
    (forall o f, fo = Some o -> fb = Some f -> reads o f) ->
    reads off (SCase scr bs fb)
| R_cons off tag ds args :
    read_node code off = Done (NCons tag ds) -> Forall2 stands_for ds args -> reads off (SCons tag args)
| R_app off eager d c offs args :
    read_node code off = Done (NApp eager d offs) -> stands_for d c -> Forall2 atom_at offs args ->
    reads off (SApp c args eager)
| R_direct_app off eager smid d c offs args :
    read_node code off = Done (NDirectApp eager smid d offs) -> stands_for d c -> Forall2 atom_at offs args ->
    reads off (SDirectApp smid c args eager)
| R_bif off i ds args :
    read_node code off = Done (NBif i ds) -> Forall2 stands_for ds args -> reads off (SBif i args)
| R_let off rec hs o bs body :
    read_node code off = Done (NLet rec hs o) ->
    length hs = length bs ->
    (forall i h k b, nth_error hs i = Some h -> nth_error bs i = Some (k, b) -> header_info h = kind_info k) ->
    (forall i h k b, nth_error hs i = Some h -> nth_error bs i = Some (k, b) -> reads (h_body h) b) ->
    reads o body ->
    reads off (SLet rec bs body)
| R_ann off smid o body :
    read_node code off = Done (NAnn smid o) -> reads o body -> reads off (SAnn smid body)
| R_meta off d1 d2 m b :
    read_node code off = Done (NMeta d1 d2) -> stands_for d1 m -> stands_for d2 b -> reads off (SMeta m b)
| R_demeta off o1 o2 o3 a b c :
    read_node code off = Done (NDeMeta o1 o2 o3) -> reads o1 a -> reads o2 b -> reads o3 c ->
    reads off (SDeMeta a b c)
| R_seq off o1 o2 a b :
    read_node code off = Done (NSeq o1 o2) -> reads o1 a -> reads o2 b -> reads off (SSeq a b)
| R_lookup off smid d1 d2 o k obj d :
    read_node code off = Done (NLookupLit smid d1 d2 o) -> stands_for d1 k -> stands_for d2 obj ->
    atom_at o d -> reads off (SLookupLit smid k obj d)
| R_fused off id o1 o2 l r inner :
    read_node code off = Done (NFused id o1 o2) -> atom_at o1 l -> atom_at o2 r -> reads off (SFused id l r inner)
| R_black_hole off : read_node code off = Done NBlackHole -> reads off SBlackHole.
End Reads.

(** Two programs the machine cannot tell apart: equal, except in how a case lists its branches and in
    the expression a fused primitive replaces. *)
Section Same.
Context {native : Type}.
Inductive same : syn native -> syn native -> Prop :=
| Sm_refl t : same t t
| Sm_case scr bs fb scr' bs' fb' :
    same scr scr' ->
    (forall tag, branch_for tag bs = None <-> branch_for tag bs' = None) ->
    (forall tag b b', branch_for tag bs = Some b -> branch_for tag bs' = Some b' -> same b b') ->
    (fb = None <-> fb' = None) ->
    (forall f f', fb = Some f -> fb' = Some f' -> same f f') ->
    same (SCase scr bs fb) (SCase scr' bs' fb')
| Sm_let rec bs body bs' body' :
    length bs = length bs' ->
    (forall i k b k' b', nth_error bs i = Some (k, b) -> nth_error bs' i = Some (k', b') -> kind_info k = kind_info k') ->
    (forall i k b k' b', nth_error bs i = Some (k, b) -> nth_error bs' i = Some (k', b') -> same b b') ->
    same body body' ->
    same (SLet rec bs body) (SLet rec bs' body')
| Sm_ann smid a a' : same a a' -> same (SAnn smid a) (SAnn smid a')
| Sm_demeta a b c a' b' c' : same a a' -> same b b' -> same c c' -> same (SDeMeta a b c) (SDeMeta a' b' c')
| Sm_seq a b a' b' : same a a' -> same b b' -> same (SSeq a b) (SSeq a' b')
| Sm_fused id l r inner inner' : same (SFused id l r inner) (SFused id l r inner').
End Same.

(** A whole program. *)
Section Whole.
Context {native : Type}.

(** References to consecutive local slots. *)
Definition locals (from count : nat) : list (ref native) := map (fun i => RL (N.of_nat i)) (seq from count).

(** What a global slot's code is meant to be: the form given for it, except that a strict binary
    primitive of the expected shape (a function of two arguments that scrutinises the first) is a single instruction on its two parameters. *)
Definition forces_first (f : form native) : bool :=
  match f with (FLambda 2 _, SCase (SAtom (RL 0)) _ _) => true | _ => false end.
Definition meant_global (fusible : N -> bool) (i : nat) (f : form native) : form native :=
  if fusible (N.of_nat i) && forces_first f
  then (fst f, SFused (N.of_nat i) (RL 0) (RL 1) (snd f)) else f.
Definition meant_globals (fusible : N -> bool) (globals : list (form native)) : list (form native) :=
  map (fun p => meant_global fusible (fst p) (snd p)) (combine (seq 0 (length globals)) globals).
(** After overriding: the last form given for a slot. *)
Definition overridden (overrides : list (nat * form native)) (i : nat) (f : form native) : form native :=
  match find (fun o => Nat.eqb (fst o) i) (rev overrides) with Some (_, g) => g | None => f end.

Definition global_ok (code : list N) (consts : list native) (m : form native) (g : gform) : Prop :=
  header_info (mkHeader (g_kind g) (g_arity g) (g_smid g) (g_entry g)) = kind_info (fst m)
  /\ reads code consts (g_entry g) (snd m).

(** The number of fields of each data constructor, by tag. *)
Definition constructor_fields (tag : nat) : option nat :=
  match tag with
  | 0 (* null *) | 1 (* true *) | 2 (* false *) | 6 (* empty list *) => Some 0
  | 3 (* number *) | 4 (* symbol *) | 5 (* string *) | 11 (* datetime *) | 17 (* type data *) => Some 1
  | 7 (* list cell *) | 8 (* block *) | 9 (* block pair *) | 10 (* key-value list *) | 12 (* io-return *)
  | 14 (* io-action *) | 15 (* io-fail *) | 16 (* clause *) => Some 2
  | 13 (* io-bind *) => Some 3
  | _ => None
  end%nat.

(** Every table of a program leads to the code it should: each data constructor's template builds that
    constructor from its environment's first slots; the trampoline for [s] supplied and [n] pending
    arguments calls the function in slot [n] on the supplied arguments (the slots after it) and then
    the pending ones (the slots before it); and the globals are as given. *)
Record program_ok (producer_next : N) (p : program native) (gs : list gform) (globals : list (form native)) : Prop := {
  ok_templates : forall tag n, constructor_fields tag = Some n -> exists o, nth_error (p_templates p) tag = Some o
    /\ reads (p_code p) (p_consts p) o (SCons (N.of_nat tag) (locals 0 n));
  ok_blackhole : reads (p_code p) (p_consts p) (p_blackhole p) SBlackHole;
  ok_meta : reads (p_code p) (p_consts p) (p_meta p) (SMeta (RL 0) (RL 1));
  ok_pap : forall s n, (1 <= s <= 16)%nat -> (1 <= n <= 16)%nat -> exists o, pap_offset p s n = Some o
    /\ reads (p_code p) (p_consts p) o (SApp (RL (N.of_nat n)) (locals (n + 1) s ++ locals 0 n) false);
  ok_apply1 : reads (p_code p) (p_consts p) (p_apply1 p) (SApp (RL 0) [RL 1] false);
  ok_apply2 : reads (p_code p) (p_consts p) (p_apply2 p) (SApp (RL 0) [RL 1; RL 2] false);
  ok_producer : reads (p_code p) (p_consts p) (p_producer p) (SBif producer_next [RL 0]);
  ok_globals : Forall2 (global_ok (p_code p) (p_consts p)) globals gs;
  ok_entries : p_globals p = map g_entry gs }.
End Whole.
