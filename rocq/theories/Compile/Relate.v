(** Code that reads as a core expression. *)
From Coq Require Import String List Bool Arith NArith Lia.
From Verif.Basics Require Model.
From Verif.Scope Require Import Model.
From Verif.Bytecode Require Import Model.
From Verif.Compile Require Import Model.
Import ListNotations.
Open Scope nat_scope.

Section Relate.
Context {native : Type}.
Notation ref := (ref native).
Notation syn := (syn native).
Notation form := (form native).
Variable St : settings (native := native).
(** Whether definitions may be forced ahead of their use. *)
Variable forcing : bool.

(** What the machine's scopes are at some point of the code: parameters; the definitions of a core
    let, with the reference for each of its variables; definitions the compiler has added. *)
Inductive level :=
| LLam (n : nat)
| LLet (refs : list ref) (fs : list form)
| LSyn (rec : bool) (fs : list form).
Definition level_frame (l : level) : frame (native := native) :=
  match l with
  | LLam n => mkFrame true (map local (seq 0 n)) n
  | LLet refs fs => mkFrame true refs (List.length fs)
  | LSyn _ fs => mkFrame false [] (List.length fs)
  end.
Definition ctx (G : list level) : context (native := native) := map level_frame G.

(** The definition a local reference denotes, with the scopes it is in, when that is a definition of
    the innermost core let or one added inside it. *)
Fixpoint slot (G : list level) (n : nat) : option (list level * form) :=
  match G with
  | LSyn rec fs :: G' =>
      match nth_error fs n with
      | Some f => Some (if rec then G else G', f)
      | None => slot G' (n - List.length fs)
      end
  | LLet refs fs :: G' => option_map (fun f => (G, f)) (nth_error fs n)
  | _ => None
  end.

Definition global_of (e : expr) : option ref :=
  match e with
  | EVar (Free n) => match resolve_free St n with Ok r => Some r | Err _ => None end
  | ENode (KIntrinsic n) _ => match intrinsic_index St n with Ok i => Some (global i) | Err _ => None end
  | ENode KList [] => Some empty_list
  | _ => None
  end.

Definition forces (idx : list nat) (t : syn) : syn := fold_right (fun i t => SSeq (SAtom (local i)) t) t idx.
Definition let_code (rec : bool) (fs : list form) (idx : list nat) (t : syn) : syn :=
  match fs with [] => t | _ => SLet rec fs (forces idx t) end.

(** Demands that force nothing. *)
Definition quiet_demand (d : demand) : Prop :=
  Basics.Model.d_strict d = Basics.Model.SStrict -> Basics.Model.d_rec d = false -> Is_true forcing.
Definition quiet_table (t : list (string * list demand)) : Prop := Forall (fun e => Forall quiet_demand (snd e)) t.
Definition quiet_tables : Prop := quiet_table (s_intrinsic_sigs St) /\ quiet_table (s_user_sigs St) /\ quiet_table (s_prelude_sigs St).
Fixpoint quiet (e : expr) : Prop :=
  match e with
  | EVar _ => True
  | ELet bs body _ =>
      (fix all (l : list (binding expr)) : Prop :=
         match l with [] => True | b :: l => (quiet_demand (b_demand b) /\ quiet (b_expr b)) /\ all l end) bs /\ quiet body
  | ELam _ _ body => quiet body
  | ENode _ xs => (fix all (l : list expr) : Prop := match l with [] => True | x :: l => quiet x /\ all l end) xs
  end.

(** An unknown name in an expression. *)
Inductive unknown : expr -> Prop :=
| un_here n : (forall r, resolve_free St n <> Ok r) -> unknown (EVar (Free n))
| un_part k xs x : In x xs -> unknown x -> unknown (ENode k xs).

Inductive reads : list level -> syn -> expr -> Prop :=
| r_var G s b nm r : lookup (ctx G) s b = Ok r -> reads G (SAtom r) (EVar (Bound s b nm))
| r_global G e r : global_of e = Some r -> reads G (SAtom r) e
| r_literal G p xs : reads G (boxed_literal St p) (ENode (KLiteral p) xs)
| r_app G f rs eager x xs :
    rreads G f x -> rreadss G rs xs -> reads G (SApp f rs eager) (ENode KApp (x :: xs))
| r_direct G smid f rs eager x xs :
    rreads G f x -> rreadss G rs xs -> rs <> [] -> reads G (SDirectApp smid f rs eager) (ENode KApp (x :: xs))
| r_inline G name ys xs n bif rs :
    intrinsic_index St name = Ok n -> nth_error (s_intrinsics St) n = Some bif ->
    s_suppress_inlining St = false -> i_inlinable bif = true ->
    i_arity bif = List.length rs -> (i_fusible bif = true -> List.length rs = 2 -> is_fusible_body (i_wrapper bif) = false) ->
    rreadss G rs xs ->
    reads G (inline_code rs (i_wrapper bif)) (ENode KApp (ENode (KIntrinsic name) ys :: xs))
| r_fused G name ys xs n bif a b :
    intrinsic_index St name = Ok n -> nth_error (s_intrinsics St) n = Some bif ->
    s_suppress_inlining St = false -> i_inlinable bif = true ->
    i_arity bif = 2 -> i_fusible bif = true -> is_fusible_body (i_wrapper bif) = true -> rreadss G [a; b] xs ->
    reads G (SFused (u8 (N.of_nat n)) a b (inline_code [a; b] (i_wrapper bif)))
      (ENode KApp (ENode (KIntrinsic name) ys :: xs))
| r_ann G smid t e : reads G t e -> reads G (SAnn smid t) e
| r_syn G rec fs idx t e : idx = [] \/ Is_true forcing -> reads (LSyn rec fs :: G) t e -> reads G (let_code rec fs idx t) e
| r_let G bs body ty refs fs idx t :
    idx = [] \/ Is_true forcing ->
    breads (LLet refs fs :: G) refs 0 refs (map b_expr bs) -> reads (LLet refs fs :: G) t body ->
    reads G (let_code true fs idx t) (ELet bs body ty)
| r_lam G f inl ps body :
    freads G f (ELam inl ps body) -> reads G (SLet false [f] (SAtom (RL 0))) (ELam inl ps body)
| r_cons G h tl x xs :
    rreads G h x -> rreads G tl (ENode KList xs) -> reads G (cons h tl) (ENode KList (x :: xs))
| r_block G r keys xs : preads G r (combine keys xs) -> reads G (block St r) (ENode (KBlock keys) xs)
| r_meta G m e rm re rest :
    rreads G rm m -> rreads G re e -> reads G (SMeta rm re) (ENode KMeta (e :: m :: rest))
| r_operator G t fx pr x rest : reads G t x -> reads G t (ENode (KOperator fx pr) (x :: rest))
| r_lookup G key x fallback smid o dft n k :
    rreads G o x -> dreads G key o fallback dft ->
    slot G n = Some (G, (k, annotate St (SApp (RG ix_lookup_or_unboxed) [RV (s_symbol St key); dft; o] false))) ->
    fk_arity k = 0%N ->
    reads G (SLookupLit smid (RV (s_symbol St key)) o (local n)) (ENode (KLookup key) (x :: fallback))
(** A definition that reads as an expression. *)
with freads : list level -> form -> expr -> Prop :=
| fr_code G k t e : k = FThunk \/ k = FValue -> reads G t e -> freads G (k, t) e
| fr_lam G a t inl ps body :
    reads (LLam (List.length ps) :: G) t body -> freads G (FLambda (N.of_nat (List.length ps)) a, t) (ELam inl ps body)
(** A reference that stands for an expression. *)
with rreads : list level -> ref -> expr -> Prop :=
| rr_var G s b nm r : lookup (ctx G) s b = Ok r -> rreads G r (EVar (Bound s b nm))
| rr_global G e r : global_of e = Some r -> rreads G r e
| rr_slot G n G' f e : slot G n = Some (G', f) -> freads G' f e -> rreads G (local n) e
| rr_operator G r fx pr x rest : rreads G r x -> rreads G r (ENode (KOperator fx pr) (x :: rest))
with rreadss : list level -> list ref -> list expr -> Prop :=
| rs_nil G : rreadss G [] []
| rs_cons G r rs e es : rreads G r e -> rreadss G rs es -> rreadss G (r :: rs) (e :: es)
(** The list of pairs of a block. *)
with preads : list level -> ref -> list (string * expr) -> Prop :=
| pr_nil G : preads G empty_list []
| pr_cons G n k kv tl m k' v key x kvs :
    slot G n = Some (G, (k, cons kv tl)) -> fk_arity k = 0%N -> kv = local m ->
    slot G m = Some (G, (k', pair St key v)) -> fk_arity k' = 0%N ->
    rreads G v x -> preads G tl kvs -> preads G (local n) ((key, x) :: kvs)
(** The reference for each variable of a let; [refs] are all of them, the [i]th first. A variable
    defined as an earlier one may share its reference. *)
with breads : list level -> list ref -> nat -> list ref -> list expr -> Prop :=
| br_nil G refs i : breads G refs i [] []
| br_cons G refs i r rs e es :
    bread G refs i r e -> breads G refs (i + 1) rs es -> breads G refs i (r :: rs) (e :: es)
with bread : list level -> list ref -> nat -> ref -> expr -> Prop :=
| b_alias G refs i j nm r : j < i -> nth_error refs j = Some r -> bread G refs i r (EVar (Bound 0 j nm))
| b_global G refs i e r : global_of e = Some r -> bread G refs i r e
| b_slot G refs i n G' f e : slot G n = Some (G', f) -> freads G' f e -> bread G refs i (local n) e
| b_operator G refs i r fx pr x rest : bread G refs i r x -> bread G refs i r (ENode (KOperator fx pr) (x :: rest))
(** The value of a failing lookup. *)
with dreads : list level -> string -> ref -> list expr -> ref -> Prop :=
| d_given G key o d rest r : rreads G r d -> dreads G key o (d :: rest) r
| d_none G key o n k : slot G n = Some (G, (k, lookup_fail St key o)) -> dreads G key o [] (local n)
| d_unknown G key o d rest n k :
    unknown d -> slot G n = Some (G, (k, lookup_fail St key o)) -> dreads G key o (d :: rest) (local n).
End Relate.
Arguments LLam {native}.
