(** What a compiled program means: call by name.

    There is no heap, nothing is shared and nothing is overwritten: a variable stands for an
    unevaluated expression with its own environment, and is evaluated afresh each time it is
    needed. *)
From Coq Require Import List Bool Arith NArith.
From Verif.Bytecode Require Import Model Spec.
From Verif.Machine Require Import Model.
Import ListNotations.
Open Scope nat_scope.

Section ByName.
Context {native : Type}.
Notation ref := (ref native).
Notation syn := (syn native).
Notation form := (form native).

(** A value: a native; code awaiting [arity] arguments (or, when that is 0, an unevaluated
    expression) with an environment; or a function with the arguments it has so far. An environment
    is a list of scopes: values, or mutually recursive definitions. *)
Inductive value :=
| VNat (n : native)
| VClo (code : syn) (arity : nat) (env : list scope)
| VPap (f : value) (args : list value)
with scope :=
| Vals (vs : list value)
| Rec (fs : list form).

Definition env := list scope.
Definition closure (e : env) (f : form) : value := VClo (snd f) (N.to_nat (fk_arity (fst f))) e.

(** Variables are numbered from the innermost scope outwards. *)
Fixpoint lookup (e : env) (i : nat) : option value :=
  match e with
  | [] => None
  | Vals vs :: e' => if i <? length vs then nth_error vs i else lookup e' (i - length vs)
  | Rec fs :: e' =>
      if i <? length fs then option_map (closure (Rec fs :: e')) (nth_error fs i)
      else lookup e' (i - length fs)
  end.

(** How many more arguments a function takes. *)
Fixpoint takes (v : value) : nat :=
  match v with
  | VNat _ => 0
  | VClo _ a _ => a
  | VPap f args => takes f - length args
  end.
Definition is_meta (v : value) : bool :=
  match v with VClo (SMeta _ _) 0 _ => true | _ => false end.
(** The branch of a case that a value selects. *)
Definition selects (v : value) (bs : list (N * syn)) : option syn :=
  match v with VClo (SCons tag _) 0 _ => branch_for tag bs | _ => None end.
Definition bind (vs : list value) (e : env) : env := match vs with [] => e | _ => Vals vs :: e end.
Definition boxed (tag : N) : Prop := In tag [3%N; 4%N; 5%N; 11%N].

Section Eval.
Variable prim : N -> list native -> prim_result (native := native).
Variable merge : N.
Variable globals : list form.

Definition variable (e : env) (r : ref) : option value :=
  match r with
  | RL i => lookup e (N.to_nat i)
  | RG i => option_map (closure []) (nth_error globals (N.to_nat i))
  | RV n => Some (VNat n)
  end.
Fixpoint variables (e : env) (rs : list ref) : option (list value) :=
  match rs with
  | [] => Some []
  | r :: rs => match variable e r, variables e rs with
               | Some v, Some vs => Some (v :: vs)
               | _, _ => None
               end
  end.
(** Arguments are passed unevaluated. An argument that names no variable is an error when it is
    used, or when the call is made if the call asks for its arguments to be fetched. *)
Definition argument (e : env) (r : ref) : value :=
  match variable e r with Some v => v | None => VClo (SAtom r) 0 e end.
Definition unbound_local (e : env) (r : ref) : bool :=
  match r with RL i => match lookup e (N.to_nat i) with None => true | _ => false end | _ => false end.
Definition arguments (eager : bool) (e : env) (rs : list ref) : option (list value) :=
  if eager && existsb (unbound_local e) rs then None else Some (map (argument e) rs).

Definition delivered (r : prim_result (native := native)) : option value :=
  match r with
  | RNative n => Some (VNat n)
  | RData tag ns => Some (VClo (SCons tag (lrefs 0 (length ns))) 0 (bind (map VNat ns) []))
  | RError => None
  end.

(** [evals p v]: [p] evaluates to [v], which is a native, a function, a data value, or one of these
    with metadata attached.
    [strips p v]: the same, with all metadata taken off.
    [applies f args v]: [f] applied to [args] evaluates to [v].
    [operand p n]: [p], as the operand of an arithmetic or comparison operator, is the native [n];
    boxes are opened.
    [natives ps ns]: each of [ps] evaluates to the corresponding native. *)
Inductive evals : value -> value -> Prop :=
| ev_native n : evals (VNat n) (VNat n)
| ev_function c a e : 0 < a -> evals (VClo c a e) (VClo c a e)
| ev_partial f args : evals (VPap f args) (VPap f args)
| ev_data tag args e : evals (VClo (SCons tag args) 0 e) (VClo (SCons tag args) 0 e)
| ev_meta m b e : evals (VClo (SMeta m b) 0 e) (VClo (SMeta m b) 0 e)
| ev_variable r e p v : variable e r = Some p -> evals p v -> evals (VClo (SAtom r) 0 e) v
| ev_branch scr bs fb e tag args e' b vs v :
    strips (VClo scr 0 e) (VClo (SCons tag args) 0 e') -> branch_for tag bs = Some b ->
    variables e' args = Some vs -> evals (VClo b 0 (bind vs e)) v ->
    evals (VClo (SCase scr bs fb) 0 e) v
| ev_fallback scr bs f e w v :
    strips (VClo scr 0 e) w -> selects w bs = None -> evals (VClo f 0 (Vals [w] :: e)) v ->
    evals (VClo (SCase scr bs (Some f)) 0 e) v
| ev_apply f args eager e p vs v :
    variable e f = Some p -> arguments eager e args = Some vs -> applies p vs v ->
    evals (VClo (SApp f args eager) 0 e) v
| ev_direct smid f args eager e p vs v :
    variable e f = Some p -> arguments eager e args = Some vs -> applies p vs v ->
    evals (VClo (SDirectApp smid f args eager) 0 e) v
| ev_primitive i args e ps ns v :
    variables e args = Some ps -> natives ps ns -> delivered (prim i ns) = Some v ->
    evals (VClo (SBif i args) 0 e) v
| ev_let fs body e v :
    evals (VClo body 0 (Vals (map (closure e) fs) :: e)) v -> evals (VClo (SLet false fs body) 0 e) v
| ev_letrec fs body e v :
    evals (VClo body 0 (Rec fs :: e)) v -> evals (VClo (SLet true fs body) 0 e) v
| ev_annotated smid body e v : evals (VClo body 0 e) v -> evals (VClo (SAnn smid body) 0 e) v
| ev_has_meta scr handler or_else e m b e' p q v :
    evals (VClo scr 0 e) (VClo (SMeta m b) 0 e') -> variable e' m = Some p -> variable e' b = Some q ->
    evals (VClo handler 0 (Vals [p; q] :: e)) v -> evals (VClo (SDeMeta scr handler or_else) 0 e) v
| ev_no_meta scr handler or_else e w v :
    evals (VClo scr 0 e) w -> is_meta w = false -> evals (VClo or_else 0 (Vals [w] :: e)) v ->
    evals (VClo (SDeMeta scr handler or_else) 0 e) v
| ev_force scr body e w v :
    strips (VClo scr 0 e) w -> evals (VClo body 0 e) v -> evals (VClo (SSeq scr body) 0 e) v
| ev_fused i l r inner e a b v :
    operand (VClo (SAtom l) 0 e) a -> operand (VClo (SAtom r) 0 e) b ->
    delivered (prim i [a; b]) = Some v -> evals (VClo (SFused i l r inner) 0 e) v
with strips : value -> value -> Prop :=
| st_plain p v : evals p v -> is_meta v = false -> strips p v
| st_meta p m b e q v :
    evals p (VClo (SMeta m b) 0 e) -> variable e b = Some q -> strips q v -> strips p v
with applies : value -> list value -> value -> Prop :=
| ap_saturated p args c e v :
    strips p (VClo c (length args) e) -> 0 < length args ->
    evals (VClo c 0 (Vals args :: e)) v -> applies p args v
| ap_completed p args f held v :
    strips p (VPap f held) -> takes (VPap f held) = length args -> 0 < length args ->
    applies f (held ++ args) v -> applies p args v
| ap_partial p args w :
    strips p w -> length args < takes w -> applies p args (VPap w args)
| ap_surplus p args w u v :
    strips p w -> 0 < takes w < length args ->
    applies w (firstn (takes w) args) u -> applies u (skipn (takes w) args) v -> applies p args v
| ap_block p args fields e m v :
    strips p (VClo (SCons tag_block fields) 0 e) -> variable [] (RG merge) = Some m ->
    applies m (args ++ [VClo (SCons tag_block fields) 0 e]) v -> applies p args v
with operand : value -> native -> Prop :=
| op_native p n : strips p (VNat n) -> operand p n
| op_box p tag r rs e q n :
    strips p (VClo (SCons tag (r :: rs)) 0 e) -> boxed tag -> variable e r = Some q ->
    operand q n -> operand p n
with natives : list value -> list native -> Prop :=
| ns_nil : natives [] []
| ns_cons p n ps ns : evals p (VNat n) -> natives ps ns -> natives (p :: ps) (n :: ns).

(** The result of a program or of part of its output. Metadata is taken off, but must be there. *)
Inductive result : value -> value -> Prop :=
| rs_plain p v : evals p v -> is_meta v = false -> result p v
| rs_meta p m b e w q v :
    evals p (VClo (SMeta m b) 0 e) -> variable e m = Some w -> variable e b = Some q ->
    result q v -> result p v.

(** What can be seen of a result: natives, functions' arities, constructors' tags, and whatever part
    of their fields is looked at. *)
Inductive view := Unseen | SeenNative (n : native) | SeenFunction (arity : nat) | SeenData (tag : N) (fields : list view).

Inductive shows : value -> view -> Prop :=
| sh_unseen p : shows p Unseen
| sh_native p n : result p (VNat n) -> shows p (SeenNative n)
| sh_function p v : result p v -> 0 < takes v -> shows p (SeenFunction (takes v))
| sh_data p tag args e ps views :
    result p (VClo (SCons tag args) 0 e) -> variables e args = Some ps -> Forall2 shows ps views ->
    shows p (SeenData tag views).

(** The programs in question: those that look up no literal keys, make no direct application to no
    arguments, and have no placeholders in their text (the compiler emits none). *)
Fixpoint plain (t : syn) : Prop :=
  match t with
  | SAtom _ | SCons _ _ | SApp _ _ _ | SBif _ _ | SMeta _ _ | SFused _ _ _ _ => True
  | SDirectApp _ _ args _ => args <> []
  | SCase scr bs fb =>
      plain scr /\ All (fun b => plain (snd b)) bs /\ match fb with Some f => plain f | None => True end
  | SLet _ fs body => All (fun f => plain (snd f)) fs /\ plain body
  | SAnn _ body => plain body
  | SDeMeta a b c => plain a /\ plain b /\ plain c
  | SSeq a b => plain a /\ plain b
  | SLookupLit _ _ _ _ | SBlackHole => False
  end.
Definition plain_program (root : syn) : Prop := plain root /\ All (fun f => plain (snd f)) globals.
End Eval.

(** No operator is applied to a function: the operands of the step the machine is about to take,
    followed through variables that stand for variables, are not functions. *)
Fixpoint finds_function (fuel : nat) (h : heap (native := native)) (v : mval (native := native)) : bool :=
  match v with
  | MNat _ => false
  | MClo _ (S _) _ _ => true
  | MClo (SAtom r) 0 _ e =>
      match fuel with
      | O => false
      | S fuel => match resolve_ref h e r with Some v => finds_function fuel h v | None => false end
      end
  | MClo _ 0 _ _ => false
  end.
Definition no_function_operand (st : state (native := native)) : Prop :=
  match st with
  | mkState (MClo (SBif _ args) 0 _ e) _ h =>
      forall vs, resolve_refs h e args = Some vs -> Forall (fun v => finds_function (chase_fuel h) h v = false) vs
  | mkState cur (KFusedRight _ first_op _ :: _) h =>
      finds_function 0 h first_op = false /\ finds_function 0 h cur = false
  | _ => True
  end.

(** Looking at the machine's results. *)
Section Render.
Variable prim : N -> list native -> prim_result (native := native).
Variable is_symbol : native -> bool.
Variable symbols_equal : native -> native -> bool.
Variable merge : N.
Notation state := (state (native := native)).
Notation run := (run prim is_symbol symbols_equal merge).
Notation step := (step prim is_symbol symbols_equal merge).

Inductive visits : state -> state -> Prop :=
| vi_here st : visits st st
| vi_next st st' st'' : step st = Next st' -> visits st' st'' -> visits st st''.

Definition stops (st st' : state) : Prop := run st (Stop st').

Definition stops_properly (st st' : state) : Prop :=
  stops st st' /\ forall s, visits st s -> no_function_operand s.

(** Rendering evaluates what is looked at, from left to right, each part in the heap left by what was
    looked at before. [finishes] is the way evaluation is required to end. *)
Section Finishing.
Variable finishes : state -> state -> Prop.
Inductive renders : heap -> mval -> view -> heap -> Prop :=
| re_unseen h m : renders h m Unseen h
| re_native h m n h' : finishes (mkState m [] h) (mkState (MNat n) [] h') -> renders h m (SeenNative n) h'
| re_function h m c a u e h' :
    finishes (mkState m [] h) (mkState (MClo c a u e) [] h') -> 0 < a -> renders h m (SeenFunction a) h'
| re_data h m tag args u e ms views h' h'' :
    finishes (mkState m [] h) (mkState (MClo (SCons tag args) 0 u e) [] h') ->
    resolve_refs h' e args = Some ms -> renders_all h' ms views h'' ->
    renders h m (SeenData tag views) h''
with renders_all : heap -> list mval -> list view -> heap -> Prop :=
| re_nil h : renders_all h [] [] h
| re_cons h m ms v vs h' h'' :
    renders h m v h' -> renders_all h' ms vs h'' -> renders_all h (m :: ms) (v :: vs) h''.
End Finishing.

(** The states the machine goes through while rendering what [view] looks at. *)
Inductive looks : heap -> mval -> view -> state -> Prop :=
| lo_here h m view s : view <> Unseen -> visits (mkState m [] h) s -> looks h m view s
| lo_inside h m tag args u e ms views h' s :
    stops (mkState m [] h) (mkState (MClo (SCons tag args) 0 u e) [] h') ->
    resolve_refs h' e args = Some ms -> looks_some h' ms views s -> looks h m (SeenData tag views) s
with looks_some : heap -> list mval -> list view -> state -> Prop :=
| lo_first h m ms v vs s : looks h m v s -> looks_some h (m :: ms) (v :: vs) s
| lo_later h m ms v vs h' s :
    renders stops h m v h' -> looks_some h' ms vs s -> looks_some h (m :: ms) (v :: vs) s.

(** * Why evaluation may fail although the program has a value *)

(** A function is given no arguments, or a partial application is too wide for the fixed set of
    partial-application templates. *)
Definition too_wide (st : state) : Prop :=
  exists c a u e args K h, st = mkState (MClo c a u e) (KApply args :: K) h /\ length args < a /\
    (args = [] \/ 16 < length args \/ 16 < a - length args).

(** An intrinsic is executed whose operands have not all been evaluated to natives. *)
Inductive stands_for (h : heap) : mval -> native -> Prop :=
| sf_native n : stands_for h (MNat n) n
| sf_variable r a u e v n :
    resolve_ref h e r = Some v -> stands_for h v n -> stands_for h (MClo (SAtom r) a u e) n.
Definition unready (st : state) : Prop :=
  exists i args u e K h vs v, st = mkState (MClo (SBif i args) 0 u e) K h /\
    resolve_refs h e args = Some vs /\ In v vs /\ forall n, ~ stands_for h v n.

(** The next step copies a placeholder found in a slot whose thunk is being evaluated: the step
    makes an array that contains one, or leads to a list of waiting arguments that contains one. *)
Definition is_hole (v : mval (native := native)) : Prop := exists e, v = hole e.
Definition copies_placeholder (st : state) : Prop :=
  exists st', step st = Next st' /\
    ((exists a v, length (s_heap st) <= a /\ In v (array (s_heap st') a) /\ is_hole v) \/
     (exists args v, In (KApply args) (s_stack st') /\ In v args /\ is_hole v)).

(** A state in which none of these is about to happen. *)
Definition ordinary (st : state) : Prop := ~ too_wide st /\ ~ unready st /\ ~ copies_placeholder st.

(** * Sharing *)
(** Values that need no evaluation. *)
Definition evaluated (v : mval (native := native)) : Prop :=
  match v with
  | MNat _ | MClo _ (S _) _ _ | MClo (SCons _ _) 0 _ _ | MClo (SMeta _ _) 0 _ _ => True
  | MClo _ 0 _ _ => False
  end.
(** What may be passed as an argument without copying an expression: a reference to a variable, or a
    function. *)
Definition passed (v : mval (native := native)) : Prop :=
  match v with
  | MClo (SAtom _) 0 _ _ | MClo _ (S _) _ _ => True
  | _ => False
  end.
(** The next step starts the evaluation of the expression in slot [j] of array [a]. *)
Definition begins (st : state) (a j : nat) (v : mval) : Prop :=
  exists st' w, step st = Next st' /\ slot (s_heap st) a j = Some v /\ ~ evaluated v /\ ~ is_hole v /\
    slot (s_heap st') a j = Some w /\ is_hole w.
End Render.
End ByName.
