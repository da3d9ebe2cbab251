(** The compiler from core expressions to the machine's code: src/eval/stg/compiler.rs.

    Simplifications: core expressions carry no source positions in this model, so every one of
    them has the same position [position] (0 stands for the invalid one); hash tables are
    association lists, of which the first entry for a key counts; indices are unbounded. A
    [ProtoSyntax] object is a function from the context that the realisation of its binder
    supplies. Rust panics are the error [Panic]. *)
From Coq Require Import String List Bool Arith NArith.
From Verif.Basics Require Model.
From Verif.Scope Require Import Model.
From Verif.Bytecode Require Import Model.
Import ListNotations.
Open Scope nat_scope.

Notation demand := Basics.Model.demand.

(** [CompileError], compiler.rs 34-90. *)
Inductive error :=
| FreeVar (name : string)
| BoundVarOverflow
| MaxLambdaArgs
| UnknownIntrinsic (name : string)
| BadArgTuple
| BadSoup
| Unexpected
| Panic.
Inductive res (A : Type) := Ok (a : A) | Err (e : error).
Arguments Ok {A}. Arguments Err {A}.
Definition bind {A B} (r : res A) (f : A -> res B) : res B := match r with Ok a => f a | Err e => Err e end.
Fixpoint all_ok {A} (l : list (res A)) : res (list A) :=
  match l with
  | [] => Ok []
  | r :: l => bind r (fun a => bind (all_ok l) (fun l => Ok (a :: l)))
  end.
Fixpoint find {A} (t : list (string * A)) (name : string) : option A :=
  match t with [] => None | (n, a) :: t => if String.eqb n name then Some a else find t name end.
Definition or_else {A} (a b : option A) : option A := match a with Some _ => a | None => b end.

(** [RenderType], src/eval/stg/mod.rs. *)
Inductive render := Headless | RenderDoc | RenderFragment.

Section Compiler.
Context {native : Type}.
Notation ref := (ref native).
Notation syn := (syn native).
Notation form := (form native).

(** What the compiler asks of an intrinsic's implementation: [StgIntrinsic], its [wrapper]'s body,
    the arity of its catalogue entry and whether it is one of [FUSIBLE_PRIMOP_NAMES],
    src/eval/intrinsics.rs 1083-1094. *)
Record intrinsic := mkIntrinsic {
  i_inlinable : bool; i_arity : nat; i_wrapper : syn; i_fusible : bool }.

(** [Compiler], compiler.rs 498-544, with the catalogue of intrinsics it refers to. *)
Record settings := mkSettings {
  s_annotations : bool;
  s_render : render;
  s_suppress_updates : bool;
  s_suppress_inlining : bool;
  s_catalogue : list string;
  s_intrinsics : list intrinsic;
  s_intrinsic_sigs : list (string * list demand);
  s_prelude_globals : option (list (string * nat));
  s_user_sigs : list (string * list demand);
  s_prelude_sigs : list (string * list demand);
  s_position : N;
  (** Literals as natives: [Native::Str], [Native::Sym], [Native::Num], src/eval/stg/syntax.rs. *)
  s_string : string -> native;
  s_symbol : string -> native;
  s_number : string -> native }.

Variable S : settings.

(** stg/tags.rs 12-46 and the positions of intrinsics, eval/intrinsics.rs 48-1066. *)
Definition unit_tag := 0%N. Definition true_tag := 1%N. Definition false_tag := 2%N.
Definition number_tag := 3%N. Definition symbol_tag := 4%N. Definition string_tag := 5%N.
Definition cons_tag := 7%N. Definition block_tag := 8%N. Definition pair_tag := 9%N.
Definition type_data_tag := 17%N.
Definition ix_render := 2%N. Definition ix_render_doc := 36%N. Definition ix_lookup_or_unboxed := 39%N.
Definition ix_empty_list := 82%N. Definition ix_lookup_fail := 107%N.

Definition local (n : nat) : ref := RL (N.of_nat n).
Definition global (n : nat) : ref := RG (N.of_nat n).
(** [Reference::bump], stg/syntax.rs 87-92. *)
Definition bump (delta : nat) (r : ref) : ref :=
  match r with RL n => RL (n + N.of_nat delta)%N | _ => r end.
(** [StgSyn::is_whnf], stg/syntax.rs 244-253. *)
Definition is_whnf (t : syn) : bool :=
  match t with SCons _ _ | SMeta _ _ | SAtom (RV _) => true | _ => false end.
(** [dsl::ann] where annotations are generated and the position is valid. *)
Definition valid : bool := negb (s_position S =? 0)%N.
Definition annotate (t : syn) : syn :=
  if s_annotations S && valid then SAnn (s_position S) t else t.
(** The position recorded in a node, compiler.rs 1953-1957, 2003-2007. *)
Definition noted : N := if s_annotations S then s_position S else 0%N.

(** [compile_boxed_literal], compiler.rs 1444-1453; dsl, stg/syntax.rs 490-554. *)
Definition boxed_literal (p : prim) : syn :=
  match p with
  | PStr s => SCons string_tag [RV (s_string S s)]
  | PSym s => SCons symbol_tag [RV (s_symbol S s)]
  | PNum s => SCons number_tag [RV (s_number S s)]
  | PBool b => SCons (if b then true_tag else false_tag) []
  | PNull => SCons unit_tag []
  | PTypeData s => SCons type_data_tag [RV (s_string S s)]
  end.
(** dsl, stg/syntax.rs 562-582; the empty list is the constant [K[]]. *)
Definition cons (h t : ref) : syn := SCons cons_tag [h; t].
Definition empty_list : ref := RG ix_empty_list.
Definition pair (key : string) (v : ref) : syn := SCons pair_tag [RV (s_symbol S key); v].
Definition block (r : ref) : syn := SCons block_tag [r; RV (s_number S "0")].
(** [lookup_fail], src/eval/stg/block.rs 1390-1399. *)
Definition lookup_fail (key : string) (obj : ref) : syn :=
  annotate (SApp (RG ix_lookup_fail) [RV (s_symbol S key); obj] false).

(** [Context], compiler.rs 425-494: [f_scope] says whether the frame corresponds to a scope of the
    core expression. *)
Record frame := mkFrame { f_scope : bool; f_refs : list ref; f_size : nat }.
Definition context := list frame.
(** [Context::lookup], lines 474-494. *)
Fixpoint lookup (c : context) (scope binder : nat) : res ref :=
  match c with
  | [] => Err BoundVarOverflow
  | f :: c =>
      if f_scope f then
        match scope with
        | O => match nth_error (f_refs f) binder with Some r => Ok r | None => Err Panic end
        | Datatypes.S scope => bind (lookup c scope binder) (fun r => Ok (bump (f_size f) r))
        end
      else bind (lookup c scope binder) (fun r => Ok (bump (f_size f) r))
  end.

(** [ProtoSyntax], lines 546-602, and [ProtoReference], lines 604-608. *)
Record proto := mkProto { p_form : context -> res form; p_syntax : context -> res syn }.
Definition proto_ref := context -> res ref.

(** The default [take_lambda_form], lines 565-584. *)
Definition proto_syntax (d : demand) (take : context -> res syn) : proto :=
  mkProto
    (fun c => bind (take c) (fun t =>
       Ok (if Basics.Model.skip_update d || is_whnf t || s_suppress_updates S then (FValue, t) else (FThunk, t))))
    take.
(** The default [take_syntax], lines 590-602. *)
Definition proto_form (take : context -> res form) : proto :=
  mkProto take (fun c => bind (take c) (fun f => Ok (SLet false [f] (SAtom (RL 0))))).

(** [Holder], lines 1045-1085; [ProtoVar], lines 976-1009; [ProtoRef], lines 1013-1043. *)
Definition holder (t : syn) : proto := proto_syntax default_demand (fun _ => Ok t).
Definition var_proto (scope binder : nat) : proto :=
  proto_syntax default_demand (fun c => bind (lookup c scope binder) (fun r => Ok (SAtom r))).
Definition ref_proto (r : ref) : proto := holder (SAtom r).
Definition var_ref (scope binder : nat) : proto_ref := fun c => lookup c scope binder.
Definition known_ref (r : ref) : proto_ref := fun _ => Ok r.

(** [LetBinder], lines 613-637: what changes while bindings are added. *)
Record binder := mkBinder {
  bd_recursive : bool; bd_bindings : list proto; bd_refs : list ref; bd_strict : list nat }.
(** Actions on a binder; what was added stays when a later part fails. *)
Definition act (A : Type) := binder -> res A * binder.
Definition ret {A} (a : A) : act A := fun b => (Ok a, b).
Definition fail {A} (e : error) : act A := fun b => (Err e, b).
Definition andthen {A B} (m : act A) (f : A -> act B) : act B :=
  fun b => match m b with (Ok a, b) => f a b | (Err e, b) => (Err e, b) end.
Definition lift_res {A} (r : res A) : act A := fun b => (r, b).

(** Lines 688-717, 818-862. *)
Definition running_ref (i : nat) (b : binder) : option ref :=
  if bd_recursive b then nth_error (bd_refs b) i else None.
Definition ensure_recursive : act unit :=
  fun b => (Ok tt, mkBinder true (bd_bindings b) (bd_refs b) (bd_strict b)).
Definition add_deferred (p : proto) : act ref :=
  fun b => (Ok (local (List.length (bd_bindings b))),
            mkBinder (bd_recursive b) (bd_bindings b ++ [p]) (bd_refs b) (bd_strict b)).
Definition add (t : syn) : act ref := add_deferred (holder t).
Definition mark_strict (n : nat) : act unit :=
  fun b => (Ok tt, if existsb (Nat.eqb n) (bd_strict b) then b
                   else mkBinder (bd_recursive b) (bd_bindings b) (bd_refs b) (bd_strict b ++ [n])).
Definition add_var_index (r : ref) : act unit :=
  fun b => (Ok tt, mkBinder (bd_recursive b) (bd_bindings b) (bd_refs b ++ [r]) (bd_strict b)).
(** Marking the binding a reference denotes, lines 955-959, 1220-1224. *)
Definition mark_if_strict (d : demand) (r : ref) : act unit :=
  match Basics.Model.d_strict d, Basics.Model.d_rec d, r with
  | Basics.Model.SStrict, false, RL n => mark_strict (N.to_nat n)
  | _, _, _ => ret tt
  end.

(** [LetBinder::into_stg], lines 722-816. *)
Definition is_thunk (f : form) : bool := match fst f with FThunk => true | _ => false end.
Definition force_first (fs : list form) (strict : list nat) (t : syn) : syn :=
  fold_right (fun i t => SSeq (SAtom (local i)) t) t
    (filter (fun i => match nth_error fs i with Some f => is_thunk f | None => false end) strict).
Definition realise (scope : bool) (outer : context) (b : binder) (body : proto) : res syn :=
  let inner := mkFrame scope (bd_refs b) (List.length (bd_bindings b)) :: outer in
  bind (all_ok (map (fun p => p_form p (if bd_recursive b then inner else outer)) (bd_bindings b))) (fun fs =>
  bind (p_syntax body inner) (fun t =>
  Ok (match fs with
      | [] => t
      | _ => SLet (bd_recursive b) fs (force_first fs (bd_strict b) t)
      end))).
(** Building a let: the actions fill an empty binder and end with the body. *)
Definition building (scope recursive : bool) (outer : context) (m : act proto) : res syn :=
  match m (mkBinder recursive [] [] []) with
  | (Ok body, b) => realise scope outer b body
  | (Err e, _) => Err e
  end.

(** [resolve_free_var], lines 1654-1667. *)
Definition resolve_free (name : string) : res ref :=
  match s_prelude_globals S with
  | Some m => match find m name with
              | Some slot => Ok (global (List.length (s_catalogue S) + slot))
              | None => Err (FreeVar name)
              end
  | None => Err (FreeVar name)
  end.
(** [intrinsics::index], src/eval/intrinsics.rs 1069-1071. *)
Definition intrinsic_index (name : string) : res nat :=
  match position (s_catalogue S) name with Some n => Ok n | None => Err (UnknownIntrinsic name) end.

(** A sub-expression with the two ways in which it is compiled: [compile_body], lines 1737-1812, and
    [compile_binding], lines 1823-1927. *)
Record code := mkCode {
  c_body : option string -> act proto;
  c_binding : demand -> option string -> act ref }.
Definition item := (expr * code)%type.

(** [ProtoApp], [ProtoDirectApp], lines 1378-1436, 1333-1375. *)
Fixpoint take_refs (rs : list proto_ref) (c : context) : res (list ref) :=
  match rs with
  | [] => Ok []
  | r :: rs => bind (r c) (fun x => bind (take_refs rs c) (fun xs => Ok (x :: xs)))
  end.
Definition app_proto (f : proto_ref) (args : list proto_ref) (d : demand) (eager : bool) : proto :=
  proto_syntax d (fun c => bind (f c) (fun f => bind (take_refs args c) (fun xs => Ok (SApp f xs eager)))).
Definition direct_proto (f : proto_ref) (args : list proto_ref) (d : demand) (eager : bool) : proto :=
  proto_syntax d (fun c => bind (f c) (fun f => bind (take_refs args c) (fun xs =>
    Ok (SDirectApp (s_position S) f xs eager)))).
(** [ProtoInline], [ProtoFusedInline], lines 1526-1613. *)
Definition inline_code (xs : list ref) (body : syn) : syn :=
  SLet false (map (fun r => (FValue, SAtom r)) xs) body.
Definition inline_proto (args : list proto_ref) (body : syn) : proto :=
  proto_syntax default_demand (fun c => bind (take_refs args c) (fun xs => Ok (inline_code xs body))).
Definition fused_proto (id : nat) (args : list proto_ref) (body : syn) : proto :=
  proto_syntax default_demand (fun c => bind (take_refs args c) (fun xs =>
    match xs with
    | l :: r :: _ => Ok (SFused (u8 (N.of_nat id)) l r (inline_code xs body))
    | _ => Err Panic
    end)).

(** [ProtoAppGroup::take_syntax], lines 1132-1334. The function position, lines 1143-1173: a
    reference, the intrinsic it is, and the name by which it is called. *)
Definition callee (f : item) (self : option string) : act (proto_ref * option nat * option string) :=
  match fst f with
  | EVar (Bound s b n) => ret (var_ref s b, None, n)
  | EVar (Free n) => andthen (lift_res (resolve_free n)) (fun r => ret (known_ref r, None, Some n))
  | ENode (KIntrinsic n) _ =>
      andthen (lift_res (intrinsic_index n)) (fun i => ret (known_ref (global i), Some i, None))
  | _ => andthen (c_binding (snd f) default_demand self) (fun r => ret (known_ref r, None, None))
  end.
(** Lines 1175-1190. *)
Definition arg_demands (i : option nat) (name : option string) : option (list demand) :=
  let by_name t := match name with Some n => find t n | None => None end in
  or_else match i with
          | Some i => match nth_error (s_catalogue S) i with Some n => find (s_intrinsic_sigs S) n | None => None end
          | None => None
          end
    (or_else (by_name (s_user_sigs S)) (by_name (s_prelude_sigs S))).
(** Lines 1192-1228. *)
Definition argument (d : demand) (self : option string) (x : item) : act proto_ref :=
  match fst x with
  | EVar (Bound s b _) => ret (var_ref s b)
  | EVar (Free n) => andthen (lift_res (resolve_free n)) (fun r => ret (known_ref r))
  | ENode (KIntrinsic n) _ => andthen (lift_res (intrinsic_index n)) (fun i => ret (known_ref (global i)))
  | _ => andthen (c_binding (snd x) d self) (fun r =>
         andthen (mark_if_strict d r) (fun _ => ret (known_ref r)))
  end.
Fixpoint arguments (ds : list demand) (self : option string) (xs : list item) : act (list proto_ref) :=
  match xs with
  | [] => ret []
  | x :: xs => andthen (argument (hd default_demand ds) self x) (fun r =>
               andthen (arguments (tl ds) self xs) (fun rs => ret (r :: rs)))
  end.
(** Lines 1230-1291. *)
Definition same_name (a b : option string) : bool :=
  match a, b with Some a, Some b => String.eqb a b | _, _ => false end.
Definition call (f : proto_ref) (i : option nat) (name : option string) (args : list proto_ref) (d : demand)
    (self : option string) : proto :=
  let inlined := match i with
                 | Some n => match nth_error (s_intrinsics S) n with
                             | Some bif => if negb (s_suppress_inlining S) && i_inlinable bif
                                              && (i_arity bif =? List.length args)
                                           then Some (n, bif) else None
                             | None => None
                             end
                 | None => None
                 end in
  match inlined with
  | Some (n, bif) =>
      if i_fusible bif && (List.length args =? 2) && is_fusible_body (i_wrapper bif)
      then fused_proto n args (i_wrapper bif) else inline_proto args (i_wrapper bif)
  | None =>
      let direct := match arg_demands i name with
                    | Some ds => negb (List.length ds =? 0) && (List.length ds =? List.length args)
                    | None => false
                    end in
      let eager := same_name self name in
      if direct && valid then direct_proto f args d eager else app_proto f args d eager
  end.
Definition application (f : item) (xs : list item) (d : demand) (self : option string) : proto :=
  proto_syntax d (fun c => bind
    (building false false c
      (andthen (callee f self) (fun '(f, i, name) =>
       andthen (arguments (match arg_demands i name with Some ds => ds | None => [] end) self xs) (fun args =>
       ret (call f i name args d self)))))
    (fun t => Ok (annotate t))).

(** [ProtoLambda], lines 1455-1524. *)
Definition lambda (n : nat) (body : item) (self : option string) : proto :=
  proto_form (fun c =>
    let inner := mkFrame true (map local (seq 0 n)) n :: c in
    bind (building false false inner (c_body (snd body) self)) (fun t =>
    if n <=? 255 then
      Ok (FLambda (N.of_nat n) (s_position S), if s_annotations S then SAnn (s_position S) t else t)
    else Err MaxLambdaArgs)).

(** [ProtoLet], lines 894-974. *)
Fixpoint let_bindings (bs : list (binding item)) (self : option string) : act unit :=
  match bs with
  | [] => ret tt
  | b :: bs =>
      let d := b_demand b in
      andthen (c_binding (snd (b_expr b)) d (if Basics.Model.d_rec d then Some (b_name b) else self)) (fun r =>
      andthen (mark_if_strict d r) (fun _ =>
      andthen (add_var_index r) (fun _ => let_bindings bs self)))
  end.
Definition let_proto (d : demand) (bs : list (binding item)) (body : item) (self : option string) : proto :=
  proto_syntax d (fun c => building true true c
    (andthen (let_bindings bs self) (fun _ => c_body (snd body) self))).

(** [compile_list_body], [compile_list_binding], lines 2019-2076: the items are compiled from the
    last to the first, each followed, when another precedes it, by the cell that holds it. *)
Fixpoint list_cells (xs : list item) : act (option syn) :=
  match xs with
  | [] => ret None
  | x :: xs =>
      andthen (list_cells xs) (fun last =>
      andthen (match last with Some t => add t | None => ret empty_list end) (fun tail =>
      andthen (c_binding (snd x) default_demand None) (fun r => ret (Some (cons r tail)))))
  end.
Definition list_body (xs : list item) : act proto :=
  andthen ensure_recursive (fun _ => andthen (list_cells xs) (fun last =>
  ret (holder match last with Some t => t | None => SAtom empty_list end))).
Definition list_binding (xs : list item) : act ref :=
  andthen ensure_recursive (fun _ => andthen (list_cells xs) (fun last =>
  match last with Some t => add t | None => ret empty_list end)).
(** [compile_block], lines 2078-2094. *)
Fixpoint block_cells (kvs : list (string * item)) : act ref :=
  match kvs with
  | [] => ret empty_list
  | (k, x) :: kvs =>
      andthen (block_cells kvs) (fun tail =>
      andthen (c_binding (snd x) default_demand None) (fun v =>
      andthen (add (pair k v)) (fun kv => add (cons kv tail))))
  end.
Definition block_code (kvs : list (string * item)) : act syn :=
  andthen ensure_recursive (fun _ => andthen (block_cells kvs) (fun r => ret (block r))).
(** [compile_lookup], lines 1929-2010. *)
Definition or_fail (m : act ref) (other : act ref) : act ref :=
  fun b => match m b with (Err (FreeVar _), b) => other b | r => r end.
Definition lookup_code (key : string) (obj : item) (fallback : list item) : act syn :=
  andthen ensure_recursive (fun _ =>
  andthen (c_binding (snd obj) default_demand None) (fun o =>
  andthen (match fallback with
           | x :: _ => or_fail (c_binding (snd x) default_demand None) (add (lookup_fail key o))
           | [] => add (lookup_fail key o)
           end) (fun dft =>
  andthen (add (annotate (SApp (RG ix_lookup_or_unboxed) [RV (s_symbol S key); dft; o] false))) (fun fb =>
  ret (SLookupLit noted (RV (s_symbol S key)) o fb))))).
(** Metadata, lines 1786-1807, 1864-1911. *)
Definition meta_code (e m : item) (self : option string) : act syn :=
  andthen (c_binding (snd m) default_demand None) (fun m =>
  andthen (c_binding (snd e) default_demand self) (fun e => ret (SMeta m e))).

(** Lines 1737-1927. *)
Fixpoint comp (e : expr) : code :=
  match e with
  | EVar (Bound s b _) =>
      mkCode (fun _ => ret (var_proto s b))
        (fun _ _ bd => match (if s =? 0 then running_ref b bd else None) with
                       | Some r => (Ok r, bd)
                       | None => add_deferred (var_proto s b) bd
                       end)
  | EVar (Free n) =>
      mkCode (fun _ => andthen (lift_res (resolve_free n)) (fun r => ret (ref_proto r)))
        (fun _ _ => lift_res (resolve_free n))
  | ELet bs body t =>
      let bs := map (fun b => mkBinding (b_name b) (b_expr b, comp (b_expr b)) (b_demand b)) bs in
      let body := (body, comp body) in
      mkCode (fun self => ret (let_proto default_demand bs body self))
        (fun d self => add_deferred (let_proto d bs body self))
  | ELam _ ps body =>
      let proto self := lambda (List.length ps) (body, comp body) self in
      mkCode (fun self => ret (proto self)) (fun _ self => add_deferred (proto self))
  | ENode k xs =>
      let xs := map (fun x => (x, comp x)) xs in
      match k, xs with
      | KApp, f :: args =>
          mkCode (fun self => ret (application f args (Basics.Model.mkD Basics.Model.CAtMostOnce Basics.Model.SUnknown false false) self))
            (fun d self => add_deferred (application f args d self))
      | KLiteral p, _ => mkCode (fun _ => ret (holder (boxed_literal p))) (fun _ _ => add (boxed_literal p))
      | KList, xs => mkCode (fun _ => list_body xs) (fun _ _ => list_binding xs)
      | KBlock keys, xs =>
          let m := block_code (combine keys xs) in
          mkCode (fun _ => andthen m (fun t => ret (holder t))) (fun _ _ => andthen m add)
      | KIntrinsic n, _ =>
          mkCode (fun _ => andthen (lift_res (intrinsic_index n)) (fun i => ret (holder (SAtom (global i)))))
            (fun _ _ => andthen (lift_res (intrinsic_index n)) (fun i => ret (global i)))
      | KLookup key, obj :: fallback =>
          let m := lookup_code key obj fallback in
          mkCode (fun _ => andthen m (fun t => ret (holder t))) (fun _ _ => andthen m add)
      | KMeta, e :: m :: _ =>
          mkCode (fun self => andthen (meta_code e m self) (fun t => ret (holder t)))
            (fun _ self => andthen ensure_recursive (fun _ => andthen (meta_code e m self) add))
      | KOperator _ _, x :: _ =>
          mkCode (fun self => c_body (snd x) self) (fun _ self => c_binding (snd x) default_demand self)
      | KArgTuple, _ => mkCode (fun _ => fail Unexpected) (fun _ _ => fail BadArgTuple)
      | KSoup _, _ => mkCode (fun _ => fail Unexpected) (fun _ _ => fail BadSoup)
      | _, _ => mkCode (fun _ => fail Unexpected) (fun _ _ => fail Unexpected)
      end
  end.

(** [compile_with_self_recurse], lines 1676-1729, up to the optimiser (which is [Verif.Optimise]). *)
Definition compile (e : expr) (self : option string) : res syn :=
  building false true []
    match s_render S with
    | Headless => c_body (comp e) self
    | RenderDoc => andthen (c_binding (comp e) default_demand None) (fun r =>
                   ret (holder (SApp (RG ix_render_doc) [r] false)))
    | RenderFragment => andthen (c_binding (comp e) default_demand None) (fun r =>
                        ret (holder (SApp (RG ix_render) [r] false)))
    end.
End Compiler.
Arguments mkIntrinsic {native}.
Arguments mkSettings {native}.
Arguments mkFrame {native}.
