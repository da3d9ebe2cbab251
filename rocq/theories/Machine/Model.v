(** The abstract machine that evaluates a compiled program, with shared, updatable environments:
    src/eval/bytecode/{machine,closure,env_builder,cont}.rs and src/eval/machine/env.rs.

    A code position is represented by the program tree read there: [Verif.Bytecode] shows that the
    machine's reads of the byte stream yield the tree that was encoded, and [Verif.Predecode] that
    the pre-decoded instructions denote the same tree. Source annotations, metrics, tracing,
    garbage collection (see [Verif.Heap]) and the io driver are left out. *)
From Coq Require Import List Bool Arith NArith.
From Verif.Bytecode Require Import Model.
Import ListNotations.
Open Scope nat_scope.

(** stg/tags.rs 12-46. *)
Definition tag_boxed_number := 3%N. Definition tag_boxed_symbol := 4%N.
Definition tag_boxed_string := 5%N. Definition tag_list_cons := 7%N.
Definition tag_block := 8%N. Definition tag_block_pair := 9%N. Definition tag_boxed_zdt := 11%N.

Section Machine.
Context {native : Type}.
Notation ref := (ref native).
Notation syn := (syn native).
Notation form := (form native).

(** machine/env.rs 330-390: an environment is a chain of frames. A frame is a view of a backing
    array, given here by the array's address, through a table of slots; an empty table is the
    identity view of the whole array. Frames are never written after they are made, so a chain is
    the list of its frames; arrays are written through any frame that views them. The default frame
    (no bindings, no next frame) is the empty list. *)
Definition frame : Type := nat * list nat.
Definition menv : Type := list frame.

(** bytecode/closure.rs: a value is a native, or a closure: code, arity, the update flag of a
    thunk, and environment. *)
Inductive mval :=
| MNat (n : native)
| MClo (code : syn) (arity : nat) (update : bool) (env : menv).

Definition heap : Type := list (list mval).

(** bytecode/cont.rs: continuations ([CaptureEnd] is left out: it only ends the capture of a
    rendering). [Branch] and [BranchPredecoded] are one constructor. *)
Inductive mcont :=
| KBranch (branches : list (N * syn)) (fallback : option syn) (env : menv)
| KUpdate (env : menv) (index : nat)
| KApply (args : list mval)
| KDeMeta (handler or_else : syn) (env : menv)
| KSeq (body : syn) (env : menv)
| KLookup (key : native) (default : mval)
| KFusedLeft (primop : N) (right : ref) (env : menv)
| KFusedRight (primop : N) (left : mval) (env : menv).

Record state := mkState { s_cur : mval; s_stack : list mcont; s_heap : heap }.

(** The errors of evaluation (error.rs [ExecutionError]) that these functions raise.
    [EPrim] is whatever error an intrinsic itself raises. *)
Inductive err :=
| EBlackHole | EBadLocal | EBadGlobal | ENotCallable | ENoBranch | EFunToCase | EPap
| ENotValue | EPanic | ELookup | EPrim.

(** The result of a step: go on, stop with the result in [s_cur], or fail. *)
Inductive outcome := Next (s : state) | Stop (s : state) | Fail (e : err).

(** What an intrinsic that works on natives delivers: a native ([return_native]), a data value over
    natives ([return_boxed_num], [return_bool], [return_unit], ...: [build_data]), or an error.
    Intrinsics that inspect or force closures are left out. *)
Inductive prim_result := RNative (n : native) | RData (tag : N) (fields : list native) | RError.

Section Step.
(** The intrinsics that compute on natives, and equality of symbol natives: [symbols_equal a b] says
    that [b] is a symbol and [a] is the same symbol. [is_symbol] recognises symbol natives.
    [merge] is the global index of MERGE. *)
Variable prim : N -> list native -> prim_result.
Variable is_symbol : native -> bool.
Variable symbols_equal : native -> native -> bool.
Variable merge : N.

(** Reading the heap. *)
Definition array (h : heap) (a : nat) : list mval := nth a h [].
Definition slot (h : heap) (a i : nat) : option mval := nth_error (array h a) i.
Fixpoint set_at {A} (i : nat) (x : A) (l : list A) : list A :=
  match l, i with
  | [], _ => []
  | _ :: l, O => x :: l
  | y :: l, S i => y :: set_at i x l
  end.
Definition set_slot (h : heap) (a i : nat) (v : mval) : heap := set_at a (set_at i v (array h a)) h.

(** machine/env.rs 398-404, 412-418. *)
Definition logical_len (h : heap) (f : frame) : nat :=
  match snd f with [] => length (array h (fst f)) | remap => length remap end.
Definition physical_index (f : frame) (i : nat) : nat :=
  match snd f with [] => i | remap => nth i remap 0 end.
(** machine/env.rs 457-467. *)
Fixpoint cell (h : heap) (e : menv) (i : nat) : option (nat * nat) :=
  match e with
  | [] => None
  | f :: e => let len := logical_len h f in
              if i <? len then Some (fst f, physical_index f i) else cell h e (i - len)
  end.
(** machine/env.rs 536-545. *)
Definition get (h : heap) (e : menv) (i : nat) : option mval :=
  match cell h e i with Some (a, j) => slot h a j | None => None end.
(** machine/env.rs 547-560. *)
Definition put (h : heap) (e : menv) (i : nat) (v : mval) : option heap :=
  match cell h e i with
  | Some (a, j) => if j <? length (array h a) then Some (set_slot h a j v) else None
  | None => None
  end.

(** machine.rs 3136-3230: the globals are the first array allocated. *)
Definition globals_env : menv := [(0, [])].

(** machine.rs 109-133. *)
Definition resolve_ref (h : heap) (e : menv) (r : ref) : option mval :=
  match r with
  | RL i => get h e (N.to_nat i)
  | RG i => get h globals_env (N.to_nat i)
  | RV n => Some (MNat n)
  end.
Definition ref_error (r : ref) : err := match r with RG _ => EBadGlobal | _ => EBadLocal end.
Fixpoint resolve_refs (h : heap) (e : menv) (rs : list ref) : option (list mval) :=
  match rs with
  | [] => Some []
  | r :: rs => match resolve_ref h e r, resolve_refs h e rs with
               | Some v, Some vs => Some (v :: vs)
               | _, _ => None
               end
  end.

(** Allocating an array, and a frame over it (env_builder.rs 66-122). *)
Definition alloc (h : heap) (vs : list mval) : nat * heap := (length h, h ++ [vs]).
Definition new_frame (h : heap) (vs : list mval) (next : menv) : menv * heap :=
  let '(a, h) := alloc h vs in ((a, []) :: next, h).
Definition clo (code : syn) (e : menv) : mval := MClo code 0 false e.

(** machine.rs 1933-1944 with closure.rs: closing a form over an environment. *)
Definition close (e : menv) (f : form) : mval :=
  MClo (snd f) (N.to_nat (fk_arity (fst f))) (fk_update (fst f)) e.

Definition hole (e : menv) : mval := clo SBlackHole e.

(** machine.rs 770-798: the slots to share, when the constructor's fields are at most four locals
    of its top frame whose physical slots fit a byte. *)
Fixpoint field_slots (f : frame) (len : nat) (args : list ref) : option (list nat) :=
  match args with
  | [] => Some []
  | RL i :: args =>
      let i := N.to_nat i in
      if (i <? len) && (physical_index f i <=? 255)
      then match field_slots f len args with
           | Some l => Some (physical_index f i :: l)
           | None => None
           end
      else None
  | _ => None
  end.
Definition identity (l : list nat) : bool :=
  forallb (fun p => fst p =? snd p) (combine l (seq 0 (length l))).
(** machine.rs 809-902: the environment in which a case branch runs. *)
Definition env_from_data_args (h : heap) (cons_env : menv) (args : list ref) (next : menv)
  : option (menv * heap) :=
  let shared :=
    if 4 <? length args then None
    else match cons_env with
         | f :: _ =>
             match field_slots f (logical_len h f) args with
             | Some l => Some (fst f, if identity l && (length l =? length (array h (fst f))) then [] else l)
             | None => None
             end
         | [] => None
         end in
  match shared with
  | Some f => Some (f :: next, h)
  | None => match resolve_refs h cons_env args with
            | Some vs => Some (new_frame h vs next)
            | None => None
            end
  end.

(** machine.rs 1949-2017: entering a slot; an unevaluated thunk's slot is overwritten with a
    placeholder and will receive the thunk's value. *)
Definition enter (s : list mcont) (h : heap) (e : menv) (i : nat) (missing : err) : outcome :=
  match get h e i with
  | None => Fail missing
  | Some (MClo c a true e') =>
      match put h e i (hole e) with
      | Some h => Next (mkState (MClo c a true e') (KUpdate e i :: s) h)
      | None => Fail missing
      end
  | Some v => Next (mkState v s h)
  end.
Definition enter_local s h e i := enter s h e i EBadLocal.
Definition enter_global s h i := enter s h globals_env i EBadGlobal.
(** machine.rs 2021-2037. *)
Definition enter_callable (s : list mcont) (h : heap) (e : menv) (r : ref) : outcome :=
  match r with
  | RL i => enter_local s h e (N.to_nat i)
  | RG i => enter_global s h (N.to_nat i)
  | RV _ => Fail ENotCallable
  end.
(** machine.rs 1793-1808. *)
Definition enter_meta_body (s : list mcont) (h : heap) (e : menv) (r : ref) : outcome :=
  match r with
  | RL i => enter_local s h e (N.to_nat i)
  | RG i => enter_global s h (N.to_nat i)
  | RV n => Next (mkState (MNat n) s h)
  end.

(** machine.rs 1867-1879: the value in a slot that will never be written again. *)
Definition is_settled (v : mval) : bool :=
  match v with
  | MNat _ => false
  | MClo _ _ true _ => false
  | MClo _ (S _) false _ => true
  | MClo (SAtom _) 0 false _ => true
  | MClo _ 0 false _ => false
  end.
(** machine.rs 1905-1928. *)
Definition make_arg (h : heap) (e : menv) (eager : bool) (r : ref) : option mval :=
  match r with
  | RL i => match get h e (N.to_nat i) with
            | Some v => if eager || is_settled v then Some v else Some (clo (SAtom r) e)
            | None => if eager then None else Some (clo (SAtom r) e)
            end
  | _ => Some (clo (SAtom r) e)
  end.
Fixpoint make_args (h : heap) (e : menv) (eager : bool) (rs : list ref) : option (list mval) :=
  match rs with
  | [] => Some []
  | r :: rs => match make_arg h e eager r, make_args h e eager rs with
               | Some v, Some vs => Some (v :: vs)
               | _, _ => None
               end
  end.

(** env_builder.rs 102-121: a closure of the same code over a frame of arguments. *)
Definition saturate (s : list mcont) (h : heap) (code : syn) (e : menv) (args : list mval) : outcome :=
  let '(e, h) := new_frame h args e in Next (mkState (clo code e) s h).

(** machine.rs 1818-1851. *)
Definition partially_apply (s : list mcont) (h : heap) (fn : mval) (arity : nat) (e : menv) (args : list mval)
  : outcome :=
  let supplied := length args in
  let pending := arity - supplied in
  if (1 <=? supplied) && (supplied <=? pap_max) && (1 <=? pending) && (pending <=? pap_max) then
    let '(e, h) := new_frame h (fn :: args) e in
    Next (mkState (MClo (pap_node supplied pending) pending false e) s h)
  else Fail EPap.

(** machine.rs 4346-4393: the native a value stands for, following variables that stand for other
    variables. The Rust code recurses without bound on a cycle of such variables; here the number of
    variables followed is bounded by [fuel], and running out counts as not a value. The arity of the
    closure is not looked at. *)
Fixpoint native_from (fuel : nat) (h : heap) (v : mval) : option native :=
  match v with
  | MNat n => Some n
  | MClo (SAtom r) _ _ e =>
      match fuel with
      | O => None
      | S fuel => match resolve_ref h e r with Some v => native_from fuel h v | None => None end
      end
  | MClo _ _ _ _ => None
  end.
(** More variables than there are slots are followed only round a cycle. *)
Definition chase_fuel (h : heap) : nat := S (fold_right (fun a n => length a + n) 0 h).
Fixpoint natives_from (h : heap) (vs : list mval) : option (list native) :=
  match vs with
  | [] => Some []
  | v :: vs => match native_from (chase_fuel h) h v, natives_from h vs with
               | Some n, Some ns => Some (n :: ns)
               | _, _ => None
               end
  end.
(** machine.rs 3300-3340, 4408-4450, 4650-4780: running an intrinsic on its operands and delivering its
    result. Constructors without fields are closed over the root environment. *)
Definition run_prim (s : list mcont) (h : heap) (i : N) (vs : list mval) : outcome :=
  match natives_from h vs with
  | None => Fail ENotValue
  | Some ns =>
      match prim i ns with
      | RNative n => Next (mkState (MNat n) s h)
      | RData tag [] => Next (mkState (clo (SCons tag []) []) s h)
      | RData tag fields =>
          let '(e, h) := new_frame h (map MNat fields) [] in
          Next (mkState (clo (SCons tag (lrefs 0 (length fields))) e) s h)
      | RError => Fail EPrim
      end
  end.

(** machine.rs 376-395 of encode.rs, 1051-1056: the branch for a tag; each branch overwrites an
    earlier one for the same tag. *)
Definition match_branch (tag : N) (bs : list (N * syn)) : option syn :=
  fold_left (fun found b => if (fst b =? tag)%N then Some (snd b) else found) bs None.

(** machine.rs 920-960: the symbol a value stands for, following variables and unwrapping a boxed
    symbol. *)
Fixpoint value_symbol (fuel : nat) (h : heap) (v : mval) : option native :=
  match v with
  | MNat n => if is_symbol n then Some n else None
  | MClo (SAtom r) _ _ e =>
      match fuel with
      | O => None
      | S fuel => match resolve_ref h e r with Some v => value_symbol fuel h v | None => None end
      end
  | MClo (SCons tag (r :: _)) _ _ e =>
      match fuel with
      | O => None
      | S fuel => if (tag =? tag_boxed_symbol)%N
                  then match resolve_ref h e r with Some v => value_symbol fuel h v | None => None end
                  else None
      end
  | MClo _ _ _ _ => None
  end.
(** machine.rs 963-983. *)
Definition pair_key (h : heap) (entry : mval) : option native :=
  match entry with
  | MClo (SCons tag (r :: _)) _ _ e =>
      if (tag =? tag_block_pair)%N
      then match resolve_ref h e r with Some v => value_symbol (chase_fuel h) h v | None => None end
      else None
  | _ => None
  end.
Definition second {A} (l : list A) : option A := nth_error l 1.
(** machine.rs 1006-1031: the scan of the entry list. The Rust loop does not end on a cyclic list;
    here it is bounded by [fuel]. *)
Fixpoint scan_entries (fuel : nat) (h : heap) (key : native) (v : mval) : option mval :=
  match fuel, v with
  | S fuel, MClo (SCons tag args) _ _ e =>
      if (tag =? tag_list_cons)%N then
        match args with
        | [] => None
        | head :: _ =>
            match resolve_ref h e head with
            | None => None
            | Some entry =>
                if match pair_key h entry with Some k => symbols_equal key k | None => false end then
                  match entry with
                  | MClo (SCons _ pargs) _ _ pe =>
                      match second pargs with Some r => resolve_ref h pe r | None => None end
                  | _ => None
                  end
                else
                  match second args with
                  | Some tail => match resolve_ref h e tail with
                                 | Some v => scan_entries fuel h key v
                                 | None => None
                                 end
                  | None => None
                  end
            end
        end
      else None
  | _, _ => None
  end.
(** machine.rs 988-1004. *)
Definition lookup_in_block (h : heap) (block : mval) (key : native) : option mval :=
  match block with
  | MClo (SCons tag (list_ref :: _)) _ _ e =>
      if (tag =? tag_block)%N
      then match resolve_ref h e list_ref with Some v => scan_entries (chase_fuel h) h key v | None => None end
      else None
  | _ => None
  end.
Definition or_default (found : option mval) (default : mval) : mval :=
  match found with Some v => v | None => default end.

(** machine.rs 1292-1329: the tags whose single field a fused primitive unwraps. *)
Definition is_boxed (tag : N) : bool :=
  (tag =? tag_boxed_number)%N || (tag =? tag_boxed_string)%N || (tag =? tag_boxed_symbol)%N ||
  (tag =? tag_boxed_zdt)%N.

(** Binding a value in front of an environment and running code there (env_builder.rs 77-100). *)
Definition bind_values (s : list mcont) (h : heap) (vs : list mval) (e : menv) (code : syn) : outcome :=
  let '(e, h) := new_frame h vs e in Next (mkState (clo code e) s h).
(** Writing a slot when its thunk's value arrives; the value stays current. *)
Definition update (cur : mval) (s : list mcont) (h : heap) (e : menv) (i : nat) (v : mval) : outcome :=
  match put h e i v with Some h => Next (mkState cur s h) | None => Fail EBadLocal end.

(** machine.rs 1034-1282: returning a data value, which is [cur = MClo (SCons tag args) 0 _ env]. *)
Definition return_data (cur : mval) (stack : list mcont) (h : heap) (tag : N) (args : list ref) (env : menv)
  : outcome :=
  match stack with
  | [] => Stop (mkState cur [] h)
  | KBranch bs fb e :: s =>
      match match_branch tag bs with
      | Some body =>
          match args with
          | [] => Next (mkState (clo body e) s h)
          | _ => match env_from_data_args h env args e with
                 | Some (e, h) => Next (mkState (clo body e) s h)
                 | None => Fail EBadLocal
                 end
          end
      | None => match fb with
                | Some fb => bind_values s h [cur] e fb
                | None => Fail ENoBranch
                end
      end
  | KUpdate e i :: s => update cur s h e i cur
  | KApply vs :: s =>
      if (tag =? tag_block)%N
      then enter_callable (KApply (vs ++ [cur]) :: s) h [] (RG merge)
      else Fail ENotCallable
  | KDeMeta _ or_else e :: s => bind_values s h [cur] e or_else
  | KSeq body e :: s => Next (mkState (clo body e) s h)
  | KLookup key default :: s =>
      if (tag =? tag_block)%N
      then Next (mkState (or_default (lookup_in_block h cur key) default) s h)
      else Fail ENoBranch
  | KFusedLeft i second_op e :: s =>
      if is_boxed tag then
        match args with
        | [] => Fail EPanic
        | r :: _ => match resolve_ref h env r with
                    | Some v => Next (mkState v (KFusedLeft i second_op e :: s) h)
                    | None => Fail (ref_error r)
                    end
        end
      else Next (mkState (clo (SAtom second_op) e) (KFusedRight i cur e :: s) h)
  | KFusedRight i first_op e :: s =>
      if is_boxed tag then
        match args with
        | [] => Fail EPanic
        | r :: _ => match resolve_ref h env r with
                    | Some v => Next (mkState v (KFusedRight i first_op e :: s) h)
                    | None => Fail (ref_error r)
                    end
        end
      else run_prim s h i [first_op; cur]
  end.

(** machine.rs 1376-1505: returning a native. [cur] is the current value when it is entered, which
    is not the native itself when an atom naming a constant was executed; an update leaves it in
    place. The scratch frame in which a fused primitive's operands are put (1337-1372) is read
    back at once and is left out. *)
Definition return_native (cur : mval) (stack : list mcont) (h : heap) (n : native) : outcome :=
  match stack with
  | [] => Stop (mkState (MNat n) [] h)
  | KBranch _ fb e :: s =>
      match fb with Some fb => bind_values s h [MNat n] e fb | None => Fail ENoBranch end
  | KUpdate e i :: s => update cur s h e i (MNat n)
  | KApply _ :: _ => Fail ENotCallable
  | KDeMeta _ or_else e :: s => bind_values s h [MNat n] e or_else
  | KSeq body e :: s => Next (mkState (clo body e) s h)
  | KLookup _ _ :: _ => Fail ENoBranch
  | KFusedLeft i second_op e :: s => Next (mkState (clo (SAtom second_op) e) (KFusedRight i (MNat n) e :: s) h)
  | KFusedRight i first_op e :: s => run_prim s h i [first_op; MNat n]
  end.

(** machine.rs 1514-1680: returning a function, [cur = MClo code arity _ env] with [arity > 0]. *)
Definition return_fun (cur : mval) (stack : list mcont) (h : heap) (code : syn) (arity : nat) (env : menv)
  : outcome :=
  match stack with
  | [] => Stop (mkState cur [] h)
  | KApply vs :: s =>
      match length vs ?= arity with
      | Eq => saturate s h code env vs
      | Lt => partially_apply s h cur arity env vs
      | Gt => saturate (KApply (skipn arity vs) :: s) h code env (firstn arity vs)
      end
  | KBranch _ fb e :: s =>
      match fb with Some fb => bind_values s h [cur] e fb | None => Fail EFunToCase end
  | KUpdate e i :: s => update cur s h e i cur
  | KDeMeta _ or_else e :: s => bind_values s h [cur] e or_else
  | KSeq body e :: s => Next (mkState (clo body e) s h)
  | KLookup _ _ :: _ => Fail ELookup
  | KFusedLeft i second_op e :: s => Next (mkState (clo (SAtom second_op) e) (KFusedRight i cur e :: s) h)
  | KFusedRight i first_op e :: s => run_prim s h i [first_op; cur]
  end.

(** machine.rs 1708-1786: returning a value with metadata, [cur = MClo (SMeta meta body) 0 _ env]. *)
Definition return_meta (cur : mval) (stack : list mcont) (h : heap) (env : menv) (meta body : ref) : outcome :=
  match stack with
  | [] => match resolve_ref h env meta with
          | Some _ => enter_meta_body [] h env body
          | None => Fail (ref_error meta)
          end
  | KDeMeta handler _ e :: s =>
      match resolve_ref h env meta, resolve_ref h env body with
      | Some m, Some b => bind_values s h [m; b] e handler
      | None, _ => Fail (ref_error meta)
      | _, None => Fail (ref_error body)
      end
  | KUpdate e i :: s => update cur s h e i cur
  | k :: s => enter_meta_body (k :: s) h env body
  end.

(** machine.rs 2300-2345: an application whose callee's arity is checked at once. *)
Definition direct_app (s : list mcont) (h : heap) (e : menv) (callable : ref) (args : list mval) : outcome :=
  match callable with
  | RV _ => Fail ENotCallable
  | _ => match resolve_ref h e callable with
         | None => Fail (ref_error callable)
         | Some (MNat _) => Fail ENotCallable
         | Some (MClo _ _ true _) => enter_callable (KApply args :: s) h e callable
         | Some (MClo c a false e') =>
             if a =? length args then saturate s h c e' args
             else Next (mkState (MClo c a false e') (KApply args :: s) h)
         end
  end.

(** machine.rs 2360-2438: looking up a literal key in a block. Only a local object is memoised. *)
Definition lookup_lit (s : list mcont) (h : heap) (e : menv) (key obj default : ref) : outcome :=
  match key with
  | RV k =>
      if is_symbol k then
        match obj with
        | RV _ => Fail ENotCallable
        | _ => match resolve_ref h e obj with
               | None => Fail (ref_error obj)
               | Some (MNat _) => Fail ENotCallable
               | Some (MClo c a u e' as v) =>
                   if match c with SCons tag _ => (tag =? tag_block)%N | _ => false end
                   then Next (mkState (or_default (lookup_in_block h v k) (clo (SAtom default) e)) s h)
                   else
                     let s := KLookup k (clo (SAtom default) e) :: s in
                     match obj with
                     | RL _ => enter_callable s h e obj
                     | _ => Next (mkState v s h)
                     end
               end
        end
      else Fail ENotValue
  | _ => Fail ENotValue
  end.

(** machine.rs 2047-2438: executing the code of a closure of arity 0. *)
Definition handle_op (cur : mval) (s : list mcont) (h : heap) (code : syn) (e : menv) : outcome :=
  match code with
  | SAtom (RL i) => enter_local s h e (N.to_nat i)
  | SAtom (RG i) => enter_global s h (N.to_nat i)
  | SAtom (RV n) => return_native cur s h n
  | SCase scr bs fb => Next (mkState (clo scr e) (KBranch bs fb e :: s) h)
  | SCons tag args => return_data cur s h tag args e
  | SApp f args eager =>
      match make_args h e eager args with
      | Some vs => enter_callable (KApply vs :: s) h e f
      | None => Fail EBadLocal
      end
  | SDirectApp _ f args eager =>
      match make_args h e eager args with
      | Some vs => direct_app s h e f vs
      | None => Fail EBadLocal
      end
  | SBif i args =>
      match resolve_refs h e args with
      | Some vs => run_prim s h i vs
      | None => Fail EBadLocal
      end
  | SLet false bs body =>
      let '(e', h) := new_frame h (map (close e) bs) e in Next (mkState (clo body e') s h)
  | SLet true bs body =>
      let e' := (length h, []) :: e in
      Next (mkState (clo body e') s (snd (alloc h (map (close e') bs))))
  | SAnn _ body => Next (mkState (clo body e) s h)
  | SMeta m b => return_meta cur s h e m b
  | SDeMeta scr handler or_else => Next (mkState (clo scr e) (KDeMeta handler or_else e :: s) h)
  | SSeq scr body => Next (mkState (clo scr e) (KSeq body e :: s) h)
  | SLookupLit _ k o d => lookup_lit s h e k o d
  | SFused i l r _ => Next (mkState (clo (SAtom l) e) (KFusedLeft i r e :: s) h)
  | SBlackHole => Fail EBlackHole
  end.

(** machine.rs 2445-2490. *)
Definition step (st : state) : outcome :=
  let '(mkState cur s h) := st in
  match cur with
  | MNat n => return_native cur s h n
  | MClo c (S a) _ e => return_fun cur s h c (S a) e
  | MClo c 0 _ e => handle_op cur s h c e
  end.

(** machine.rs 3235-3298: running until the machine stops. *)
Inductive run : state -> outcome -> Prop :=
| run_stop st st' : step st = Stop st' -> run st (Stop st')
| run_fail st e : step st = Fail e -> run st (Fail e)
| run_next st st' o : step st = Next st' -> run st' o -> run st o.
End Step.

(** machine.rs 3136-3230: the machine at the start of a program. *)
Definition start (globals : list form) (root : syn) : state :=
  mkState (clo root []) [] [map (close []) globals].

End Machine.
Arguments ref_error {native}.
