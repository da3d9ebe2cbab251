(** What a core expression means: a plain translation to machine code.

    Nothing is shared between expressions, flattened, inlined, forced ahead of its use or annotated.
    Every part of an expression becomes its own definition. The meaning of the resulting code is that
    of Machine/Spec.v, which is call by name. *)
From Coq Require Import String List Bool Arith NArith.
From Verif.Bytecode Require Import Model Spec.
From Verif.Scope Require Import Model.
Import ListNotations.
Open Scope nat_scope.

Section Spec.
Context {native : Type}.
Notation ref := (ref native).
Notation syn := (syn native).
Notation form := (form native).

(** Where the names of intrinsics and of the prelude are found, and what literals are. *)
Variable intrinsic_at : string -> option N.
Variable prelude_at : string -> option N.
Variables text symbol number : string -> native.
(** The global that is the empty list. *)
Variable nil_at : N.

Definition thunk (t : syn) : form := (FThunk, t).
Definition arg (i : nat) : ref := RL (N.of_nat i).
(** The [b]th variable of the [s]th scope outwards; [sizes] are the sizes of the scopes. *)
Fixpoint index (sizes : list nat) (s b : nat) : nat :=
  match sizes, s with
  | n :: sizes, S s => n + index sizes s b
  | _, _ => b
  end.
Definition literal (p : prim) : syn :=
  match p with
  | PNull => SCons 0 []
  | PBool true => SCons 1 []
  | PBool false => SCons 2 []
  | PNum s => SCons 3 [RV (number s)]
  | PSym s => SCons 4 [RV (symbol s)]
  | PStr s => SCons 5 [RV (text s)]
  | PTypeData s => SCons 17 [RV (text s)]
  end.
Definition at_global (g : option N) : syn := match g with Some i => SAtom (RG i) | None => SBlackHole end.
(** A list of the values of some code; a list of pairs; a block. *)
Fixpoint list_of (ts : list syn) : syn :=
  match ts with
  | [] => SAtom (RG nil_at)
  | t :: ts => SLet false [thunk t; thunk (list_of ts)] (SCons 7 [arg 0; arg 1])
  end.
Definition pair_of (kt : string * syn) : syn :=
  SLet false [thunk (snd kt)] (SCons 9 [RV (symbol (fst kt)); arg 0]).
Definition block_of (kts : list (string * syn)) : syn :=
  SLet false [thunk (list_of (map pair_of kts))] (SCons 8 [arg 0; RV (number "0")]).
Definition call_of (f : syn) (ts : list syn) : syn :=
  SLet false (map thunk (f :: ts)) (SApp (arg 0) (map arg (seq 1 (List.length ts))) false).

Fixpoint direct (sizes : list nat) (e : expr) : syn :=
  match e with
  | EVar (Bound s b _) => SAtom (arg (index sizes s b))
  | EVar (Free n) => at_global (prelude_at n)
  | ELet bs body _ =>
      let sizes := List.length bs :: sizes in
      SLet true (map (fun b => thunk (direct sizes (b_expr b))) bs) (direct sizes body)
  | ELam _ ps body =>
      SLet false [(FLambda (N.of_nat (List.length ps)) 0, direct (List.length ps :: sizes) body)] (SAtom (arg 0))
  | ENode k xs =>
      let ts := map (direct sizes) xs in
      match k, ts with
      | KLiteral p, _ => literal p
      | KIntrinsic n, _ => at_global (intrinsic_at n)
      | KList, _ => list_of ts
      | KBlock keys, _ => block_of (combine keys ts)
      | KApp, f :: ts => call_of f ts
      | KMeta, t :: m :: _ => SLet false [thunk m; thunk t] (SMeta (arg 0) (arg 1))
      | KOperator _ _, t :: _ => t
      | _, _ => SBlackHole
      end
  end.

(** The expressions in question: no lookup of a literal key, and no function or call without
    parameters. *)
Fixpoint supported (e : expr) : Prop :=
  match e with
  | EVar _ => True
  | ELet bs body _ => All (fun b => supported (b_expr b)) bs /\ supported body
  | ELam _ ps body => ps <> [] /\ supported body
  | ENode k xs =>
      match k with KLookup _ => False | KApp => 2 <= List.length xs | _ => True end /\ All supported xs
  end.
End Spec.
