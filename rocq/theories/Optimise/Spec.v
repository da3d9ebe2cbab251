(** The programs for which removing allocations is claimed to change nothing. *)
From Coq Require Import List Bool Arith NArith.
From Verif.Bytecode Require Import Model Spec.
From Verif.Machine Require Import Model Spec.
Import ListNotations.
Open Scope nat_scope.

Section Spec.
Context {native : Type}.
Notation ref := (ref native).
Notation syn := (syn native).
Notation form := (form native).

(** The number of fields of each constructor: null, true, false; a number, symbol, string; the
    empty list; a list, block, pair, pair list; a date; the four io actions; a clause; type data. *)
Definition fields : list nat := [0; 0; 0; 1; 1; 1; 0; 2; 2; 2; 2; 1; 2; 3; 2; 2; 2; 1].
Definition has_fields (tag : N) (n : nat) : Prop := nth_error fields (N.to_nat tag) = Some n.

(** Every local variable is one of the [d] in scope. *)
Definition bound (d : nat) (r : ref) : Prop := match r with RL i => N.to_nat i < d | _ => True end.
Definition bounds (d : nat) (rs : list ref) : Prop := Forall (bound d) rs.
Definition params (f : form) : nat := N.to_nat (fk_arity (fst f)).
Fixpoint scoped (d : nat) (t : syn) : Prop :=
  match t with
  | SAtom r => bound d r
  | SCase scr bs fb =>
      scoped d scr /\ All (fun b => forall n, has_fields (fst b) n -> scoped (n + d) (snd b)) bs /\
      match fb with Some f => scoped (1 + d) f | None => True end
  | SCons _ args | SBif _ args => bounds d args
  | SApp f args _ | SDirectApp _ f args _ => bound d f /\ bounds d args
  | SLet rec fs body =>
      All (fun f => scoped (params f + (if rec then length fs + d else d)) (snd f)) fs /\ scoped (length fs + d) body
  | SAnn _ body => scoped d body
  | SMeta m b => bound d m /\ bound d b
  | SDeMeta scr h o => scoped d scr /\ scoped (2 + d) h /\ scoped (1 + d) o
  | SSeq scr body => scoped d scr /\ scoped d body
  | SFused _ l r inner => bound d l /\ bound d r /\ scoped d inner
  | SLookupLit _ k o f => bound d k /\ bound d o /\ bound d f
  | SBlackHole => True
  end.

(** Constructors have their fields and cases are on constructors. *)
Fixpoint regular (t : syn) : Prop :=
  match t with
  | SCase scr bs fb =>
      regular scr /\ All (fun b => (exists n, has_fields (fst b) n) /\ regular (snd b)) bs /\
      match fb with Some f => regular f | None => True end
  | SCons tag args => has_fields tag (length args)
  | SLet _ fs body => All (fun f => regular (snd f)) fs /\ regular body
  | SAnn _ body => regular body
  | SDeMeta scr h o => regular scr /\ regular h /\ regular o
  | SSeq scr body => regular scr /\ regular body
  | SFused _ _ _ inner => regular inner
  | _ => True
  end.

(** No case is on a constructor that is written there, or under definitions written there. *)
Fixpoint constructs (t : syn) : bool :=
  match t with SCons _ _ => true | SLet _ _ body => constructs body | _ => false end.
Fixpoint undecided (t : syn) : Prop :=
  match t with
  | SCase scr bs fb =>
      constructs scr = false /\ undecided scr /\ All (fun b => undecided (snd b)) bs /\
      match fb with Some f => undecided f | None => True end
  | SLet _ fs body => All (fun f => undecided (snd f)) fs /\ undecided body
  | SAnn _ body => undecided body
  | SDeMeta scr h o => undecided scr /\ undecided h /\ undecided o
  | SSeq scr body => undecided scr /\ undecided body
  | SFused _ _ _ inner => undecided inner
  | _ => True
  end.

(** No case has just one branch, for a constructor without fields. *)
Definition checks_only (bs : list (N * syn)) (fb : option syn) : Prop :=
  exists tag b, bs = [(tag, b)] /\ fb = None /\ has_fields tag 0.
Fixpoint unchecked (t : syn) : Prop :=
  match t with
  | SCase scr bs fb =>
      ~ checks_only bs fb /\ unchecked scr /\ All (fun b => unchecked (snd b)) bs /\
      match fb with Some f => unchecked f | None => True end
  | SLet _ fs body => All (fun f => unchecked (snd f)) fs /\ unchecked body
  | SAnn _ body => unchecked body
  | SDeMeta scr h o => unchecked scr /\ unchecked h /\ unchecked o
  | SSeq scr body => unchecked scr /\ unchecked body
  | SFused _ _ _ inner => unchecked inner
  | _ => True
  end.

(** No literal key is looked up. *)
Fixpoint lookup_free (t : syn) : Prop :=
  match t with
  | SCase scr bs fb =>
      lookup_free scr /\ All (fun b => lookup_free (snd b)) bs /\ match fb with Some f => lookup_free f | None => True end
  | SLet _ fs body => All (fun f => lookup_free (snd f)) fs /\ lookup_free body
  | SAnn _ body => lookup_free body
  | SDeMeta scr h o => lookup_free scr /\ lookup_free h /\ lookup_free o
  | SSeq scr body => lookup_free scr /\ lookup_free body
  | SFused _ _ _ inner => lookup_free inner
  | SLookupLit _ _ _ _ => False
  | _ => True
  end.

(** Such programs, and such definitions. *)
Definition proper (d : nat) (t : syn) : Prop := plain t /\ scoped d t /\ regular t /\ undecided t.
Definition sound_global (f : form) : Prop := plain (snd f) /\ scoped (params f) (snd f) /\ regular (snd f).

(** Operators return constructors with their fields. *)
Definition regular_operators (prim : N -> list native -> prim_result (native := native)) : Prop :=
  forall i ns tag fields, prim i ns = RData tag fields -> has_fields tag (length fields).

(** The number of definitions in a program. *)
Fixpoint definitions (t : syn) : nat :=
  match t with
  | SCase scr bs fb =>
      definitions scr + list_sum (map (fun b => definitions (snd b)) bs) + match fb with Some f => definitions f | None => 0 end
  | SLet _ fs body => length fs + list_sum (map (fun f => definitions (snd f)) fs) + definitions body
  | SAnn _ body => definitions body
  | SDeMeta scr h o => definitions scr + definitions h + definitions o
  | SSeq scr body => definitions scr + definitions body
  | SFused _ _ _ inner => definitions inner
  | _ => 0
  end.
End Spec.
