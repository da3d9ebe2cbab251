(** What the wrapper of an intrinsic hands over to it. *)
From Coq Require Import List Bool Arith NArith.
From Verif.Bytecode Require Import Model.
From Verif.Machine Require Import Model Spec.
From Verif.Stg Require Import Model Spec.
Import ListNotations.

Section Handing.
Context {native : Type}.
Notation value := (Spec.value (native := native)).
Variable prim : N -> list native -> prim_result (native := native).
Variable merge : N.
Variable globals : list (form native).
Notation strips := (strips prim merge globals).
Notation builds := (builds prim merge globals).

Definition box_tag (k : ty) : option N :=
  match k with
  | TNumber => Some number_tag | TString => Some string_tag | TSymbol => Some symbol_tag | TZdt => Some zdt_tag
  | TOther => None
  end.
(** An argument, declared with this type and strictness, is handed over as [q]: as it is if it is not
    strict; otherwise evaluated, and out of its box if it has a type with boxes. Numbers alone may
    also come without a box. *)
Inductive handed : ty * bool -> value -> value -> Prop :=
| ha_lazy k p : handed (k, false) p p
| ha_plain p w : strips p w -> handed (TOther, true) p w
| ha_boxed k tag p r w : box_tag k = Some tag -> builds p tag [r] -> strips r w -> handed (k, true) p w
| ha_bare p w : strips p w -> ~ of_kind prim merge globals p number_tag -> handed (TNumber, true) p w.
Inductive all_handed : list (ty * bool) -> list value -> list value -> Prop :=
| al_nil : all_handed [] [] []
| al_cons ty tys p ps q qs : handed ty p q -> all_handed tys ps qs -> all_handed (ty :: tys) (p :: ps) (q :: qs).
(** If it is a box, it holds one thing. *)
Definition well_boxed (p : value) : Prop :=
  forall k tag fs, box_tag k = Some tag -> builds p tag fs -> exists r, fs = [r].
(** What an intrinsic returns for these arguments. *)
Definition returns (i : N) (qs : list value) (v : value) : Prop :=
  exists ns, natives prim merge globals qs ns /\ delivered (prim i ns) = Some v.
End Handing.
