(** What formatting part of a source should do. *)
From Coq Require Import List Bool Arith NArith.
From Verif.Lsp Require Import Model Spec.
From Verif.Reformat Require Import Model.
Import ListNotations.

(** A declaration, with the newline after it. *)
Inductive line_of (d : text) : text -> text -> Prop :=
| With_newline rest : line_of d (10%N :: rest) (d ++ [10%N])
| Without after : (forall rest, after <> 10%N :: rest) -> line_of d after d.

(** The part of the source from byte [a] to byte [b] and the declaration [d], which follows
    [before] and comes before [after], overlap. *)
Definition overlaps (a b : nat) (before d after : text) : Prop :=
  bytes before < b /\ exists l, line_of d after l /\ a < bytes (before ++ l).

(** The source after formatting: only declarations that overlap the part are changed, and to
    what the formatter makes of them. *)
Inductive reformatted (a b : nat) : text -> list piece -> text -> Prop :=
| R_end before : reformatted a b before [] []
| R_between before t ps out :
    reformatted a b (before ++ t) ps out -> reformatted a b before (Between t :: ps) (t ++ out)
| R_outside before d f ps out :
    ~ overlaps a b before d (source_of ps) ->
    reformatted a b (before ++ d) ps out -> reformatted a b before (Decl d f :: ps) (d ++ out)
| R_error before d ps out :
    reformatted a b (before ++ d) ps out -> reformatted a b before (Decl d None :: ps) (d ++ out)
| R_inside before d f ps out :
    overlaps a b before d (source_of ps) ->
    reformatted a b (before ++ d) ps out -> reformatted a b before (Decl d (Some f) :: ps) (f ++ out).
