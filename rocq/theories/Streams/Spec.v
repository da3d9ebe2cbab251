(** What streams should give. *)
From Coq Require Import List Bool NArith.
From Verif.Streams Require Import Model.
Import ListNotations.

(** A line: no newline in it. *)
Definition plain (l : text) : Prop := ~ In newline l.
Definition ends_in_return (l : text) : Prop := exists a, l = a ++ [return_].

(** A text is its lines, each ended by a newline or by a carriage return and a newline;
    after the last line there may be neither.  The flag says which. *)
Inductive ending := LF | CRLF.
Definition mark (e : ending) : text := match e with LF => [newline] | CRLF => [return_; newline] end.
Definition joined (ls : list (text * ending)) (last : text) : text :=
  flat_map (fun le => fst le ++ mark (snd le)) ls ++ last.
Definition lines_are (ls : list (text * ending)) (last : text) : list text :=
  map fst ls ++ match last with [] => [] | _ => [last] end.

(** The value of a column in a row: the last one of that name. *)
Fixpoint value_in (k : text) (l : list (text * text)) : option text :=
  match l with
  | [] => None
  | (k', v) :: l => match value_in k l with Some w => Some w | None => if text_eqb k' k then Some v else None end
  end.

(** Keys in ascending order, each once. *)
Fixpoint ascending (l : list text) : Prop :=
  match l with
  | a :: (b :: _) as r => text_ltb a b = true /\ ascending r
  | _ => True
  end.
(** The value under a key of a block. *)
Definition first_in (k : text) (l : list (text * text)) : option text :=
  option_map snd (find (fun kv => text_eqb (fst kv) k) l).

Section Alone.
  Variables (V E : Type).
  Definition concerns (h : nat) (o : op V E) : bool :=
    match o with Next k | Drain k => Nat.eqb k h | _ => false end.
  (** The answers about one handle in a history. *)
  Fixpoint about (h : nat) (os : list (op V E)) (as_ : list (answer V E)) : list (answer V E) :=
    match os, as_ with
    | o :: os, a :: as_ => if concerns h o then a :: about h os as_ else about h os as_
    | _, _ => []
    end.
  (** The values before the first error, and what comes after it. *)
  Inductive taken : list (item V E) -> answer V E -> list (item V E) -> Prop :=
  | Taken_all vs : taken (map Value vs) (All vs) []
  | Taken_error vs e rest : taken (map Value vs ++ Error e :: rest) (Failure e) rest.
  (** One stream by itself: [w] says whether this is a parallel worker.  Reading it
      takes its items in order; a worker may not read an impure stream. *)
  Inductive alone (p : bool) : bool -> list (item V E) -> nat -> list (op V E) -> list (answer V E) -> Prop :=
  | Alone_end w l h : alone p w l h [] []
  | Alone_worker w l h os as_ : alone p true l h os as_ -> alone p w l h (EnterWorker :: os) as_
  | Alone_other w l h o os as_ : concerns h o = false -> o <> EnterWorker -> alone p w l h os as_ -> alone p w l h (o :: os) as_
  | Alone_refused l h o os as_ : concerns h o = true -> p = false -> alone p true l h os as_ ->
      alone p true l h (o :: os) (Refused :: as_)
  | Alone_none w h os as_ : w = false \/ p = true -> alone p w [] h os as_ -> alone p w [] h (Next h :: os) (Nothing :: as_)
  | Alone_value w v l h os as_ : w = false \/ p = true -> alone p w l h os as_ ->
      alone p w (Value v :: l) h (Next h :: os) (One v :: as_)
  | Alone_error w e l h os as_ : w = false \/ p = true -> alone p w l h os as_ ->
      alone p w (Error e :: l) h (Next h :: os) (Failure e :: as_)
  | Alone_drain w l a rest h os as_ : w = false \/ p = true -> taken l a rest -> alone p w rest h os as_ ->
      alone p w l h (Drain h :: os) (a :: as_).
End Alone.
Arguments concerns {V E}. Arguments about {V E}. Arguments taken {V E}. Arguments alone {V E}.
