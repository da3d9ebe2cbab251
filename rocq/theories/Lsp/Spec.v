(** * What positions, references and renaming mean *)
From Coq Require Import List NArith Arith Bool.
From Verif.Lsp Require Import Model.
Import ListNotations.

(** The place reached after a text: lines ended so far, and UTF-16 units since the last of them. *)
Definition advance (p : position) (c : N) : position :=
  if (c =? 10)%N then (S (fst p), 0) else (fst p, snd p + (if (c <? 65536)%N then 1 else 2)).
Definition place (t : text) : position := fold_left advance t (0, 0).

(** A text without newline. *)
Definition one_line (t : text) : Prop := ~ In 10%N t.
(** The beginning of a line: nothing before it, or a newline. *)
Definition line_begins (t : text) : Prop := t = [] \/ exists t', t = t' ++ [10%N].
Definition line_ends (t : text) : Prop := t = [] \/ exists t', t = 10%N :: t'.

(** Lines as the protocol counts them: they end with a line feed, a carriage return, or both. *)
Fixpoint protocol_lines (t : text) : nat :=
  match t with
  | [] => 0
  | c :: r =>
    (if (c =? 10)%N then 1
     else if (c =? 13)%N then match r with d :: _ => if (d =? 10)%N then 0 else 1 | [] => 1 end
     else 0) + protocol_lines r
  end.

(** The name of an identifier: what stands between the quotes, or all of it. *)
Inductive names : token -> text -> Prop :=
| n_plain : forall t, tkind t = Unquoted \/ tkind t = Operator -> names t (ttext t)
| n_quoted : forall t n, tkind t = Quoted -> ttext t = 39%N :: n ++ [39%N] -> names t n.

(** Quoted identifiers have both quotes; no token is empty. *)
Definition well_formed (toks : list token) : Prop :=
  Forall (fun t => ttext t <> [] /\ (tkind t = Quoted -> exists n, ttext t = 39%N :: n ++ [39%N])) toks.

(** A token, with identifiers of the old name changed to the new one, in quotes if it was. *)
Inductive renamed (old new : text) : token -> text -> Prop :=
| r_plain : forall t, (tkind t = Unquoted \/ tkind t = Operator) -> ttext t = old -> renamed old new t new
| r_quoted : forall t, tkind t = Quoted -> ttext t = 39%N :: old ++ [39%N] ->
    renamed old new t (39%N :: new ++ [39%N])
| r_other : forall t, ~ names t old -> renamed old new t (ttext t).

(** What an editor makes of edits: after [p], the text [rest] becomes the last argument. *)
Inductive edited : text -> text -> list (range * text) -> text -> Prop :=
| e_done : forall p rest, edited p rest [] rest
| e_edit : forall p keep old rest new es out,
    edited (p ++ keep ++ old) rest es out ->
    edited p (keep ++ old ++ rest) (((place (p ++ keep), place (p ++ keep ++ old)), new) :: es) (keep ++ new ++ out).

(** The identifier [t] stands in the source such that the offset is within it or at one of its ends. *)
Definition touches (toks : list token) (offset : nat) (t : token) : Prop :=
  exists before after, toks = before ++ t :: after /\ tkind t <> Other
    /\ bytes (source before) <= offset <= bytes (source before) + bytes (ttext t).

(** The ranges of the tokens that have a property. *)
Inductive ranges_of (P : token -> Prop) : list token -> list token -> list range -> Prop :=
| g_done : forall before, ranges_of P before [] []
| g_yes : forall before t after rs, P t -> ranges_of P (before ++ [t]) after rs ->
    ranges_of P before (t :: after) ((place (source before), place (source (before ++ [t]))) :: rs)
| g_no : forall before t after rs, ~ P t -> ranges_of P (before ++ [t]) after rs ->
    ranges_of P before (t :: after) rs.
