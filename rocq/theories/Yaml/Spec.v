(** What a YAML document holds, from docs/reference/import-formats.md and the YAML core schema. *)
From Coq Require Import String List NArith Bool Ascii.
From Verif Require Import Yaml.Model.
Import ListNotations.
Open Scope string_scope.
Open Scope list_scope.

(** ** Documents *)

(** The tree of a document.  An anchor is a number other than 0; 0 stands for none.  Keys of mappings
    are scalars. *)
Inductive node :=
| NScalar (text : string) (plain : bool) (anchor : nat) (tag : option (string * string))
| NSeq (anchor : nat) (items : list node)
| NMap (anchor : nat) (entries : list (string * (bool * nat * option (string * string)) * node))
| NAlias (anchor : nat).

(** The events the parser reports for it. *)
Fixpoint events (n : node) : list event :=
  match n with
  | NScalar t p a tg => [Scalar t p a tg]
  | NSeq a l => SequenceStart a :: flat_map events l ++ [SequenceEnd]
  | NMap a es =>
    MappingStart a :: flat_map (fun '(k, (p, ka, tg), x) => Scalar k p ka tg :: events x) es ++ [MappingEnd]
  | NAlias a => [Alias a]
  end.

(** ** Mappings *)

(** What is written in a mapping: a key with its value, or entries to be merged. *)
Inductive item := Explicit (k : string) (v : expr) | Merge (entries : list (string * expr)).

Definition explicit_in (k : string) (items : list item) : bool :=
  existsb (fun i => match i with Explicit k' _ => String.eqb k k' | Merge _ => false end) items.
Definition merged_in (k : string) (items : list item) : bool :=
  existsb (fun i => match i with Explicit _ _ => false | Merge es => existsb (fun e => String.eqb k (fst e)) es end) items.

(** The entries of the block: a key where it is written last; a merged entry where it is merged
    first, unless its key is written anywhere. *)
Fixpoint combine (before items : list item) : list (string * expr) :=
  match items with
  | [] => []
  | i :: later =>
    match i with
    | Explicit k v => if explicit_in k later then [] else [(k, v)]
    | Merge es => filter (fun e => negb (explicit_in (fst e) (before ++ later)) &&
                                   negb (merged_in (fst e) before)) es
    end ++ combine (before ++ [i]) later
  end.

Definition block_of (items : list item) : list (string * expr) := combine [] items.

(** The value a key is given: the one written last, or else the one merged first. *)
Fixpoint entry (k : string) (es : list (string * expr)) : option expr :=
  match es with [] => None | (k', v) :: r => if String.eqb k k' then Some v else entry k r end.
Fixpoint written (k : string) (items : list item) : option expr :=
  match items with
  | [] => None
  | Explicit k' v :: r => match written k r with
                          | Some w => Some w
                          | None => if String.eqb k k' then Some v else None
                          end
  | Merge _ :: r => written k r
  end.
Fixpoint merged (k : string) (items : list item) : option expr :=
  match items with
  | [] => None
  | Explicit _ _ :: r => merged k r
  | Merge es :: r => match entry k es with Some v => Some v | None => merged k r end
  end.

Definition every {A B} (f : A -> option B) : list A -> option (list B) :=
  fix go l :=
    match l with
    | [] => Some []
    | x :: r => match f x, go r with Some y, Some ys => Some (y :: ys) | _, _ => None end
    end.

(** What can be merged: a mapping, or a list of such, the later taking precedence. *)
Fixpoint mergeable (e : expr) : option (list (string * expr)) :=
  match e with
  | EBlock es => Some es
  | EList l => match every mergeable l with
               | Some ess => Some (block_of (map (fun e => Explicit (fst e) (snd e)) (concat ess)))
               | None => None
               end
  | _ => None
  end.

Section Documents.

Variable scalar : string -> bool -> option (string * string) -> option expr.

Definition anchors := nat -> option expr.
Definition bind (a : nat) (e : expr) (m : anchors) : anchors :=
  match a with O => m | _ => fun j => if Nat.eqb j a then Some e else m j end.

(** The value of a document, given the anchors seen so far; none for an error: a scalar that cannot
    be read, an alias of something not completed before, a merge of something not mergeable. *)
Fixpoint denote (m : anchors) (n : node) : option (expr * anchors) :=
  match n with
  | NScalar t p a tg =>
    match scalar t p tg with Some e => Some (e, bind a e m) | None => None end
  | NAlias a => match m a with Some e => Some (e, m) | None => None end
  | NSeq a l =>
    match (fix seq (m : anchors) (l : list node) : option (list expr * anchors) :=
             match l with
             | [] => Some ([], m)
             | x :: r => match denote m x with
                         | Some (e, m) => match seq m r with
                                          | Some (es, m) => Some (e :: es, m)
                                          | None => None
                                          end
                         | None => None
                         end
             end) m l with
    | Some (es, m) => Some (EList es, bind a (EList es) m)
    | None => None
    end
  | NMap a es =>
    match (fix map (m : anchors) (l : list (string * (bool * nat * option (string * string)) * node))
             : option (list item * anchors) :=
             match l with
             | [] => Some ([], m)
             | (k, _, x) :: r =>
               match denote m x with
               | Some (e, m) =>
                 match (if String.eqb k "<<" then option_map Merge (mergeable e) else Some (Explicit k e)) with
                 | Some i => match map m r with Some (is, m) => Some (i :: is, m) | None => None end
                 | None => None
                 end
               | None => None
               end
             end) m es with
    | Some (items, m) => let e := default_let (block_of items) in Some (e, bind a e m)
    | None => None
    end
  end.

End Documents.

(** ** Plain scalars *)

Definition starts (p s : string) : Prop := exists r, s = (p ++ r)%string.
Definition finishes (p s : string) : Prop := exists r, s = (r ++ p)%string.
Definition within (p s : string) : Prop := exists a b, s = (a ++ p ++ b)%string.

Definition chars := list_ascii_of_string.
Definition made_of (cs s : string) : Prop := forall c, In c (chars s) -> In c (chars cs).
Definition number_of (cs s : string) : Prop := s <> "" /\ made_of cs s.
Definition decimal : string := "0123456789".

Definition sign (s : string) : Prop := s = "" \/ s = "-" \/ s = "+".

Inductive power : string -> Prop :=
| power_none : power ""
| power_some e s d : e = "e" \/ e = "E" -> sign s -> number_of decimal d -> power (e ++ s ++ d).

(** Integers and floats of the YAML core schema. *)
Inductive schema_int : string -> Prop :=
| int_decimal s d : sign s -> number_of decimal d -> schema_int (s ++ d)
| int_octal d : number_of "01234567" d -> schema_int ("0o" ++ d)
| int_hex d : number_of "0123456789abcdefABCDEF" d -> schema_int ("0x" ++ d).

Inductive schema_float : string -> Prop :=
| float_point s d p : sign s -> number_of decimal d -> power p -> schema_float (s ++ "." ++ d ++ p)
| float_whole s d p : sign s -> number_of decimal d -> power p -> schema_float (s ++ d ++ p)
| float_mixed s d d' p : sign s -> number_of decimal d -> made_of decimal d' -> power p ->
    schema_float (s ++ d ++ "." ++ d' ++ p)
| float_inf s i : sign s -> In i [".inf"; ".Inf"; ".INF"] -> schema_float (s ++ i)
| float_nan i : In i [".nan"; ".NaN"; ".NAN"] -> schema_float i.

(** Numbers of JSON. *)
Inductive json_integer : string -> Prop :=
| json_zero : json_integer "0"
| json_other c d : In c (chars "123456789") -> made_of decimal d -> json_integer (String c d).
Inductive json_text : string -> Prop :=
| json_whole m i p : m = "" \/ m = "-" -> json_integer i -> power p -> json_text (m ++ i ++ p)
| json_fraction m i d p : m = "" \/ m = "-" -> json_integer i -> number_of decimal d -> power p ->
    json_text (m ++ i ++ "." ++ d ++ p).

(** ** Data without code *)

Inductive inert : expr -> Prop :=
| inert_null : inert Null | inert_bool b : inert (Bool b) | inert_str s : inert (Str s)
| inert_sym s : inert (Sym s) | inert_num t : inert (Num t)
| inert_tagged e t : inert e -> inert (Tagged e t)
| inert_suppressed e : inert e -> inert (Suppressed e)
| inert_list l : (forall e, In e l -> inert e) -> inert (EList l)
| inert_block es : (forall k e, In (k, e) es -> inert e) -> inert (EBlock es).

(** ** References *)

(** Every reference of embedded code points at an enclosing mapping of the document, or is free. *)
Inductive resolved : nat -> expr -> Prop :=
| resolved_code d t refs : (forall s b, In (Bound s b) refs -> s < d) -> resolved d (Code t refs)
| resolved_tagged d e t : resolved d e -> resolved d (Tagged e t)
| resolved_suppressed d e : resolved d e -> resolved d (Suppressed e)
| resolved_list d l : (forall e, In e l -> resolved d e) -> resolved d (EList l)
| resolved_block d es : (forall k e, In (k, e) es -> resolved (S d) e) -> resolved d (EBlock es)
| resolved_other d e : (match e with Null | Bool _ | Str _ | Sym _ | Num _ | Time _ => True | _ => False end) ->
    resolved d e.

(** Documents without merge keys. *)
Fixpoint no_merge (n : node) : Prop :=
  match n with
  | NScalar _ _ _ _ | NAlias _ => True
  | NSeq _ l => fold_right (fun x P => no_merge x /\ P) True l
  | NMap _ es => fold_right (fun e P => (fst (fst e) <> "<<" /\ no_merge (snd e)) /\ P) True es
  end.
