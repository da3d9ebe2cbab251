(** Reading XML: src/import/xml.rs.

    Simplifications: text is a list of code points, and which are white space
    ([str::trim]) is the variable [space]; the reader (the crate quick_xml) is the list
    of the events it gives, with [Eof] again and again after the end, as it does;
    events hold decoded text and attribute values, a failure to decode is [Bad];
    messages and positions of errors are left out. *)
From Coq Require Import List Bool NArith.
Import ListNotations.

Definition text := list N.
(** A qualified name: prefix and local name. *)
Definition qname := (text * text)%type.

Definition text_eqb (a b : text) : bool := if list_eq_dec N.eq_dec a b then true else false.

(** Events of the reader that are told apart, src/import/xml.rs:81-140.  [Ref] is a
    reference that resolves to text or is unknown; [Other] is a comment, declaration,
    processing instruction or document type. *)
Inductive event :=
| Start (name : qname) (attrs : list (qname * text))
| End
| Empty (name : qname) (attrs : list (qname * text))
| Text (s : text)
| Ref (s : option text)
| CData (s : text)
| Other
| Eof
| Bad.

(** The core data that is built: symbols, text, blocks of text and lists. *)
Inductive value :=
| Sym (s : text)
| Str (s : text)
| Block (entries : list (text * text))
| VList (xs : list value).

(** [ProtoElement], src/import/xml.rs:14-18. *)
Record proto := mkProto { p_name : value; p_attrs : value; p_content : list value }.
(** [ProtoElement::add], src/import/xml.rs:29-31. *)
Definition add (x : value) (p : proto) : proto := mkProto (p_name p) (p_attrs p) (p_content p ++ [x]).
(** [ProtoElement::complete], src/import/xml.rs:34-43. *)
Definition complete (p : proto) : value := VList (p_name p :: p_attrs p :: p_content p).

(** [IndexMap::insert]. *)
Fixpoint insert (k v : text) (l : list (text * text)) : list (text * text) :=
  match l with
  | [] => [(k, v)]
  | (k', v') :: l => if text_eqb k' k then (k', v) :: l else (k', v') :: insert k v l
  end.
(** [acore::block] on pairs, src/core/expr.rs:1958-1960, 2157-2159. *)
Definition block (l : list (text * text)) : value :=
  Block (fold_left (fun acc kv => insert (fst kv) (snd kv) acc) l []).

(** [to_proto_element], src/import/xml.rs:205-232. *)
Definition to_proto_element (name : qname) (attrs : list (qname * text)) : proto :=
  mkProto (Sym (snd name)) (block (map (fun a => (snd (fst a), snd a)) attrs)) [].

Section Read.
  Variable space : N -> bool.

  Fixpoint trim_start (s : text) : text :=
    match s with
    | [] => []
    | c :: r => if space c then trim_start r else s
    end.
  (** [str::trim]. *)
  Definition trim (s : text) : text := rev (trim_start (rev (trim_start s))).

  (** The stack, innermost element first, and [text_buf], src/import/xml.rs:77-78. *)
  Record state := mkState { stack : list proto; buf : text }.
  Inductive outcome := Going (s : state) | Done (v : value) | Failed.

  (** [flush_text], src/import/xml.rs:149-171. *)
  Definition flush (s : state) : option state :=
    match buf s with
    | [] => Some s
    | _ :: _ =>
        match trim (buf s) with
        | [] => Some (mkState (stack s) [])
        | t => match stack s with
               | p :: st => Some (mkState (add (Str t) p :: st) [])
               | [] => None
               end
        end
    end.

  (** A finished element, src/import/xml.rs:89-95, 101-105. *)
  Definition finish (n : value) (st : list proto) : outcome :=
    match st with
    | p :: st => Going (mkState (add n p :: st) [])
    | [] => Done n
    end.

  (** One round of the loop in [parse], src/import/xml.rs:80-141. *)
  Definition step (s : state) (e : event) : outcome :=
    match e with
    | Start name attrs =>
        match flush s with
        | Some s => Going (mkState (to_proto_element name attrs :: stack s) (buf s))
        | None => Failed
        end
    | End =>
        match flush s with
        | Some s => match stack s with
                    | p :: st => finish (complete p) st
                    | [] => Going s
                    end
        | None => Failed
        end
    | Empty name attrs =>
        match flush s with
        | Some s => finish (complete (to_proto_element name attrs)) (stack s)
        | None => Failed
        end
    | Text t => Going (mkState (stack s) (buf s ++ t))
    | Ref (Some t) => Going (mkState (stack s) (buf s ++ t))
    | Ref None => Failed
    | Bad => Failed
    | CData _ | Other | Eof => Going s
    end.

  (** The loop, src/import/xml.rs:80-142, for the events given so far. *)
  Fixpoint run (s : state) (es : list event) : outcome :=
    match es with
    | [] => Going s
    | e :: es => match step s e with
                 | Going s => run s es
                 | o => o
                 end
    end.
  (** [parse], src/import/xml.rs:75-78. *)
  Definition parse (es : list event) : outcome := run (mkState [] []) es.
End Read.
