(** What XML documents are and the data they stand for. *)
From Coq Require Import List Bool NArith.
From Verif.Xml Require Import Model.
Import ListNotations.

(** The tree of a document.  An element without content may be written as one tag. *)
Inductive node :=
| Element (name : qname) (attrs : list (qname * text)) (content : list node)
| Single (name : qname) (attrs : list (qname * text))
| Characters (s : text)
| Reference (s : text)
| Section_ (s : text)
| Remark.

(** How a tree is written, as events. *)
Fixpoint written (n : node) : list event :=
  match n with
  | Element name attrs content => Start name attrs :: flat_map written content ++ [End]
  | Single name attrs => [Empty name attrs]
  | Characters s => [Text s]
  | Reference s => [Ref (Some s)]
  | Section_ s => [CData s]
  | Remark => [Other]
  end.

(** [t] is [s] without the white space around it. *)
Definition stripped (space : N -> bool) (s t : text) : Prop :=
  exists a b, s = a ++ t ++ b /\ Forall (fun c => space c = true) (a ++ b) /\
    (forall c, hd_error t = Some c -> space c = false) /\ (forall c, hd_error (rev t) = Some c -> space c = false).

(** The data: a list of the name, the attributes and the content.  Text between
    elements is one item, without the white space around it, and none if nothing is
    left of it. *)
Section Data.
  Variable space : N -> bool.
  Inductive shown : text -> list value -> Prop :=
  | Shown_none s : stripped space s [] -> shown s []
  | Shown_some s t : stripped space s t -> t <> [] -> shown s [Str t].
  Inductive data : node -> value -> Prop :=
  | Data_element name attrs content xs :
      contents [] content xs ->
      data (Element name attrs content)
        (VList (Sym (snd name) :: Block (map (fun a => (snd (fst a), snd a)) attrs) :: xs))
  | Data_single name attrs :
      data (Single name attrs) (VList [Sym (snd name); Block (map (fun a => (snd (fst a), snd a)) attrs)])
  (** the data of the content, after text [run] *)
  with contents : text -> list node -> list value -> Prop :=
  | Contents_end run xs : shown run xs -> contents run [] xs
  | Contents_node run xs n v ns ys : shown run xs -> data n v -> contents [] ns ys -> contents run (n :: ns) (xs ++ v :: ys)
  | Contents_characters run s ns xs : contents (run ++ s) ns xs -> contents run (Characters s :: ns) xs
  | Contents_reference run s ns xs : contents (run ++ s) ns xs -> contents run (Reference s :: ns) xs
  | Contents_section run s ns xs : contents (run ++ s) ns xs -> contents run (Section_ s :: ns) xs
  | Contents_remark run ns xs : contents run ns xs -> contents run (Remark :: ns) xs.
End Data.

(** No section written between [<![CDATA[] and []]>], and no two attributes of an
    element with the same local name. *)
Fixpoint simple (n : node) : Prop :=
  match n with
  | Element _ attrs content =>
      NoDup (map (fun a => snd (fst a)) attrs) /\ fold_right (fun c acc => simple c /\ acc) True content
  | Single _ attrs => NoDup (map (fun a => snd (fst a)) attrs)
  | Section_ _ => False
  | _ => True
  end.
Definition element (n : node) : Prop :=
  match n with Element _ _ _ | Single _ _ => True | _ => False end.
(** What may come before the root: remarks and white space. *)
Definition prolog (space : N -> bool) (e : event) : Prop :=
  match e with Other => True | Text s => Forall (fun c => space c = true) s | _ => False end.
