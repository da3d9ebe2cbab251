(** Formatting requests of the language server: src/driver/lsp/formatting.rs.

    Texts and positions are those of [Verif.Lsp.Model].  Simplifications: a source is the
    list of its top-level declarations and of what stands between them, each declaration
    with what the formatter makes of it ([Formatter::format_declaration], or nothing for an
    error); the formatting of the whole source ([format_source]) is given likewise.  Whether
    the source has parse errors is given.  Lines and characters are unbounded. *)
From Coq Require Import List Bool Arith NArith.
From Verif.Lsp Require Import Model.
Import ListNotations.

Definition text_eqb (a b : text) : bool := if list_eq_dec N.eq_dec a b then true else false.

(** [lsp_position_to_offset], src/driver/lsp/formatting.rs:98-121: the loop. *)
Fixpoint offset_from (t : text) (p : position) (line character offset : nat) : nat :=
  match t with
  | [] => offset
  | c :: r =>
      if Nat.eqb line (fst p) && Nat.eqb character (snd p) then offset
      else if (c =? newline)%N then
        if Nat.eqb line (fst p) then offset
        else offset_from r p (S line) 0 (offset + len_utf8 c)
      else offset_from r p line (character + len_utf16 c) (offset + len_utf8 c)
  end.
Definition position_offset (t : text) (p : position) : nat := offset_from t p 0 0 0.

(** [offset_to_lsp_position], src/driver/lsp/formatting.rs:125-144: the loop. *)
Fixpoint position_from (t : text) (offset line character byte : nat) : position :=
  match t with
  | [] => (line, character)
  | c :: r =>
      if offset <=? byte then (line, character)
      else if (c =? newline)%N then position_from r offset (S line) 0 (byte + len_utf8 c)
      else position_from r offset line (character + len_utf16 c) (byte + len_utf8 c)
  end.
Definition offset_position (t : text) (offset : nat) : position := position_from t offset 0 0 0.

(** [end_of_document], src/driver/lsp/formatting.rs:176-188: the loop. *)
Fixpoint end_from (t : text) (line character : nat) : position :=
  match t with
  | [] => (line, character)
  | c :: r => if (c =? newline)%N then end_from r (S line) 0 else end_from r line (character + len_utf16 c)
  end.
Definition end_of_document (t : text) : position := end_from t 0 0.

(** [format_document] and [whole_document_edit], src/driver/lsp/formatting.rs:24-32, 158-170. *)
Definition format_document (src : text) (formatted : option text) : list (range * text) :=
  match formatted with
  | Some f => if text_eqb f src then [] else [((0, 0), end_of_document src, f)]
  | None => []
  end.

(** Parts of a source. *)
Inductive piece :=
| Between (t : text)
| Decl (t : text) (formatted : option text).
Definition piece_text (p : piece) : text := match p with Between t => t | Decl t _ => t end.
Definition source_of (ps : list piece) : text := flat_map piece_text ps.

(** [format_range], src/driver/lsp/formatting.rs:41-94: the loop over declarations, from an
    offset. *)
Fixpoint range_edits (src : text) (request_start request_end node_start : nat) (ps : list piece) : list (range * text) :=
  match ps with
  | [] => []
  | Between t :: ps => range_edits src request_start request_end (node_start + bytes t) ps
  | Decl original formatted :: ps =>
      let node_end := node_start + bytes original in
      let check_end := match from node_end src with
                       | c :: _ => if (c =? newline)%N then node_end + 1 else node_end
                       | [] => node_end
                       end in
      (if (request_end <=? node_start) || (check_end <=? request_start) then []
       else match formatted with
            | Some f =>
                if text_eqb f original then []
                else [((offset_position src node_start, offset_position src node_end), f)]
            | None => []
            end) ++ range_edits src request_start request_end node_end ps
  end.
Definition format_range (errors : bool) (ps : list piece) (r : range) : list (range * text) :=
  if errors then []
  else
    let src := source_of ps in
    range_edits src (position_offset src (fst r)) (position_offset src (snd r)) 0 ps.
