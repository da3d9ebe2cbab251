(** What is expected of imports, apart from how the code arranges it. *)
From Coq Require Import List NArith Bool Arith Relations.
From Verif.Imports Require Import Model.
Import ListNotations.

(** * Lexical scope: what a name means where it is used *)

(** The bindings around a place, innermost first. *)
Definition scope := list (list (nat * meaning)).

Fixpoint bound_in (n : nat) (frame : list (nat * meaning)) : option meaning :=
  match frame with
  | [] => None
  | (m, w) :: frame' => if n =? m then Some w else bound_in n frame'
  end.

(** The innermost binding counts; an alias stands for what its target means
    around it. *)
Fixpoint resolve (s : scope) (n : nat) : option meaning :=
  match s with
  | [] => None
  | frame :: s' =>
      match bound_in n frame with
      | Some (SameAs m) => resolve s' m
      | Some w => Some w
      | None => resolve s' n
      end
  end.

(** Every place in an expression that comes from a file, with the scope there and
    the names it refers to. *)
Fixpoint places (s : scope) (c : core) : list (scope * nat * list nat) :=
  match c with
  | Refers f refs => [(s, f, refs)]
  | Variable_ _ => []
  | LetIn bs body =>
      let s' := map fst bs :: s in
      flat_map (fun b => places s' (snd b)) bs ++ places s' body
  end.

(** * What a file may refer to *)

Section Project.
Variable files : nat -> source.

Definition declares (f n : nat) : Prop := exists d, In d (udecls (files f)) /\ dname d = n.

(** The names available throughout a file: its own, those of the files it imports
    without a name, and the names it gives to the others. *)
Inductive offers : nat -> nat -> Prop :=
| offers_own f n : declares f n -> offers f n
| offers_imported f g n : In (Import None g) (uimports (files f)) -> offers g n -> offers f n
| offers_named f g n : In (Import (Some n) g) (uimports (files f)) -> offers f n.

(** The names a declaration's own imports make available in its value. *)
Definition import_offers (i : import) (n : nat) : Prop :=
  match as_name i with
  | None => offers (what i) n
  | Some m => n = m
  end.

(** What a name can stand for somewhere in the project. *)
Definition stands_for (n : nat) (w : meaning) : Prop :=
  (exists f, w = Declared f /\ declares f n) \/
  (exists f g, w = Namespace g /\
     (In (Import (Some n) g) (uimports (files f)) \/
      exists d, In d (udecls (files f)) /\ In (Import (Some n) g) (dimports d))).

(** No name is used twice with different meanings. *)
Definition no_clash : Prop := forall n w w', stands_for n w -> stands_for n w' -> w = w'.

(** No declaration has imports of its own. *)
Definition only_unit_imports : Prop := forall f d, In d (udecls (files f)) -> dimports d = [].

(** File [f] imports file [g], in its own metadata or that of a declaration. *)
Definition imports (f g : nat) : Prop :=
  exists n, In (Import n g) (uimports (files f)) \/
    exists d, In d (udecls (files f)) /\ In (Import n g) (dimports d).

(** Imports do not go round in circles. *)
Definition acyclic : Prop := exists rank : nat -> nat, forall f g, imports f g -> rank g < rank f.

(** No file is imported under two names. *)
Definition one_name_each : Prop :=
  forall n m f, stands_for n (Namespace f) -> stands_for m (Namespace f) -> n = m.

End Project.

(** * Loading *)

Section Disk.
Variable fs : path -> option file.
Variable baked : path -> option file.

(** Where the documentation says an import is looked for
    (docs/guide/imports-and-modules.md, "Import Resolution Order"): in the
    directory of the importing file, then in the library path, then in the
    working directory; last come the libraries baked in. *)
Definition documented (lib : list path) (importer_dir p : path) : option path :=
  let candidates := map (fun d => d ++ p) (importer_dir :: lib) ++ [p] in
  match find (fun q => match fs q with Some _ => true | None => false end) candidates with
  | Some q => Some q
  | None => match baked p with Some _ => Some p | None => None end
  end.
End Disk.

(** An import path is known to the loader as a file at a place on disk. *)
Definition known (s : loader) (p at_ : path) (f : file) : Prop := lookup_path p (found s) = Some (at_, f).

(** According to what the loader has found, the file known as [p] imports [q]. *)
Definition asks (s : loader) (p q : path) : Prop :=
  exists at_ wanted, known s p at_ (Source wanted) /\ In q wanted.

Section Files.
Variable fs : path -> option file.
Variable baked : path -> option file.

(** [f] is what the path [p] finds when looked for in some directory, or the
    library of that name. *)
Definition found_at (p at_ : path) (f : file) : Prop :=
  ((exists d, at_ = d ++ p) /\ fs at_ = Some f) \/ (at_ = p /\ fs p = None /\ baked p = Some f).

(** Some file of that path imports [q]. *)
Definition may_ask (p q : path) : Prop :=
  exists at_ wanted, found_at p at_ (Source wanted) /\ In q wanted.

(** Every (nonempty) path finds at most one file on disk, whatever directory it is looked
    for in, and none if it names a library baked in. *)
Definition unambiguous : Prop :=
  (forall p a b, p <> [] -> fs (a ++ p) <> None -> fs (b ++ p) <> None -> a ++ p = b ++ p) /\
  (forall p a, p <> [] -> baked p <> None -> fs (a ++ p) = None).
End Files.

(** * Import specifiers *)

Section Written.
Variable white : N -> bool.
Variable parse_url : text -> option locator.
Variables dash resource_prefix pseudo_prefix : text.

(** A text that is a plain path to a file: without surrounding white space, not
    in brackets, and neither a URL, a resource nor standard input. *)
Definition plain_path (p : text) : Prop :=
  trim white p = p /\ hd_error p <> Some open_bracket /\ text_eqb p dash = false /\
  strip_prefix resource_prefix p = None /\ strip_prefix pseudo_prefix p = None /\ parse_url p = None.
End Written.
