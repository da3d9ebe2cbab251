(** Imports: how an import is written (src/syntax/input.rs), how the imports of
    a file are found and loaded (src/driver/source.rs and src/syntax/import.rs),
    and how imported files are nested so that their names can be used
    (src/core/desugar/desugarer.rs, src/core/desugar/rowan_ast.rs and
    [rebody] in src/core/expr.rs).

    Imports from git repositories, standard input, streams, pseudo-blocks and
    the editor's buffers are not modelled. *)
From Coq Require Import List NArith Bool Arith.
Import ListNotations.

(** * 1. Writing an import *)

(** A text is its list of characters (Unicode scalar values). *)
Definition text := list N.

Definition equals_sign : N := 61%N.
Definition at_sign : N := 64%N.
Definition open_bracket : N := 91%N.

(** Whether a character takes one byte in UTF-8. *)
Definition one_byte (c : N) : bool := (c <? 128)%N.

(** [Locator], src/syntax/input.rs lines 16-46, without the forms that are never
    written in an import specifier ([Cli], [Literal], [Buffer], [Git]). *)
Inductive locator :=
| Fs (path : text)
| Url (url : text)
| Resource (name : text)
| Pseudo (name : text)
| StdIn.

(** [Input], src/syntax/input.rs lines 196-207. *)
Record input := Input { i_locator : locator; i_name : option text; i_format : text }.

(** What parsing gives: an input, or a panic of the process. *)
Inductive parsed := Parsed (i : input) | Panics.

Fixpoint text_eqb (a b : text) : bool :=
  match a, b with
  | [], [] => true
  | x :: a', y :: b' => (x =? y)%N && text_eqb a' b'
  | _, _ => false
  end.

(** [str::find] of one character, followed by [split_at] and the [[1..]] that
    drops the character itself (src/syntax/input.rs lines 280-291). *)
Fixpoint split_first (c : N) (s : text) : option (text * text) :=
  match s with
  | [] => None
  | x :: s' =>
      if (x =? c)%N then Some ([], s')
      else match split_first c s' with
           | Some (a, b) => Some (x :: a, b)
           | None => None
           end
  end.

(** [str::strip_prefix]. *)
Fixpoint strip_prefix (p s : text) : option text :=
  match p, s with
  | [], _ => Some s
  | x :: p', y :: s' => if (x =? y)%N then strip_prefix p' s' else None
  | _ :: _, [] => None
  end.

Section Specifier.

(** Which characters [str::trim] removes (Rust's [char::is_whitespace]). *)
Variable white : N -> bool.

(** What [Url::parse] and [Locator::normalise] (src/syntax/input.rs lines
    79-82 and 135-144) make of a text: [None] if it is not a URL.  The url crate
    is not modelled. *)
Variable parse_url : text -> option locator.

(** [is_windows_drive_path], src/syntax/input.rs lines 92-98, is not needed
    apart from [parse_url]: in both cases the text is a path.  [ext_to_format]
    of the extension of a path or URL, lines 146-159 and 162-190: the extension
    is the part after the last dot of the last component, left abstract. *)
Variable format_of_extension : text -> option text.

(** The format names [json], [eu] and [core]. *)
Variables json_format eu_format core_format : text.

(** The texts [-], [resource:] and [pseudo:]. *)
Variables dash resource_prefix pseudo_prefix : text.

Fixpoint trim_start (s : text) : text :=
  match s with
  | x :: s' => if white x then trim_start s' else s
  | [] => []
  end.
(** [str::trim]. *)
Definition trim (s : text) : text := rev (trim_start (rev (trim_start s))).

(** The surrounding square brackets, src/syntax/input.rs lines 52-55: when the
    text starts with one, the slice [[1..len - 1]] by bytes is taken.  It panics
    when the text is that one byte, and when the last character takes more than
    one byte, because the slice then ends inside it.  Whether the last character
    is a closing bracket is not asked. *)
Definition chomp (s : text) : option text :=
  match s with
  | c :: rest =>
      if (c =? open_bracket)%N then
        match rev rest with
        | [] => None
        | l :: front => if one_byte l then Some (rev front) else None
        end
      else Some s
  | [] => Some []
  end.

(** [Locator::from(&str)], src/syntax/input.rs lines 49-84. *)
Definition locator_from (s : text) : option locator :=
  match chomp s with
  | None => None
  | Some u =>
      if text_eqb u dash then Some StdIn
      else match strip_prefix resource_prefix u with
           | Some r => Some (Resource (trim r))
           | None =>
               match strip_prefix pseudo_prefix u with
               | Some r => Some (Pseudo (trim r))
               | None =>
                   match parse_url u with
                   | Some l => Some l
                   | None => Some (Fs u)
                   end
               end
           end
  end.

(** [infer_format], src/syntax/input.rs lines 161-190. *)
Definition infer_format (l : locator) : option text :=
  match l with
  | Url u => format_of_extension u
  | Fs p => format_of_extension p
  | StdIn => Some json_format
  | Resource _ => Some eu_format
  | Pseudo _ => Some core_format
  end.

(** [Input::from_str], src/syntax/input.rs lines 272-306. *)
Definition parse_input (s : text) : parsed :=
  let '(name, s) := match split_first equals_sign s with
                    | Some (n, r) => (Some (trim n), r)
                    | None => (None, s)
                    end in
  let '(fmt, s) := match split_first at_sign s with
                   | Some (f, r) => (Some (trim f), r)
                   | None => (None, s)
                   end in
  match locator_from (trim s) with
  | None => Panics
  | Some l =>
      let format := match fmt with
                    | Some f => f
                    | None => match infer_format l with Some f => f | None => eu_format end
                    end in
      Parsed (Input l name format)
  end.

(** [Display] of an input that is read from a file, src/syntax/input.rs lines
    104-108 and 209-216. *)
Definition show_file_input (name : option text) (format path : text) : text :=
  match name with
  | Some n => n ++ equals_sign :: format ++ at_sign :: path
  | None => format ++ at_sign :: path
  end.

End Specifier.

(** * 2. Loading the imports of a file *)

(** A path is its list of components; directories are paths; absolute paths are
    not modelled. *)
Definition path := list nat.

(** A file on disk that a loader can read: eucalypt source with the imports
    found in it, in order, or data, which imports nothing.  An import is the
    path that is written in it.  [scrape_rowan_ast_imports] and its callees
    (src/syntax/import.rs lines 140-330) are not modelled. *)
Inductive file := Source (wanted : list path) | Data.

(** What the loader can fail with: a file that cannot be read, a cycle of
    imports, and, in the model only, too little fuel. *)
Inductive load_result {A} := Loaded (a : A) | Unreadable (p : path) | Cyclic (p : path) | Starved.
Arguments load_result : clear implicits.

(** The parts of [SourceLoader] that matter: [locators] together with [files] and
    [asts] (what each locator was found to be), and the edges of the graph of
    imports.  The nodes of the graph are locators: src/syntax/import.rs lines
    99-117. *)
Record loader := Loader { found : list (path * (path * file)); edges : list (path * path) }.

Fixpoint path_eqb (a b : path) : bool :=
  match a, b with
  | [], [] => true
  | x :: a', y :: b' => (x =? y) && path_eqb a' b'
  | _, _ => false
  end.

Fixpoint lookup_path {A} (p : path) (l : list (path * A)) : option A :=
  match l with
  | [] => None
  | (q, a) :: l' => if path_eqb p q then Some a else lookup_path p l'
  end.

(** [algo::toposort], used by [check_for_cycles] (src/syntax/import.rs lines
    78-86), fails exactly if the graph has a cycle.  Here: some node can be
    reached from one of its own targets, found by walking along as many edges
    as there are. *)
Fixpoint reach (fuel : nat) (es : list (path * path)) (from : list path) : list path :=
  match fuel with
  | 0 => from
  | S k =>
      from ++ reach k es (flat_map (fun e => if existsb (path_eqb (fst e)) from then [snd e] else []) es)
  end.
Definition on_cycle (es : list (path * path)) (e : path * path) : bool :=
  existsb (path_eqb (fst e)) (reach (length es) es [snd e]).
Definition cyclic_node (es : list (path * path)) : option path :=
  match find (on_cycle es) es with Some e => Some (fst e) | None => None end.

Section Loading.

(** The file system as seen from the working directory. *)
Variable fs : path -> option file.
(** The libraries baked into the binary, by the import's path. *)
Variable baked : path -> option file.

(** [read_fs_input], src/driver/source.rs lines 1267-1295: the first directory of
    the library path that has the file, then the working directory, then a
    library baked into the binary.  The path the file was found at comes with
    it. *)
Fixpoint read_fs (lib : list path) (p : path) : option (path * file) :=
  match lib with
  | d :: lib' =>
      match fs (d ++ p) with
      | Some f => Some (d ++ p, f)
      | None => read_fs lib' p
      end
  | [] =>
      match fs p with
      | Some f => Some (p, f)
      | None => match baked p with Some f => Some (p, f) | None => None end
      end
  end.

(** [find_source_dir], src/driver/source.rs lines 555-580: the directory of the
    first file of that path that exists. *)
Fixpoint find_source_dir (lib : list path) (p : path) : option path :=
  match lib with
  | d :: lib' =>
      match fs (d ++ p) with
      | Some _ => Some (removelast (d ++ p))
      | None => find_source_dir lib' p
      end
  | [] => match fs p with Some _ => Some (removelast p) | None => None end
  end.

(** [load_source], src/driver/source.rs lines 708-763. *)
Definition load_source (lib : list path) (s : loader) (p : path) : load_result (loader * file) :=
  match lookup_path p (found s) with
  | Some (_, f) => Loaded (s, f)
  | None =>
      match read_fs lib p with
      | Some (at_, f) => Loaded (Loader ((p, (at_, f)) :: found s) (edges s), f)
      | None => Unreadable p
      end
  end.

(** The loop over the imports of a file, src/driver/source.rs lines 538-548. *)
Fixpoint load_all (ld : loader -> path -> load_result loader) (s : loader) (ws : list path)
  : load_result loader :=
  match ws with
  | [] => Loaded s
  | w :: ws' =>
      match ld s w with
      | Loaded s' => load_all ld s' ws'
      | bad => bad
      end
  end.

(** [load_tree_as], src/driver/source.rs lines 499-553, and [load_simple], lines
    415-431: the source is loaded, its imports are put into the graph, the graph
    is checked for cycles, and then each import is loaded with the directory of
    this file at the end of the library path. *)
Fixpoint load (fuel : nat) (lib : list path) (s : loader) (p : path) : load_result loader :=
  match fuel with
  | 0 => Starved
  | S k =>
      match load_source lib s p with
      | Loaded (s1, f) =>
          match f with
          | Data => Loaded s1
          | Source wanted =>
              let s2 := Loader (found s1) (edges s1 ++ map (pair p) wanted) in
              match cyclic_node (edges s2) with
              | Some c => Cyclic c
              | None =>
                  let lib' := match find_source_dir lib p with
                              | Some d => lib ++ [d]
                              | None => lib
                              end in
                  load_all (load k lib') s2 wanted
              end
          end
      | Unreadable q => Unreadable q
      | Cyclic q => Cyclic q
      | Starved => Starved
      end
  end.

End Loading.

(** * 3. Nesting imported files *)

(** An import of a file, perhaps under a name.  Files and names are numbered. *)
Record import := Import { as_name : option nat; what : nat }.

(** A declaration of a file: its name, the imports in its own metadata and the
    names its value refers to.  Values are known by the names they refer to;
    blocks inside values, and their imports, are not modelled. *)
Record decl := Decl { dname : nat; dimports : list import; drefs : list nat }.
Record source := SourceUnit { uimports : list import; udecls : list decl }.

(** What a name is bound to: the declaration of that name in a file, the whole of
    a file imported under the name, or whatever another name means (the alias of
    rule 3). *)
Inductive meaning := Declared (f : nat) | Namespace (f : nat) | SameAs (n : nat).

(** Core expressions as far as names go: the value or body that comes from a file
    and refers to names; a variable; a let, whose bindings see each other. *)
Inductive core :=
| Refers (f : nat) (refs : list nat)
| Variable_ (n : nat)
| LetIn (bs : list (nat * meaning * core)) (body : core).

(** [rebody], src/core/expr.rs lines 567-646: the body of the innermost of the
    nested lets is replaced.  Bindings marked internal are not modelled. *)
Fixpoint rebody (c new_body : core) : core :=
  match c with
  | LetIn bs b => LetIn bs (rebody b new_body)
  | _ => new_body
  end.

(** The import guard, src/core/desugar/desugarer.rs lines 60-90: files and names
    imported directly by the main file, those imported by imported files, and the
    name each file was first imported under by the main file. *)
Record guard := Guard { seen_direct : list (nat * option nat);
                        seen_nested : list (nat * option nat);
                        first_direct : list (nat * nat) }.

Definition no_imports_seen : guard := Guard [] [] [].

Definition opt_eqb (a b : option nat) : bool :=
  match a, b with
  | Some x, Some y => x =? y
  | None, None => true
  | _, _ => false
  end.
Definition seen (k : nat * option nat) (l : list (nat * option nat)) : bool :=
  existsb (fun k' => (fst k =? fst k') && opt_eqb (snd k) (snd k')) l.
Fixpoint first_name (f : nat) (l : list (nat * nat)) : option nat :=
  match l with
  | [] => None
  | (g, n) :: l' => if f =? g then Some n else first_name f l'
  end.

Section Nesting.

(** The files of the project, all of them loaded. *)
Variable files : nat -> source.

(** How a unit is desugared at a given nesting and depth of named imports. *)
Definition translator := nat -> nat -> guard -> nat -> option (core * guard).

(** [translate_import], src/core/desugar/desugarer.rs lines 284-380.  [level] is
    [file.len()], [depth] is [named_import_depth]. *)
Definition translate_import (unit_core : translator) (level depth : nat) (g : guard) (i : import)
  : option (option core * guard) :=
  let key := (what i, as_name i) in
  let is_nested := 1 <? level in
  let alias :=
    if is_nested then None
    else match first_name (what i) (first_direct g), as_name i with
         | Some n, Some m => if n =? m then None else Some (m, n)
         | _, _ => None
         end in
  match alias with
  | Some (m, n) => Some (Some (LetIn [(m, SameAs n, Variable_ n)] (Refers (what i) [m])), g)
  | None =>
      if seen key (seen_nested g) || (is_nested && seen key (seen_direct g)) then Some (None, g)
      else
        let g1 :=
          if is_nested then
            if depth =? 0 then Guard (seen_direct g) (key :: seen_nested g) (first_direct g) else g
          else Guard (key :: seen_direct g) (seen_nested g)
                 (match as_name i with
                  | Some n => match first_name (what i) (first_direct g) with
                              | Some _ => first_direct g
                              | None => (what i, n) :: first_direct g
                              end
                  | None => first_direct g
                  end) in
        match as_name i with
        | None =>
            match unit_core (S level) depth g1 (what i) with
            | Some (c, g2) => Some (Some c, g2)
            | None => None
            end
        | Some n =>
            match unit_core (S level) (S depth) g1 (what i) with
            | Some (c, g2) => Some (Some (LetIn [(n, Namespace (what i), c)] (Refers (what i) [n])), g2)
            | None => None
            end
        end
  end.

(** The loop over the imports of a unit or declaration,
    src/core/desugar/rowan_ast.rs lines 2636-2645 and 2984-2999. *)
Fixpoint translate_imports (unit_core : translator) (level depth : nat) (g : guard) (is : list import)
  : option (list core * guard) :=
  match is with
  | [] => Some ([], g)
  | i :: is' =>
      match translate_import unit_core level depth g i with
      | None => None
      | Some (oc, g1) =>
          match translate_imports unit_core level depth g1 is' with
          | None => None
          | Some (cs, g2) => Some (match oc with Some c => c :: cs | None => cs end, g2)
          end
      end
  end.

(** [imports.iter().rfold(expr, |acc, import| import.rebody(acc))],
    src/core/desugar/rowan_ast.rs lines 2789 and 3112. *)
Definition embed (imports : list core) (c : core) : core := fold_right rebody c imports.

(** The declarations of a unit in order, src/core/desugar/rowan_ast.rs lines
    2590-2800. *)
Fixpoint translate_decls (unit_core : translator) (level depth : nat) (g : guard) (f : nat)
    (ds : list decl) : option (list (nat * meaning * core) * guard) :=
  match ds with
  | [] => Some ([], g)
  | d :: ds' =>
      match translate_imports unit_core level depth g (dimports d) with
      | None => None
      | Some (cs, g1) =>
          match translate_decls unit_core level depth g1 f ds' with
          | None => None
          | Some (bs, g2) => Some ((dname d, Declared f, embed cs (Refers f (drefs d))) :: bs, g2)
          end
      end
  end.

(** Desugaring a unit, src/core/desugar/rowan_ast.rs lines 2940-3116: the imports
    first, then the declarations, made into a let whose body is the block of the
    declared names, embedded in the imports. *)
Fixpoint unit_core (fuel : nat) (level depth : nat) (g : guard) (f : nat) : option (core * guard) :=
  match fuel with
  | 0 => None
  | S k =>
      match translate_imports (unit_core k) level depth g (uimports (files f)) with
      | None => None
      | Some (cs, g1) =>
          match translate_decls (unit_core k) level depth g1 f (udecls (files f)) with
          | None => None
          | Some (bs, g2) =>
              Some (embed cs (LetIn bs (Refers f (map dname (udecls (files f))))), g2)
          end
      end
  end.

(** [translate_unit], src/core/desugar/desugarer.rs lines 205-258, for the main
    file. *)
Definition translate_unit (fuel : nat) (main : nat) : option core :=
  match unit_core fuel 1 0 no_imports_seen main with
  | Some (c, _) => Some c
  | None => None
  end.

End Nesting.
