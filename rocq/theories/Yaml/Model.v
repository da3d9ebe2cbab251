(** * Importing YAML, TOML and EDN

    Models src/import/yaml.rs, src/import/toml.rs, src/import/edn.rs, src/import/jsonl.rs and the
    choice between them in src/import/mod.rs, from the events (or values) that the parsing libraries
    deliver to the expressions handed on.

    Simplifications: texts are strings of bytes (the patterns look at ASCII only).  Positions are
    left out.  Embedded code is represented by its text and by the names free in it, in order, each
    free or bound; a lambda by the names free in it.  Embedded code that is itself a block literal
    cannot be merged here.  Numbers are represented by their text. *)
From Coq Require Import String List NArith Bool Ascii.
Import ListNotations.
Open Scope string_scope.
Open Scope list_scope.

(** ** Expressions *)

(** A reference inside embedded code: by name, or to a binder of an enclosing mapping. *)
Inductive ref := Free (n : string) | Bound (scope binder : nat).

(** The expressions an import makes.  [Time] is a call of ZDT.PARSE; [Tagged] and [Suppressed] are
    expressions with metadata; [EBlock] is a default let whose body is the block of its bindings. *)
Inductive expr := Null | Bool (b : bool) | Str (s : string) | Sym (s : string) | Num (text : string)
  | Time (s : string) | Code (text : string) (refs : list ref)
  | Tagged (e : expr) (tag : string) | Suppressed (e : expr)
  | EList (l : list expr) | EBlock (entries : list (string * expr)).

(** Position of a name.  src/core/expr.rs:1579. *)
Fixpoint position (n : string) (names : list string) : option nat :=
  match names with
  | [] => None
  | m :: r => if String.eqb n m then Some 0 else option_map S (position n r)
  end.

Definition close_ref (names : list string) (depth : nat) (r : ref) : ref :=
  match r with
  | Free n => match position n names with Some i => Bound depth i | None => r end
  | Bound s b => if Nat.leb depth s then Bound (S s) b else r
  end.

(** close_expr_vars on these expressions.  src/core/expr.rs:1576-1640. *)
Fixpoint close (names : list string) (depth : nat) (e : expr) : expr :=
  match e with
  | Code t refs => Code t (map (close_ref names depth) refs)
  | Tagged x tag => Tagged (close names depth x) tag
  | Suppressed x => Suppressed (close names depth x)
  | EList l => EList (map (close names depth) l)
  | EBlock es => EBlock (map (fun '(k, x) => (k, close names (S depth) x)) es)
  | _ => e
  end.

(** default_let.  The substitution before it in complete_block replaces names by themselves.
    src/core/expr.rs:1449-1461,1963-1976; src/import/yaml.rs:115-133. *)
Definition default_let (es : list (string * expr)) : expr :=
  EBlock (map (fun '(k, x) => (k, close (map fst es) 0 x)) es).

(** ** Plain scalars *)

Definition digit (c : ascii) : bool := let n := N_of_ascii c in ((48 <=? n) && (n <=? 57))%N.
Definition octal (c : ascii) : bool := let n := N_of_ascii c in ((48 <=? n) && (n <=? 55))%N.
Definition hex (c : ascii) : bool :=
  let n := N_of_ascii c in digit c || ((97 <=? n) && (n <=? 102))%N || ((65 <=? n) && (n <=? 70))%N.

Fixpoint all (p : ascii -> bool) (s : string) : bool :=
  match s with "" => true | String c r => p c && all p r end.
Definition some (p : ascii -> bool) (s : string) : bool := negb (String.eqb s "") && all p s.

Definition strip_sign (s : string) : string :=
  match s with String c r => if Ascii.eqb c "-" || Ascii.eqb c "+" then r else s | "" => "" end.

(** The longest prefix of digits. *)
Fixpoint span (s : string) : string * string :=
  match s with
  | String c r => if digit c then let (d, q) := span r in (String c d, q) else ("", s)
  | "" => ("", "")
  end.

Fixpoint ends (p s : string) : bool :=
  String.eqb s p || match s with "" => false | String _ r => ends p r end.
Fixpoint contains (p s : string) : bool :=
  String.prefix p s || match s with "" => false | String _ r => contains p r end.

(** ([eE][-+]?[0-9]+)?$ *)
Definition exponent (s : string) : bool :=
  match s with
  | "" => true
  | String c r => (Ascii.eqb c "e" || Ascii.eqb c "E") && some digit (strip_sign r)
  end.

(** The patterns of src/import/yaml.rs:571-589, by number. *)
Definition pat_null (s : string) : bool :=  (* 0-3 *)
  String.eqb s "null" || String.eqb s "Null" || String.eqb s "NULL" || String.eqb s "~" || String.eqb s "".
Definition pat_bool (s : string) : bool :=  (* 4-6; the last is ^TRUE|FALSE$ *)
  String.eqb s "true" || String.eqb s "True" || String.eqb s "false" || String.eqb s "False" ||
  String.prefix "TRUE" s || ends "FALSE" s.
Definition pat_int (s : string) : bool :=  (* 7-9 *)
  some digit (strip_sign s) ||
  match s with
  | String "0" (String "o" r) => some octal r
  | String "0" (String "x" r) => some hex r
  | _ => false
  end.
Definition pat_decimal (s : string) : bool :=  (* 10 *)
  let (d, r) := span (strip_sign s) in
  match d, r with
  | "", String "." r' => let (e, q) := span r' in negb (String.eqb e "") && exponent q
  | "", _ => false
  | _, String "." r' => let (_, q) := span r' in exponent q
  | _, _ => exponent r
  end.
Definition pat_inf (s : string) : bool :=  (* 11 *)
  let r := strip_sign s in String.eqb r ".inf" || String.eqb r ".Inf" || String.eqb r ".INF".
Definition pat_nan (s : string) : bool :=  (* 12; ^\.nan|\.NaN|\.NAN$ *)
  String.prefix ".nan" s || contains ".NaN" s || ends ".NAN" s.

(** serde_json::Number::from_str: the grammar of JSON numbers. *)
Definition json_number (s : string) : bool :=
  let s := match s with String "-" r => r | _ => s end in
  let (d, r) := span s in
  negb (String.eqb d "") &&
  match d with String "0" (String _ _) => false | _ => true end &&
  match r with
  | String "." r' => let (e, q) := span r' in negb (String.eqb e "") && exponent q
  | _ => exponent r
  end.

(** parse_bool.  src/import/yaml.rs:729-731. *)
Definition parse_bool (s : string) : bool :=
  String.eqb s "TRUE" || String.eqb s "True" || String.eqb s "true".

(** Tag.  src/import/yaml.rs:533-566. *)
Inductive tag := TNull | TBool | TInt | TFloat | TStr | TTimestamp | TGeneral (content : string).

(** Tag::from_token_type; a tag is its handle and its content.  src/import/yaml.rs:546-566. *)
Definition from_token_type (t : string * string) : option tag :=
  if String.eqb (fst t) "!!" then
    if String.eqb (snd t) "null" then Some TNull
    else if String.eqb (snd t) "bool" then Some TBool
    else if String.eqb (snd t) "int" then Some TInt
    else if String.eqb (snd t) "float" then Some TFloat
    else if String.eqb (snd t) "str" then Some TStr
    else None
  else Some (TGeneral (snd t)).

(** Events of the YAML parser.  Sequences and mappings come without their tags. *)
Inductive event :=
| Scalar (text : string) (plain : bool) (anchor : nat) (tag : option (string * string))
| SequenceStart (anchor : nat) | SequenceEnd | MappingStart (anchor : nat) | MappingEnd
| Alias (anchor : nat).

(** Expectation.  src/import/yaml.rs:391-400. *)
Inductive expectation := Value (e : expr)
| Listing (items : list expr) (anchor : option nat)
| Even (entries : list (string * expr)) (anchor : option nat)
| Odd (entries : list (string * expr)) (key : string) (anchor : option nat).

(** The receiver: running, stopped at an error, or panicked. *)
Inductive state := Running (stack : list expectation) (anchors : nat -> option expr)
| Failed | Panicked.

Inductive outcome := Read (e : expr) | Refused | Panics.

Definition has_key (k : string) (es : list (string * expr)) : bool :=
  existsb (fun e => String.eqb k (fst e)) es.

(** Vec::retain of the other keys, and push. *)
Definition replace (es : list (string * expr)) (e : string * expr) : list (string * expr) :=
  filter (fun e' => negb (String.eqb (fst e) (fst e'))) es ++ [e].

(** extract_merge_entries.  src/import/yaml.rs:203-249. *)
Fixpoint extract (e : expr) : option (list (string * expr)) :=
  match e with
  | EBlock es => Some es
  | EList l =>
    (fix go (l : list expr) (acc : list (string * expr)) : option (list (string * expr)) :=
       match l with
       | [] => Some acc
       | x :: r => match extract x with
                   | Some es => go r (fold_left replace es acc)
                   | None => None
                   end
       end) l []
  | _ => None
  end.

(** handle_merge.  src/import/yaml.rs:175-195. *)
Definition merge_into (es new : list (string * expr)) : list (string * expr) :=
  fold_left (fun es e => if has_key (fst e) es then es else es ++ [e]) new es.

(** Receiver::feed and Expectation::feed.  src/import/yaml.rs:143-172,407-449. *)
Definition feed (stack : list expectation) (e : expr) : option (list expectation) :=
  match stack with
  | [] => Some [Value e]
  | Listing items a :: r => Some (Listing (items ++ [e]) a :: r)
  | Even es a :: r => match e with
                      | Str s | Sym s => Some (Odd es s a :: r)
                      | _ => None
                      end
  | Odd es k a :: r =>
    if String.eqb k "<<" then
      match extract e with Some new => Some (Even (merge_into es new) a :: r) | None => None end
    else Some (Even (replace es (k, e)) a :: r)
  | Value _ :: r => Some (Value e :: r)
  end.

Definition put (a : option nat) (e : expr) (m : nat -> option expr) : nat -> option expr :=
  match a with Some i => fun j => if Nat.eqb j i then Some e else m j | None => m end.

Definition anchor_of (n : nat) : option nat := match n with O => None | _ => Some n end.

Definition fed (stack : list expectation) (m : nat -> option expr) (e : expr) : state :=
  match feed stack e with Some st => Running st m | None => Failed end.

Definition traverse {A B} (f : A -> option B) : list A -> option (list B) :=
  fix go l :=
    match l with
    | [] => Some []
    | x :: r => match f x, go r with Some y, Some ys => Some (y :: ys) | _, _ => None end
    end.

Section Import.

(** is_timestamp and normalize_timestamp.  src/import/yaml.rs:628-727. *)
Variable is_timestamp : string -> bool.
Variable normalize : string -> string.
(** Whether a JSON number is within the range of numbers: 1e999 is not. *)
Variable in_range : string -> bool.
(** parse_eu and parse_eu_fn: the names free in the code, or an error.  src/import/yaml.rs:322-388. *)
Variable parse_eu parse_eu_fn : string -> option (list string).

(** infer_tag_for_plain_scalar: the first pattern that matches.  src/import/yaml.rs:599-615. *)
Definition infer_tag (s : string) : tag :=
  if pat_null s then TNull
  else if pat_bool s then TBool
  else if pat_int s then TInt
  else if pat_decimal s || pat_inf s || pat_nan s then TFloat
  else if is_timestamp s then TTimestamp
  else TStr.

(** serde_json::Number::from_str. *)
Definition number (s : string) : option expr :=
  if json_number s && in_range s then Some (Num s) else None.

Definition code (s : string) (names : option (list string)) : option expr :=
  option_map (fun ns => Code s (map Free ns)) names.

(** convert_scalar.  src/import/yaml.rs:253-310. *)
Definition convert_scalar (data_only : bool) (s : string) (plain : bool) (tok : option (string * string))
  : option expr :=
  let t := match match tok with Some t => from_token_type t | None => None end with
           | Some t => t
           | None => if plain then infer_tag s else TStr
           end in
  match t with
  | TNull => Some Null
  | TBool => Some (Bool (parse_bool s))
  | TStr => Some (Str s)
  | TInt | TFloat => number s
  | TTimestamp => Some (if data_only then Str s else Time (normalize s))
  | TGeneral c =>
    if String.eqb c "eu" then if data_only then Some (Str s) else code s (parse_eu s)
    else if String.eqb c "eu::fn" then if data_only then Some (Str s) else code s (parse_eu_fn s)
    else if String.eqb c "eu::suppress" then Some (Suppressed (Str s))
    else Some (Tagged (Str s) ("!" ++ c))
  end.

(** on_event, with complete_list and complete_block.  src/import/yaml.rs:100-141,456-530. *)
Definition on_event (data_only : bool) (s : state) (ev : event) : state :=
  match s with
  | Running stack m =>
    match ev with
    | Alias i => match m i with Some e => fed stack m e | None => Failed end
    | Scalar t plain a tok =>
      match stack with
      | Even _ _ :: _ => fed stack m (Sym t)
      | _ => match convert_scalar data_only t plain tok with
             | Some e => fed stack (put (anchor_of a) e m) e
             | None => Failed
             end
      end
    | SequenceStart a => Running (Listing [] (anchor_of a) :: stack) m
    | SequenceEnd => match stack with
                     | Listing items a :: r => fed r (put a (EList items) m) (EList items)
                     | _ => Panicked
                     end
    | MappingStart a => Running (Even [] (anchor_of a) :: stack) m
    | MappingEnd => match stack with
                    | Even es a :: r => fed r (put a (default_let es) m) (default_let es)
                    | _ => Panicked
                    end
    end
  | _ => s
  end.

(** read_yaml, from the events of the document.  src/import/yaml.rs:25-52,88-95. *)
Definition read_yaml (data_only : bool) (evs : list event) : outcome :=
  match fold_left (on_event data_only) evs (Running [] (fun _ => None)) with
  | Running (Value e :: _) _ => Read e
  | Running _ _ => Read (EBlock [])
  | Failed => Refused
  | Panicked => Panics
  end.

(** ** TOML *)

Inductive toml := TomlStr (s : string) | TomlInt (text : string) | TomlFloat (text : option string)
  | TomlBool (b : bool) | TomlDate (s : string) | TomlArray (l : list toml)
  | TomlTable (es : list (string * toml)).

(** to_core.  A float that is not finite has no text.  src/import/toml.rs:35-64.  The block is not a
    let, which makes no difference as there are no references in it. *)
Fixpoint toml_to_core (data_only : bool) (v : toml) : option expr :=
  match v with
  | TomlStr s => Some (Str s)
  | TomlInt t => Some (Num t)
  | TomlFloat t => option_map Num t
  | TomlBool b => Some (Bool b)
  | TomlDate s => Some (if data_only then Str s else Time s)
  | TomlArray l => option_map EList (traverse (toml_to_core data_only) l)
  | TomlTable es =>
    option_map EBlock (traverse (fun '(k, x) => option_map (pair k) (toml_to_core data_only x)) es)
  end.

(** ** EDN *)

Inductive edn := EdnNil | EdnBool (b : bool) | EdnChar (s : string) | EdnStr (s : string)
  | EdnSymbol (s : string) | EdnKeyword (s : string) | EdnInt (t : string) | EdnFloat (t : option string)
  | EdnBig (t : string) | EdnSeq (l : list edn) | EdnMap (es : list (edn * edn)) | EdnInst (s : string)
  | EdnUuid (s : string) | EdnTagged (t : string) (e : edn).

(** value_to_key.  src/import/edn.rs:32-44. *)
Definition edn_key (e : edn) : option string :=
  match e with EdnChar s | EdnStr s | EdnSymbol s | EdnKeyword s => Some s | _ => None end.

(** value_to_core; [EdnSeq] is a list, vector or set, [EdnBig] an integer or decimal of any size.
    src/import/edn.rs:46-121. *)
Fixpoint edn_to_core (data_only : bool) (e : edn) : option expr :=
  match e with
  | EdnNil => Some Null
  | EdnBool b => Some (Bool b)
  | EdnChar s | EdnStr s => Some (Str s)
  | EdnSymbol s | EdnKeyword s => Some (Sym s)
  | EdnInt t => Some (Num t)
  | EdnFloat t => option_map Num t
  | EdnBig _ => None
  | EdnSeq l => option_map EList (traverse (edn_to_core data_only) l)
  | EdnMap es =>
    option_map EBlock
      (traverse (fun '(k, x) => match edn_key k, edn_to_core data_only x with
                                | Some k, Some x => Some (k, x)
                                | _, _ => None
                                end) es)
  | EdnInst s => Some (if data_only then Str s else Time s)
  | EdnUuid s => Some (Tagged (Str s) "uuid")
  | EdnTagged t x => option_map (fun x => Tagged x t) (edn_to_core data_only x)
  end.

(** ** The formats *)

(** The parsing libraries: events of YAML, values of TOML and EDN; the lines of a text, trimmed. *)
Variable scan : string -> option (list event).
Variable parse_toml : string -> option toml.
Variable parse_edn : string -> option edn.
Variable lines : string -> list string.

Definition outcome_of (o : option expr) : outcome := match o with Some e => Read e | None => Refused end.

Definition yaml_text (data_only : bool) (s : string) : outcome :=
  match scan s with Some evs => read_yaml data_only evs | None => Refused end.

(** read_jsonl.  src/import/jsonl.rs:13-40. *)
Definition read_jsonl (s : string) : outcome :=
  (fix go (ls : list string) (acc : list expr) : outcome :=
     match ls with
     | [] => Read (EList acc)
     | l :: r => if String.eqb l "" then go r acc
                 else match yaml_text false l with
                      | Read e => go r (acc ++ [e])
                      | Refused => Refused
                      | Panics => Panics
                      end
     end) (lines s) [].

(** read_to_core_impl, for these formats.  src/import/mod.rs:46-78.  parse-as uses it with
    [data_only].  src/eval/stg/parse_string.rs:61-72. *)
Definition read_to_core (data_only : bool) (format s : string) : outcome :=
  if String.eqb format "yaml" || String.eqb format "json" then yaml_text data_only s
  else if String.eqb format "jsonl" then read_jsonl s
  else if String.eqb format "toml" then
    match parse_toml s with Some v => outcome_of (toml_to_core data_only v) | None => Refused end
  else if String.eqb format "edn" then
    match parse_edn s with Some v => outcome_of (edn_to_core data_only v) | None => Refused end
  else Refused.

End Import.
