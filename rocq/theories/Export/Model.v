(** * Writing a value out

    Models src/eval/stg/render.rs (RENDER, RENDER_DOC, RENDER_ITEMS, RENDER_BLOCK_ITEMS,
    RENDER_KV, SUPPRESSES, TAG), src/eval/stg/emit.rs (the EMIT intrinsics), src/export/table.rs
    (TableAccumulator), the emitters of src/export/{json,yaml,toml,eu}.rs up to the document
    handed to the serialiser, and the stream brackets of src/driver/eval.rs:88-99,571.

    Simplifications: values are already evaluated; metadata is given as the two entries that
    matter; the serialisers themselves (serde_json, yaml-rust, toml, pretty), the emitters for
    EDN, text and HTML, and failures of the output stream are left out. *)

From Coq Require Import String List NArith ZArith Bool.
Import ListNotations.
Open Scope string_scope.
Open Scope list_scope.

(** ** Values *)

(** serde_json::Number: a u64 or negative i64, or an f64, the last as its 64 bits. *)
Inductive number := Int (z : Z) | Float (bits : N).

(** A datetime, as the two texts chrono makes of it (Display and to_rfc3339). *)
Record moment := mkMoment { plainly : string; rfc3339 : string }.

(** What BoxedNumber, BoxedSymbol, BoxedString, BoxedTypeData and BoxedZdt hold.
    src/eval/stg/render.rs:69-127.  Type data holds a string. *)
Inductive atom := Num (n : number) | Sym (s : string) | Str (s : string) | Time (t : moment).

(** Primitive.  src/eval/primitive.rs:6-15. *)
Inductive prim := Null | Bool (b : bool) | Atom (a : atom).

(** An element of a set or vec.  src/eval/stg/emit.rs:86-100. *)
Inductive elem := ENum (bits : N) | EStr (s : string) | ESym (s : string).

(** An array, as its rows: a scalar at rank 0.  src/eval/stg/emit.rs:128-177. *)
Inductive array := Cell (bits : N) | Rows (l : list array).

(** Native.  src/eval/stg/emit.rs:324-371.  A set is given in the order of sorted_elements;
    index, random generator and producer are [Opaque]. *)
Inductive native := NAtom (a : atom) | NSet (l : list elem) | NVec (l : list elem)
  | NArray (a : array) | Opaque.

(** A tag found in metadata: a string, or something else. *)
Inductive tagged := TagStr (s : string) | TagOther.

(** The metadata that RENDER looks at: the symbol under export and the value under tag.
    src/eval/stg/render.rs:326-388.  Metadata that is not a block has neither. *)
Record meta := mkMeta { export : option string; tag : option tagged }.

(** BlockPair or BlockKvList.  src/eval/stg/tags.rs; src/eval/stg/block.rs:95-125. *)
Inductive item (V : Type) := Pair (k : atom) (v : V) | KvList (l : list V).
Arguments Pair {V}. Arguments KvList {V}.

(** An evaluated value under the layers of metadata put on it, outermost first.  [proper] tells
    whether the list ends in nil. *)
Inductive value :=
| VUnit (ms : list meta)
| VBool (ms : list meta) (b : bool)
| VAtom (ms : list meta) (a : atom)
| VNative (ms : list meta) (n : native)
| VList (ms : list meta) (l : list value) (proper : bool)
| VBlock (ms : list meta) (items : list (item value))
| VFun (ms : list meta)
| VOther (ms : list meta).

Definition metas (v : value) : list meta :=
  match v with
  | VUnit ms | VBool ms _ | VAtom ms _ | VNative ms _ | VList ms _ _ | VBlock ms _
  | VFun ms | VOther ms => ms
  end.

(** ** Rendering to events *)

(** Event.  src/eval/emit.rs:27-50.  OutputAlias is never emitted. *)
Inductive event :=
| StreamStart | StreamEnd | DocStart | DocEnd
| Scalar (tag : option string) (p : prim)
| SeqStart (tag : option string) | SeqEnd
| BlockStart (tag : option string) | BlockEnd.

(** Why rendering stops. *)
Inductive fault := NotScalar | Improper | Unrepresentable | Unrenderable.

(** One step of rendering: an event offered to the emitter, or a failure. *)
Inductive action := Emit (e : event) | Fail (f : fault).

(** SUPPRESSES on the metadata that demeta finds.  src/eval/stg/render.rs:37-47,326-362. *)
Definition suppressed (ms : list meta) : bool :=
  match ms with
  | [] => false
  | m :: _ => match export m with
              | None => false
              | Some s => String.eqb s "suppress" || String.eqb s "internal"
              end
  end.

(** TAG, and the case on BoxedString that follows.  src/eval/stg/render.rs:49-60,364-388. *)
Definition tag_of (ms : list meta) : option string :=
  match ms with
  | [] => None
  | m :: _ => match tag m with Some (TagStr s) => Some s | _ => None end
  end.

(** serde_json::Number::from_f64: none for infinities and NaN. *)
Definition finite (bits : N) : bool := negb (N.land (N.shiftr bits 52) 2047 =? 2047)%N.

Definition number_from_f64 (bits : N) : number :=
  if finite bits then Float bits else Int 0.

(** set_primitive_to_render_primitive.  src/eval/stg/emit.rs:86-100. *)
Definition elem_prim (e : elem) : prim :=
  match e with
  | ENum bits => Atom (Num (number_from_f64 bits))
  | EStr s => Atom (Str s)
  | ESym s => Atom (Sym s)
  end.

(** emit_ndarray_data.  src/eval/stg/emit.rs:128-177.  Slices are the rows. *)
Fixpoint emit_array (a : array) : list action :=
  match a with
  | Cell bits => [Emit (Scalar None (Atom (Num (number_from_f64 bits))))]
  | Rows l => Emit (SeqStart None) :: flat_map emit_array l ++ [Emit SeqEnd]
  end.

(** emit_set and emit_vec.  src/eval/stg/emit.rs:102-122,190-209. *)
Definition emit_elems (l : list elem) : list action :=
  Emit (SeqStart None) :: map (fun e => Emit (Scalar None (elem_prim e))) l ++ [Emit SeqEnd].

(** EMITx.  src/eval/stg/emit.rs:316-374. *)
Definition emit_native (n : native) : list action :=
  match n with
  | NAtom a => [Emit (Scalar None (Atom a))]
  | NSet l | NVec l => emit_elems l
  | NArray a => emit_array a
  | Opaque => [Fail NotScalar]
  end.

(** value_renderable: SATURATED and not suppressed.  src/eval/stg/render.rs:404-422. *)
Definition renderable (v : value) : bool :=
  match v with VFun _ => false | _ => negb (suppressed (metas v)) end.

(** RENDER, RENDER_ITEMS, RENDER_BLOCK_ITEMS and RENDER_KV.
    src/eval/stg/render.rs:27-193,218-292,390-458. *)
Fixpoint render (v : value) : list action :=
  if suppressed (metas v) then [] else
  match v with
  | VUnit _ => [Emit (Scalar None Null)]
  | VBool _ b => [Emit (Scalar None (Bool b))]
  | VAtom ms a => [Emit (Scalar (tag_of ms) (Atom a))]
  | VNative _ n => emit_native n
  | VList ms l proper =>
    Emit (SeqStart (tag_of ms)) :: flat_map render l ++
      (if proper then [Emit SeqEnd] else [Fail Improper])
  | VBlock ms items =>
    Emit (BlockStart (tag_of ms)) ::
      flat_map (fun i => match i with
                         | Pair k x => if renderable x then Emit (Scalar None (Atom k)) :: render x else []
                         | KvList l => flat_map render l
                         end) items ++
      [Emit BlockEnd]
  | VFun _ | VOther _ => [Fail NotScalar]
  end.

(** RENDER_DOC.  src/eval/stg/render.rs:197-216. *)
Definition render_doc (v : value) : list action :=
  Emit DocStart :: render v ++ [Emit DocEnd].

(** ** Documents *)

Inductive format := Json | Yaml | Toml | Eu.

(** What the serialisers are given: serde_json::Value, yaml_rust::Yaml, toml::Value, EuValue.
    [SDigits] is the unreachable fallback for integers out of range, [STime] a toml datetime or
    a eucalypt one. *)
Inductive scalar := SNull | SBool (b : bool) | SInt (z : Z) | SFloat (bits : N)
  | SText (s : string) | SSym (s : string) | SDigits (z : Z) | STime (s : string).

Inductive tree :=
| Leaf (tag : option string) (s : scalar)
| Seq (tag : option string) (l : list tree)
| Map (tag : option string) (l : list (tree * tree)).

(** RenderMetadata into Option<Tag>; the others drop it.  src/export/yaml.rs:35-45. *)
Definition keep_tag (f : format) (t : option string) : option string :=
  match f with Yaml => t | _ => None end.

(** yaml_integer_overflow, toml_integer_overflow.  src/export/yaml.rs:21-33;
    src/export/toml.rs:21-33. *)
Definition overflows (n : number) : bool :=
  match n with Int z => (2 ^ 63 <=? z)%Z | Float _ => false end.

(** The Num case of from_primitive.  src/export/json.rs:29; src/export/yaml.rs:59-77;
    src/export/toml.rs:84-100; src/export/eu.rs:48. *)
Definition from_number (f : format) (n : number) : scalar :=
  match f, n with
  | (Yaml | Toml), Int z => if overflows n then SDigits z else SInt z
  | _, Int z => SInt z
  | _, Float bits => SFloat bits
  end.

(** from_primitive.  src/export/json.rs:21-33; src/export/yaml.rs:53-82;
    src/export/toml.rs:73-113; src/export/eu.rs:42-53. *)
Definition from_primitive (f : format) (t : option string) (p : prim) : tree :=
  Leaf (keep_tag f t)
    match p with
    | Null => match f with Toml => SText "" | _ => SNull end
    | Bool b => SBool b
    | Atom (Sym s) => match f with Eu => SSym s | _ => SText s end
    | Atom (Str s) => SText s
    | Atom (Num n) => from_number f n
    | Atom (Time m) => match f with
                       | Json | Yaml => SText (plainly m)
                       | Toml => STime (rfc3339 m)
                       | Eu => STime (plainly m)
                       end
    end.

(** from_vec.  src/export/json.rs:35-39; yaml.rs:84-88; toml.rs:115-119; eu.rs:55-59. *)
Definition from_vec (f : format) (t : option string) (l : list tree) : tree := Seq (keep_tag f t) l.

(** as_key.  src/export/json.rs:10-19; yaml.rs:47-51; toml.rs:60-69; eu.rs:29-38.  The fallback for
    keys that are not text is left as the key itself. *)
Definition as_key (f : format) (t : tree) : tree :=
  match f, t with
  | Yaml, _ => t
  | _, Leaf _ (SText s) => Leaf None (SText s)
  | Eu, Leaf _ (SSym s) => Leaf None (SText s)
  | _, _ => t
  end.

Definition scalar_eqb (a b : scalar) : bool :=
  match a, b with
  | SNull, SNull => true
  | SBool x, SBool y => Bool.eqb x y
  | SInt x, SInt y | SDigits x, SDigits y => (x =? y)%Z
  | SFloat x, SFloat y => (x =? y)%N
  | SText x, SText y | SSym x, SSym y | STime x, STime y => String.eqb x y
  | _, _ => false
  end.

Definition tag_eqb (a b : option string) : bool :=
  match a, b with
  | None, None => true
  | Some x, Some y => String.eqb x y
  | _, _ => false
  end.

(** Equality of keys, as the maps of the serialisers see it. *)
Fixpoint tree_eqb (a b : tree) : bool :=
  match a, b with
  | Leaf t s, Leaf t' s' => tag_eqb t t' && scalar_eqb s s'
  | Seq t l, Seq t' l' =>
    tag_eqb t t' &&
    (fix go l l' := match l, l' with
                    | [], [] => true
                    | x :: r, y :: r' => tree_eqb x y && go r r'
                    | _, _ => false
                    end) l l'
  | Map t l, Map t' l' =>
    tag_eqb t t' &&
    (fix go l l' := match l, l' with
                    | [], [] => true
                    | (k, x) :: r, (k', y) :: r' => tree_eqb k k' && tree_eqb x y && go r r'
                    | _, _ => false
                    end) l l'
  | _, _ => false
  end.

Definition text_of (t : tree) : string :=
  match t with Leaf _ (SText s) => s | _ => "" end.

(** Insertion into serde_json's map, a BTreeMap: keys ascending, the value replaced. *)
Fixpoint insert_sorted (k x : tree) (m : list (tree * tree)) : list (tree * tree) :=
  match m with
  | [] => [(k, x)]
  | (k', x') :: r =>
    if tree_eqb k k' then (k', x) :: r
    else if String.ltb (text_of k) (text_of k') then (k, x) :: m
    else (k', x') :: insert_sorted k x r
  end.

(** Insertion into toml's map, an IndexMap (feature preserve_order): the value replaced where
    the key is. *)
Fixpoint insert_in_place (k x : tree) (m : list (tree * tree)) : list (tree * tree) :=
  match m with
  | [] => [(k, x)]
  | (k', x') :: r => if tree_eqb k k' then (k', x) :: r else (k', x') :: insert_in_place k x r
  end.

(** Insertion into yaml-rust's map, a LinkedHashMap: the entry moves to the end. *)
Definition insert_at_end (k x : tree) (m : list (tree * tree)) : list (tree * tree) :=
  filter (fun e => negb (tree_eqb k (fst e))) m ++ [(k, x)].

(** from_pairs.  src/export/json.rs:41-45; yaml.rs:90-97; toml.rs:121-125; eu.rs:61-65. *)
Definition from_pairs (f : format) (t : option string) (ps : list (tree * tree)) : tree :=
  Map (keep_tag f t)
    match f with
    | Json => fold_left (fun m e => insert_sorted (fst e) (snd e) m) ps []
    | Yaml => fold_left (fun m e => insert_at_end (fst e) (snd e) m) ps []
    | Toml => fold_left (fun m e => insert_in_place (fst e) (snd e) m) ps []
    | Eu => ps
    end.

(** ** The accumulator *)

(** Expectation.  src/export/table.rs:30-46. *)
Inductive expectation :=
| Value (t : tree)
| ListAcc (tag : option string) (l : list tree)
| EvenBlock (tag : option string) (ps : list (tree * tree))
| OddBlock (tag : option string) (ps : list (tree * tree)) (k : tree).

(** Expectation::feed.  src/export/table.rs:54-74. *)
Definition feed_one (f : format) (x : expectation) (v : tree) : expectation :=
  match x with
  | Value _ => Value v
  | ListAcc t l => ListAcc t (l ++ [v])
  | EvenBlock t ps => OddBlock t ps (as_key f v)
  | OddBlock t ps k => EvenBlock t (ps ++ [(k, v)])
  end.

(** TableAccumulator, the top of the stack first.  src/export/table.rs:76-99. *)
Record accum := mkAccum { stack : list expectation; result : option tree; document_open : bool }.

Definition new_accum : accum := mkAccum [] None false.

(** TableAccumulator::feed.  src/export/table.rs:128-137. *)
Definition feed (f : format) (s : list expectation) (v : tree) : list expectation :=
  match s with
  | top :: rest => feed_one f top v :: rest
  | [] => [Value v]
  end.

(** TableAccumulator::consume.  src/export/table.rs:139-185. *)
Definition consume (f : format) (a : accum) (e : event) : accum :=
  match e with
  | Scalar t p => mkAccum (feed f (stack a) (from_primitive f t p)) (result a) (document_open a)
  | SeqStart t => mkAccum (ListAcc t [] :: stack a) (result a) (document_open a)
  | SeqEnd =>
    mkAccum match stack a with
            | ListAcc t l :: rest => feed f rest (from_vec f t l)
            | _ :: rest => rest
            | [] => []
            end (result a) (document_open a)
  | BlockStart t => mkAccum (EvenBlock t [] :: stack a) (result a) (document_open a)
  | BlockEnd =>
    mkAccum match stack a with
            | EvenBlock t ps :: rest => feed f rest (from_pairs f t ps)
            | _ :: rest => rest
            | [] => []
            end (result a) (document_open a)
  | DocStart => mkAccum (Value (from_pairs f None []) :: stack a) (result a) true
  | DocEnd => mkAccum (stack a) (result a) false
  | StreamStart => a
  | StreamEnd =>
    if document_open a then a else
    match stack a with
    | Value t :: rest => mkAccum rest (Some t) (document_open a)
    | _ :: rest => mkAccum rest (result a) (document_open a)
    | [] => a
    end
  end.

(** expecting_key.  src/export/table.rs:194-205. *)
Definition expecting_key (a : accum) : bool :=
  match stack a with EvenBlock _ _ :: _ => true | _ => false end.

(** unrepresentable_key.  src/export/mod.rs:49-78. *)
Definition unrepresentable_key (expecting : bool) (e : event) : bool :=
  if negb expecting then false else
  match e with
  | Scalar _ (Atom (Str _)) | Scalar _ (Atom (Sym _)) => false
  | Scalar _ _ | SeqStart _ | BlockStart _ => true
  | _ => false
  end.

(** unacceptable.  src/export/json.rs:66-68; toml.rs:147-149; eu.rs:151-155.  YAML keeps the default,
    src/eval/emit.rs:127-129. *)
Definition unacceptable (f : format) (a : accum) (e : event) : bool :=
  match f with Yaml => false | _ => unrepresentable_key (expecting_key a) e end.

(** unrepresentable.  src/export/yaml.rs:120-125; toml.rs:44-58,151-153.  JSON and eu keep the
    default. *)
Definition unrepresentable (f : format) (p : prim) : bool :=
  match f, p with
  | Yaml, Atom (Num n) => overflows n
  | Toml, Atom (Num n) => overflows n
  | Toml, Null => true
  | _, _ => false
  end.

(** Emitter::emit: consume, and write the result if there is one.  src/export/json.rs:70-79;
    yaml.rs:127-137; toml.rs:155-161; eu.rs:157-163. *)
Definition emit (f : format) (a : accum) (e : event) : accum * list tree :=
  let a' := consume f a e in
  (a', match result a' with Some t => [t] | None => [] end).

(** emit_event and emit_scalar.  src/eval/stg/emit.rs:31-71. *)
Definition offer (f : format) (a : accum) (e : event) : fault + accum * list tree :=
  match e with
  | Scalar _ p =>
    if unrepresentable f p then inl Unrepresentable
    else if unacceptable f a e then inl Unrenderable else inr (emit f a e)
  | _ => if unacceptable f a e then inl Unrenderable else inr (emit f a e)
  end.

(** Rendering, up to its end or the first failure: the state, what has been written, the
    failure. *)
Fixpoint run (f : format) (a : accum) (acts : list action) : accum * list tree * option fault :=
  match acts with
  | [] => (a, [], None)
  | Fail x :: _ => (a, [], Some x)
  | Emit e :: rest =>
    match offer f a e with
    | inl x => (a, [], Some x)
    | inr (a', w) =>
      let '(a'', w', o) := run f a' rest in (a'', w ++ w', o)
    end
  end.

(** The stream is started, the value rendered, and the stream ended even after a failure.
    src/driver/eval.rs:88-99,571-640.  Gives all that is written and the failure, if any. *)
Definition write_out (f : format) (v : value) : list tree * option fault :=
  let '(a0, w0) := emit f new_accum StreamStart in
  let '(a1, w1, o) := run f a0 (render_doc v) in
  let '(_, w2) := emit f a1 StreamEnd in
  (w0 ++ w1 ++ w2, o).
