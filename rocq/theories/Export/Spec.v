(** * What the document written for a value should be

    Stated over values and documents alone; events and accumulators do not appear. *)

From Coq Require Import String List NArith ZArith Bool Sorting.Sorted.
From Verif Require Import Export.Model.
Import ListNotations.
Open Scope string_scope.
Open Scope list_scope.

(** A value is hidden when its outermost metadata has export: :suppress or :internal. *)
Definition hidden (v : value) : Prop :=
  exists m r, metas v = m :: r /\ (export m = Some "suppress" \/ export m = Some "internal").

Definition visible (v : value) : Prop := ~ hidden v.

Definition is_function (v : value) : Prop := exists ms, v = VFun ms.

(** The tag put on a value, where the format has tags. *)
Definition shown_tag (f : format) (ms : list meta) : option string :=
  match f, ms with
  | Yaml, mkMeta _ (Some (TagStr s)) :: _ => Some s
  | _, _ => None
  end.

(** What a number, symbol, string or datetime is in each format. *)
Definition leaf (f : format) (a : atom) : scalar :=
  match a with
  | Num (Int z) => SInt z
  | Num (Float b) => SFloat b
  | Str s => SText s
  | Sym s => match f with Eu => SSym s | _ => SText s end
  | Time m => match f with Toml => STime (rfc3339 m) | Eu => STime (plainly m) | _ => SText (plainly m) end
  end.

(** Text: a symbol or a string. *)
Definition text_atom (a : atom) (s : string) : Prop := a = Sym s \/ a = Str s.

Definition text_value (v : value) (s : string) : Prop :=
  exists ms a, text_atom a s /\ (v = VAtom ms a \/ v = VNative ms (NAtom a)).

(** A double that is a number: the exponent is not all ones. *)
Definition is_number (bits : N) : Prop := ((bits / 2 ^ 52) mod 2 ^ 11 <> 2 ^ 11 - 1)%N.

Definition shown_elem (f : format) (e : elem) : tree :=
  Leaf None match e with
            | ENum b => SFloat b
            | EStr s => SText s
            | ESym s => leaf f (Sym s)
            end.

Fixpoint shown_array (a : array) : tree :=
  match a with
  | Cell b => Leaf None (SFloat b)
  | Rows l => Seq None (map shown_array l)
  end.

(** [t] is the last value given for the key [k]. *)
Definition last_for (k t : tree) (ps : list (tree * tree)) : Prop :=
  exists a b, ps = a ++ (k, t) :: b /\ ~ In k (map fst b).

(** The entries of a map written for entries [ps]: each key once, with the last value it has
    (eucalypt output keeps them all); the order is that of the block, but in JSON that of the
    keys. *)
Record arranged (f : format) (ps ps' : list (tree * tree)) : Prop := mkArranged {
  once : f <> Eu -> NoDup (map fst ps');
  last_wins : f <> Eu -> forall k t, In (k, t) ps' <-> last_for k t ps;
  in_order : f <> Json -> NoDup (map fst ps) -> ps' = ps;
  by_key : f = Json -> StronglySorted (fun a b => String.compare (text_of (fst a)) (text_of (fst b)) = Lt) ps';
  all_kept : f = Eu -> ps' = ps
}.

(** The document that shows a value. *)
Inductive shows (f : format) : value -> tree -> Prop :=
| shows_null ms : f <> Toml -> shows f (VUnit ms) (Leaf None SNull)
| shows_bool ms b : shows f (VBool ms b) (Leaf None (SBool b))
| shows_atom ms a : (f = Yaml \/ f = Toml -> forall z, a = Num (Int z) -> (z < 2 ^ 63)%Z) ->
  shows f (VAtom ms a) (Leaf (shown_tag f ms) (leaf f a))
| shows_raw ms a : (f = Yaml \/ f = Toml -> forall z, a = Num (Int z) -> (z < 2 ^ 63)%Z) ->
  shows f (VNative ms (NAtom a)) (Leaf None (leaf f a))
| shows_set ms l : shows f (VNative ms (NSet l)) (Seq None (map (shown_elem f) l))
| shows_vec ms l : shows f (VNative ms (NVec l)) (Seq None (map (shown_elem f) l))
| shows_array ms a : shows f (VNative ms (NArray a)) (shown_array a)
| shows_list ms l ts : shows_all f l ts -> shows f (VList ms l true) (Seq (shown_tag f ms) ts)
| shows_block ms items ps ps' : shows_entries f items ps -> arranged f ps ps' ->
  shows f (VBlock ms items) (Map (shown_tag f ms) ps')
(** Elements: the hidden ones are left out. *)
with shows_all (f : format) : list value -> list tree -> Prop :=
| all_nil : shows_all f [] []
| all_hidden v l ts : hidden v -> shows_all f l ts -> shows_all f (v :: l) ts
| all_shown v t l ts : visible v -> shows f v t -> shows_all f l ts -> shows_all f (v :: l) (t :: ts)
(** Entries: hidden ones and functions are left out. *)
with shows_entries (f : format) : list (item value) -> list (tree * tree) -> Prop :=
| entries_nil : shows_entries f [] []
| entries_hidden k v r ps : hidden v \/ is_function v -> shows_entries f r ps ->
  shows_entries f (Pair k v :: r) ps
| entries_pair k s v t r ps : text_atom k s -> visible v -> shows f v t -> shows_entries f r ps ->
  shows_entries f (Pair k v :: r) ((Leaf None (SText s), t) :: ps)
| entries_pair_yaml k v t r ps : f = Yaml -> (forall z, k = Num (Int z) -> (z < 2 ^ 63)%Z) ->
  visible v -> shows f v t -> shows_entries f r ps ->
  shows_entries f (Pair k v :: r) ((Leaf None (leaf f k), t) :: ps)
| entries_list k s v t r ps : f <> Yaml -> text_value k s -> visible k -> visible v -> shows f v t ->
  shows_entries f r ps ->
  shows_entries f (KvList [k; v] :: r) ((Leaf None (SText s), t) :: ps)
| entries_list_yaml k tk v t r ps : f = Yaml -> shows f k tk -> visible k -> visible v -> shows f v t ->
  shows_entries f r ps ->
  shows_entries f (KvList [k; v] :: r) ((tk, t) :: ps).

(** Values of the shapes that are data: lists end, functions occur only as entries of blocks,
    nothing opaque occurs, and an entry made from a list has two elements, both visible. *)
Inductive numeric : array -> Prop :=
| numeric_cell b : is_number b -> numeric (Cell b)
| numeric_rows l : Forall numeric l -> numeric (Rows l).

Definition proper_elem (e : elem) : Prop :=
  match e with ENum b => is_number b | _ => True end.

Inductive regular : value -> Prop :=
| regular_null ms : regular (VUnit ms)
| regular_bool ms b : regular (VBool ms b)
| regular_atom ms a : regular (VAtom ms a)
| regular_raw ms a : regular (VNative ms (NAtom a))
| regular_set ms l : Forall proper_elem l -> regular (VNative ms (NSet l))
| regular_vec ms l : Forall proper_elem l -> regular (VNative ms (NVec l))
| regular_array ms a : numeric a -> regular (VNative ms (NArray a))
| regular_list ms l : (forall v, In v l -> hidden v \/ regular v) -> regular (VList ms l true)
| regular_block ms items :
  (forall k v, In (Pair k v) items -> hidden v \/ is_function v \/ regular v) ->
  (forall l, In (KvList l) items ->
     exists k v, l = [k; v] /\ visible k /\ visible v /\ regular k /\ regular v) ->
  regular (VBlock ms items).

(** Somewhere in sight is something the format has no way to write: a null in TOML, an integer
    beyond 64 bits with sign in YAML and TOML, a key that is not text outside YAML. *)
Inductive unfit (f : format) : value -> Prop :=
| unfit_null ms : f = Toml -> unfit f (VUnit ms)
| unfit_atom ms z : f = Yaml \/ f = Toml -> (2 ^ 63 <= z)%Z -> unfit f (VAtom ms (Num (Int z)))
| unfit_raw ms z : f = Yaml \/ f = Toml -> (2 ^ 63 <= z)%Z -> unfit f (VNative ms (NAtom (Num (Int z))))
| unfit_list ms l v : In v l -> visible v -> unfit f v -> unfit f (VList ms l true)
| unfit_entry ms items k v : In (Pair k v) items -> visible v -> ~ is_function v -> unfit f v ->
  unfit f (VBlock ms items)
| unfit_key ms items k v : f <> Yaml -> In (Pair k v) items -> visible v -> ~ is_function v ->
  (forall s, ~ text_atom k s) -> unfit f (VBlock ms items)
| unfit_big_key ms items z v : f = Yaml -> In (Pair (Num (Int z)) v) items -> visible v ->
  ~ is_function v -> (2 ^ 63 <= z)%Z -> unfit f (VBlock ms items)
| unfit_list_value ms items k v : In (KvList [k; v]) items -> unfit f v -> unfit f (VBlock ms items)
| unfit_list_key ms items k v : f <> Yaml -> In (KvList [k; v]) items -> (forall s, ~ text_value k s) ->
  unfit f (VBlock ms items)
| unfit_list_key_yaml ms items k v : f = Yaml -> In (KvList [k; v]) items -> unfit f k ->
  unfit f (VBlock ms items).

(** What the language gives for a key of a block: the first entry that has it. *)
Definition entry_key (i : item value) : option string :=
  match i with
  | Pair (Sym s) _ => Some s
  | KvList (VAtom _ (Sym s) :: _) => Some s
  | _ => None
  end.

Definition entry_value (i : item value) : option value :=
  match i with
  | Pair _ v => Some v
  | KvList (_ :: v :: _) => Some v
  | _ => None
  end.

Fixpoint looked_up (k : string) (items : list (item value)) : option value :=
  match items with
  | [] => None
  | i :: r => match entry_key i with
              | Some s => if String.eqb s k then entry_value i else looked_up k r
              | None => looked_up k r
              end
  end.

(** The tag of a document. *)
Definition tree_tag (t : tree) : option string :=
  match t with Leaf g _ | Seq g _ | Map g _ => g end.
