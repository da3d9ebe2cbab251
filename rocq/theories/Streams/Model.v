(** Importing text and CSV, and streaming them: src/import/text.rs, src/import/csv.rs,
    src/import/stream.rs; and the table of streams: src/eval/stg/stream.rs.

    Simplifications: a text is a list of code points; the rows of a CSV file are what
    the crate csv gives (the same crate and settings for both routes); a stream in the
    table is the list of what its [next] has yet to give; values and errors of streams
    are type variables. *)
From Coq Require Import List Bool NArith.
Import ListNotations.

Definition text := list N.
Definition newline : N := 10%N.
Definition return_ : N := 13%N.
Definition text_eqb (a b : text) : bool := if list_eq_dec N.eq_dec a b then true else false.

(** [BufRead::read_line]: the text up to and with the next newline, and the rest. *)
Fixpoint read_line (t : text) : text * text :=
  match t with
  | [] => ([], [])
  | c :: r => if (c =? newline)%N then ([c], r) else let '(l, rest) := read_line r in (c :: l, rest)
  end.

(** Removing a character at the start, at most once and as often as it is there. *)
Definition strip_one (c : N) (t : text) : text :=
  match t with x :: r => if (x =? c)%N then r else t | [] => [] end.
Fixpoint strip_all (c : N) (t : text) : text :=
  match t with x :: r => if (x =? c)%N then strip_all c r else t | [] => [] end.
(** [str::trim_end_matches] with a character. *)
Definition trim_end_matches (c : N) (t : text) : text := rev (strip_all c (rev t)).

(** One line of [str::lines]: without its newline, and if it had one, without one
    carriage return before it. *)
Definition line_of (l : text) : text :=
  match rev l with
  | c :: r => if (c =? newline)%N then rev (strip_one return_ r) else l
  | [] => []
  end.
(** [read_text], src/import/text.rs:8-14, by [str::lines]; the fuel is the length of
    the text. *)
Fixpoint lines_fuel (fuel : nat) (t : text) : list text :=
  match fuel, t with
  | S fuel, _ :: _ => let '(l, rest) := read_line t in line_of l :: lines_fuel fuel rest
  | _, _ => []
  end.
Definition read_text (t : text) : list text := lines_fuel (List.length t) t.

(** [TextProducer::next], src/import/stream.rs:143-155. *)
Definition text_next (t : text) : option (text * text) :=
  match t with
  | [] => None
  | _ => let '(l, rest) := read_line t in
         Some (trim_end_matches return_ (trim_end_matches newline l), rest)
  end.
(** All lines of a text stream: [producer_drain], src/eval/stg/stream.rs:134-157, on
    it. *)
Fixpoint stream_fuel (fuel : nat) (t : text) : list text :=
  match fuel with
  | S fuel => match text_next t with
              | Some (l, rest) => l :: stream_fuel fuel rest
              | None => []
              end
  | O => []
  end.
Definition stream_text (t : text) : list text := stream_fuel (List.length t) t.

(** ** CSV *)

(** [IndexMap::insert]: a new key goes to the end, an old one keeps its place. *)
Fixpoint insert_indexed (k v : text) (l : list (text * text)) : list (text * text) :=
  match l with
  | [] => [(k, v)]
  | (k', v') :: l => if text_eqb k' k then (k', v) :: l else (k', v') :: insert_indexed k v l
  end.
(** Order of texts, as of [String]. *)
Fixpoint text_ltb (a b : text) : bool :=
  match a, b with
  | _, [] => false
  | [], _ :: _ => true
  | x :: a, y :: b => (x <? y)%N || ((x =? y)%N && text_ltb a b)
  end.
(** [BTreeMap::insert]: the [Map] of serde_json, which is built without the feature
    [preserve_order] (Cargo.lock:1991-2001). *)
Fixpoint insert_sorted (k v : text) (l : list (text * text)) : list (text * text) :=
  match l with
  | [] => [(k, v)]
  | (k', v') :: r =>
      if text_eqb k' k then (k', v) :: r
      else if text_ltb k k' then (k, v) :: l
      else (k', v') :: insert_sorted k v r
  end.
(** [convert_string_record], src/import/csv.rs:35-42, and [acore::block]. *)
Definition import_row (headers record : list text) : list (text * text) :=
  fold_left (fun acc kv => insert_indexed (fst kv) (snd kv) acc) (combine headers record) [].
(** [CsvProducer::next], src/import/stream.rs:99-107, and [json_object_to_stg],
    src/eval/stg/json_to_stg.rs:45-69, which keeps the order. *)
Definition stream_row (headers record : list text) : list (text * text) :=
  fold_left (fun acc kv => insert_sorted (fst kv) (snd kv) acc) (combine headers record) [].

(** ** The table of streams *)
Section Table.
  Variables (V E : Type).

  (** What [next] gives, src/eval/stg/stream.rs:24-30. *)
  Inductive item := Value (v : V) | Error (e : E).
  Record producer := mkProducer { pure : bool; left : list item }.
  (** [ProducerTable], src/eval/stg/stream.rs:52-64, and [IN_PARALLEL_WORKER], line 86. *)
  Record table := mkTable { handles : list (nat * producer); next_id : nat; worker : bool }.
  Definition empty : table := mkTable [] 1 false.

  Fixpoint get (l : list (nat * producer)) (h : nat) : option producer :=
    match l with
    | [] => None
    | (k, p) :: l => if Nat.eqb k h then Some p else get l h
    end.
  Fixpoint put (l : list (nat * producer)) (h : nat) (p : producer) : list (nat * producer) :=
    match l with
    | [] => [(h, p)]
    | (k, q) :: l => if Nat.eqb k h then (k, p) :: l else (k, q) :: put l h p
    end.

  Inductive op := Register (p : producer) | Next (h : nat) | Drain (h : nat) | EnterWorker.
  (** What is given back: a handle, [next]'s answer, or all that was left. *)
  Inductive answer := Handle (h : nat) | Nothing | One (v : V) | All (vs : list V) | Failure (e : E) | Refused | Done.

  (** The loop of [producer_drain], src/eval/stg/stream.rs:144-150: the answer and what
      is left. *)
  Fixpoint drain (acc : list V) (l : list item) : answer * list item :=
    match l with
    | [] => (All acc, [])
    | Value v :: l => drain (acc ++ [v]) l
    | Error e :: l => (Failure e, l)
    end.

  (** [register_producer], [producer_next], [producer_drain] and
      [enter_parallel_worker], src/eval/stg/stream.rs:67-78, 90-113, 134-179. *)
  Definition step (t : table) (o : op) : table * answer :=
    match o with
    | Register p => (mkTable (put (handles t) (next_id t) p) (S (next_id t)) (worker t), Handle (next_id t))
    | Next h =>
        match get (handles t) h with
        | Some p =>
            if worker t && negb (pure p) then (t, Refused)
            else match left p with
                 | [] => (t, Nothing)
                 | i :: rest =>
                     (mkTable (put (handles t) h (mkProducer (pure p) rest)) (next_id t) (worker t),
                      match i with Value v => One v | Error e => Failure e end)
                 end
        | None => (t, Nothing)
        end
    | Drain h =>
        match get (handles t) h with
        | Some p =>
            if worker t && negb (pure p) then (t, Refused)
            else let '(a, rest) := drain [] (left p) in
                 (mkTable (put (handles t) h (mkProducer (pure p) rest)) (next_id t) (worker t), a)
        | None => (t, All [])
        end
    | EnterWorker => (mkTable (handles t) (next_id t) true, Done)
    end.
  Fixpoint run (t : table) (os : list op) : list answer :=
    match os with
    | [] => []
    | o :: os => let '(t', a) := step t o in a :: run t' os
    end.
End Table.
Arguments Value {V E}. Arguments Error {V E}. Arguments mkProducer {V E}. Arguments pure {V E}. Arguments left {V E}.
Arguments mkTable {V E}. Arguments handles {V E}. Arguments next_id {V E}. Arguments worker {V E}. Arguments empty {V E}.
Arguments get {V E}. Arguments put {V E}. Arguments Register {V E}. Arguments Next {V E}. Arguments Drain {V E}.
Arguments EnterWorker {V E}. Arguments Handle {V E}. Arguments Nothing {V E}. Arguments One {V E}. Arguments All {V E}.
Arguments Failure {V E}. Arguments Refused {V E}. Arguments Done {V E}. Arguments drain {V E}. Arguments step {V E}. Arguments run {V E}.
