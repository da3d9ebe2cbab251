(** * Running IO programs

    Models src/driver/bytecode_io_run.rs (the loop that interprets IO programs), src/driver/io_common.rs
    (from the fields of an action to a process and its result), the accessors of
    src/eval/bytecode/machine.rs they use, and the io namespace of lib/prelude.eu.

    Simplifications: what the machine computes is given by its value: a program is what running it
    yields, a continuation is a function.  Source locations and tracing are left out.  Heap limits and
    interrupts are left out.  Unix only.  Texts are strings of bytes, and the lossy decoding of output
    is part of what the operating system reports. *)
From Coq Require Import String List NArith ZArith Bool Ascii.
Import ListNotations.
Open Scope string_scope.
Open Scope list_scope.

(** ** Data *)

(** Values.  Numbers, symbols and times come with the text they are rendered as.  [DError] is a value
    whose evaluation fails.  Lists are evaluated in part: [Later s] is a tail that has not been
    evaluated yet and whose value is [s]. *)
Inductive data :=
| DNull | DBool (b : bool) | DStr (s : string) | DSym (s : string) | DNum (s : string) | DZdt (s : string)
| DList (s : spine) | DBlock (entries : list (string * data)) | DFunction | DError
with spine := Nil | Cons (d : data) (s : spine) | Later (s : spine).

(** evaluate_to_whnf_for_io, with peel_box_inner.  src/driver/bytecode_io_run.rs:124-135;
    src/eval/bytecode/machine.rs:3654-3668. *)
Fixpoint evaluate_spine (s : spine) : spine := match s with Later s => evaluate_spine s | _ => s end.
Definition force (d : data) : option data :=
  match d with DError => None | DList s => Some (DList (evaluate_spine s)) | _ => Some d end.

(** whnf_scalar_string.  src/eval/bytecode/machine.rs:4025-4079,4287-4299. *)
Definition scalar_string (d : data) : option string :=
  match d with
  | DNull => Some ""
  | DBool b => Some (if b then "true" else "false")
  | DStr s | DSym s | DNum s | DZdt s => Some s
  | _ => None
  end.

(** list_element_values: the elements as far as the list is evaluated.
    src/eval/bytecode/machine.rs:4096-4140. *)
Fixpoint list_element_values (s : spine) : list data :=
  match s with Cons d s => d :: list_element_values s | Nil | Later _ => [] end.

(** ** Programs *)

(** What running an IO program yields: one of the constructors IoReturn, IoBind, IoAction and IoFail
    (src/eval/stg/io.rs:21-93), an error of evaluation, or a value that is no IO program.  An action
    has the tag of its block, if it can be seen, and its fields. *)
CoInductive prog :=
| Return (v : data)
| Bind (action : prog) (cont : data -> prog)
| Action (tag : option string) (fields : list (string * data))
| Failing (e : data)
| Broken
| NotIo.

(** Errors.  src/driver/io_common.rs:25-38. *)
Inductive error := EFail (msg : string) | ENotAllowed | ETimeout (secs : N) | ECommand (msg : string) | EMachine.
Inductive result (A : Type) := Ok (a : A) | Err (e : error).
Arguments Ok {A}. Arguments Err {A}.

(** ** From fields to a process *)

(** str::parse::<u64>. *)
Fixpoint digits_value (acc : N) (s : string) : option N :=
  match s with
  | "" => Some acc
  | String c r =>
    let n := N_of_ascii c in
    if ((48 <=? n) && (n <=? 57))%N then
      let acc := (acc * 10 + (n - 48))%N in
      if (acc <? 18446744073709551616)%N then digits_value acc r else None
    else None
  end.
Definition parse_u64 (s : string) : option N :=
  match (match s with String "+" r => r | _ => s end) with
  | "" => None
  | t => digits_value 0 t
  end.

(** ActionSpec.  src/driver/io_common.rs:60-74. *)
Inductive action_spec :=
| Shell (cmd : string) (stdin : option string) (timeout : N)
| Exec (cmd : string) (args : list string) (stdin : option string) (timeout : N).

(** A HashMap filled in order: the last value for a key counts. *)
Fixpoint get {A} (k : string) (fields : list (string * A)) : option A :=
  match fields with
  | [] => None
  | (k', v) :: r => match get k r with
                    | Some w => Some w
                    | None => if String.eqb k k' then Some v else None
                    end
  end.
Definition get2 (k : string) (fields : list (string * option string)) : option string :=
  match get k fields with Some (Some s) => Some s | _ => None end.
Definition has (k : string) (fields : list (string * option string)) : bool :=
  match get k fields with Some _ => true | None => false end.

Definition nul : ascii := "000"%char.

(** str::split on NUL. *)
Fixpoint split (s : string) : list string :=
  match s with
  | "" => [""]
  | String c r => if Ascii.eqb c nul then "" :: split r
                  else match split r with x :: xs => String c x :: xs | [] => [] end
  end.
(** split_nul_args.  src/driver/io_common.rs:196-203. *)
Definition split_nul_args (s : string) : list string := if String.eqb s "" then [] else split s.

(** infer_action_tag.  src/driver/io_common.rs:160-172. *)
Definition infer_action_tag (fields : list (string * option string)) : option string :=
  if has "args" fields then Some "io-exec"
  else if has "cmd" fields then Some "io-shell"
  else if has "message" fields then Some "io-fail"
  else None.

(** action_spec_from_fields.  src/driver/io_common.rs:101-155. *)
Definition action_spec_from_fields (tag : option string) (fields : list (string * option string))
  : result action_spec :=
  let timeout := match get2 "timeout" fields with
                 | Some s => match parse_u64 s with Some n => n | None => 30%N end
                 | None => 30%N
                 end in
  let stdin := match get2 "stdin" fields with
               | Some s => if String.eqb s "" || String.eqb s "null" then None else Some s
               | None => None
               end in
  match (match tag with Some t => Some t | None => infer_action_tag fields end) with
  | Some t =>
    if String.eqb t "io-exec" then
      match get2 "cmd" fields with
      | Some cmd => Ok (Exec cmd (match get2 "args" fields with Some s => split_nul_args s | None => [] end) stdin timeout)
      | None => Err EMachine
      end
    else if String.eqb t "io-shell" then
      match get2 "cmd" fields with Some cmd => Ok (Shell cmd stdin timeout) | None => Err EMachine end
    else if String.eqb t "io-fail" then
      Err (EFail (match get2 "message" fields with Some m => m | None => "io.fail" end))
    else Err EMachine
  | None => Err EMachine
  end.

(** ** Processes *)

(** A process as it is started: program, arguments, input (none for /dev/null), and how long it is
    waited for. *)
Record launch := Launch { program : string; arguments : list string; input : option string; limit : N }.

Inductive cause := NotFound | Denied | OtherCause.
(** How it ends within the time, if it does: output, errors and exit code (none if a signal ended
    it), or an error in waiting for it. *)
Inductive ending := Ended (out err : string) (code : option Z) | WaitError (msg : string) | TooLong.
(** What the operating system does: it does not start the process, or starts it, fails to hand it its
    input or not, and lets it end. *)
Inductive reply := NotStarted (c : cause) (msg : string) | Started (input_error : option string) (e : ending).

(** The processes started so far, and those of them that were left running. *)
Record world := World { log : list launch; left : list launch }.

Record output := Output { stdout : string; stderr : string; exit_code : Z }.

Section Driver.

(** The operating system, given the processes started so far, the last being the one asked about. *)
Variable os : list launch -> reply.

(** run_command: the child is neither killed nor waited for once an error is returned.
    src/driver/io_common.rs:243-308. *)
Definition run_command (w : world) (l : launch) : result output * world :=
  let log' := log w ++ [l] in
  let done := World log' (left w) in
  let abandoned := World log' (left w ++ [l]) in
  match os log' with
  | NotStarted c msg =>
    (Ok (Output "" msg (match c with NotFound => 127 | Denied => 126 | OtherCause => -1 end)%Z), done)
  | Started input_error e =>
    match input l, input_error with
    | Some _, Some msg => (Err (ECommand msg), abandoned)
    | _, _ =>
      match e with
      | Ended o x c => (Ok (Output o x (match c with Some c => c | None => (-1)%Z end)), done)
      | WaitError msg => (Err (ECommand msg), done)
      | TooLong => (Err (ETimeout (limit l)), abandoned)
      end
    end
  end.

(** execute_shell, execute_exec and run_spec.  src/driver/io_common.rs:211-240,315-348. *)
Definition run_spec (w : world) (s : action_spec) : result output * world :=
  match s with
  | Shell cmd stdin t => run_command w (Launch "sh" ["-c"; cmd] stdin t)
  | Exec cmd args stdin t => run_command w (Launch cmd args stdin t)
  end.

(** build_io_result_block.  src/eval/bytecode/machine.rs:3959-4020. *)
Variable show : Z -> string.
Definition build_io_result_block (o : output) : data :=
  DBlock [("stdout", DStr (stdout o)); ("stderr", DStr (stderr o)); ("exit-code", DNum (show (exit_code o)))].

(** ** The loop *)

(** What is stashed for the collector. *)
Inductive entry := EWorld | ECont (k : data -> prog) | EData (d : data) | EProg (p : prog).
Definition stash := list entry.

(** The elements of a list field: stashed, then popped and forced one by one.
    src/driver/bytecode_io_run.rs:90-113. *)
Fixpoint render_elements (n : nat) (s : stash) (parts : list string) : result (list string) * stash :=
  match n with
  | O => (Ok parts, s)
  | S n =>
    match s with
    | EData d :: s =>
      match force d with
      | Some d => render_elements n s (match scalar_string d with Some t => parts ++ [t] | None => parts end)
      | None => (Err EMachine, s)
      end
    | _ => (Err EMachine, s)
    end
  end.

Fixpoint join (parts : list string) : string :=
  match parts with
  | [] => ""
  | [x] => x
  | x :: r => (x ++ String nul (join r))%string
  end.

(** One field.  src/driver/bytecode_io_run.rs:83-119. *)
Definition render_field (d : data) (s : stash) : result (option string) * stash :=
  match force d with
  | None => (Err EMachine, s)
  | Some (DList l) =>
    let elements := list_element_values l in
    match render_elements (List.length elements) (map EData elements ++ s) [] with
    | (Ok [], s) => (Ok None, s)
    | (Ok parts, s) => (Ok (Some (join parts)), s)
    | (Err e, s) => (Err e, s)
    end
  | Some d => (Ok (scalar_string d), s)
  end.

Fixpoint render_fields (keys : list string) (s : stash) (acc : list (string * option string))
  : result (list (string * option string)) * stash :=
  match keys with
  | [] => (Ok acc, s)
  | k :: keys =>
    match s with
    | EData d :: s =>
      match render_field d s with
      | (Ok v, s) => render_fields keys s (acc ++ [(k, v)])
      | (Err e, s) => (Err e, s)
      end
    | _ => (Err EMachine, s)
    end
  end.

(** evaluate_spec_block.  src/driver/bytecode_io_run.rs:44-122. *)
Definition evaluate_spec_block (tag : option string) (fields : list (string * data)) (s : stash)
  : result action_spec * stash :=
  match render_fields (map fst fields) (map (fun f => EData (snd f)) fields ++ s) [] with
  | (Ok fs, s) => (action_spec_from_fields tag fs, s)
  | (Err e, s) => (Err e, s)
  end.

Variable allow_io : bool.

(** io_run, with a bound on the number of turns and of nested calls; none if it is exceeded.  A
    program that does not run ([Broken]) or yields nothing ([NotIo]) is found to be so when it is
    run, before the next turn.  src/driver/bytecode_io_run.rs:143-295. *)
Fixpoint io_run (n : nat) (w : world) (s : stash) (p : prog) : option (result data * world * stash) :=
  match n with
  | O => None
  | S n =>
    match p with
    | Return v => Some (Ok v, w, s)
    | Failing e =>
      Some (Err (EFail (match force e with
                        | Some d => match scalar_string d with Some m => m | None => "IO monad failure" end
                        | None => "IO monad failure"
                        end)), w, s)
    | Action tag fields =>
      if negb allow_io then Some (Err ENotAllowed, w, s) else
      match evaluate_spec_block tag fields (EWorld :: s) with
      | (Err e, s) => Some (Err e, w, s)
      | (Ok spec, s) =>
        match run_spec w spec with
        | (Err e, w) => Some (Err e, w, s)
        | (Ok o, w) =>
          match EData (build_io_result_block o) :: s with
          | EData r :: EWorld :: s => io_run n w s (Return r)
          | s => Some (Err EMachine, w, s)
          end
        end
      end
    | Bind action cont =>
      match io_run n w (EWorld :: ECont cont :: s) action with
      | None => None
      | Some (Err e, w, s) => Some (Err e, w, s)
      | Some (Ok v, w, s) =>
        match EData v :: s with
        | EData v :: EWorld :: ECont k :: s => io_run n w s (k v)
        | s => Some (Err EMachine, w, s)
        end
      end
    | Broken | NotIo => Some (Err EMachine, w, s)
    end
  end.

End Driver.

(** ** The prelude.  lib/prelude.eu:34-139. *)

Definition lookup_or (k : string) (default : data) (opts : list (string * data)) : data :=
  match find (fun e => String.eqb k (fst e)) opts with Some (_, v) => v | None => default end.

(** [visible] says whether the tag of the block can still be seen. *)
Definition shell (visible : bool) (c : data) : prog :=
  Action (if visible then Some "io-shell" else None) [("cmd", c); ("timeout", DNum "30")].
Definition shell_with (visible : bool) (opts : list (string * data)) (c : data) : prog :=
  Action (if visible then Some "io-shell" else None)
    [("cmd", c); ("timeout", lookup_or "timeout" (DNum "30") opts); ("stdin", lookup_or "stdin" DNull opts)].
Definition exec (visible : bool) (c : data) (args : spine) : prog :=
  Action (if visible then Some "io-exec" else None) [("cmd", c); ("args", DList args); ("timeout", DNum "30")].
Definition exec_with (visible : bool) (opts : list (string * data)) (c : data) (args : spine) : prog :=
  Action (if visible then Some "io-exec" else None)
    [("cmd", c); ("args", DList args); ("timeout", lookup_or "timeout" (DNum "30") opts);
     ("stdin", lookup_or "stdin" DNull opts)].
Definition fail (visible : bool) (msg : data) : prog :=
  Action (if visible then Some "io-fail" else None) [("message", msg)].

Definition field (k : string) (d : data) : data :=
  match d with DBlock es => lookup_or k DError es | _ => DError end.
(** check; numbers are compared by their text. *)
Definition check (visible : bool) (r : data) : prog :=
  match field "exit-code" r with
  | DNum t => if String.eqb t "0" then Return r else fail visible (field "stderr" r)
  | DError => Broken
  | _ => fail visible (field "stderr" r)
  end.
Definition checked (visible : bool) (p : prog) : prog := Bind p (check visible).

Definition io_map (f : data -> data) (p : prog) : prog := Bind p (fun v => Return (f v)).
Definition then_ (b a : prog) : prog := Bind a (fun _ => b).

Definition cons_data (hd xs : data) : data := match xs with DList s => DList (Cons hd s) | _ => DError end.

Fixpoint sequence (ms : list prog) : prog :=
  match ms with
  | [] => Return (DList Nil)
  | m :: rest => Bind m (fun hd => Bind (sequence rest) (fun xs => Return (cons_data hd xs)))
  end.
Definition map_m (f : data -> prog) (xs : list data) : prog := sequence (map f xs).

Fixpoint filter_m (p : data -> prog) (xs : list data) : prog :=
  match xs with
  | [] => Return (DList Nil)
  | x :: rest =>
    Bind (p x) (fun flag => Bind (filter_m p rest) (fun r =>
      Return (match flag with DBool b => if b then cons_data x r else r | _ => DError end)))
  end.
