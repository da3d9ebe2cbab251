(** * What running an IO program means

    Independent of the driver: a program is performed step by step, and an action starts the process
    that its fields say. *)
From Coq Require Import String List NArith ZArith Bool Ascii.
From Verif.Io Require Import Model.
Import ListNotations.
Open Scope string_scope.
Open Scope list_scope.

(** ** Doing things in order *)

(** The message of a failure. *)
Definition reason (d : data) : string :=
  match d with
  | DNull => "" | DBool true => "true" | DBool false => "false"
  | DStr s | DSym s | DNum s | DZdt s => s
  | DList _ | DBlock _ | DFunction | DError => "IO monad failure"
  end.

Section Performs.

(** What performing one action does to the world, and gives. *)
Variable act : option string -> list (string * data) -> world -> result data -> world -> Prop.

(** [performs w p r w']: from [w], the program gives [r] and leads to [w'].  A bind performs its
    action first, and then, if that gave a value, what the continuation makes of it. *)
Inductive performs : world -> prog -> result data -> world -> Prop :=
| p_return : forall w v, performs w (Return v) (Ok v) w
| p_action : forall w tag fields r w', act tag fields w r w' -> performs w (Action tag fields) r w'
| p_failing : forall w d, performs w (Failing d) (Err (EFail (reason d))) w
| p_broken : forall w, performs w Broken (Err EMachine) w
| p_not_io : forall w, performs w NotIo (Err EMachine) w
| p_bind : forall w a k v w1 r w2,
    performs w a (Ok v) w1 -> performs w1 (k v) r w2 -> performs w (Bind a k) r w2
| p_stop : forall w a k e w1, performs w a (Err e) w1 -> performs w (Bind a k) (Err e) w1.

(** Programs one after the other, each once, up to the first that fails. *)
Inductive in_turn : world -> list prog -> result (list data) -> world -> Prop :=
| t_nil : forall w, in_turn w [] (Ok []) w
| t_next : forall w m ms v w1 vs w2,
    performs w m (Ok v) w1 -> in_turn w1 ms (Ok vs) w2 -> in_turn w (m :: ms) (Ok (v :: vs)) w2
| t_later : forall w m ms v w1 e w2,
    performs w m (Ok v) w1 -> in_turn w1 ms (Err e) w2 -> in_turn w (m :: ms) (Err e) w2
| t_stop : forall w m ms e w1, performs w m (Err e) w1 -> in_turn w (m :: ms) (Err e) w1.

End Performs.

(** ** One action *)

(** All of them evaluated, or none if one cannot be. *)
Fixpoint all_forced (ds : list data) : option (list data) :=
  match ds with
  | [] => Some []
  | d :: r => match force d, all_forced r with Some d, Some r => Some (d :: r) | _, _ => None end
  end.
Definition texts (ds : list data) : list string :=
  flat_map (fun d => match scalar_string d with Some t => [t] | None => [] end) ds.

(** The text a field is rendered as, if it has one; none if it cannot be evaluated. *)
Definition rendered (d : data) : option (option string) :=
  match force d with
  | None => None
  | Some (DList l) =>
    match all_forced (list_element_values l) with
    | None => None
    | Some ds => Some (match texts ds with [] => None | ts => Some (String.concat (String "000" "") ts) end)
    end
  | Some d => Some (scalar_string d)
  end.
Fixpoint all_rendered (fields : list (string * data)) : option (list (string * option string)) :=
  match fields with
  | [] => Some []
  | (k, d) :: r => match rendered d, all_rendered r with Some t, Some r => Some ((k, t) :: r) | _, _ => None end
  end.

(** What one action does: nothing unless IO is allowed; nothing if its fields do not say what to do;
    otherwise it runs one process. *)
Inductive acts (os : list launch -> reply) (show : Z -> string) (allow_io : bool)
  (tag : option string) (fields : list (string * data)) (w : world) : result data -> world -> Prop :=
| a_forbidden : allow_io = false -> acts os show allow_io tag fields w (Err ENotAllowed) w
| a_error : allow_io = true -> all_rendered fields = None -> acts os show allow_io tag fields w (Err EMachine) w
| a_unclear : forall fs e, allow_io = true -> all_rendered fields = Some fs ->
    action_spec_from_fields tag fs = Err e -> acts os show allow_io tag fields w (Err e) w
| a_ran : forall fs spec o w', allow_io = true -> all_rendered fields = Some fs ->
    action_spec_from_fields tag fs = Ok spec -> run_spec os w spec = (Ok o, w') ->
    acts os show allow_io tag fields w
      (Ok (DBlock [("stdout", DStr (stdout o)); ("stderr", DStr (stderr o)); ("exit-code", DNum (show (exit_code o)))])) w'
| a_failed : forall fs spec e w', allow_io = true -> all_rendered fields = Some fs ->
    action_spec_from_fields tag fs = Ok spec -> run_spec os w spec = (Err e, w') ->
    acts os show allow_io tag fields w (Err e) w'.

(** ** The process an action asks for *)

(** The elements of a list, evaluated or not. *)
Fixpoint elements (s : spine) : list data :=
  match s with Nil => [] | Cons d s => d :: elements s | Later s => elements s end.

(** A list whose spine is evaluated to its end. *)
Fixpoint evaluated (s : spine) : Prop :=
  match s with Nil => True | Cons _ s => evaluated s | Later _ => False end.

(** How a value that is not a list or block is written as an argument. *)
Inductive written : data -> string -> Prop :=
| w_string : forall s, written (DStr s) s
| w_symbol : forall s, written (DSym s) s
| w_number : forall s, written (DNum s) s
| w_time : forall s, written (DZdt s) s
| w_true : written (DBool true) "true"
| w_false : written (DBool false) "false".

(** A text without NUL, which no argument of a process may contain. *)
Definition no_nul (s : string) : Prop := ~ List.In "000"%char (list_ascii_of_string s).

(** The value of decimal digits. *)
Definition digit_of (c : ascii) : N := (N_of_ascii c - 48)%N.
Definition decimal (s : string) : N := fold_left (fun acc c => (10 * acc + digit_of c)%N) (list_ascii_of_string s) 0%N.
Definition all_digits (s : string) : Prop :=
  s <> "" /\ Forall (fun c => List.In c (list_ascii_of_string "0123456789")) (list_ascii_of_string s).

(** What is reported of a process, and whether it is left running. *)
Definition block (show : Z -> string) (out err : string) (code : Z) : data :=
  DBlock [("stdout", DStr out); ("stderr", DStr err); ("exit-code", DNum (show code))].
Inductive reports (show : Z -> string) (l : launch) : reply -> result data -> bool -> Prop :=
| r_ended : forall ie o x c, input l = None \/ ie = None ->
    reports show l (Started ie (Ended o x (Some c))) (Ok (block show o x c)) false
| r_signalled : forall ie o x, input l = None \/ ie = None ->
    reports show l (Started ie (Ended o x None)) (Ok (block show o x (-1))) false
| r_not_found : forall m, reports show l (NotStarted NotFound m) (Ok (block show "" m 127)) false
| r_denied : forall m, reports show l (NotStarted Denied m) (Ok (block show "" m 126)) false
| r_not_started : forall m, reports show l (NotStarted OtherCause m) (Ok (block show "" m (-1))) false
| r_no_input : forall i m e, input l = Some i -> reports show l (Started (Some m) e) (Err (ECommand m)) true
| r_wait : forall ie m, input l = None \/ ie = None ->
    reports show l (Started ie (WaitError m)) (Err (ECommand m)) false
| r_too_long : forall ie, input l = None \/ ie = None ->
    reports show l (Started ie TooLong) (Err (ETimeout (limit l))) true.

(** Exactly the process [l] is started, and what it comes to is the result. *)
Definition starts (os : list launch -> reply) (show : Z -> string) (w : world) (l : launch)
  (r : result data) (w' : world) : Prop :=
  exists running, reports show l (os (log w ++ [l])) r running
    /\ w' = World (log w ++ [l]) (if running then left w ++ [l] else left w).

(** The options: the input and the time they ask for. *)
Definition option_of (k : string) (opts : list (string * data)) : option data :=
  option_map snd (find (fun e => String.eqb k (fst e)) opts).
Inductive asks_input (opts : list (string * data)) : option string -> Prop :=
| i_none : option_of "stdin" opts = None -> asks_input opts None
| i_text : forall s, option_of "stdin" opts = Some (DStr s) -> s <> "" -> asks_input opts (Some s).
Inductive asks_limit (opts : list (string * data)) : N -> Prop :=
| l_none : option_of "timeout" opts = None -> asks_limit opts 30%N
| l_digits : forall s, option_of "timeout" opts = Some (DNum s) -> all_digits s -> (decimal s < 2 ^ 64)%N ->
    asks_limit opts (decimal s).
