(** Which variables an expression may ask for, independently of the analysis. *)
From Coq Require Import String List Bool Arith Relations.
From Verif.Basics Require Import Model.
From Verif.Scope Require Import Model.
Import ListNotations.
Open Scope nat_scope.

(** Without annotations. *)
Fixpoint erase (e : expr) : expr :=
  match e with
  | EVar _ => e
  | ELet bs body t => ELet (map (fun b => mkBinding (b_name b) (erase (b_expr b)) default_demand) bs) (erase body) t
  | ELam i ps body => ELam i ps (erase body)
  | ENode k xs => ENode k (map erase xs)
  end.

(** The nodes of cooked expressions that have parts. *)
Definition composite (k : kind) : Prop :=
  match k with KLookup _ | KList | KBlock _ | KMeta | KArgTuple | KApp => True | _ => False end.
(** A function without structure: its body is a variable, a literal or the like. *)
Definition simple (e : expr) : Prop :=
  match e with EVar _ => True | ENode k _ => ~ composite k | _ => False end.
(** A function written where it is called, that plainly does not look at an argument. *)
Definition ignores (f : expr) (i : nat) : Prop :=
  match f with
  | ELam _ ps body => i < List.length ps /\ simple body /\ forall n, body <> EVar (Bound 0 i n)
  | _ => False
  end.

(** [uses e s b]: [e] may ask for the variable of scope [s] and position [b]; a definition of a let
    is [needed] if the body may ask for it, directly or through other definitions. *)
Inductive uses : expr -> nat -> nat -> Prop :=
| us_var s b n : uses (EVar (Bound s b n)) s b
| us_body bs body t s b : uses body (S s) b -> uses (ELet bs body t) s b
| us_definition bs body t i d s b : needed bs body i -> nth_error bs i = Some d -> uses (b_expr d) (S s) b ->
    uses (ELet bs body t) s b
| us_function i ps body s b : uses body (S s) b -> uses (ELam i ps body) s b
| us_called f xs s b : uses f s b -> uses (ENode KApp (f :: xs)) s b
| us_argument f xs i x s b : nth_error xs i = Some x -> ~ ignores f i -> uses x s b -> uses (ENode KApp (f :: xs)) s b
| us_part k xs x s b : composite k -> k <> KApp -> In x xs -> uses x s b -> uses (ENode k xs) s b
with needed : list (binding expr) -> expr -> nat -> Prop :=
| nd_body bs body i : i < List.length bs -> uses body 0 i -> needed bs body i
| nd_definition bs body j d i : needed bs body j -> nth_error bs j = Some d -> i < List.length bs -> uses (b_expr d) 0 i ->
    needed bs body i.

(** A definition of a let refers to another; to itself in the end. *)
Definition refers (bs : list (binding expr)) (i j : nat) : Prop :=
  j < List.length bs /\ exists d, nth_error bs i = Some d /\ uses (b_expr d) 0 j.
Definition cyclic (bs : list (binding expr)) (i : nat) : Prop := clos_trans nat (refers bs) i i.

(** A call of it says nothing about how often it looks at its arguments. *)
Definition opaque (f : expr) : Prop :=
  match f with
  | EVar _ | ELet _ _ _ => True
  | ELam _ _ body => ~ simple body
  | ENode (KIntrinsic _) _ => False
  | ENode _ _ => True
  end.
(** [many e s b]: [e] may ask for the variable in more than one place, or in an argument of an
    [opaque] function; a definition of a let is [overused] if the body and the needed definitions
    ask for it in more than one place, or one that is itself overused does. *)
Inductive many : expr -> nat -> nat -> Prop :=
| my_body bs body t s b : many body (S s) b -> many (ELet bs body t) s b
| my_definition bs body t i d s b : needed bs body i -> nth_error bs i = Some d -> many (b_expr d) (S s) b ->
    many (ELet bs body t) s b
| my_body_definition bs body t i d s b : uses body (S s) b -> needed bs body i -> nth_error bs i = Some d ->
    uses (b_expr d) (S s) b -> many (ELet bs body t) s b
| my_definitions bs body t i d j d' s b : i <> j -> needed bs body i -> nth_error bs i = Some d -> uses (b_expr d) (S s) b ->
    needed bs body j -> nth_error bs j = Some d' -> uses (b_expr d') (S s) b -> many (ELet bs body t) s b
| my_function i ps body s b : many body (S s) b -> many (ELam i ps body) s b
| my_called f xs s b : many f s b -> many (ENode KApp (f :: xs)) s b
| my_argument f xs i x s b : nth_error xs i = Some x -> ~ ignores f i -> many x s b -> many (ENode KApp (f :: xs)) s b
| my_called_argument f xs i x s b : uses f s b -> nth_error xs i = Some x -> ~ ignores f i -> uses x s b ->
    many (ENode KApp (f :: xs)) s b
| my_arguments f xs i x j y s b : i <> j -> nth_error xs i = Some x -> ~ ignores f i -> uses x s b ->
    nth_error xs j = Some y -> ~ ignores f j -> uses y s b -> many (ENode KApp (f :: xs)) s b
| my_opaque f xs x s b : opaque f -> In x xs -> uses x s b -> many (ENode KApp (f :: xs)) s b
| my_part k xs x s b : composite k -> k <> KApp -> In x xs -> many x s b -> many (ENode k xs) s b
| my_parts k xs i x j y s b : composite k -> k <> KApp -> i <> j -> nth_error xs i = Some x -> uses x s b ->
    nth_error xs j = Some y -> uses y s b -> many (ENode k xs) s b.
Inductive overused (bs : list (binding expr)) (body : expr) : nat -> Prop :=
| ov_body i : i < List.length bs -> many body 0 i -> overused bs body i
| ov_definition i j d : i < List.length bs -> needed bs body j -> nth_error bs j = Some d -> many (b_expr d) 0 i -> overused bs body i
| ov_body_definition i j d : i < List.length bs -> uses body 0 i -> needed bs body j -> nth_error bs j = Some d ->
    uses (b_expr d) 0 i -> overused bs body i
| ov_definitions i j d k d' : i < List.length bs -> j <> k -> needed bs body j -> nth_error bs j = Some d -> uses (b_expr d) 0 i ->
    needed bs body k -> nth_error bs k = Some d' -> uses (b_expr d') 0 i -> overused bs body i
| ov_through i j d : i < List.length bs -> overused bs body j -> nth_error bs j = Some d -> uses (b_expr d) 0 i -> overused bs body i.

(** The parts of an expression. *)
Inductive part : expr -> expr -> Prop :=
| pt_self e : part e e
| pt_body e bs body t : part e body -> part e (ELet bs body t)
| pt_definition e bs d body t : In d bs -> part e (b_expr d) -> part e (ELet bs body t)
| pt_function e i ps body : part e body -> part e (ELam i ps body)
| pt_part e k xs x : composite k -> In x xs -> part e x -> part e (ENode k xs).

(** A function, behind metadata. *)
Inductive function : expr -> list string -> expr -> Prop :=
| fn_here i ps body : function (ELam i ps body) ps body
| fn_meta e xs ps body : function e ps body -> function (ENode KMeta (e :: xs)) ps body.

(** The demands a table may hold for arguments. *)
Definition proper_entry (d : Basics.Model.demand) : Prop :=
  (d_card d = CAtMostOnce \/ d_card d = CMulti) /\ (d_strict d = SLazy \/ d_strict d = SStrict) /\
  d_whnf d = false /\ d_rec d = false.
