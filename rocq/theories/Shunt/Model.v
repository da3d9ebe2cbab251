(** Operator resolution: model of [src/core/cook/shunt.rs] and
    [src/core/cook/fill.rs]. *)
From Coq Require Import List ZArith NArith Bool.
Import ListNotations.

(** [Fixity], src/core/expr.rs:60-66. *)
Inductive fixity := Nullary | UnaryPrefix | UnaryPostfix | InfixLeft | InfixRight.

Definition fixity_eqb (a b : fixity) : bool :=
  match a, b with
  | Nullary, Nullary | UnaryPrefix, UnaryPrefix | UnaryPostfix, UnaryPostfix
  | InfixLeft, InfixLeft | InfixRight, InfixRight => true
  | _, _ => false
  end.

(** [Fixity::arity], src/core/expr.rs:68-76. *)
Definition arity (f : fixity) : nat :=
  match f with
  | Nullary => 0
  | UnaryPrefix | UnaryPostfix => 1
  | InfixLeft | InfixRight => 2
  end.

(** [ImplicitAnaphorSide], src/core/expr.rs. *)
Inductive side := SideLeft | SideRight.

(** The part of [Expr] that operator resolution can tell apart
    (src/core/expr.rs, [Expr]).  [EOther] stands for every other, opaque,
    expression; a source id ([Smid], src/common/sourcemap.rs:26-41) is a number
    with 0 for the invalid default. *)
Inductive expr :=
| EOther (s id : N)
| EName (s n : N)
| ELam (s id : N)
| EArgTuple (s : N) (args : list expr)
| EAnaphor (s : N) (sd : side)
| EPseudoDot
| EPseudoCall
| EPseudoCat
| EApp (s : N) (f : expr) (args : list expr)
| ELookup (s : N) (target : expr) (n : N).

(** [HasSmid::smid] for those expressions (src/core/expr.rs). *)
Definition smid (e : expr) : N :=
  match e with
  | EOther s _ | EName s _ | ELam s _ | EArgTuple s _ | EAnaphor s _
  | EApp s _ _ | ELookup s _ _ => s
  | EPseudoDot | EPseudoCall | EPseudoCat => 0%N
  end.

(** [Expr::Operator(smid, fixity, precedence, expr)]. *)
Record opr := mkOp { o_smid : N; o_fix : fixity; o_prec : Z; o_body : expr }.

(** An element of a soup: [is_operator] (src/core/expr.rs:413-415) separates the
    two.  The op stack holds [opr]s only, so the two "non-operator" panics of
    shunt.rs (lines 159, 163, 183) cannot arise. *)
Inductive tok := TVal (e : expr) | TOp (o : opr).

Definition tok_smid (t : tok) : N :=
  match t with TVal e => smid e | TOp o => o_smid o end.

(** src/core/expr.rs:1836-1867: the pseudo operators. *)
Definition cat : tok := TOp (mkOp 0 InfixLeft 20 EPseudoCat).
Definition call : tok := TOp (mkOp 0 InfixLeft 90 EPseudoCall).
Definition dot : tok := TOp (mkOp 0 InfixLeft 90 EPseudoDot).

(** ** fill.rs *)

(** [BindSide], src/core/cook/fill.rs:49-52. *)
Inductive bind_side := OpLike | ValueLike.

(** [bind_sides], src/core/cook/fill.rs:56-69. *)
Definition bind_sides (t : option tok) : bind_side * bind_side :=
  match t with
  | Some (TOp o) =>
      match o_fix o with
      | Nullary => (ValueLike, ValueLike)
      | UnaryPrefix => (ValueLike, OpLike)
      | UnaryPostfix => (OpLike, ValueLike)
      | _ => (OpLike, OpLike)
      end
  | Some (TVal _) => (ValueLike, ValueLike)
  | None => (OpLike, OpLike)
  end.

Definition opt_smid (t : option tok) : N :=
  match t with Some t => tok_smid t | None => 0%N end.

(** Result of [filler], src/core/cook/fill.rs:73-95. *)
Inductive fill_result := FillErr | FillNone | FillSome (t : tok).

Definition filler (l r : option tok) : fill_result :=
  match snd (bind_sides l), fst (bind_sides r) with
  | ValueLike, ValueLike => FillSome cat
  | OpLike, OpLike =>
      let rs := opt_smid r in
      let ls := opt_smid l in
      if negb (N.eqb rs 0) then FillSome (TVal (EAnaphor rs SideLeft))
      else if negb (N.eqb ls 0) then FillSome (TVal (EAnaphor ls SideRight))
      else FillErr
  | _, _ => FillNone
  end.

(** [fill_gaps], src/core/cook/fill.rs:12-46, without the accompanying set of
    anaphora.  [None] is the [NoSmidForImplicitAnaphor] error. *)
Definition with_fill (r : fill_result) (k : list tok -> option (list tok))
  : option (list tok) :=
  match r with
  | FillErr => None
  | FillNone => k []
  | FillSome t => k [t]
  end.

Fixpoint fill_rest (l : tok) (xs : list tok) : option (list tok) :=
  match xs with
  | [] => with_fill (filler (Some l) None) (fun f => Some (l :: f))
  | r :: xs' =>
      with_fill (filler (Some l) (Some r)) (fun f =>
        match fill_rest r xs' with
        | Some out => Some (l :: f ++ out)
        | None => None
        end)
  end.

Definition fill_gaps (xs : list tok) : option (list tok) :=
  match xs with
  | [] => Some []
  | x :: xs' =>
      with_fill (filler None (Some x)) (fun f =>
        match fill_rest x xs' with
        | Some out => Some (f ++ out)
        | None => None
        end)
  end.

(** ** shunt.rs *)

(** The algorithm is generic in what is kept on the output stack: [X] with the
    ways of forming an application.  [None] from an [apply_*] is a panic. *)
Section Machine.
  Context {X : Type}.
  Variable leaf : expr -> X.
  Variable ap0 : opr -> X.
  Variable ap1 : opr -> X -> option X.
  Variable ap2 : opr -> X -> X -> option X.

  (** [Shunter], src/core/cook/shunt.rs:19-25.  Stacks have their top first;
      [error] is a flag (the code keeps the last error). *)
  Record st := mkSt { input : list tok; output : list X; ops : list opr; error : bool }.

  (** [apply_op] with [apply_zero/one/two], src/core/cook/shunt.rs:175-207, on
      the output stack and error flag. *)
  Definition apply_op (o : opr) (out : list X) (err : bool) : option (list X * bool) :=
    match arity (o_fix o) with
    | 0 => Some (ap0 o :: out, err)
    | 1 => match out with
           | x :: out' => match ap1 o x with
                          | Some y => Some (y :: out', err)
                          | None => None
                          end
           | [] => Some (out, true)
           end
    | _ => match out with
           | r :: l :: out' => match ap2 o l r with
                               | Some y => Some (y :: out', err)
                               | None => None
                               end
           | _ => Some (out, true)
           end
    end.

  (** [seat_op], src/core/cook/shunt.rs:109-165, branch by branch. *)
  Fixpoint seat_op (op : opr) (ops : list opr) (out : list X) (err : bool)
    : option (list opr * list X * bool) :=
    if fixity_eqb (o_fix op) Nullary then
      match apply_op op out err with
      | Some (out', err') => Some (ops, out', err')
      | None => None
      end
    else
      match ops with
      | [] => Some ([op], out, err)
      | top :: rest =>
          let reseat :=
            match apply_op top out err with
            | Some (out', err') => seat_op op rest out' err'
            | None => None
            end in
          let push := Some (op :: top :: rest, out, err) in
          if fixity_eqb (o_fix top) InfixLeft then
            if (o_prec op <=? o_prec top)%Z then reseat else push
          else if fixity_eqb (o_fix top) InfixRight then
            if (o_prec op <? o_prec top)%Z then reseat else push
          else if fixity_eqb (o_fix top) UnaryPostfix then reseat
          else if fixity_eqb (o_fix op) UnaryPostfix then
            if (o_prec op <? o_prec top)%Z then reseat
            else match apply_op op out err with
                 | Some (out', err') => Some (top :: rest, out', err')
                 | None => None
                 end
          else if (o_prec op <? o_prec top)%Z then reseat
          else push
      end.

  (** [clear_ops], src/core/cook/shunt.rs:168-173. *)
  Fixpoint clear_ops (ops : list opr) (out : list X) (err : bool) : option (list X * bool) :=
    match ops with
    | [] => Some (out, err)
    | top :: rest =>
        match apply_op top out err with
        | Some (out', err') => clear_ops rest out' err'
        | None => None
        end
    end.

  (** [insert_fill] / [insert_initial_fill], src/core/cook/shunt.rs:251-266. *)
  Definition insert_fill (l : option tok) (inp : list tok) (err : bool) : list tok * bool :=
    match filler l (hd_error inp) with
    | FillSome f => (f :: inp, err)
    | FillNone => (inp, err)
    | FillErr => (inp, true)
    end.

  (** [shunt1], src/core/cook/shunt.rs:269-280. *)
  Definition shunt1 (s : st) : option st :=
    match input s with
    | e :: inp =>
        let '(inp', err') := insert_fill (Some e) inp (error s) in
        match e with
        | TOp o =>
            match seat_op o (ops s) (output s) err' with
            | Some (ops', out', err'') => Some (mkSt inp' out' ops' err'')
            | None => None
            end
        | TVal v => Some (mkSt inp' (leaf v :: output s) (ops s) err')
        end
    | [] =>
        match clear_ops (ops s) (output s) (error s) with
        | Some (out', err') => Some (mkSt [] out' [] err')
        | None => None
        end
    end.

  (** [is_complete], src/core/cook/shunt.rs:39-41. *)
  Definition is_complete (s : st) : bool :=
    match input s, ops s with [], [] => true | _, _ => false end.

  (** Outcome of [shunt]: a result, an error, the "empty output" panic of
      line 58, a panic inside [form_apply], or (model only) too little fuel. *)
  Inductive outcome := Done (x : X) | Failed | PanicEmpty | PanicApply | NoFuel.

  (** The [while] loop and final match of [shunt], src/core/cook/shunt.rs:48-61. *)
  Fixpoint loop (fuel : nat) (s : st) : outcome :=
    if is_complete s then
      if error s then Failed
      else match output s with
           | x :: _ => Done x
           | [] => PanicEmpty
           end
    else match fuel with
         | 0 => NoFuel
         | S fuel' => match shunt1 s with
                      | Some s' => loop fuel' s'
                      | None => PanicApply
                      end
         end.

  (** [Shunter::new] and [shunt], src/core/cook/shunt.rs:28-62. *)
  Definition shunt_fuel (fuel : nat) (toks : list tok) : outcome :=
    match toks with
    | [] => loop fuel (mkSt [] [] [] false)
    | _ => let '(inp, err) := insert_fill None toks false in
           loop fuel (mkSt inp [] [] err)
    end.

  Definition shunt (toks : list tok) : outcome :=
    shunt_fuel (2 * length toks + 3) toks.
End Machine.

Arguments st : clear implicits.
Arguments outcome : clear implicits.

(** [form_apply], src/core/cook/shunt.rs:217-248.  [merge] stands for
    [SourceMap::merge]; the map itself (which only affects source ids) is not
    modelled.  [None] is the "pseudocall op without arg tuple" panic. *)
Section FormApply.
  Variable merge : N -> N -> N.

  Definition form_apply2 (o : opr) (l r : expr) : option expr :=
    match o_body o with
    | EPseudoCall =>
        match r with
        | EArgTuple ts args => Some (EApp (merge (smid l) ts) l args)
        | _ => None
        end
    | EPseudoDot =>
        match r with
        | EName _ n => Some (ELookup (smid l) l n)
        | ELam _ _ => Some (EApp (smid l) r [l])
        | _ => Some r
        end
    | EPseudoCat => Some (EApp (smid r) r [l])
    | body => Some (EApp (smid body) body [l; r])
    end.

  (** With one operand the pseudo operators would index out of bounds
      ([xs[1]]) or fail the assertion of line 241: a panic. *)
  Definition form_apply1 (o : opr) (x : expr) : option expr :=
    match o_body o with
    | EPseudoCall | EPseudoDot | EPseudoCat => None
    | body => Some (EApp (smid body) body [x])
    end.

  (** The resolver on expressions. *)
  Definition shunt_expr (toks : list tok) : outcome expr :=
    shunt (fun e => e) o_body form_apply1 form_apply2 toks.
End FormApply.

(** The same algorithm with application left symbolic: the output is the tree
    of which operator took which operands. *)
Inductive tree :=
| Leaf (e : expr)
| Nul (o : opr)
| Pre (o : opr) (x : tree)
| Post (o : opr) (x : tree)
| Bin (o : opr) (l r : tree).

Definition tap1 (o : opr) (x : tree) : option tree :=
  Some (if fixity_eqb (o_fix o) UnaryPostfix then Post o x else Pre o x).
Definition tap2 (o : opr) (l r : tree) : option tree := Some (Bin o l r).

Definition shunt_tree (toks : list tok) : outcome tree :=
  shunt Leaf Nul tap1 tap2 toks.
