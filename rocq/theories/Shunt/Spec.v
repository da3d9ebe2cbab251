(** What it means for a tree to be the right reading of an operator soup.
    Independent of the resolution algorithm. *)
From Coq Require Import List ZArith NArith Bool.
From Verif.Shunt Require Import Model.
Import ListNotations.
Open Scope Z_scope.

(** The expression a tree stands for, as it is written. *)
Fixpoint reading (t : tree) : list tok :=
  match t with
  | Leaf e => [TVal e]
  | Nul o => [TOp o]
  | Pre o x => TOp o :: reading x
  | Post o x => reading x ++ [TOp o]
  | Bin o l r => reading l ++ TOp o :: reading r
  end.

(** Each operator has the number of operands its fixity demands. *)
Fixpoint arities_ok (t : tree) : Prop :=
  match t with
  | Leaf _ => True
  | Nul o => o_fix o = Nullary
  | Pre o x => o_fix o = UnaryPrefix /\ arities_ok x
  | Post o x => o_fix o = UnaryPostfix /\ arities_ok x
  | Bin o l r => (o_fix o = InfixLeft \/ o_fix o = InfixRight) /\ arities_ok l /\ arities_ok r
  end.

(** [binds_left a b]: written [.. a x b ..] with the operand [x] contested by [a]
    on its left and [b] on its right, [x] belongs to [a]. *)
Definition binds_left (a b : opr) : Prop :=
  match o_fix a with
  | InfixLeft => o_prec b <= o_prec a
  | InfixRight | UnaryPrefix => o_prec b < o_prec a
  | UnaryPostfix | Nullary => True
  end.

(** Operators of a tree whose last operand reaches its right end, and
    operators whose first operand starts at its left end: these are the ones
    that contest an operand with a neighbour. *)
Fixpoint right_open (t : tree) : list opr :=
  match t with
  | Pre o x => o :: right_open x
  | Bin o _ r => o :: right_open r
  | _ => []
  end.
Fixpoint left_open (t : tree) : list opr :=
  match t with
  | Post o x => o :: left_open x
  | Bin o l _ => o :: left_open l
  | _ => []
  end.

(** Every contested operand went to the operator entitled to it. *)
Fixpoint entitled (t : tree) : Prop :=
  match t with
  | Leaf _ | Nul _ => True
  | Pre o x => entitled x /\ Forall (fun b => ~ binds_left o b) (left_open x)
  | Post o x => entitled x /\ Forall (fun a => binds_left a o) (right_open x)
  | Bin o l r =>
      entitled l /\ entitled r
      /\ Forall (fun a => binds_left a o) (right_open l)
      /\ Forall (fun b => ~ binds_left o b) (left_open r)
  end.

(** *** Infix-only expressions: the textbook reading. *)

Fixpoint ops_of (t : tree) : list opr :=
  match t with
  | Leaf _ => []
  | Nul o => [o]
  | Pre o x => o :: ops_of x
  | Post o x => ops_of x ++ [o]
  | Bin o l r => ops_of l ++ o :: ops_of r
  end.

(** Operators inside an operand bind tighter than the operator taking it; equal
    precedence is allowed in a left operand built from left-associative
    operators, and in the right operand of a right-associative operator. *)
Fixpoint textbook (t : tree) : Prop :=
  match t with
  | Leaf _ => True
  | Bin o l r =>
      textbook l /\ textbook r
      /\ (forall a, In a (ops_of l) ->
            o_prec o < o_prec a \/ (o_prec o = o_prec a /\ o_fix a = InfixLeft))
      /\ (forall b, In b (ops_of r) ->
            o_prec o < o_prec b \/ (o_prec o = o_prec b /\ o_fix o = InfixRight))
  | _ => False
  end.

(** operand (infix operand)* *)
Inductive infix_expr : list tok -> Prop :=
| ie_one e : infix_expr [TVal e]
| ie_more e o rest :
    o_fix o = InfixLeft \/ o_fix o = InfixRight ->
    infix_expr rest -> infix_expr (TVal e :: TOp o :: rest).

(** *** Soups with all operands present. *)

(** [operand_next]: an operand is due; [operator_next]: one has just ended. *)
Inductive operand_next : list tok -> Prop :=
| on_val e rest : operator_next rest -> operand_next (TVal e :: rest)
| on_nul o rest : o_fix o = Nullary -> operator_next rest -> operand_next (TOp o :: rest)
| on_pre o rest : o_fix o = UnaryPrefix -> operand_next rest -> operand_next (TOp o :: rest)
with operator_next : list tok -> Prop :=
| op_end : operator_next []
| op_post o rest : o_fix o = UnaryPostfix -> operator_next rest -> operator_next (TOp o :: rest)
| op_bin o rest : o_fix o = InfixLeft \/ o_fix o = InfixRight ->
    operand_next rest -> operator_next (TOp o :: rest).

(** A prefix operator directly to the right of an operator [a] does not bind so
    loosely that [a] would claim the (still missing) operand between them. *)
Fixpoint prefixes_tight (prev : option opr) (toks : list tok) : Prop :=
  match toks with
  | [] => True
  | TVal _ :: rest => prefixes_tight None rest
  | TOp o :: rest =>
      match o_fix o with
      | UnaryPrefix =>
          match prev with
          | Some a => ~ binds_left a o
          | None => True
          end /\ prefixes_tight (Some o) rest
      | InfixLeft | InfixRight => prefixes_tight (Some o) rest
      | Nullary | UnaryPostfix => prefixes_tight None rest
      end
  end.

(** *** What a tree denotes. *)

(** Catenation applies its right operand to its left one; a call applies its left
    operand to a tuple of arguments; a dot looks up a name (or applies a
    lambda); any other operator is applied to its operands in order.  [None]
    where a call is not given an argument tuple, or a pseudo operator is used
    with one operand. *)
Section Meaning.
  Variable merge : N -> N -> N.
  Fixpoint meaning (t : tree) : option expr :=
    match t with
    | Leaf e => Some e
    | Nul o => Some (o_body o)
    | Pre o x | Post o x =>
        match meaning x with
        | None => None
        | Some a =>
            match o_body o with
            | EPseudoCat | EPseudoCall | EPseudoDot => None
            | f => Some (EApp (smid f) f [a])
            end
        end
    | Bin o l r =>
        match meaning l, meaning r with
        | Some a, Some b =>
            match o_body o, b with
            | EPseudoCat, f => Some (EApp (smid f) f [a])
            | EPseudoCall, EArgTuple s args => Some (EApp (merge (smid a) s) a args)
            | EPseudoCall, _ => None
            | EPseudoDot, EName _ n => Some (ELookup (smid a) a n)
            | EPseudoDot, ELam s i => Some (EApp (smid a) (ELam s i) [a])
            | EPseudoDot, other => Some other
            | f, _ => Some (EApp (smid f) f [a; b])
            end
        | _, _ => None
        end
    end.
End Meaning.

(** Calls are written with their arguments, and nothing after the arguments
    binds tighter than the call. *)
Definition is_pseudo (e : expr) : Prop := e = EPseudoCat \/ e = EPseudoCall \/ e = EPseudoDot.
Definition call_ok (o : opr) (after : list tok) : Prop :=
  (is_pseudo (o_body o) -> o_fix o = InfixLeft)
  /\ (o_body o = EPseudoCall ->
      exists s args after', after = TVal (EArgTuple s args) :: after'
        /\ forall b after'', after' = TOp b :: after'' -> o_prec b <= o_prec o).
Definition calls_ok (toks : list tok) : Prop :=
  forall before o after, toks = before ++ TOp o :: after -> call_ok o after.

(** *** Filling. *)

(** [ins xs out]: [out] is [xs], in order, with only catenation operators and
    implicit anaphora (each carrying the source id of a token of [orig]) added. *)
Inductive added (orig : list tok) : tok -> Prop :=
| add_cat : added orig (TOp (mkOp 0 InfixLeft 20 EPseudoCat))
| add_ana t sd : In t orig -> tok_smid t <> 0%N -> added orig (TVal (EAnaphor (tok_smid t) sd)).
Inductive ins (orig : list tok) : list tok -> list tok -> Prop :=
| ins_nil : ins orig [] []
| ins_keep x xs out : ins orig xs out -> ins orig (x :: xs) (x :: out)
| ins_add f xs out : added orig f -> ins orig xs out -> ins orig xs (f :: out).

(** Where a token can meet an operand without an operator in between. *)
Definition ends_operand (t : tok) : Prop :=
  match t with TVal _ => True | TOp o => o_fix o = Nullary \/ o_fix o = UnaryPostfix end.
Definition starts_operand (t : tok) : Prop :=
  match t with TVal _ => True | TOp o => o_fix o = Nullary \/ o_fix o = UnaryPrefix end.
(** An operand is missing between [l] and [r] (an end of the soup if [None]) and
    neither side has a source id to name it by. *)
Definition unnameable (l r : option tok) : Prop :=
  match l with Some t => ~ ends_operand t /\ tok_smid t = 0%N | None => True end
  /\ match r with Some t => ~ starts_operand t /\ tok_smid t = 0%N | None => True end.

(** [neighbours xs l r]: [l] and [r] are adjacent in [xs], counting its ends. *)
Definition neighbours (xs : list tok) (l r : option tok) : Prop :=
  exists before after, xs = before ++ after
    /\ l = match rev before with [] => None | t :: _ => Some t end
    /\ r = hd_error after.
