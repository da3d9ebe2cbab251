(** The same programs on plain lists. *)
From Coq Require Import List Arith Bool.
From Verif.Arrays Require Import Model.
Import ListNotations.

Section Lists.
  Context {T : Type}.
  Definition lstep (ls : list (list T)) (o : op T) : list (list T) * obs T :=
    let on (i : nat) (k : list T -> list (list T) * obs T) :=
      match nth_error ls i with Some l => k l | None => (ls, VNoArray) end in
    match o with
    | ODefault | OWithCapacity _ => (ls ++ [[]], VUnit)
    | OFromSlice xs => (ls ++ [xs], VUnit)
    | OPush i x => on i (fun l => (upd ls i (l ++ [x]), VUnit))
    | OPop i => on i (fun l => (upd ls i (removelast l), VOpt (nth_error l (length l - 1))))
    | OTop i => on i (fun l => (ls, VOpt (nth_error l (length l - 1))))
    | OGet i k => on i (fun l => (ls, VOpt (nth_error l k)))
    | OSet i k x => on i (fun l => if k <? length l then (upd ls i (upd l k x), VOk true) else (ls, VOk false))
    | OSlice i => on i (fun l => (ls, VList l))
    | OLen i => on i (fun l => (ls, VNat (length l)))
    end.
  Fixpoint lrun (ls : list (list T)) (os : list (op T)) : list (list T) * list (obs T) :=
    match os with
    | [] => (ls, [])
    | o :: os' => let '(ls1, v) := lstep ls o in
                  let '(ls2, vs) := lrun ls1 os' in (ls2, v :: vs)
    end.
End Lists.
