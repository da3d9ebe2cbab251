(** The same programs on a heap with unlimited memory, no addresses and no collector:
    objects are numbered in order of creation and live for ever. *)
From Coq Require Import NArith List Bool.
From Verif.Heap Require Import Lines LinesSpec Model.
Import ListNotations.
Local Open Scope N_scope.

Inductive ival := IData (n : N) | IPtr (id : nat).
Definition iheap := list (list ival).
Definition imachine := (iheap * list ival)%type.

Definition istep (s : imachine) (o : op) : imachine * obs :=
  let '(h, roots) := s in
  match o with
  | OData n => ((h, roots ++ [IData n]), BNone)
  | OAlloc bytes rs =>
      if 4294967295 <? bytes then (s, BErr)
      else match gather roots rs with
           | None => (s, BErr)
           | Some fs => ((h ++ [fs], roots ++ [IPtr (length h)]), BNone)
           end
  | OLoad r i =>
      match nth_error roots r with
      | Some (IPtr a) => match nth_error (nth a h []) i with
                         | Some v => ((h, roots ++ [v]), BNone)
                         | None => (s, BErr)
                         end
      | _ => (s, BErr)
      end
  | OStore r i t =>
      match nth_error roots r, nth_error roots t with
      | Some (IPtr a), Some v => ((list_set h a (list_set (nth a h []) i v), roots), BNone)
      | _, _ => (s, BErr)
      end
  | ODrop r => ((h, list_set roots r (IData 0)), BNone)
  | OShow r =>
      match nth_error roots r with
      | Some (IData n) => (s, BData n)
      | Some (IPtr _) => (s, BPtr)
      | None => (s, BErr)
      end
  | OSame r t =>
      match nth_error roots r, nth_error roots t with
      | Some (IPtr a), Some (IPtr b) => (s, BSame (Nat.eqb a b))
      | _, _ => (s, BErr)
      end
  | OCollect _ _ => (s, BNone)
  end.
Fixpoint irun (s : imachine) (os : list op) : imachine * list obs :=
  match os with
  | [] => (s, [])
  | o :: os' => let '(s1, v) := istep s o in
                let '(s2, vs) := irun s1 os' in (s2, v :: vs)
  end.

(** Reachability through the concrete memory. *)
Inductive reach (m : memory) (roots : list val) : addr -> Prop :=
| reach_root a : In (VPtr a) roots -> reach m roots a
| reach_step a b o : reach m roots a -> mget m a = Some o -> In (VPtr b) (o_fields o) -> reach m roots b.

(** Bytes an object occupies. *)
Definition extent (e : addr * obj) : N * N := (snd (fst e) - HEADER, snd (fst e) + o_len (snd e)).

(** States a program can bring the machine to, from an empty heap. *)
Definition reachable (dbg : bool) (choose : list bblock -> N -> option nat) (h : heap) (roots : list val) : Prop :=
  exists ops obs, run dbg choose (heap_new, []) ops = Some ((h, roots), obs).

(** Blocks that hold objects before a collection. *)
Definition block_of (h : heap) (k : bblock) : Prop :=
  head h = Some k \/ overflow h = Some k \/ In k (recycled h) \/ In k (rest h) \/ In k (unswept h).

(** Renaming addresses in a value. *)
Definition rename (g : addr -> addr) (v : val) : val := match v with VData n => VData n | VPtr a => VPtr (g a) end.
