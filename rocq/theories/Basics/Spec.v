(** What the theorems of Props.v are stated against. *)
From Coq Require Import List.
From Verif.Basics Require Import Model.
Import ListNotations.

(** What a demand promises about the number of uses and about evaluation. *)
Definition uses_ok (c : card) (n : nat) : Prop :=
  match c with CAbsent => n = 0 | CAtMostOnce => n <= 1 | _ => True end.
Definition eval_ok (s : strict) (evaluated : bool) : Prop :=
  match s with SStrict => evaluated = true | _ => True end.
Definition allows (d : demand) (n : nat) (evaluated : bool) : Prop :=
  uses_ok (d_card d) n /\ eval_ok (d_strict d) evaluated.

Section EnvHistories.
  Context {K V : Type}.
  (** Operations that never pop below the level at which they start. *)
  Inductive eop := EPush (f : list (K * V)) | EPop | EInsert (k : K) (v : V).
  Definition eop_run (e : option (env (K:=K) (V:=V))) (o : eop) : option env :=
    match e with
    | None => None
    | Some e => match o with
                | EPush f => Some (env_push e f)
                | EPop => Some (env_pop e)
                | EInsert k v => env_insert e k v
                end
    end.
  Inductive bracket : list eop -> Prop :=
  | br_nil : bracket []
  | br_frame f ops rest : body ops -> bracket rest -> bracket (EPush f :: ops ++ EPop :: rest)
  with body : list eop -> Prop :=
  | bd_nil : body []
  | bd_insert k v ops : body ops -> body (EInsert k v :: ops)
  | bd_frame f ops rest : body ops -> body rest -> body (EPush f :: ops ++ EPop :: rest).
End EnvHistories.

Section OrdContract.
  Context {K : Type} (cmp : K -> K -> comparison).
  (** The contract of Rust's [Ord]. *)
  Record lawful : Prop := {
    cmp_eq : forall a b, cmp a b = Eq <-> a = b;
    cmp_sym : forall a b, cmp b a = CompOpp (cmp a b);
    cmp_trans : forall a b c, cmp a b = Lt -> cmp b c = Lt -> cmp a c = Lt
  }.
End OrdContract.
